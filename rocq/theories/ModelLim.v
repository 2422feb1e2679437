(** * Model of lingam/lim.py (acyclicity function, augmented Lagrangian loop, local search);
    the acyclicity function is the same in lingam/lina.py (131-138, 525-532). *)
From Coq Require Import List Arith Bool ZArith QArith Qcanon Qround.
From Verif Require Import Prelude Spec.
Import ListNotations.
Open Scope nat_scope.

(** ** lim.py 244-252 / lina.py 131-138: [_h] *)
Definition h_mat (d : nat) (W : mat Qc) : mat Qc := madd midn (fun i j => W i j * W i j / qn d)%Qc.  (* 249 *)
Definition h_of (d : nat) (W : mat Qc) : Qc :=
  let M := h_mat d W in
  let G := mpow d M (d - 1) in                                                              (* 250 *)
  (sumn d (fun i => sumn d (fun j => G j i * M i j)) - qn d)%Qc.                            (* 251 *)

(** ** The global phase (279-321) *)
(** The loss in force; "mixed_dag" is set by the local search (325). *)
Inductive loss_type := Logistic | Poisson | Laplace | Mixed | MixedDag.

(** 254-256: [_adj]; [w] is the doubled vector. *)
Definition adj_of (d : nat) (w : nat -> Qc) : mat Qc := fun i j => (w (i * d + j)%nat - w (d * d + i * d + j)%nat)%Qc.
Definition abs_sum (d : nat) (W : mat Qc) : Qc := sumn d (fun i => sumn d (fun j => qabs (W i j))).
(** 321 *)
Definition threshold (t : Qc) (W : mat Qc) : mat Qc := fun i j => if qltb (qabs (W i j)) t then 0%Qc else W i j.

Record settings := { ls_max_iter : nat; ls_h_tol : Qc; ls_rho_max : Qc; ls_w_threshold : Qc }.

Section Global.
  (** [minimize lt rho alpha w]: scipy's minimiser of the augmented Lagrangian started at [w];
      [rnd k]: the k-th draw of np.random.random(2 d^2). *)
  Variable minimize : loss_type -> Qc -> Qc -> (nat -> Qc) -> (nat -> Qc).
  Variable rnd : nat -> nat -> Qc.
  Variable d : nat.
  Variable st : settings.
  Variable lt : loss_type.

  (** 297-307: the inner while; [h] = None is infinity.  Returns the new point, if the loop body
      ran at all, and rho. *)
  Fixpoint inner (fuel : nat) (alpha : Qc) (w : nat -> Qc) (h : option Qc) (rho : Qc) (cur : option ((nat -> Qc) * Qc))
    : result (option ((nat -> Qc) * Qc) * Qc) :=
    if negb (qltb rho (ls_rho_max st)) then Ok (cur, rho)
    else match fuel with
         | 0 => Err OutOfFuel
         | S fuel =>
             let w_new := minimize lt rho alpha w in
             let h_new := h_of d (adj_of d w_new) in
             if match h with None => false | Some h => qleb (qf 1 4 * h)%Qc h_new end
             then inner fuel alpha w h (rho * qz 10)%Qc (Some (w_new, h_new))
             else Ok (Some (w_new, h_new), rho)
         end.
  Definition inner_fuel : nat := S (Z.to_nat (Qceiling (ls_rho_max st))).

  (** 295-319: [iters] iterations are left; [k] draws have been used.  The second component says
      whether the loop was left by a break. *)
  Fixpoint outer (iters : nat) (k : nat) (w : nat -> Qc) (rho alpha : Qc) (h : option Qc) : result ((nat -> Qc) * bool) :=
    match iters with
    | 0 => Ok (w, false)
    | S iters =>
        let* (cur, rho) := inner inner_fuel alpha w h rho None in
        match cur with
        | None => Err TypeError                                                              (* 309: rho * None *)
        | Some (w, h) =>                                                                      (* 308 *)
            let alpha := (alpha + rho * h)%Qc in                                              (* 309 *)
            if qleb h (ls_h_tol st) && negb (qeqb h 0) then Ok (w, true)                      (* 311-312 *)
            else
              let again := qleb (ls_rho_max st * qf 1 1000000)%Qc rho && qltb (qz 100000) h in (* 313 *)
              if negb again && qleb (ls_rho_max st) rho then Ok (w, true)                     (* 316-317 *)
              else
                let '(w, rho, k) := if again then (rnd k, 1%Qc, S k) else (w, rho, k) in     (* 314-315 *)
                let '(w, k) := if qltb (abs_sum d (adj_of d w)) (qf 9 100) then (rnd k, S k) else (w, k) in (* 318-319 *)
                outer iters k w rho alpha (Some h)
        end
    end.
  (** 279-285, 320-321 *)
  Definition lim_global : result (mat Qc) :=
    let* (w, _) := outer (ls_max_iter st) 1 (rnd 0) 1%Qc 0%Qc None in
    Ok (threshold (ls_w_threshold st) (adj_of d w)).
End Global.

(** ** The local search (326-392) *)
Definition positions (d : nat) : list (nat * nat) := list_prod (seq 0 d) (seq 0 d).
Definition nonzeros (d : nat) (W : mat Qc) : list (nat * nat) :=                              (* 327 *)
  filter (fun ij => negb (qeqb (W (fst ij) (snd ij)) 0)) (positions d).
(** 330-332: product(range(2), repeat=k) *)
Fixpoint bit_settings (k : nat) : list (list bool) :=
  match k with
  | 0 => [[]]
  | S k => map (cons false) (bit_settings k) ++ map (cons true) (bit_settings k)
  end.
(** 334-338 *)
Definition reverse_edges (W : mat Qc) (I : list (nat * nat)) (bits : list bool) : mat Qc :=
  fold_left (fun V eb => let '((i, j), b) := eb in
                         if b : bool then upd2 (upd2 V i j 0%Qc) j i 1%Qc else V)
            (combine I bits) W.
(** The acceptance test used throughout (339-342 etc.). *)
Definition improve (d : nat) (tol : Qc) (loss : mat Qc -> Qc) (cands : list (mat Qc)) (best : mat Qc * Qc) : mat Qc * Qc :=
  fold_left (fun b V => if qltb (loss V) (snd b) && qltb (h_of d V) tol then (V, loss V) else b) cands best.
Definition deletions (W : mat Qc) (I : list (nat * nat)) : list (mat Qc) := map (fun ij => upd2 W (fst ij) (snd ij) 0%Qc) I.
Definition additions (d : nat) (W : mat Qc) : list (mat Qc) :=
  map (fun ij => upd2 W (fst ij) (snd ij) 1%Qc)
      (filter (fun ij => qeqb (W (fst ij) (snd ij) + W (snd ij) (fst ij) + midn (fst ij) (snd ij)) 0) (positions d)).
Definition same_pattern (d : nat) (V W : mat Qc) : bool :=
  forallb (fun ij => Bool.eqb (qeqb (V (fst ij) (snd ij)) 0) (qeqb (W (fst ij) (snd ij)) 0)) (positions d).
Definition local_search (d : nat) (tol : Qc) (loss : mat Qc -> Qc) (West : mat Qc) : mat Qc * Qc :=
  let I := nonzeros d West in
  let b := improve d tol loss (map (reverse_edges West I) (tl (bit_settings (length I)))) (West, loss West) in
  let b :=
    if (2 <? d) && (d - 1 <? length I) then                                                  (* 345 *)
      let b := improve d tol loss (deletions (fst b) (nonzeros d (fst b))) b in              (* 346-354 *)
      if same_pattern d West (fst b) then b else improve d tol loss (deletions West I) b      (* 356-366 *)
    else b in
  if (2 <? d) && (2 * length I <? d * (d - 1)) then                                          (* 368 *)
    let b := improve d tol loss (additions d (fst b)) b in                                   (* 369-378 *)
    if same_pattern d West (fst b) then b else improve d tol loss (additions d West) b        (* 380-392 *)
  else b.

(** ** fit (65-93): the object carries the loss type. *)
Definition lim_fit (minimize : loss_type -> Qc -> Qc -> (nat -> Qc) -> (nat -> Qc)) (rnd : nat -> nat -> Qc)
    (loss : loss_type -> mat Qc -> Qc) (d : nat) (st : settings) (lt : loss_type) (only_global : bool)
  : result (mat Qc * loss_type) :=
  let* W := lim_global minimize rnd d st lt in
  if only_global then Ok (W, lt)                                                             (* 396-397 *)
  else Ok (fst (local_search d (ls_h_tol st) (loss MixedDag) W), MixedDag).                  (* 325 *)
