(** * Model of lingam/lina.py: the weights of LiNA and MD-LiNA, factor scores, the alternation of MD-LiNA and the
    relabelling of its factors.  The confirmatory factor analysis [cfa], scipy's minimisers, the random draws,
    matrix inversion and the likelihood (log, cosh) are parameters. *)
From Coq Require Import List Arith Bool ZArith QArith Qcanon Qround.
From Verif Require Import Prelude Spec ModelLim.
Import ListNotations.
Open Scope nat_scope.

(** ** The augmented Lagrangian loop: lina.py 157-177 [_estimate_LiNA]; 547-566 [_estimate_MDLiNA_B] is the same
    code.  The [settings] record, [adj_of] (140-142), [h_of] (131-138) and [threshold] (175) are those of LiM. *)
Section Estimate.
  (** [minimize rho alpha w]: scipy's L-BFGS-B on the augmented Lagrangian (144-155), started at [w]. *)
  Variable minimize : Qc -> Qc -> (nat -> Qc) -> (nat -> Qc).
  Variable d : nat.
  Variable st : settings.
  (** 162-169; [h] = None is infinity; [cur] = None before the body has run. *)
  Fixpoint lina_inner (fuel : nat) (alpha : Qc) (w : nat -> Qc) (h : option Qc) (rho : Qc) (cur : option ((nat -> Qc) * Qc))
    : result (option ((nat -> Qc) * Qc) * Qc) :=
    if negb (qltb rho (ls_rho_max st)) then Ok (cur, rho)                                    (* 162 *)
    else match fuel with
         | 0 => Err OutOfFuel
         | S fuel =>
             let w_new := minimize rho alpha w in                                            (* 163-164 *)
             let h_new := h_of d (adj_of d w_new) in                                         (* 165 *)
             if match h with None => false | Some h => qltb (qf 1 4 * h)%Qc h_new end        (* 166 *)
             then lina_inner fuel alpha w h (rho * qz 10)%Qc (Some (w_new, h_new))           (* 167 *)
             else Ok (Some (w_new, h_new), rho)                                              (* 169 *)
         end.
  Definition lina_fuel : nat := S (Z.to_nat (Qceiling (ls_rho_max st))).
  (** 160-173; the number of iterations left and the last rho are kept for the statements. *)
  Fixpoint lina_outer (iters : nat) (w : nat -> Qc) (rho alpha : Qc) (h : option Qc) : result ((nat -> Qc) * Qc * nat) :=
    match iters with
    | 0 => Ok (w, rho, 0)
    | S iters =>
        let* (cur, rho) := lina_inner lina_fuel alpha w h rho None in                        (* 161-169 *)
        match cur with
        | None => Err TypeError                                                              (* 171: rho * None *)
        | Some (w, h) =>                                                                     (* 170 *)
            let alpha := (alpha + rho * h)%Qc in                                             (* 171 *)
            if qleb h (ls_h_tol st) || qleb (ls_rho_max st) rho then Ok (w, rho, iters)      (* 172-173 *)
            else lina_outer iters w rho alpha (Some h)
        end
    end.
  Definition lina_estimate : result (mat Qc) :=
    let* (s, _) := lina_outer (ls_max_iter st) (fun _ => 0%Qc) 1%Qc 0%Qc None in              (* 158 *)
    Ok (threshold (ls_w_threshold st) (adj_of d (fst s))).                                   (* 174-175 *)
End Estimate.

(** ** Factor scores *)
(** 93-94: [inv(G.T @ G) @ G.T @ X.T], transposed.  [G] is p x q, [X] is n x p; [inv q M] is np.linalg.inv, None
    for the LinAlgError. *)
Definition scores (inv : nat -> mat Qc -> option (mat Qc)) (p q : nat) (G X : mat Qc) : option (mat Qc) :=
  match inv q (fun a b => sumn p (fun k => G k a * G k b))%Qc with
  | None => None
  | Some V => Some (fun s a => sumn q (fun b => V a b * sumn p (fun k => G k b * X s k)))%Qc
  end.
(** An array with its shape; reading outside raises IndexError. *)
Record arr2 := { a_rows : nat; a_cols : nat; a_at : mat Qc }.
Definition get2 (A : arr2) (i j : nat) : result Qc :=
  if (i <? a_rows A) && (j <? a_cols A) then Ok (a_at A i j) else Err IndexError.
(** for-loop over the columns: the factors [scale[row j, j]] in order. *)
Fixpoint factors_of (scale : arr2) (row : nat -> nat) (js : list nat) : result (list Qc) :=
  match js with
  | [] => Ok []
  | j :: js => let* s := get2 scale (row j) j in let* r := factors_of scale row js in Ok (s :: r)
  end.
Definition scaled (L : nat) (row : nat -> nat) (f : mat Qc) (scale : arr2) : result (mat Qc) :=
  let* s := factors_of scale row (seq 0 L) in Ok (fun a j => f a j * nth j s 0)%Qc.

(** 66-104 [LiNA.fit]; [cfa X G_sign] (90) gives the loadings; LinAlgError is a RuntimeError here.  [minimize] depends
    on the factor scores. *)
Definition lina_fit (cfa : mat Qc -> mat Qc -> mat Qc) (inv : nat -> mat Qc -> option (mat Qc))
    (minimize : mat Qc -> Qc -> Qc -> (nat -> Qc) -> (nat -> Qc)) (st : settings) (p q : nat)
    (X G_sign : mat Qc) (scale : arr2) : result (mat Qc * mat Qc) :=
  let G := cfa X G_sign in                                                                   (* 90-91 *)
  match scores inv p q G X with
  | None => Err RuntimeError
  | Some f =>                                                                                (* 93-94 *)
      let* f := scaled q (fun _ => 0) f scale in                                             (* 95-97 *)
      let* W := lina_estimate (minimize f) q st in                                           (* 101 *)
      Ok (W, G)                                                                              (* 102-104 *)
  end.

(** ** MD-LiNA *)
(** 468-494 [_estimate_MDLiNA_H].  [run k h]: the k-th minimisation, started at [h]: the point and its value.
    [rnd k]: the k-th random start.  [singular h]: the test of lines 483-485.  [size] = 2*hq*q entries.
    The score None is infinity.  Line 480 makes [h_est] the same array as [h_new], so line 486 changes both. *)
Section HStep.
  Variable run : nat -> (nat -> Qc) -> (nat -> Qc) * Qc.
  Variable rnd : nat -> nat -> Qc.
  Variable singular : (nat -> Qc) -> bool.
  Variable size : nat.
  Variable tol : Qc.
  Definition bump (h : nat -> Qc) : nat -> Qc := fun i => if i <? 8 then (h i + qf 1 10)%Qc else h i.    (* 486 *)
  Definition too_large (h : nat -> Qc) : bool := existsb (fun i => qltb (qz 100) (qabs (h i))) (seq 0 size). (* 487 *)
  (** [k] runs have been made, [r] random vectors used; the last component is [h_new], None before any run. *)
  Fixpoint h_loop (iters k r : nat) (h_est : nat -> Qc) (s0 : option Qc) (h_new : option (nat -> Qc)) : option (nat -> Qc) :=
    match iters with
    | 0 => h_new
    | S iters =>
        let '(hn, s1) := run k h_est in                                                      (* 473-475 *)
        if match s0 with None => false | Some s0 => qltb (qabs (s0 - s1)) tol end then Some hn (* 477-478 *)
        else if qltb 0 s1 && match s0 with None => true | Some s0 => qltb s1 s0 end then     (* 479 *)
          let hn := if singular hn then bump hn else hn in                                   (* 480-486 *)
          if too_large hn then h_loop iters (S k) (S r) (rnd r) None (Some hn)               (* 487-489 *)
          else h_loop iters (S k) r hn (Some s1) (Some hn)
        else h_loop iters (S k) (S r) (rnd r) s0 (Some hn)                                   (* 490-491 *)
    end.
  (** 468-494; the result is the last point, and without any run line 493 raises UnboundLocalError (None). *)
  Definition h_step (iters : nat) : option (nat -> Qc) := h_loop iters 0 1 (rnd 0) None None.
End HStep.

(** 312-347: the alternation.  [step t W0]: H, W and the likelihood of round [t] (314-332, assumed not to raise).  Row 0 of
    [Likelihood_all] has 10000 entries (310); writing beyond raises IndexError (333). *)
Section Alternate.
  Variable step : nat -> mat Qc -> (mat Qc * mat Qc * Qc).
  (** np.min of a slice; None for infinity (no such slice is empty here). *)
  Definition min_of (l : list Qc) : option Qc :=
    fold_left (fun m x => match m with None => Some x | Some y => Some (if qltb x y then x else y) end) l None.
  Definition near (x : Qc) (m : option Qc) : bool :=
    match m with None => false | Some y => qltb (qabs (x - y)) (qf 1 10) end.
  Definition at_most (x : Qc) (m : option Qc) : bool := match m with None => true | Some y => qleb x y end.
  Definition stop_test (times : nat) (hist : nat -> Qc) (min_like : option Qc) : bool :=
    let l := hist times in
    let recent := min_of (map hist (seq (times - 20) 19)) in
    near l (Some (hist (times - 1)))                                                         (* 336 *)
    || ((30 <=? times) && near l min_like)                                                   (* 338 *)
    || ((30 <=? times) && at_most l min_like)                                                (* 340 *)
    || ((50 <=? times) && near l recent)                                                     (* 342 *)
    || ((50 <=? times) && at_most l recent).                                                 (* 344 *)
  (** Returns the round at which it stopped with H, W, H0, W0. *)
  Fixpoint alternate (fuel times : nat) (W0 H0 : mat Qc) (hist : nat -> Qc) (min_like : option Qc)
    : result (nat * (mat Qc * mat Qc) * (mat Qc * mat Qc)) :=
    match fuel with
    | 0 => Err IndexError                                                                    (* 333, times = 10000 *)
    | S fuel =>
        let '(H, W, l) := step (S times) W0 in                                               (* 314-332 *)
        let times := S times in                                                              (* 319 *)
        let hist := upd hist times l in                                                      (* 333 *)
        let min_like := if at_most l min_like then Some l else min_like in                   (* 334-335 *)
        if stop_test times hist min_like then Ok (times, (H, W), (H0, W0))
        else alternate fuel times W H hist min_like                                          (* 346-347 *)
    end.
  Definition alternation := alternate (100 * 100 - 1) 0 (fun _ _ => 0%Qc) (fun _ _ => 0%Qc) (fun _ => 0%Qc) None. (* 306-310 *)
End Alternate.

(** 349-352 *)
Definition all_zero (r c : nat) (M : mat Qc) : bool :=
  forallb (fun ij => qeqb (M (fst ij) (snd ij)) 0) (list_prod (seq 0 r) (seq 0 c)).

(** ** 354-394: which shared factor represents which concept *)
Section Relabel.
  Variable q : nat.
  Definition cells : list (nat * nat) := list_prod (seq 0 q) (seq 0 q).
  (** 362-365; [rows] is the number of rows of H. *)
  Definition weights (rows : nat) (H : mat Qc) : result (mat Qc) :=
    if (1 <=? q) && (rows <? 2 * q) then Err IndexError
    else Ok (fun j i => qabs (qabs (H j i)) + qabs (qabs (H (j + q)%nat i)))%Qc.
  (** 374-375.  [len(np.where(..)) == 0] (367) is never true: np.where gives a pair. *)
  Definition lift_zeros (BB : mat Qc) : mat Qc :=
    fun j i => if existsb (fun a => qeqb (BB a i) 0) (seq 0 q) then (BB j i + qf 1 100)%Qc else BB j i.
  (** np.where(BB == np.amax(BB)), first hit in row-major order *)
  Definition first_max (BB : mat Qc) : option (nat * nat) :=
    match cells with
    | [] => None
    | c :: cs => Some (fold_left (fun b x => if qltb (BB (fst b) (snd b)) (BB (fst x) (snd x)) then x else b) cs c)
    end.
  (** 376-385 *)
  Fixpoint assign (k : nat) (BB : mat Qc) (order : nat -> nat) : nat -> nat :=
    match k with
    | 0 => order
    | S k =>
        match first_max BB with
        | None => order
        | Some (r, c) => assign k (fun a b => if (a =? r) || (b =? c) then 0%Qc else BB a b) (upd order c r)
        end
    end.
  (** 390, 393: np.where(order == i)[1]; assigning anything but one row raises ValueError. *)
  Definition place (order : nat -> nat) (i : nat) : result nat :=
    match filter (fun c => order c =? i) (seq 0 q) with [c] => Ok c | _ => Err ValueError end.
  Fixpoint places (order : nat -> nat) (is : list nat) : result (list nat) :=
    match is with
    | [] => Ok []
    | i :: is => let* c := place order i in let* r := places order is in Ok (c :: r)
    end.
  Definition relabel (rows : nat) (H W : mat Qc) : result (mat Qc) :=
    let* BB := weights rows H in
    let order := assign q (lift_zeros BB) (fun _ => 0) in
    let* pl := places order (seq 0 q) in
    let W0 : mat Qc := fun i j => W (nth i pl 0) j in                                         (* 389-391 *)
    Ok (fun i j => W0 i (nth j pl 0)).                                                       (* 392-394 *)
End Relabel.

(** 268-399 [MDLiNA.fit]; [L] latent factors of all domains, [q] of one domain.  [step F]: the rounds for the
    scaled scores [F]. *)
Definition md_fit (cfa : mat Qc -> mat Qc -> mat Qc) (inv : nat -> mat Qc -> option (mat Qc))
    (step : mat Qc -> nat -> mat Qc -> (mat Qc * mat Qc * Qc)) (p L q : nat) (X G_sign : mat Qc) (scale : arr2)
  : result (mat Qc * mat Qc) :=
  let G := cfa X G_sign in                                                                   (* 291-292 *)
  match scores inv p L G X with
  | None => Err RuntimeError
  | Some f =>                                                                                (* 294-295 *)
      let* F := scaled L (fun j => if j <? q then 0 else 1) f scale in                       (* 298-303 *)
      let* (r, hw0) := alternation (step F) in
      let '(H, W) := snd r in
      let H := if all_zero L q H then fst hw0 else H in                                      (* 349-350 *)
      let W := if all_zero q q W then snd hw0 else W in                                      (* 351-352 *)
      let* W := relabel q L H W in
      Ok (W, G)                                                                              (* 396-399 *)
  end.
