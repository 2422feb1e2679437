(** * Model of lingam/high_dim_direct_lingam.py (HighDimDirectLiNGAM). *)
From Coq Require Import List Arith Bool ZArith QArith Qcanon.
From Verif Require Import Prelude ModelDirect ModelRCD.
Import ListNotations.
Open Scope nat_scope.

Definition qmin (a b : Qc) : Qc := if qltb b a then b else a.
Definition qmax (a b : Qc) : Qc := if qltb a b then b else a.
Definition qmax_list (l : list Qc) : Qc :=
  match l with [] => 0%Qc | x :: r => fold_left qmax r x end.
Definition qmin_list (l : list Qc) : Qc :=
  match l with [] => 0%Qc | x :: r => fold_left qmin r x end.

Section HighDim.
  (** [tau0 v j] = _calc_tau (116-117) on the raw columns; [tau v cond j] = the absolute value
      computed at 127-142 for the residual of [v] on [cond]: arbitrary finite numbers
      (overflow to inf/NaN is not modelled). *)
  Variable tau0 : nat -> nat -> Qc.
  Variable tau : nat -> list nat -> nat -> Qc.
  (** [enum s]: the elements of a Python set in iteration order. *)
  Variable enum : list nat -> list nat.
  (** [J] largest in-degree, [alpha] the pruning parameter. *)
  Variable J : nat.
  Variable alpha : Qc.
  (** [first_only = true] is the code: [return ret] at line 144 is inside the loop over the
      conditioning sets.  [false] is the same loop with the return after it. *)
  Variable first_only : bool.

  (** 134-142: update [ret] at the indices [js]. *)
  Definition taus_update (v : nat) (cond : list nat) (js : list nat) (ret : nat -> Qc) : nat -> Qc :=
    fold_left (fun ret j => upd ret j (qmin (ret j) (tau v cond j))) js ret.
  (** 119-144 [_calc_taus]; [sets] pairs each conditioning set with its row of an_sets.
      Falling off the loop would return None; there is always at least one set. *)
  Fixpoint calc_taus (v : nat) (ch : list nat) (sets : list (list nat * list nat)) (ret : nat -> Qc)
    : nat -> Qc :=
    match sets with
    | [] => ret
    | (cond, an) :: r =>
        let ret' := taus_update v cond an (taus_update v cond ch ret) in
        if first_only then ret' else calc_taus v ch r ret'
    end.

  (** 155-170: the subsets of the conditioning set without [last], each joined with [last],
      and the corresponding rows of an_sets. [cs] is a duplicate-free list with [last] in it. *)
  Definition cond_sets (cs : list nat) (last : nat) : list (list nat * list nat) :=
    let size := Nat.min J (length cs) in
    map (fun x => (last :: x, enum (filter (fun a => negb (memb a x)) cs)))
        (combs (size - 1) (enum (remove_nat last cs))).

  (** 146-173 [_get_prune_stats] *)
  Definition get_prune_stats (v : nat) (psi : list nat) (last_root : option nat) (cs : list nat)
    : nat -> Qc :=
    let js := remove_nat v psi in                                              (* 147 *)
    match last_root with
    | None => fun j => if memb j js then tau0 v j else qz 100000               (* 149-153 *)
    | Some r => calc_taus v js (cond_sets cs r) (fun _ => qz 10000000000)      (* 155-173 *)
    end.

  (** 81-82: [theta] has no duplicates; its last element is appended if not selected. *)
  Definition cond_set (theta : list nat) (stats : mat Qc) (cut_off : Qc) (v : nat) : list nat :=
    let sel := filter (fun j => qltb cut_off (stats v j)) theta in
    match last (map Some theta) None with
    | None => sel
    | Some r => if memb r sel then sel else sel ++ [r]
    end.

  (** 79-91: rows of [psi] become the minimum of the old and new statistics; diagonal 0. *)
  Definition update_stats (theta psi : list nat) (stats : mat Qc) (cut_off : Qc) : mat Qc :=
    let last_root := last (map Some theta) None in
    fun i j => if i =? j then 0%Qc
               else if memb i psi
               then qmin (stats i j) (get_prune_stats i psi last_root (cond_set theta stats cut_off i) j)
               else stats i j.

  (** 78-100, the while loop; [fuel] = number of variables suffices. *)
  Fixpoint hd_loop (fuel : nat) (theta psi : list nat) (stats : mat Qc) (cut_off : Qc) : result (list nat) :=
    if length psi <=? 1 then Ok (theta ++ psi)                                 (* 78, 102 *)
    else match fuel with
    | 0 => Err OutOfFuel
    | S fuel' =>
        let stats' := update_stats theta psi stats cut_off in
        let max_taus := map (fun i => qmax_list (map (fun j => stats' i j) psi)) psi in (* 93 *)
        match np_argmin (map Some max_taus) with
        | None => Err ValueError
        | Some i =>
            match nth_error psi i with
            | None => Err IndexError
            | Some r =>
                let cut_off' := qmax cut_off (qmin_list max_taus * alpha)%Qc in (* 97 *)
                hd_loop fuel' (theta ++ [r]) (remove_nat r psi) stats' cut_off' (* 99-100 *)
            end
        end
    end.
  Definition hd_order (n : nat) : result (list nat) :=
    hd_loop n [] (seq 0 n) (fun i j => if i =? j then 0%Qc else qz 100000) 0%Qc.

  (** 104-114: [None] when estimate_adj_mat=False; _estimate_adjacency_matrix2 (175-202) is the
      same loop as base.py:123-159 without prior knowledge, with another regression. *)
  Definition hd_fit (lasso lassocv : list nat -> nat -> nat -> num) (n_samples n : nat)
      (estimate_adj_mat : bool) : result (list nat * option (mat num)) :=
    let* K := hd_order n in
    Ok (K, if estimate_adj_mat
           then Some (estimate_adjacency_matrix (if n_samples <=? n then lassocv else lasso) None K)
           else None).
End HighDim.
