(** * Model of lingam/tools/__init__.py: bootstrap_with_imputation (22-166) and the checks of what the
    imputer (196-207) and the discovery model (260-285) return. *)
From Coq Require Import List Arith Bool ZArith QArith Qcanon.
From Verif Require Import Prelude Spec ModelBootstrap.
Import ListNotations.
Open Scope nat_scope.

(** What the imputer may return: an array of shape (k, r, c), or something of another shape. *)
Inductive imp_out :=
| Arr3 (k r c : nat) (v : nat -> nat -> nat -> num)
| ArrOther.
Definition is_num (x : num) : bool := match x with Some _ => true | None => false end.
Definition all3 (k r c : nat) (P : nat -> nat -> nat -> bool) : bool :=
  forallb (fun a => forallb (fun b => forallb (fun d => P a b d) (seq 0 c)) (seq 0 r)) (seq 0 k).
(** 196-207: check_array (finite, at least one entry along the first axis), then the shape. *)
Definition check_imputer (o : imp_out) (n p : nat) : result (nat * (nat -> nat -> nat -> Qc)) :=
  match o with
  | ArrOther => Err ValueError
  | Arr3 k r c v =>
      if negb (all3 k r c (fun a b d => is_num (v a b d))) then Err ValueError             (* 198-200 *)
      else if k =? 0 then Err ValueError
      else if negb ((r =? n) && (c =? p)) then Err ValueError                                (* 202-203 *)
      else Ok (k, fun a b d => nan_to_num (v a b d))
  end.

(** What the discovery model may return: an order of one or two dimensions (check_array rejects the
    others), and matrices of shape pre ++ [r; c]. *)
Inductive order_out := O1 (l : list num) | O2 (l : list (list num)) | OOther.
Record adj_out := { ao_pre : list nat; ao_rows : nat; ao_cols : nat; ao_val : list nat -> nat -> nat -> num }.
Inductive cd_out := NotPair | Pair (o : order_out) (a : adj_out).

(** np.unique: sorted, without repetitions *)
Fixpoint dedup (l : list Qc) : list Qc :=
  match l with
  | x :: ((y :: _) as r) => if qeqb x y then dedup r else x :: dedup r
  | _ => l
  end.
Definition np_unique (l : list Qc) : list Qc := dedup (sort_q l).
Fixpoint array_equal (l l' : list Qc) : bool :=
  match l, l' with
  | [], [] => true
  | x :: l, y :: l' => qeqb x y && array_equal l l'
  | _, _ => false
  end.
Definition arange (n : nat) : list Qc := map qn (seq 0 n).
(** 266-275: the accepted order, as given, flattened for np.unique *)
Definition order_flat (o : order_out) : option (nat * list Qc) :=
  match o with
  | OOther => None
  | O1 l => if length l =? 0 then None else if forallb is_num l then Some (length l, map nan_to_num l) else None
  | O2 l => if length l =? 0 then None
            else if forallb (fun r => length r =? length (hd [] l)) l && negb (length (hd [] l) =? 0) && forallb (forallb is_num) l
            then Some (length l, map nan_to_num (concat l)) else None
  end.
(** every multi-index of an array of shape [s] *)
Fixpoint indices (s : list nat) : list (list nat) :=
  match s with [] => [[]] | k :: s => flat_map (fun i => map (cons i) (indices s)) (seq 0 k) end.
(** 277-281: finite, at least one entry along the first axis *)
Definition adj_finite (a : adj_out) : bool :=
  forallb (fun ix => forallb (fun i => forallb (fun j => is_num (ao_val a ix i j)) (seq 0 (ao_cols a))) (seq 0 (ao_rows a))) (indices (ao_pre a)).
Definition first_dim (a : adj_out) : nat := hd (ao_rows a) (ao_pre a).
(** 260-285; [n_repeats] is an argument that the function does not use. *)
Definition check_cd (o : cd_out) (n_repeats p : nat) : result (order_out * adj_out) :=
  match o with
  | NotPair => Err ValueError                                                                (* 261-262 *)
  | Pair ord a =>
      match order_flat ord with
      | None => Err ValueError                                                               (* 266-269 *)
      | Some (len, l) =>
          if negb (len =? p) then Err ValueError                                             (* 271-272 *)
          else if negb (array_equal (np_unique l) (arange len)) then Err ValueError          (* 274-275 *)
          else if negb (adj_finite a) || (first_dim a =? 0) then Err ValueError              (* 277-280 *)
          else if negb ((ao_rows a =? p) && (ao_cols a =? p)) then Err ValueError            (* 282-283 *)
          else Ok (ord, a)
      end
  end.

(** 150-155: values only where the bootstrap sample is missing *)
Definition imputation_result (S : mat num) (d : nat -> nat -> nat -> Qc) : nat -> nat -> nat -> num :=
  fun k r c => match S r c with None => Some (d k r c) | Some _ => None end.

Record iteration := { it_index : nat -> nat; it_sample : mat num; it_reps : nat; it_data : nat -> nat -> nat -> Qc;
                      it_order : order_out; it_adj : adj_out; it_imp : nat -> nat -> nat -> num }.

(** 131-160.  [draw s]: the indices drawn in iteration s; the imputer and the discovery model may keep
    a state, so they also receive the iteration number. *)
Section Run.
  Variable draw : nat -> nat -> nat.
  Variable imp : nat -> mat num -> imp_out.
  Variable cd : nat -> mat num -> nat -> (nat -> nat -> nat -> Qc) -> cd_out.
  Variables (n p : nat) (X : mat num).
  Definition iterate (s : nat) : result iteration :=
    let S := fun r c => X (draw s r) c in                                                    (* 133-134 *)
    let* (k, d) := check_imputer (imp s S) n p in                                            (* 140-141 *)
    let* (o, a) := check_cd (cd s S k d) k p in                                              (* 146-147 *)
    Ok {| it_index := draw s; it_sample := S; it_reps := k; it_data := d; it_order := o; it_adj := a;
          it_imp := imputation_result S d |}.
  Fixpoint run_all (l : list nat) : result (list iteration) :=
    match l with
    | [] => Ok []
    | s :: l => let* it := iterate s in let* r := run_all l in Ok (it :: r)
    end.
  Definition order_shape (o : order_out) : list nat :=
    match o with O1 l => [length l] | O2 l => [length l; length (hd [] l)] | OOther => [] end.
  Definition same_shapes (a b : iteration) : bool :=
    (if list_eq_dec Nat.eq_dec (ao_pre (it_adj a)) (ao_pre (it_adj b)) then true else false)
    && (if list_eq_dec Nat.eq_dec (order_shape (it_order a)) (order_shape (it_order b)) then true else false)
    && (it_reps a =? it_reps b).
  (** 95-100, 161-166: np.array of the lists of results; numpy >= 1.24 raises ValueError when the
      entries have different shapes. *)
  Definition boot_imp (n_sampling : nat) : result (list iteration) :=
    if n_sampling =? 0 then Err ValueError
    else let* l := run_all (seq 0 n_sampling) in
         match l with
         | [] => Ok []
         | it :: r => if forallb (same_shapes it) r then Ok l else Err ValueError
         end.
End Run.

(** 288-299: the default imputer calls sklearn's IterativeImputer, which leaves out the columns
    without any observed value (keep_empty_features is False). *)
Definition kept (n p : nat) (S : mat num) : list nat := filter (fun c => existsb (fun r => is_num (S r c)) (seq 0 n)) (seq 0 p).
Definition default_imp (fill : nat -> nat -> mat num -> nat -> nat -> Qc) (n p reps : nat) (s : nat) (S : mat num) : imp_out :=
  let cols := kept n p S in
  Arr3 reps n (length cols)
       (fun k r c => let c' := nth c cols 0 in Some (match S r c' with Some q => q | None => fill s k S r c' end)).
