(** * Specification vocabulary for bootstrap summaries (independent of the model). *)
From Coq Require Import List Arith Lia Bool ZArith QArith Qcanon Permutation Sorted.
From Verif Require Import Prelude Spec.
Import ListNotations.
Open Scope nat_scope.

(** [idx] lists the numbers k < N with [P k], each once. *)
Definition selects (P : nat -> Prop) (N : nat) (idx : list nat) : Prop :=
  NoDup idx /\ forall k, In k idx <-> k < N /\ P k.
(** Exactly [c] of the numbers k < N satisfy [P]. *)
Definition number_of (P : nat -> Prop) (N c : nat) : Prop :=
  exists idx, selects P N idx /\ length idx = c.

(** The median: middle element of the sorted sequence, or the mean of the two middle ones. *)
Definition median_of (l : list Qc) (v : Qc) : Prop :=
  exists s, l <> [] /\ Permutation s l /\ StronglySorted Qcle s /\
    v = ((nth ((length s - 1) / 2) s 0%Qc + nth (length s / 2) s 0%Qc) / qz 2)%Qc.
(** The median of [f k] over the k < N with [P k]. *)
Definition median_over (P : nat -> Prop) (N : nat) (f : nat -> Qc) (v : Qc) : Prop :=
  exists idx, selects P N idx /\ median_of (map f idx) v.

(** Coefficient [i,j] of resample k is larger than the threshold in absolute value
    (a NaN coefficient is not). *)
Definition exceeds (m : Qc) (ams : list (mat num)) (i j k : nat) : Prop :=
  exists v, nth k ams (fun _ _ => None) i j = Some v /\ (m < qabs v)%Qc.
(** ... and positive, respectively negative. *)
Definition exceeds_pos (m : Qc) (ams : list (mat num)) (i j k : nat) : Prop :=
  exists v, nth k ams (fun _ _ => None) i j = Some v /\ (m < qabs v)%Qc /\ (0 < v)%Qc.
Definition exceeds_neg (m : Qc) (ams : list (mat num)) (i j k : nat) : Prop :=
  exists v, nth k ams (fun _ _ => None) i j = Some v /\ (m < qabs v)%Qc /\ (v < 0)%Qc.

(** Sorting oracle: [np.argsort] returns the positions in an order that sorts the keys;
    the order among equal keys is unspecified (numpy's default sort is not stable). *)
Definition argsort_ok (argsort : list Qc -> list nat) : Prop :=
  forall keys, Permutation (argsort keys) (seq 0 (length keys)) /\
    StronglySorted Qcle (map (fun k => nth k keys 0%Qc) (argsort keys)).

(** The threshold argument: absent means 0. *)
Definition threshold (m : option Qc) : Qc := match m with None => 0%Qc | Some v => v end.
Definition valid_threshold (m : option Qc) : Prop :=
  match m with None => True | Some v => (0 < v)%Qc end.

(** [E] describes the graph of resample k: entries (to, from, mark) for exactly the coefficients
    above the threshold; the mark is the sign when signs are requested and 1 otherwise. *)
Definition describes (nr nc : nat) (m : Qc) (split : bool) (ams : list (mat num))
    (E : list (nat * nat * Z)) (k : nat) : Prop :=
  forall i j s, In (i, j, s) E <->
    i < nr /\ j < nc /\ exceeds m ams i j k /\
    (if split then (s = 1%Z /\ exceeds_pos m ams i j k) \/ (s = (-1)%Z /\ exceeds_neg m ams i j k)
     else s = 1%Z).
