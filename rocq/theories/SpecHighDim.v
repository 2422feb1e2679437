(** * Specification of the rounds of HighDimDirectLiNGAM, independent of the model. *)
From Coq Require Import List Arith Bool ZArith QArith Qcanon.
From Verif Require Import Prelude Spec.
Import ListNotations.
Open Scope nat_scope.

Definition is_min (m a b : Qc) : Prop := (m = a \/ m = b) /\ (m <= a)%Qc /\ (m <= b)%Qc.
(** [m] is the largest value of [f] on [l]. *)
Definition is_max (m : Qc) (f : nat -> Qc) (l : list nat) : Prop := (exists x, In x l /\ f x = m) /\ forall x, In x l -> (f x <= m)%Qc.
(** ** The specification of one round *)
(** [theta]: the variables already placed, [psi]: the others, [T], [c]: statistics and cut-off before
    the round; [T'], [c']: after it; [r]: the variable placed next. *)
Section Round.
  Variable tau0 : nat -> nat -> Qc.
  Variable tau : nat -> list nat -> nat -> Qc.
  Variable J : nat.
  Variable alpha : Qc.
  Definition round_stats (theta psi : list nat) (T : mat Qc) (c : Qc) (T' : mat Qc) : Prop :=
    (forall i, T' i i = 0%Qc) /\
    (forall i j, i <> j -> ~ In i psi -> T' i j = T i j) /\
    (theta = [] -> forall i j, i <> j -> In i psi -> In j psi -> is_min (T' i j) (T i j) (tau0 i j)) /\
    (forall t l, theta = t ++ [l] -> forall i, In i psi ->
       exists C x, (forall j, In j C <-> In j theta /\ ((c < T i j)%Qc \/ j = l)) /\ NoDup C /\
         NoDup x /\ incl x C /\ ~ In l x /\ length x = Nat.min J (length C) - 1 /\
         forall j, i <> j ->
           (In j psi \/ (In j C /\ ~ In j x) -> is_min (T' i j) (T i j) (tau i (l :: x) j)) /\
           (~ (In j psi \/ (In j C /\ ~ In j x)) -> T' i j = T i j)).
  Definition round_choice (psi : list nat) (T' : mat Qc) (c c' : Qc) (r : nat) : Prop :=
    In r psi /\ exists m, is_max m (T' r) psi /\
      (forall i, In i psi -> exists mi, is_max mi (T' i) psi /\ (m <= mi)%Qc /\ (i < r -> (m < mi)%Qc)) /\
      ((c <= m * alpha)%Qc -> c' = (m * alpha)%Qc) /\ ((m * alpha <= c)%Qc -> c' = c).
End Round.
Definition left_over (psi K : list nat) : list nat := filter (fun v => negb (memb v K)) psi.

