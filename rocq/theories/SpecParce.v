(** * The bottom-up search for sinks, without reference to the model of the code.

    [st t ps i], [pv t ps i]: statistic and p-value of the HSIC test between x_i and the residual
    of x_t on the variables [ps]; [fc t ps i]: F-correlation of the same pair. *)
From Coq Require Import List Arith QArith Qcanon Sorted.
From Verif Require Import Prelude Spec.
Import ListNotations.
Open Scope nat_scope.

Definition without (j : nat) (S : list nat) : list nat := filter (fun v => negb (v =? j)) S.

(** Dependence of x_j's residual on the rest of [S]: Fisher's combined statistic, or the statistic
    itself when there is only one other variable. *)
Definition hsic_stat_of (st pv : nat -> list nat -> nat -> Qc) (m2log : Qc -> Qc) (S : list nat) (j : nat) : Qc :=
  match without j S with
  | [i] => st j [i] i
  | ps => sumf ps (fun i => m2log (pv j ps i))
  end.
(** ... and its p-value. *)
Definition hsic_p_of (st pv : nat -> list nat -> nat -> Qc) (m2log : Qc -> Qc) (sf : Qc -> nat -> num)
    (S : list nat) (j : nat) : num :=
  match without j S with
  | [i] => Some (pv j [i] i)
  | ps => sf (hsic_stat_of st pv m2log S j) (2 * length ps)
  end.
(** Largest F-correlation with the rest of [S] (at least 0 if there are several). *)
Definition fcorr_of (fc : nat -> list nat -> nat -> Qc) (S : list nat) (j : nat) : Qc :=
  match without j S with
  | [i] => fc j [i] i
  | ps => fold_right (fun i m => if Qclt_le_dec m (fc j ps i) then fc j ps i else m) 0%Qc ps
  end.

Section Search.
  Variables (stat : list nat -> nat -> Qc) (accepted : list nat -> nat -> Prop) (before : nat -> nat -> Prop).
  (** [j] is the variable chosen as sink of [U] and [T] the set it was tested in.  Candidates are the
      variables that need not precede another remaining one; the one with the smallest dependence on the
      other candidates is taken, the first one in case of a tie.  A single candidate is tested
      against all remaining variables. *)
  Definition chosen_sink (U T : list nat) (j : nat) : Prop :=
    exists C, (forall i, In i C <-> In i U /\ forall k, In k U -> ~ before i k) /\ StronglySorted lt C /\
      T = (if length C =? 1 then U else C) /\ In j C /\
      forall i, In i C -> (i < j -> (stat T j < stat T i)%Qc) /\ (j < i -> (stat T j <= stat T i)%Qc).
  (** [bottom_up U K]: from the remaining variables [U] the search finds the final part [K] of the order. *)
  Inductive bottom_up : list nat -> list nat -> Prop :=
  | bu_reject : forall U T j, chosen_sink U T j -> ~ accepted T j -> bottom_up U []
  | bu_last : forall U T j i, chosen_sink U T j -> accepted T j -> without j U = [i] -> bottom_up U [i; j]
  | bu_step : forall U T j K, chosen_sink U T j -> accepted T j -> 2 <= length (without j U) ->
      bottom_up (without j U) K -> bottom_up U (K ++ [j]).
End Search.

(** Sets of variables closed under taking causes, and the sinks of such a set. *)
Definition ancestral (n : nat) (E : graph) (U : list nat) : Prop :=
  (forall i, In i U -> i < n) /\ forall a b, a < n -> E a b -> In b U -> In a U.
Definition sink_in (E : graph) (U : list nat) (j : nat) : Prop := In j U /\ forall i, In i U -> ~ E j i.
(** No variable with an effect in [U] is accepted as a sink of [U]. *)
Definition rejects_causes (n : nat) (E : graph) (accepted : list nat -> nat -> Prop) : Prop :=
  forall U j, StronglySorted lt U -> 2 <= length U -> ancestral n E U -> In j U -> accepted U j -> sink_in E U j.
(** Sinks are accepted, and are less dependent on the rest than the others. *)
Definition favours_sinks (n : nat) (E : graph) (stat : list nat -> nat -> Qc) (accepted : list nat -> nat -> Prop) : Prop :=
  forall U j, StronglySorted lt U -> 2 <= length U -> ancestral n E U -> sink_in E U j ->
  accepted U j /\ forall i, In i U -> ~ sink_in E U i -> (stat U j < stat U i)%Qc.
