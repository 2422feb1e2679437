(** * Several data sets generated by linear models with one causal graph; ideal answers of tests on all of them.

    Nothing here refers to the model of the code. *)
From Coq Require Import List Arith QArith Qcanon Relations.
From Verif Require Import Prelude Spec SpecPop SpecRCDPop.
Import ListNotations.

(** one data set: number of rows, coefficients, errors, variables *)
Record group := { g_rows : nat; g_B : mat Qc; g_e : nat -> sample; g_x : nat -> sample }.
Definition data_of (g : group) : nat * (nat -> sample) := (g_rows g, g_x g).
(** Every group follows its own linear model, and an edge of one group is an edge of every group. *)
Definition one_graph (n : nat) (Gs : list group) : Prop :=
  (forall g, In g Gs -> linear_model (g_rows g) n (g_B g) (g_e g) (g_x g)) /\
  (forall g h j i, In g Gs -> In h Gs -> edge_of n (g_B g) j i -> edge_of n (g_B h) j i).
(** A cause contributes to its effects in at least one group. *)
Definition seen_somewhere (n : nat) (Gs : list group) : Prop :=
  forall g j i, In g Gs -> ancestor n (g_B g) j i -> exists h, In h Gs /\ cov (g_rows h) (g_x h i) (g_e h j) <> 0%Qc.
(** Tests that are given one pair of columns (or one column) of every group. *)
Definition joint_correlation (n : nat) (Gs : list group) (test : list (nat * sample * sample) -> bool) : Prop :=
  forall y z : group -> sample, (forall g, In g Gs -> combination (g_rows g) n (g_e g) (y g) /\ combination (g_rows g) n (g_e g) (z g)) ->
  (test (map (fun g => (g_rows g, y g, z g)) Gs) = true <-> exists g, In g Gs /\ cov (g_rows g) (y g) (z g) <> 0%Qc).
Definition joint_independence (n : nat) (Gs : list group) (test : list (nat * sample * sample) -> bool) : Prop :=
  forall y z : group -> sample, (forall g, In g Gs -> combination (g_rows g) n (g_e g) (y g) /\ combination (g_rows g) n (g_e g) (z g)) ->
  (test (map (fun g => (g_rows g, y g, z g)) Gs) = true <->
   forall g, In g Gs -> forall k, k < n -> cov (g_rows g) (y g) (g_e g k) = 0%Qc \/ cov (g_rows g) (z g) (g_e g k) = 0%Qc).
Definition joint_normality (n : nat) (Gs : list group) (nongauss : list (nat * sample) -> bool) : Prop :=
  forall y : group -> sample, (forall g, In g Gs -> combination (g_rows g) n (g_e g) (y g) /\ var (g_rows g) (y g) <> 0%Qc) ->
  nongauss (map (fun g => (g_rows g, y g)) Gs) = true.
