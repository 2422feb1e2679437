(** * Notions for the VARMALiNGAM object *)
From Coq Require Import List Arith QArith Qcanon.
From Verif Require Import Prelude ModelVAR ModelVarma.
Import ListNotations.
Open Scope nat_scope.

(** An order (p', q') that an order search up to [o] may choose *)
Definition within (o' o : nat * nat) : Prop := fst o' <= fst o /\ snd o' <= snd o /\ o' <> (0, 0).
(** (p, q) before (p', q') *)
Definition lexlt (a b : nat * nat) : Prop := fst a < fst b \/ (fst a = fst b /\ snd a < snd b).
(** An object that has not both coefficient arrays yet: a new one, or one whose last fit chose p = 0 or q = 0 *)
Definition fresh (w : varma_obj) : Prop := wo_ar w = None \/ wo_ma w = None.
(** VARMAX of order (p, q) has p autoregressive and q moving-average matrices. *)
Definition varmax_shapes (varmax : nat -> series -> nat * nat -> list (mat Qc) * list (mat Qc) * series) : Prop :=
  forall N X p q, length (fst (fst (varmax N X (p, q)))) = p /\ length (snd (fst (varmax N X (p, q)))) = q.
