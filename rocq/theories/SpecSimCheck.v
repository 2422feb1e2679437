(** * Which arguments the simulator's documentation allows. *)
From Coq Require Import List Arith Bool ZArith QArith Qcanon String.
From Verif Require Import Prelude Spec ModelSim ModelSimNames ModelSimCheck.
Import ListNotations.
Open Scope nat_scope.

(** The object whose kind decides: the last step of a pipeline, the estimator inside a search, or the object. *)
Definition deciding (e : estimator) (t : tag) : Prop :=
  match es_shape e with Pipeline steps => exists before, steps = before ++ [t] | Search u => t = u | Simple u => t = u end.
(** A regression model for a continuous variable; for a discrete one a classifier that gives probabilities. *)
Definition suitable (discrete : bool) (e : estimator) : Prop :=
  exists t, deciding e t /\ if discrete then tg_classifier t = true /\ es_proba e = true else tg_regressor t = true.
(** A pipeline without steps cannot be made. *)
Definition proper (e : estimator) : Prop := es_shape e <> Pipeline [].

Definition good_model (s : simulator) (k : pykey) (e : estimator) : Prop :=
  exists x, k = KStr x /\ In x (si_names s) /\ suitable (known x (si_discrete s)) e.
Definition good_error (s : simulator) (k : pykey) (v : result (bool * column)) : Prop :=
  exists x ac, k = KStr x /\ In x (si_names s) /\ ~ In x (si_discrete s) /\ v = Ok ac /\ List.length (snd ac) = im_N (si_im s).
Definition good_change (s : simulator) (k : pykey) (v : option info) : Prop :=
  exists x i parents, k = KStr x /\ v = Some i /\ In x (si_names s) /\ in_parents i = Some (Some parents) /\
    (forall q, In q parents -> In q (si_names s)) /\
    (parents = [] \/
     (exists coef, in_coef i = Some (Ok coef) /\ List.length coef = List.length parents) \/
     (in_coef i = None /\ exists e, in_model i = Some (Some e) /\ suitable (known x (si_discrete s)) e)).
