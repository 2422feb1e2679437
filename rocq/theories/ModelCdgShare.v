(** * CausalDataGenerator with estimator objects that are shared (lingam/experimental/cdg.py 76-131, 189-275, 296-329)

    fit trains the estimator objects it is given, not copies (300, 321), and keeps references to them.  Here the estimators are objects
    in a store, so that later calls of fit, of the same or of other generators, may train them again.  Data are as in ModelExper.v,
    restricted to the columns cause, effect and adjustments; all variables are continuous; generate is called without arguments. *)
From Coq Require Import List Arith Bool ZArith QArith Qcanon.
From Verif Require Import Prelude ModelExper.
Import ListNotations.
Open Scope nat_scope.

(** An estimator object: one the caller passed, or the one fit creates for a generator (302-319). *)
Inductive estimator := Passed (i : nat) | OwnCause (g : nat) | OwnEffect (g : nat).
Definition estimator_eqb (a b : estimator) : bool :=
  match a, b with
  | Passed i, Passed j | OwnCause i, OwnCause j | OwnEffect i, OwnEffect j => i =? j
  | _, _ => false
  end.
(** predict of a trained estimator: explanatory columns to values, or an exception *)
Definition trained := list (list Qc) -> result (list Qc).
Record generator := { ge_adj : list (list Qc); ge_model_cause : option estimator; ge_model_effect : estimator; ge_err_cause : list Qc; ge_err_effect : list Qc }.
Record world := { wo_store : estimator -> option trained; wo_gen : nat -> option generator }.
Definition train_in (s : estimator -> option trained) (k : estimator) (m : trained) : estimator -> option trained :=
  fun k' => if estimator_eqb k' k then Some m else s k'.

Section Share.
  (** estimator.fit(X, y) *)
  Variable learn : estimator -> list (list Qc) -> list Qc -> trained.
  (** 296-329: train, then the residuals on the training data *)
  Definition make_model (s : estimator -> option trained) (k : estimator) (cols : list (list Qc)) (y : list Qc) : (estimator -> option trained) * result (list Qc) :=
    (train_in s k (learn k cols y), let* p := learn k cols y cols in Ok (qsub y p)).
  (** 76-131 for generator g; mc, me: the estimators given, None for the default *)
  Definition share_fit (w : world) (g : nat) (adj : list (list Qc)) (cause effect : list Qc) (mc me : option nat) : world * result unit :=
    let kc := match mc with Some i => Passed i | None => OwnCause g end in
    let ke := match me with Some i => Passed i | None => OwnEffect g end in
    let '(s1, rc) := match adj with
                     | [] => (wo_store w, Ok cause)                                            (* 104-105 *)
                     | _ => make_model (wo_store w) kc adj cause                               (* 107-109 *)
                     end in
    match rc with
    | Err e => ({| wo_store := s1; wo_gen := wo_gen w |}, Err e)
    | Ok ec =>
        let '(s2, re) := make_model s1 ke (cause :: adj) effect in                             (* 112-117 *)
        match re with
        | Err e => ({| wo_store := s2; wo_gen := wo_gen w |}, Err e)
        | Ok ee => ({| wo_store := s2; wo_gen := upd (wo_gen w) g (Some {| ge_adj := adj; ge_model_cause := match adj with [] => None | _ => Some kc end;
                       ge_model_effect := ke; ge_err_cause := ec; ge_err_effect := ee |}) |}, Ok tt)
        end
    end.
  (** 189-275: the columns cause and effect *)
  Definition predict_with (w : world) (k : estimator) (cols : list (list Qc)) : result (list Qc) :=
    match wo_store w k with None => Err AttributeError | Some m => m cols end.
  Definition share_generate (w : world) (g : nat) : result (list Qc * list Qc) :=
    match wo_gen w g with
    | None => Err AttributeError
    | Some f =>
        match ge_model_cause f with
        | None => Err AttributeError                                                           (* 218: None.predict *)
        | Some kc =>
            let* pc := predict_with w kc (ge_adj f) in
            let c := qadd (ge_err_cause f) pc in                                               (* 218-219 *)
            let* pe := predict_with w (ge_model_effect f) (c :: ge_adj f) in
            Ok (c, qadd (ge_err_effect f) pe)                                                  (* 254-257 *)
        end
    end.
  (** later calls of fit *)
  Record fit_call := { fc_gen : nat; fc_adj : list (list Qc); fc_cause : list Qc; fc_effect : list Qc; fc_mc : option nat; fc_me : option nat }.
  Definition share_call (w : world) (c : fit_call) : world := fst (share_fit w (fc_gen c) (fc_adj c) (fc_cause c) (fc_effect c) (fc_mc c) (fc_me c)).
End Share.
