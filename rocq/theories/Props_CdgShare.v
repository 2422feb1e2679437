(** * C221: CausalDataGenerator and shared estimator objects *)
From Coq Require Import List Arith Lia Bool ZArith QArith Qcanon.
From Verif Require Import Prelude Lib ModelExper ModelCdgShare.
Import ListNotations.
Open Scope nat_scope.

(** What is assumed of estimators: they predict as many values as they were trained with on their training data, and refuse data with
    another number of columns. *)
Definition proper (learn : estimator -> list (list Qc) -> list Qc -> trained) : Prop :=
  (forall k cols y, exists p, learn k cols y cols = Ok p /\ length p = length y) /\
  forall k cols y cols', length cols' <> length cols -> learn k cols y cols' = Err ValueError.

Lemma qadd_qsub : forall a b, length b = length a -> qadd (qsub a b) b = a.
Proof. induction a as [|x a IH]; intros [|y b] H; try discriminate; [reflexivity|]. cbn. rewrite IH by (injection H as H; exact H). f_equal. ring. Qed.
Lemma estimator_eqb_spec : forall a b, estimator_eqb a b = true <-> a = b.
Proof. intros [i|i|i] [j|j|j]; cbn; rewrite ?Nat.eqb_eq; split; congruence. Qed.
Lemma estimator_eqb_refl : forall a, estimator_eqb a a = true.
Proof. intro a. apply estimator_eqb_spec. reflexivity. Qed.

Section Share.
  Variable learn : estimator -> list (list Qc) -> list Qc -> trained.
  Hypothesis HL : proper learn.
  Notation FIT := (share_fit learn). Notation CALL := (share_call learn).

  (** With two different estimators (or the default ones) generate returns the data. *)
  Definition distinct_models (mc me : option nat) : Prop := match mc, me with Some i, Some j => i <> j | _, _ => True end.
  Lemma fit_ok : forall w g adj c e mc me, exists w', FIT w g adj c e mc me = (w', Ok tt).
  Proof.
    intros w g adj c e mc me. destruct HL as [H1 _]. unfold share_fit, make_model. destruct adj as [|a adj].
    - destruct (H1 (match me with Some i => Passed i | None => OwnEffect g end) [c] e) as (p & -> & _). eexists. reflexivity.
    - destruct (H1 (match mc with Some i => Passed i | None => OwnCause g end) (a :: adj) c) as (p & -> & _). cbn [bind].
      destruct (H1 (match me with Some i => Passed i | None => OwnEffect g end) (c :: a :: adj) e) as (p' & -> & _). eexists. reflexivity.
  Qed.
  (** Later calls of fit by other generators with other estimators. *)
  Definition apart (g : nat) (mc me : option nat) (call : fit_call) : Prop :=
    fc_gen call <> g /\ (forall i, mc = Some i \/ me = Some i -> fc_mc call <> Some i /\ fc_me call <> Some i).
  Theorem C221_replay_partial : forall w w' g adj c e mc me calls, adj <> [] -> distinct_models mc me -> FIT w g adj c e mc me = (w', Ok tt) ->
    Forall (apart g mc me) calls -> share_generate (fold_left CALL calls w') g = Ok (c, e).
  Proof.
    intros w w' g adj c e mc me calls HA HD E HC. destruct HL as [H1 _].
    set (kc := match mc with Some i => Passed i | None => OwnCause g end). set (ke := match me with Some i => Passed i | None => OwnEffect g end).
    destruct (H1 kc adj c) as (pc & Ec & Lc). destruct (H1 ke (c :: adj) e) as (pe & Ee & Le).
    assert (NE : kc <> ke) by (subst kc ke; destruct mc, me; cbn in HD; congruence).
    assert (INV : forall w1, wo_store w1 kc = Some (learn kc adj c) -> wo_store w1 ke = Some (learn ke (c :: adj) e) ->
      wo_gen w1 g = Some {| ge_adj := adj; ge_model_cause := Some kc; ge_model_effect := ke; ge_err_cause := qsub c pc; ge_err_effect := qsub e pe |} ->
      forall l, Forall (apart g mc me) l -> share_generate (fold_left CALL l w1) g = Ok (c, e)).
    { intros w1 S1 S2 G l. revert w1 S1 S2 G. induction l as [|call l IH]; intros w1 S1 S2 G HF.
      - cbn [fold_left]. unfold share_generate, predict_with. rewrite G. cbn [ge_model_cause ge_adj ge_err_cause ge_model_effect ge_err_effect]. rewrite S1, Ec. cbn [bind]. rewrite qadd_qsub by exact Lc. rewrite S2, Ee. cbn [bind]. rewrite qadd_qsub by exact Le. reflexivity.
      - cbn [fold_left]. inversion HF as [|? ? [HG HK] HF']. subst. destruct call as [g' adj' c' e' mc' me']. cbn [fc_gen fc_adj fc_cause fc_effect fc_mc fc_me] in HG, HK.
        set (kc' := match mc' with Some i => Passed i | None => OwnCause g' end). set (ke' := match me' with Some i => Passed i | None => OwnEffect g' end).
        assert (K1 : estimator_eqb kc kc' = false /\ estimator_eqb ke kc' = false /\ estimator_eqb kc ke' = false /\ estimator_eqb ke ke' = false).
        { assert (N : forall a b : estimator, a <> b -> estimator_eqb a b = false) by (intros a b N; destruct (estimator_eqb a b) eqn:T; [apply estimator_eqb_spec in T; contradiction|reflexivity]).
          repeat split; apply N; subst kc ke kc' ke'; destruct mc as [i|], me as [j|], mc' as [i'|], me' as [j'|]; try discriminate; try congruence; intro Q; injection Q as Q; subst;
            first [apply (proj1 (HK _ (or_introl eq_refl))); reflexivity|apply (proj2 (HK _ (or_introl eq_refl))); reflexivity|apply (proj1 (HK _ (or_intror eq_refl))); reflexivity|apply (proj2 (HK _ (or_intror eq_refl))); reflexivity]. }
        destruct K1 as (K1 & K2 & K3 & K4).
        assert (ST : wo_store (CALL w1 {| fc_gen := g'; fc_adj := adj'; fc_cause := c'; fc_effect := e'; fc_mc := mc'; fc_me := me' |}) kc = wo_store w1 kc /\
                     wo_store (CALL w1 {| fc_gen := g'; fc_adj := adj'; fc_cause := c'; fc_effect := e'; fc_mc := mc'; fc_me := me' |}) ke = wo_store w1 ke /\
                     wo_gen (CALL w1 {| fc_gen := g'; fc_adj := adj'; fc_cause := c'; fc_effect := e'; fc_mc := mc'; fc_me := me' |}) g = wo_gen w1 g).
        { unfold share_call, share_fit, make_model. cbn [fc_gen fc_adj fc_cause fc_effect fc_mc fc_me]. fold kc' ke'.
          assert (GU : forall v, upd (wo_gen w1) g' v g = wo_gen w1 g) by (intro v; unfold upd; destruct (Nat.eqb_spec g g'); [congruence|reflexivity]).
          destruct adj' as [|a' adj'].
          - destruct (H1 ke' [c'] e') as (p & -> & _). cbn [bind fst wo_store wo_gen]. unfold train_in. rewrite K3, K4. repeat split; apply GU.
          - destruct (H1 kc' (a' :: adj') c') as (p & -> & _). cbn [bind]. destruct (H1 ke' (c' :: a' :: adj') e') as (p' & -> & _). cbn [bind fst wo_store wo_gen]. unfold train_in. rewrite K1, K2, K3, K4. repeat split; apply GU. }
        destruct ST as (T1 & T2 & T3). apply IH; [congruence|congruence|congruence|exact HF']. }
    unfold share_fit, make_model in E. fold kc ke in E. destruct adj as [|a adj]; [congruence|]. rewrite Ec in E. cbn [bind] in E. rewrite Ee in E. cbn [bind] in E. injection E as <-.
    apply INV; [| | |exact HC]; cbn [wo_store wo_gen]; unfold train_in, upd.
    - assert (T : estimator_eqb kc ke = false) by (destruct (estimator_eqb kc ke) eqn:T; [apply estimator_eqb_spec in T; contradiction|reflexivity]). rewrite T, estimator_eqb_refl. reflexivity.
    - rewrite estimator_eqb_refl. reflexivity.
    - rewrite Nat.eqb_refl. reflexivity.
  Qed.
  (** With one estimator object for both models fit succeeds, and generate always raises. *)
  Theorem C221_shared_refuted : forall w g adj c e i, adj <> [] -> exists w', FIT w g adj c e (Some i) (Some i) = (w', Ok tt) /\ share_generate w' g = Err ValueError.
  Proof.
    intros w g adj c e i HA. destruct HL as [H1 H2]. destruct (H1 (Passed i) adj c) as (pc & Ec & _). destruct (H1 (Passed i) (c :: adj) e) as (pe & Ee & _).
    unfold share_fit, make_model. destruct adj as [|a adj]; [congruence|]. rewrite Ec. cbn [bind]. rewrite Ee. cbn [bind]. eexists. split; [reflexivity|].
    unfold share_generate, predict_with, upd. cbn [wo_gen wo_store]. rewrite Nat.eqb_refl. cbn [ge_model_cause ge_adj]. unfold train_in. rewrite estimator_eqb_refl, H2 by (cbn; lia). reflexivity.
  Qed.
End Share.
Print Assumptions C221_replay_partial.
Print Assumptions C221_shared_refuted.

(** An estimator that predicts the mean of its training values, in every row. *)
Definition mean_learner (k : estimator) (cols : list (list Qc)) (y : list Qc) : trained :=
  fun cols' => if length cols' =? length cols then Ok (map (fun _ => qsum y / qn (length y))%Qc y) else Err ValueError.
Lemma mean_proper : proper mean_learner.
Proof.
  split; [intros k cols y; unfold mean_learner; rewrite Nat.eqb_refl; eexists; split; [reflexivity|apply map_length]|].
  intros k cols y cols' H. unfold mean_learner. apply Nat.eqb_neq in H. rewrite H. reflexivity.
Qed.
Definition new_world : world := {| wo_store := fun _ => None; wo_gen := fun _ => None |}.
Definition ones (l : list Z) : list Qc := map qz l.
(** Two generators that are given the same two estimators: after the second is fitted, the first no longer returns its data. *)
Theorem C221_two_generators_refuted : exists w1 w2, share_fit mean_learner new_world 0 [ones [1; 2]%Z] (ones [1; 3]%Z) (ones [5; 7]%Z) (Some 0) (Some 1) = (w1, Ok tt) /\
  share_fit mean_learner w1 1 [ones [1; 2]%Z] (ones [4; 4]%Z) (ones [0; 2]%Z) (Some 0) (Some 1) = (w2, Ok tt) /\
  share_generate w1 0 = Ok (ones [1; 3]%Z, ones [5; 7]%Z) /\ exists r, share_generate w2 0 = Ok r /\ map this (fst r) <> map this (ones [1; 3]%Z).
Proof.
  do 2 eexists. split; [reflexivity|]. split; [reflexivity|]. split.
  - apply (C221_replay_partial mean_learner mean_proper new_world _ 0 [ones [1; 2]%Z] (ones [1; 3]%Z) (ones [5; 7]%Z) (Some 0) (Some 1) []); [discriminate|cbn; lia|reflexivity|constructor].
  - eexists. split; [reflexivity|]. vm_compute. discriminate.
Qed.
Print Assumptions C221_two_generators_refuted.
Example C221_example : proper mean_learner /\ distinct_models (Some 0) (Some 1) /\ apart 0 (Some 0) None {| fc_gen := 1; fc_adj := []; fc_cause := []; fc_effect := []; fc_mc := Some 2; fc_me := None |}.
Proof. split; [exact mean_proper|]. split; [cbn; lia|]. split; [cbn; lia|]. intros i [H|H]; [injection H as H; subst i; split; cbn; congruence|congruence]. Qed.
