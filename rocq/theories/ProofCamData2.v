From Coq Require Import Reals Arith List Lia Lra Bool Permutation Sorted QArith Qcanon.
From Verif Require Import Prelude Lib LibR SpecMeasure SpecResit SpecCam SpecCAMUV ModelRCD ModelCAMUV ModelCamData ProofKernelMI ProofResitData ProofResitData2 ProofCamData Props_CAMUV.
Import ListNotations.
Open Scope nat_scope.

Lemma only_one : forall (a : nat) l, NoDup l -> (forall x, In x l -> x = a) -> l <> [] -> l = [a].
Proof.
  intros a [|x [|y l]] ND H N; [congruence|rewrite (H x (or_introl eq_refl)); reflexivity|].
  exfalso. inversion ND as [|? ? Nx _]; subst. apply Nx. rewrite (H x (or_introl eq_refl)), (H y (or_intror (or_introl eq_refl))). left. reflexivity.
Qed.
Lemma sorted_NoDup : forall l, StronglySorted lt l -> NoDup l.
Proof. induction l as [|a l IH]; intro S; [constructor|]. inversion S as [|? ? S' F]; subst. constructor; [|apply IH; exact S']. intro C. rewrite Forall_forall in F. specialize (F a C). lia. Qed.

Section Found.
  Variables (m : nat) (alpha : Qc) (maxnum : nat) (ind : nat -> list nat -> nat -> list nat -> bool) (value : nat -> list nat -> list (nat * list nat) -> num) (iter : list nat -> list nat).
  Hypotheses (Hm : 1 <= m) (H0 : (0 <= alpha)%Qc) (IP : forall l, Permutation (iter l) l) (HX : 1 <= maxnum).
  Hypothesis A1 : forall i j, i < m -> j < m -> i <> j -> ind i [] j [] = true.
  Hypothesis A2 : forall Q i, NoDup Q -> (forall x, In x Q -> x < m) -> i < m -> ~ In i Q -> ind m Q i [] = false /\ ind i [] m Q = false.
  Hypothesis A3 : forall A qs, NoDup A -> (forall x, In x A -> x < m) -> incl qs A -> exists q, value m A (map (fun q => (q, [])) qs) = Some q /\ (alpha < q)%Qc.
  Hypothesis A4 : forall i Q, i < m -> NoDup Q -> (forall x, In x Q -> x < m) -> ~ In i Q -> exists q, value i [m] [(m, Q)] = Some q /\ ~ (alpha < q)%Qc.
  Let d := S m.
  Let forb := fun _ _ : nat => False.
  Definition sound (Q : nat -> nat -> bool) : Prop := forall i j, Q i j = true -> i = m /\ j < m.
  Lemma parents_cause : forall Q i, sound Q -> i < m -> parents_of d Q i = [].
  Proof. intros Q i S Hi. unfold parents_of. rewrite (filter_ext_in _ (fun _ => false)); [induction (seq 0 d); cbn; auto|]. intros x _. destruct (Q i x) eqn:E; [apply S in E; lia|reflexivity]. Qed.
  Lemma parents_effect : forall Q, sound Q -> NoDup (parents_of d Q m) /\ (forall x, In x (parents_of d Q m) -> x < m) /\ (forall x, In x (parents_of d Q m) <-> Q m x = true).
  Proof.
    intros Q S. split; [apply NoDup_filter, seq_NoDup|]. split; intros x; [intro H|split; intro H]; try (apply filter_In in H; destruct H as [_ H]); try exact H; [apply S in H; lia|].
    apply filter_In. split; [|exact H]. apply S in H. apply in_seq. unfold d. lia.
  Qed.
  Lemma but_In : forall c K x, In x (but c K) <-> In x K /\ x <> c.
  Proof. intros c K x. unfold but. rewrite filter_In, negb_true_iff, Nat.eqb_neq. tauto. Qed.
  Lemma score_cause : forall Q K c, sound Q -> but c K = [m] -> c < m -> Q m c = false -> exists q, score d value Q K c = Some q /\ ~ (alpha < q)%Qc.
  Proof.
    intros Q K c S Eb Hc Nc. unfold score. rewrite Eb. cbn [map existsb].
    assert (F : filter (fun x => (x =? m) || false || Q c x) (seq 0 d) = [m]).
    { rewrite (filter_ext_in _ (fun x => x =? m)). - unfold d. rewrite seq_S, filter_app. cbn [filter plus]. rewrite Nat.eqb_refl. rewrite (filter_ext_in _ (fun _ => false)); [|intros x Hx; apply in_seq in Hx; apply Nat.eqb_neq; lia].
        assert (Z : forall l : list nat, filter (fun _ => false) l = []) by (induction l; cbn; auto). rewrite Z. reflexivity.
      - intros x _. destruct (Q c x) eqn:E; [apply S in E; lia|rewrite !orb_false_r; reflexivity]. }
    rewrite F. destruct (parents_effect Q S) as (ND & R & I). apply A4; [exact Hc|exact ND|exact R|]. intro C. apply I in C. congruence.
  Qed.
  Lemma neighbours_effect : forall i, i < m -> neighbours d ind m i /\ neighbours d ind i m.
  Proof. intros i Hi. destruct (A2 [] i (NoDup_nil _) ltac:(intros x []) Hi ltac:(intros [])) as [_ E]. split; [right|left]; split; try exact E; unfold d; lia. Qed.
  Lemma neighbours_causes : forall i j, i < m -> j < m -> ~ neighbours d ind i j.
  Proof. intros i j Hi Hj [[H E]|[H E]]; rewrite A1 in E by lia; discriminate. Qed.
  Lemma discovered_sound : forall top Q, discovered d true alpha forb ind value iter top Q -> sound Q.
  Proof.
    intros top Q D. induction D as [P Z|P P' K t c D IH Ht [LK [SK RK]] [Id [[El [_ (be & af & Ei & _)]] [Be _]]] Up].
    - intros i j E. rewrite Z in E. discriminate.
    - intros i j E. apply Up in E. destruct E as [E|(-> & Hj & Nj)]; [apply IH; exact E|].
      assert (Hc : In c K) by (apply (Permutation_in _ (IP K)); rewrite Ei; apply in_or_app; right; left; reflexivity).
      pose proof (RK j Hj) as Rj. pose proof (RK c Hc) as Rc. unfold d in Rj, Rc. destruct (Nat.eq_dec c m) as [->|Nc]; [split; [reflexivity|lia]|exfalso].
      assert (All : forall p, In p K -> p <> c -> p = m).
      { intros p Hp Np. destruct (El p Hp Np) as [_ Nb]. pose proof (RK p Hp) as Rp. unfold d in Rp. destruct (Nat.eq_dec p m) as [|N]; [assumption|]. exfalso. apply (neighbours_causes c p); [lia|lia|exact Nb]. }
      assert (Eb : but c K = [m]). { apply only_one; [apply NoDup_filter, sorted_NoDup; exact SK|intros x Hx; apply but_In in Hx; apply All; tauto|]. intro Z. assert (In j (but c K)) as W by (apply but_In; split; assumption). rewrite Z in W. destruct W. }
      assert (Hmk : In m K) by (rewrite <- (All j Hj Nj); exact Hj).
      destruct (score_cause P K c IH Eb ltac:(lia) (Id m c Hmk Hc ltac:(lia))) as (q & Eq & Nq). rewrite Eq in Be. cbn in Be. exact (Nq Be).
  Qed.
  Lemma complete : forall Q, sound Q -> (forall t K c, 2 <= t <= Nat.max 2 maxnum -> var_set d t K -> ~ establishes d true alpha forb ind value iter Q K c) -> forall i, i < m -> Q m i = true.
  Proof.
    intros Q S Fx i Hi. destruct (Q m i) eqn:E; [reflexivity|exfalso]. apply (Fx 2 [i; m] m); [lia| |].
    { split; [reflexivity|]. split; [|intros v [<-|[<-|[]]]; unfold d; lia]. constructor; [constructor; [constructor|constructor]|constructor; [exact Hi|constructor]]. }
    destruct (parents_effect Q S) as (ND & R & I). pose proof (parents_cause Q i S Hi) as Pi.
    assert (Bm : but m [i; m] = [i]). { unfold but. cbn [filter]. rewrite Nat.eqb_refl. replace (i =? m) with false by (symmetry; apply Nat.eqb_neq; lia). reflexivity. }
    assert (Bi : but i [i; m] = [m]). { unfold but. cbn [filter]. rewrite Nat.eqb_refl. replace (m =? i) with false by (symmetry; apply Nat.eqb_neq; lia). reflexivity. }
    destruct (score_cause Q [i; m] i S Bi Hi E) as (qi & Ei & Ni).
    assert (Sm : exists q, score d value Q [i; m] m = Some q /\ (alpha < q)%Qc).
    { unfold score. rewrite Bm. cbn [map]. rewrite Pi. apply (A3 _ [i]).
      - apply NoDup_filter, seq_NoDup.
      - intros x Hx. apply filter_In in Hx. destruct Hx as [_ Hx]. cbn [existsb] in Hx. rewrite orb_false_r in Hx. apply orb_true_iff in Hx. destruct Hx as [Hx|Hx]; [apply Nat.eqb_eq in Hx; lia|apply S in Hx; lia].
      - intros x [<-|[]]. apply filter_In. split; [apply in_seq; unfold d; lia|]. cbn [existsb]. rewrite Nat.eqb_refl. reflexivity. }
    destruct Sm as (qm & Em & Am). assert (Lt : (qi < qm)%Qc). { eapply Qcle_lt_trans; [|exact Am]. apply Qcnot_lt_le. exact Ni. }
    split; [|split; [|split]].
    - intros a b [<-|[<-|[]]] [<-|[<-|[]]] N; try congruence. destruct (Q i m) eqn:Z; [apply S in Z; lia|reflexivity].
    - split; [|split].
      + intros p [<-|[<-|[]]] N; [|congruence]. split; [intros []|apply neighbours_effect; exact Hi].
      + rewrite Em. cbn. eapply Qcle_lt_trans; [exact H0|exact Am].
      + pose proof (IP [i; m]) as Pm. assert (Hin : In m (iter [i; m])) by (apply (Permutation_in _ (Permutation_sym Pm)); right; left; reflexivity).
        destruct (in_split _ _ Hin) as (be & af & Ea). exists be, af. split; [exact Ea|].
        assert (NDi : NoDup (iter [i; m])) by (apply (Permutation_NoDup (Permutation_sym Pm)); constructor; [intros [Hx|[]]; lia|constructor; [intros []|constructor]]). rewrite Ea in NDi. apply NoDup_remove_2 in NDi.
        assert (Al : forall a, In a (be ++ af) -> a = i). { intros a Ha. assert (Hk : In a [i; m]) by (apply (Permutation_in _ Pm); rewrite Ea; apply in_app_iff in Ha; apply in_or_app; cbn; tauto). destruct Hk as [->|[<-|[]]]; [reflexivity|contradiction]. }
        split; intros a w Ha _ Ew; rewrite (Al a ltac:(apply in_or_app; tauto)), Ei in Ew; injection Ew as <-; rewrite Em; cbn; [exact Lt|]. intro C. exact (Qclt_not_le _ _ Lt (Qclt_le_weak _ _ C)).
    - rewrite Em. exact Am.
    - intros q [<-|[<-|[]]] N; [|congruence]. rewrite Pi. apply (A2 (parents_of d Q m) i ND R Hi). intro C. apply I in C. congruence.
  Qed.
  Lemma star_found : exists P B, cam_fit d maxnum true alpha None ind value iter = Ok (P, B) /\
    forall i j, i <= m -> j <= m -> B i j = Some (if (i =? m) && (j <? m) then 1%Qc else 0%Qc).
  Proof.
    destruct (C34_fit_always_returns d maxnum true alpha None ind value iter IP) as [[Z _]|(_ & P & B & E)]; [lia|]. exists P, B. split; [exact E|].
    destruct (C110_search_exact d maxnum true alpha None ind value iter P B IP E) as (Q & D & Fx & Pr & B1). cbv zeta in D, Fx. fold forb in D, Fx.
    pose proof (discovered_sound _ Q D) as S. pose proof (complete Q S Fx) as C. destruct (parents_effect Q S) as (ND & R & I).
    assert (SP : sound P) by (intros i j H; apply Pr in H; apply S; tauto).
    assert (PE : forall i j, P i j = true <-> i = m /\ j < m).
    { intros i j. split; [apply SP|]. intros [-> Hj]. apply Pr. split; [apply C; exact Hj|]. intros _. replace (j <? m) with true by (symmetry; apply Nat.ltb_lt; exact Hj).
      rewrite (parents_cause P j SP Hj). apply A2; [apply NoDup_filter, seq_NoDup| |exact Hj|].
      - intros x Hx. apply filter_In in Hx. destruct Hx as [_ Hx]. apply andb_true_iff in Hx. destruct Hx as [Hx _]. apply S in Hx. lia.
      - intro Hx. apply filter_In in Hx. destruct Hx as [_ Hx]. apply andb_true_iff in Hx. destruct Hx as [_ Hx]. rewrite Nat.eqb_refl in Hx. discriminate. }
    destruct (C35_adjacency_shape d maxnum true alpha None ind value iter P B IP E) as (Bd & B01 & _ & BN & _). intros i j Hi Hj.
    destruct (Nat.eqb_spec i m) as [->|Ni].
    - destruct (Nat.ltb_spec j m) as [Lj|Lj]; cbn [andb]; [apply B1, PE; split; [reflexivity|exact Lj]|]. replace j with m by lia. apply Bd.
    - cbn [andb]. destruct (B01 i j) as [Z|[Z|Z]]; [exact Z|apply B1, PE in Z; lia|exfalso]. apply BN in Z; [|unfold d; lia|unfold d; lia]. destruct Z as (_ & Z & N & Zd & _).
      destruct (Nat.eq_dec j m) as [->|Nj]; [apply Z, B1, PE; split; [reflexivity|lia]|]. destruct (i <? j); rewrite A1 in Zd by lia; discriminate.
  Qed.
End Found.
