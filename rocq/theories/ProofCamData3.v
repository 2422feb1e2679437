From Coq Require Import Arith List Lia Bool Permutation Sorted QArith Qcanon.
From Verif Require Import Prelude Lib Loop SpecCAMUV ModelRCD ModelCAMUV ProofCAMUV ProofCAMUV2 ProofCAMUV3 ProofCamData2 Props_CAMUV.
Import ListNotations.
Open Scope nat_scope.

(** The search on three variables of which the second is a child of the first and the third depends on both in every test. *)
Section Triangle.
  Variables (alpha : Qc) (maxnum : nat) (ind : nat -> list nat -> nat -> list nat -> bool) (value : nat -> list nat -> list (nat * list nat) -> num) (iter : list nat -> list nat).
  Hypotheses (H0 : (0 <= alpha)%Qc) (IP : forall l, Permutation (iter l) l) (HX : 1 <= maxnum).
  Notation rejects c A qs := (exists q, value c A qs = Some q /\ ~ (alpha < q)%Qc).
  Hypotheses (I01 : ind 0 [] 1 [] = false) (I02 : ind 0 [] 2 [] = false) (I12 : ind 1 [] 2 [] = false) (I10 : ind 1 [] 0 [] = false) (I1r2 : ind 1 [0] 2 [] = false).
  Hypotheses (V1 : exists q, value 1 [0] [(0, [])] = Some q /\ (alpha < q)%Qc) (V0 : rejects 0 [1] [(1, [])]).
  Hypotheses (W0 : rejects 0 [2] [(2, [])]) (W2 : rejects 2 [0] [(0, [])]).
  Hypotheses (Y1 : rejects 1 [2] [(2, [])]) (Y1' : rejects 1 [0; 2] [(2, [])]) (Y2 : rejects 2 [1] [(1, [])]) (Y2' : rejects 2 [1] [(1, [0])]).
  Let forb := fun _ _ : nat => False.
  Notation est := (establishes 3 true alpha forb ind value iter).
  Definition tri (P : nat -> nat -> bool) : Prop := forall i j, P i j = true -> i = 1 /\ j = 0.
  Lemma tri_row : forall P, tri P -> (forall i j, i <> 1 \/ j <> 0 -> P i j = false).
  Proof. intros P T i j H. destruct (P i j) eqn:E; [apply T in E; lia|reflexivity]. Qed.
  Lemma tri_parents : forall P, tri P -> parents_of 3 P 0 = [] /\ parents_of 3 P 2 = [] /\ parents_of 3 P 1 = if P 1 0 then [0] else [].
  Proof. intros P T. pose proof (tri_row P T) as R. unfold parents_of. cbn [seq filter]. rewrite (R 0 0), (R 0 1), (R 0 2), (R 2 0), (R 2 1), (R 2 2), (R 1 1), (R 1 2) by lia. destruct (P 1 0); auto. Qed.
  Lemma refuse : forall P K c q, score 3 value P K c = Some q -> ~ (alpha < q)%Qc -> ~ est P K c.
  Proof. intros P K c q E N (_ & _ & B & _). rewrite E in B. exact (N B). Qed.
  Lemma empty_est : forall P, tri P -> P 1 0 = false -> est P [0; 1] 1.
  Proof.
    intros P T E. pose proof (tri_row P T) as R. destruct (tri_parents P T) as (E0 & E2 & E1). rewrite E in E1.
    assert (S1 : score 3 value P [0; 1] 1 = value 1 [0] [(0, [])]). { unfold score. change (but 1 [0; 1]) with [0]. cbn [map existsb seq filter]. rewrite E0, E, (R 1 1), (R 1 2) by lia. reflexivity. }
    assert (S0 : score 3 value P [0; 1] 0 = value 0 [1] [(1, [])]). { unfold score. change (but 0 [0; 1]) with [1]. cbn [map existsb seq filter]. rewrite E1, (R 0 0), (R 0 1), (R 0 2) by lia. reflexivity. }
    destruct V1 as (q1 & Q1 & A1). destruct V0 as (q0 & Q0 & A0). assert (Lt : (q0 < q1)%Qc) by (eapply Qcle_lt_trans; [apply Qcnot_lt_le; exact A0|exact A1]).
    split; [|split; [|split]].
    - intros a b [<-|[<-|[]]] [<-|[<-|[]]] N; try congruence; apply R; lia.
    - split; [|split].
      + intros p [<-|[<-|[]]] N; [|congruence]. split; [intros []|]. right. split; [lia|exact I01].
      + rewrite S1, Q1. cbn. eapply Qcle_lt_trans; [exact H0|exact A1].
      + pose proof (IP [0; 1]) as Pm. assert (Hin : In 1 (iter [0; 1])) by (apply (Permutation_in _ (Permutation_sym Pm)); right; left; reflexivity).
        destruct (in_split _ _ Hin) as (be & af & Ea). exists be, af. split; [exact Ea|].
        assert (NDi : NoDup (iter [0; 1])) by (apply (Permutation_NoDup (Permutation_sym Pm)); constructor; [intros [Hx|[]]; lia|constructor; [intros []|constructor]]). rewrite Ea in NDi. apply NoDup_remove_2 in NDi.
        assert (Al : forall a, In a (be ++ af) -> a = 0). { intros a Ha. assert (Hk : In a [0; 1]) by (apply (Permutation_in _ Pm); rewrite Ea; apply in_app_iff in Ha; apply in_or_app; cbn; tauto). destruct Hk as [->|[<-|[]]]; [reflexivity|contradiction]. }
        split; intros a w Ha _ Ew; rewrite (Al a ltac:(apply in_or_app; tauto)), S0, Q0 in Ew; injection Ew as <-; rewrite S1, Q1; cbn; [exact Lt|]. intro C. exact (Qclt_not_le _ _ Lt (Qclt_le_weak _ _ C)).
    - rewrite S1, Q1. exact A1.
    - intros q [<-|[<-|[]]] N; [|congruence]. rewrite E0, E1. exact I10.
  Qed.
  Lemma pair_sets : forall K, var_set 3 2 K -> K = [0; 1] \/ K = [0; 2] \/ K = [1; 2].
  Proof.
    intros K (L & S & R). destruct K as [|a [|b [|c K]]]; cbn in L; try lia. pose proof (R a (or_introl eq_refl)). pose proof (R b (or_intror (or_introl eq_refl))).
    inversion S as [|? ? _ F]; subst. inversion F; subst. assert (a = 0 /\ b = 1 \/ a = 0 /\ b = 2 \/ a = 1 /\ b = 2) as [[-> ->]|[[-> ->]|[-> ->]]] by lia; tauto.
  Qed.
  Lemma big_sets : forall t K, 3 <= t -> var_set 3 t K -> In 0 K /\ In 1 K.
  Proof.
    intros t K Ht (L & S & R). assert (I : incl K [0; 1; 2]) by (intros x Hx; apply R in Hx; cbn; lia). pose proof (ProofCamData2.sorted_NoDup K S) as ND.
    assert (I2 : incl [0; 1; 2] K) by (apply NoDup_length_incl; [exact ND|cbn; lia|exact I]). split; apply I2; cbn; tauto.
  Qed.
  Lemma tri_invariant : forall Q, found_in_order 3 true alpha forb ind value iter (Nat.max 2 maxnum) Q -> tri Q.
  Proof.
    intros Q F. induction F as [P Z|P0 P P' K t c F0 IH0 Sub F1 IH Ht Ex VK E Up]; [intros i j H; rewrite Z in H; discriminate|].
    intros i j H. apply Up in H. destruct H as [H|(-> & Hj & Nj)]; [apply IH; exact H|].
    pose proof (tri_row P IH) as R. destruct (tri_parents P IH) as (E0 & E2 & E1).
    assert (Hc : In c K). { destruct E as (_ & (_ & _ & be & af & Ei & _) & _). apply (Permutation_in _ (IP K)). rewrite Ei. apply in_or_app. right. left. reflexivity. }
    destruct (Nat.eq_dec t 2) as [->|Nt].
    - destruct (pair_sets K VK) as [-> | [-> | ->]].
      + destruct Hc as [<-|[<-|[]]]; [|destruct Hj as [<-|[<-|[]]]; [split; reflexivity|congruence]]. exfalso.
        assert (Z : P 1 0 = false) by (destruct E as (Id & _); apply (Id 1 0); cbn; [tauto|tauto|lia]).
        destruct V0 as (q & Eq & Nq). apply (refuse P [0; 1] 0 q); [|exact Nq|exact E]. unfold score. change (but 0 [0; 1]) with [1]. cbn [map existsb seq filter]. rewrite E1, Z, (R 0 0), (R 0 1), (R 0 2) by lia. exact Eq.
      + exfalso. destruct Hc as [<-|[<-|[]]].
        * destruct W0 as (q & Eq & Nq). apply (refuse P [0; 2] 0 q); [|exact Nq|exact E]. unfold score. change (but 0 [0; 2]) with [2]. cbn [map existsb seq filter]. rewrite E2, (R 0 0), (R 0 1), (R 0 2) by lia. exact Eq.
        * destruct W2 as (q & Eq & Nq). apply (refuse P [0; 2] 2 q); [|exact Nq|exact E]. unfold score. change (but 2 [0; 2]) with [0]. cbn [map existsb seq filter]. rewrite E0, (R 2 0), (R 2 1), (R 2 2) by lia. exact Eq.
      + exfalso. destruct Hc as [<-|[<-|[]]].
        * assert (Z : exists q, score 3 value P [1; 2] 1 = Some q /\ ~ (alpha < q)%Qc).
          { unfold score. change (but 1 [1; 2]) with [2]. cbn [map existsb seq filter]. rewrite E2, (R 1 1), (R 1 2) by lia. destruct (P 1 0); [exact Y1'|exact Y1]. }
          destruct Z as (q & Eq & Nq). exact (refuse P [1; 2] 1 q Eq Nq E).
        * assert (Z : exists q, score 3 value P [1; 2] 2 = Some q /\ ~ (alpha < q)%Qc).
          { unfold score. change (but 2 [1; 2]) with [1]. cbn [map existsb seq filter]. rewrite E1, (R 2 0), (R 2 1), (R 2 2) by lia. destruct (P 1 0); [exact Y2'|exact Y2]. }
          destruct Z as (q & Eq & Nq). exact (refuse P [1; 2] 2 q Eq Nq E).
    - exfalso. destruct (big_sets t K ltac:(lia) VK) as [K0 K1]. assert (Z : P 1 0 = false) by (destruct E as (Id & _); apply (Id 1 0 K1 K0); lia).
      assert (Z0 : P0 1 0 = false) by (destruct (P0 1 0) eqn:W; [apply Sub in W; congruence|reflexivity]).
      apply (Ex 2 [0; 1] 1); [lia| |apply empty_est; assumption]. split; [reflexivity|]. split; [constructor; [constructor; [constructor|constructor]|constructor; [lia|constructor]]|intros v [<-|[<-|[]]]; lia].
  Qed.
  Lemma tri_found : exists P B, cam_fit 3 maxnum true alpha None ind value iter = Ok (P, B) /\
    B 1 0 = Some 1%Qc /\ B 0 1 = Some 0%Qc /\ B 2 0 = None /\ B 2 1 = None /\ B 0 2 = None /\ B 1 2 = None.
  Proof.
    destruct (C34_fit_always_returns 3 maxnum true alpha None ind value iter IP) as [[Z _]|(_ & P & B & E)]; [lia|]. exists P, B. split; [exact E|].
    assert (E' := E). unfold cam_fit in E'. destruct (maxnum =? 0) eqn:Mz; [discriminate|]. unfold find_parents in E'.
    destruct (loop (cam_step 3 maxnum true alpha None ind value iter (neighborhoods 3 ind)) (S (Nat.log2 (cam_top 3 maxnum))) (no_sets, 2)) as [s|Q] eqn:EL; [discriminate|].
    pose proof (loop_found 3 maxnum true alpha None ind value iter IP _ Q EL) as F. apply tri_invariant in F.
    destruct (loop_disc 3 maxnum true alpha None ind value iter IP _ Q EL) as [_ Ex]. injection E' as EP _.
    pose proof (prune_pruned 3 ind value Q) as Pr. rewrite EP in Pr.
    assert (Q1 : Q 1 0 = true).
    { destruct (Q 1 0) eqn:W; [reflexivity|exfalso]. apply (Ex 2 [0; 1] 1); [unfold top; lia| |apply empty_est; assumption]. split; [reflexivity|]. split; [constructor; [constructor; [constructor|constructor]|constructor; [lia|constructor]]|intros v [<-|[<-|[]]]; lia]. }
    assert (TP : tri P) by (intros i j H; apply Pr in H; apply F; tauto). pose proof (tri_row P TP) as R. pose proof (tri_row Q F) as RQ.
    assert (P1 : P 1 0 = true). { apply Pr. split; [exact Q1|]. intros _. cbn [seq filter Nat.ltb Nat.leb]. rewrite Q1, (RQ 1 1), (RQ 1 2) by lia. cbn [andb negb Nat.eqb]. rewrite (proj1 (tri_parents P TP)). exact I10. }
    destruct (tri_parents P TP) as (E0 & E2 & E1). rewrite P1 in E1. unfold parents_of in E0, E1, E2.
    destruct (C110_search_exact 3 maxnum true alpha None ind value iter P B IP E) as (_ & _ & _ & _ & B1).
    destruct (C35_adjacency_shape 3 maxnum true alpha None ind value iter P B IP E) as (_ & B01 & Bo & BN & _).
    split; [apply B1; exact P1|]. split; [apply (Bo 1 0); apply B1; exact P1|].
    assert (N1 : forall i j, i <> 1 \/ j <> 0 -> B i j <> Some 1%Qc) by (intros i j H C; apply B1 in C; rewrite (R i j H) in C; discriminate).
    assert (Bad : forall i j, i < 3 -> j < 3 -> (i = 0 /\ j = 2) \/ (i = 2 /\ j = 0) \/ (i = 1 /\ j = 2) \/ (i = 2 /\ j = 1) -> B i j = None).
    { intros i j Hi Hj C. apply BN; [exact Hi|exact Hj|]. split; [apply N1; lia|]. split; [apply N1; lia|]. split; [lia|].
      destruct C as [[-> ->]|[[-> ->]|[[-> ->]|[-> ->]]]]; cbn [Nat.ltb Nat.leb]; rewrite E0, E2 || rewrite E1, E2; auto. }
    repeat split; apply Bad; lia.
  Qed.
End Triangle.
