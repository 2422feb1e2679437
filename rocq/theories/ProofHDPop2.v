(** * Proofs: what HighDimDirectLiNGAM finds on exact samples *)
From Coq Require Import List Arith Bool ZArith QArith Qcanon Lia Permutation Relations Sorted.
From Verif Require Import Prelude Spec SpecPop SpecRCDPop SpecHDPop SpecHighDim Lib LibMat ModelDirect ModelRCD ModelHighDim ModelHighDimData
  ProofLim ProofPop ProofRCD ProofRCDPop ProofRCDPop3 ProofHighDim ProofHighDim2 ProofHDPop.
Import ListNotations.
Open Scope nat_scope.

(** Every nonempty set of variables contains one without parents in it. *)
Lemma exists_source : forall n B, acyclic (edge_of n B) -> forall U, U <> [] -> (forall v, In v U -> v < n) -> exists v, In v U /\ forall p, edge_of n B p v -> ~ In p U.
Proof.
  intros n B A U NE HU. destruct U as [|u U]; [congruence|].
  assert (G : forall i, i < n -> In i (u :: U) -> exists v, In v (u :: U) /\ forall p, edge_of n B p v -> ~ In p (u :: U)).
  { apply (dag_ind n B A (fun i => In i (u :: U) -> exists v, In v (u :: U) /\ forall p, edge_of n B p v -> ~ In p (u :: U))).
    intros i Hi IH Ii. destruct (existsb (fun j => negb (qeqb (B i j) 0)) (u :: U)) eqn:E.
    - apply existsb_exists in E. destruct E as (j & Hj & E). apply (IH j (HU j Hj)); [|exact Hj]. intro Z. rewrite Z in E. discriminate E.
    - exists i. split; [exact Ii|]. intros p (_ & _ & NZ) Hp.
      assert (T : existsb (fun j => negb (qeqb (B i j) 0)) (u :: U) = true).
      { apply existsb_exists. exists p. split; [exact Hp|]. apply negb_true_iff. unfold qeqb. destruct (Qc_eq_bool (B i p) 0) eqn:Q; [|reflexivity]. apply Qc_eq_bool_correct in Q. contradiction. }
      congruence. }
  apply (G u); [apply HU|]; left; reflexivity.
Qed.
Lemma is_max_unique : forall m m' f l, is_max m f l -> is_max m' f l -> m = m'.
Proof. intros m m' f l ((a & Ia & <-) & Ha) ((b & Ib & <-) & Hb). apply Qcle_antisym; [apply Hb|apply Ha]; assumption. Qed.
Lemma is_min_pos : forall m a b, is_min m a b -> (0 < a)%Qc -> (0 < b)%Qc -> (0 < m)%Qc.
Proof. intros m a b ([->| ->] & _) Ha Hb; assumption. Qed.
Lemma is_min_zero : forall m a b, is_min m a b -> (0 <= a)%Qc -> (0 <= b)%Qc -> a = 0%Qc \/ b = 0%Qc -> m = 0%Qc.
Proof. intros m a b ([->| ->] & L1 & L2) Ha Hb [Z|Z]; subst; try reflexivity; apply Qcle_antisym; assumption. Qed.
(** If some candidate has only zero statistics, the chosen one has only zero statistics too, and the cut-off stays 0. *)
Lemma choice_zero : forall alpha psi T c' r, round_choice alpha psi T 0 c' r -> (forall i j, In i psi -> In j psi -> (0 <= T i j)%Qc) ->
  (exists v, In v psi /\ forall j, In j psi -> T v j = 0%Qc) -> c' = 0%Qc /\ In r psi /\ forall j, In j psi -> T r j = 0%Qc.
Proof.
  intros alpha psi T c' r (Hr & m & Mr & HM & C1 & C2) NN (v & Hv & Zv).
  destruct (HM v Hv) as (mv & Mv & L & _). destruct Mv as ((y & Iy & Ey) & _). rewrite (Zv y Iy) in Ey. subst mv.
  assert (P : forall j, In j psi -> (T r j <= 0)%Qc) by (intros j Hj; eapply Qcle_trans; [apply (proj2 Mr j Hj)|exact L]).
  assert (Z : forall j, In j psi -> T r j = 0%Qc) by (intros j Hj; apply Qcle_antisym; [apply P|apply NN]; assumption).
  assert (M0 : m = 0%Qc) by (destruct Mr as ((y' & Iy' & <-) & _); apply Z; exact Iy'). subst m.
  split; [|split; assumption]. rewrite C2; [reflexivity|]. replace (0 * alpha)%Qc with 0%Qc by ring. apply Qcle_refl.
Qed.
Lemma left_over_In : forall psi K v, In v (left_over psi K) <-> In v psi /\ ~ In v K.
Proof. intros. unfold left_over. rewrite filter_In, negb_true_iff, memb_notIn. tauto. Qed.

Section FirstTwo.
  Variables (N n Kd : nat) (B : mat Qc) (e x : nat -> sample) (pinv : (nat -> sample) -> list nat -> nat -> nat -> Qc).
  Hypothesis M : exact_sample N n B e x.
  Hypothesis HK : 1 <= Kd.
  Hypothesis F : faithful N n Kd B x.
  Hypothesis NE : normal_equations N pinv.

  Lemma tau_zero : forall v C j, v < n -> j < n -> NoDup C -> (forall p, edge_of n B p v -> In p C) ->
    (forall q, In q C -> q < n /\ q <> v /\ ~ ancestor n B v q) -> data_tau N pinv Kd x v C j = 0%Qc.
  Proof.
    intros v C j Hv Hj ND HP HC. rewrite data_tau_eq. apply qabs_0.
    apply (parents_out_stat_zero N n B e x Kd M HK v C _ Hv ND HP HC); [apply resid_spec; assumption|exact Hj].
  Qed.
  Lemma tau0_zero : forall v j, v < n -> j < n -> (forall p, ~ edge_of n B p v) -> data_tau0 N Kd x v j = 0%Qc.
  Proof.
    intros v j Hv Hj HP. rewrite data_tau0_eq. apply qabs_0. apply (parents_out_stat_zero N n B e x Kd M HK v [] (x v) Hv (NoDup_nil _)); [intros p Hp; exfalso; exact (HP p Hp)|intros q []|apply residual_nil|exact Hj].
  Qed.
  Lemma tau_pos : forall v C p, edge_of n B p v -> NoDup C -> ~ In p C -> (forall q, In q C -> q < n /\ q <> v /\ ~ ancestor n B v q) -> (0 < data_tau N pinv Kd x v C p)%Qc.
  Proof. intros v C p E ND NI HC. rewrite data_tau_eq. apply qabs_pos. apply (F v p C _ E ND NI HC). apply resid_spec; assumption. Qed.
  Lemma tau0_pos : forall v p, edge_of n B p v -> (0 < data_tau0 N Kd x v p)%Qc.
  Proof. intros v p E. rewrite data_tau0_eq. apply qabs_pos. apply (F v p [] (x v) E (NoDup_nil _)); [intros []|intros q []|apply residual_nil]. Qed.
  Lemma edge_irrefl : forall p v, edge_of n B p v -> p <> v.
  Proof. intros p v E Q. subst p. apply (es_acyclic _ _ _ _ _ M v). apply t_step. exact E. Qed.
  Lemma tau_nonneg : forall v C j, (0 <= data_tau N pinv Kd x v C j)%Qc.
  Proof. intros. rewrite data_tau_eq. apply qabs_nonneg. Qed.
  Lemma tau0_nonneg : forall v j, (0 <= data_tau0 N Kd x v j)%Qc.
  Proof. intros. rewrite data_tau0_eq. apply qabs_nonneg. Qed.

  Variables (enum : list nat -> list nat) (J : nat) (alpha : Qc).
  Hypothesis enum_perm : forall l, Permutation (enum l) l.

  Lemma qbig : (0 < qz 100000)%Qc.
  Proof. reflexivity. Qed.
  (** The statistics after the first round. *)
  Lemma round_one : forall T c T' c' r, (forall i j, T i j = if i =? j then 0%Qc else qz 100000) -> c = 0%Qc -> 2 <= n ->
    round_stats (data_tau0 N Kd x) (data_tau N pinv Kd x) J [] (seq 0 n) T c T' -> round_choice alpha (seq 0 n) T' c c' r ->
    c' = 0%Qc /\ r < n /\ (forall p, ~ edge_of n B p r) /\ (forall i j, i < n -> j < n -> (0 <= T' i j)%Qc) /\
    (forall v p, edge_of n B p v -> (0 < T' v p)%Qc) /\ (forall i j, i < n -> j < n -> (T' i j <= qz 100000)%Qc).
  Proof.
    intros T c T' c' r HT -> Hn (D & _ & S1 & _) RC. specialize (S1 eq_refl).
    assert (NN : forall i j, i < n -> j < n -> (0 <= T' i j)%Qc).
    { intros i j Hi Hj. destruct (Nat.eq_dec i j) as [->|Nij]; [rewrite D; apply Qcle_refl|].
      destruct (S1 i j Nij ltac:(apply in_seq; lia) ltac:(apply in_seq; lia)) as ([->| ->] & _); [|apply tau0_nonneg].
      rewrite HT, (proj2 (Nat.eqb_neq i j) Nij). apply Qclt_le_weak, qbig. }
    assert (PO : forall v p, edge_of n B p v -> (0 < T' v p)%Qc).
    { intros v p E. pose proof (edge_irrefl p v E) as Npv. pose proof E as (Hv & Hp & _).
      eapply is_min_pos; [apply (S1 v p); [congruence|apply in_seq; lia|apply in_seq; lia]| |apply tau0_pos; exact E].
      rewrite HT. destruct (Nat.eqb_spec v p); [congruence|exact qbig]. }
    assert (ZE : forall v, v < n -> (forall p, ~ edge_of n B p v) -> forall j, j < n -> T' v j = 0%Qc).
    { intros v Hv HP j Hj. destruct (Nat.eq_dec v j) as [->|Nvj]; [apply D|].
      eapply is_min_zero; [apply (S1 v j Nvj); apply in_seq; lia| |apply tau0_nonneg|right; apply tau0_zero; assumption].
      rewrite HT, (proj2 (Nat.eqb_neq v j) Nvj). apply Qclt_le_weak, qbig. }
    destruct (exists_source n B (es_acyclic _ _ _ _ _ M) (seq 0 n)) as (s & Hs & HP); [destruct n; [lia|discriminate]|intros v Hv; apply in_seq in Hv; lia|].
    assert (HPs : forall p, ~ edge_of n B p s) by (intros p E; apply (HP p E); destruct E as (_ & Hp & _); apply in_seq; lia).
    apply in_seq in Hs.
    destruct (choice_zero alpha (seq 0 n) T' c' r RC) as (C0 & Hr & Zr).
    { intros i j Hi Hj. apply in_seq in Hi. apply in_seq in Hj. apply NN; lia. }
    { exists s. split; [apply in_seq; lia|]. intros j Hj. apply in_seq in Hj. apply ZE; [lia|exact HPs|lia]. }
    apply in_seq in Hr. split; [exact C0|]. split; [lia|]. split; [|split; [exact NN|split; [exact PO|]]].
    - intros p E. pose proof (PO r p E) as P. destruct E as (_ & Hp & _). rewrite (Zr p) in P by (apply in_seq; lia). exact (Qclt_not_le _ _ P (Qcle_refl _)).
    - intros i j Hi Hj. destruct (Nat.eq_dec i j) as [->|Nij]; [rewrite D; apply Qclt_le_weak, qbig|].
      destruct (S1 i j Nij ltac:(apply in_seq; lia) ltac:(apply in_seq; lia)) as (_ & L & _). rewrite HT, (proj2 (Nat.eqb_neq i j) Nij) in L. exact L.
  Qed.

  Lemma first_two : forall K, data_order N pinv Kd x enum J alpha n = Ok K -> 2 <= n ->
    exists a b rest, K = a :: b :: rest /\ (forall p, ~ edge_of n B p a) /\ (forall p, edge_of n B p b -> p = a).
  Proof.
    intros K HKo Hn. unfold data_order in HKo.
    destruct (hd_order_ok (data_tau0 N Kd x) (data_tau N pinv Kd x) enum J alpha true n) as (K' & E' & HO). rewrite HKo in E'. injection E' as <-.
    assert (LK : length K = n) by (rewrite (Permutation_length HO), seq_length; reflexivity).
    unfold hd_order in HKo.
    destruct (hd_loop_run (data_tau0 N Kd x) (data_tau N pinv Kd x) enum J alpha enum_perm n [] (seq 0 n) (fun i j => if i =? j then 0%Qc else qz 100000) 0%Qc K) as (K' & T & c & EK & _ & T0 & c0 & R); [apply seq_NoDup|apply ProofLim2.seq_sorted| |exact HKo|].
    { intros i j. destruct (i =? j); vm_compute; discriminate. }
    cbn [app] in EK. subst K'. rewrite seq_length in R.
    assert (L0 : left_over (seq 0 n) [] = seq 0 n).
    { unfold left_over. clear. induction (seq 0 n) as [|y l IH]; [reflexivity|]. cbn. f_equal. exact IH. }
    destruct (R 0 ltac:(lia)) as [RS RC]. cbn [firstn app nth] in RS, RC. rewrite L0 in RS, RC.
    destruct (round_one (T 0) (c 0) (T 1) (c 1) (nth 0 K 0) T0 c0 Hn RS RC) as (c1 & Ha & Pa & NN & PO & LE).
    destruct K as [|a [|b rest]]; [cbn in LK; lia|cbn in LK; lia|]. cbn [nth] in Ha, Pa. exists a, b, rest. split; [reflexivity|]. split; [exact Pa|].
    destruct (Nat.eq_dec n 2) as [N2|N2].
    - assert (rest = []) as -> by (destruct rest; [reflexivity|cbn in LK; lia]). intros p E.
      assert (Ip : In p [a; b]) by (apply (Permutation_in _ (Permutation_sym HO)), in_seq; destruct E as (_ & Hp & _); lia).
      destruct Ip as [<-|[<-|[]]]; [reflexivity|]. exfalso. exact (edge_irrefl b b E eq_refl).
    - destruct (R 1 ltac:(lia)) as [RS2 RC2]. cbn [firstn app nth] in RS2, RC2. rewrite c1 in RS2, RC2.
      set (psi := left_over (seq 0 n) [a]) in *.
      assert (HPsi : forall v, In v psi <-> v < n /\ v <> a).
      { intro v. unfold psi. rewrite left_over_In, in_seq. cbn. split; [intros [H1 H2]; split; [lia|]; intro; apply H2; left; congruence|intros [H1 H2]; split; [lia|]; intros [H|[]]; congruence]. }
      destruct RS2 as (D & _ & _ & S2). specialize (S2 [] a eq_refl).
      assert (NA : forall v, v < n -> v <> a -> ~ ancestor n B v a).
      { intros v Hv Nv An. destruct (anc_last n B v a An) as [E|(p & E & _)]; exact (Pa _ E). }
      assert (ST : forall v j, In v psi -> In j psi -> v <> j -> is_min (T 2 v j) (T 1 v j) (data_tau N pinv Kd x v [a] j)).
      { intros v j Hv Hj Nvj. destruct (S2 v Hv) as (C & y & HC & NDC & NDy & Iy & Nay & Ly & St).
        assert (y = []).
        { destruct y as [|z y]; [reflexivity|]. exfalso. assert (In z C) by (apply Iy; left; reflexivity). apply HC in H. destruct H as [[H|[]] _]. apply Nay. left. congruence. }
        subst y. apply (proj1 (St j Nvj)). left. exact Hj. }
      assert (VAL : forall v, v < n -> v <> a -> forall q, In q [a] -> q < n /\ q <> v /\ ~ ancestor n B v q).
      { intros v Hv Nv q [<-|[]]. split; [exact Ha|]. split; [congruence|]. apply NA; assumption. }
      assert (ND1 : NoDup [a]) by (constructor; [intros []|constructor]).
      destruct (exists_source n B (es_acyclic _ _ _ _ _ M) psi) as (s & Hs & HP).
      { intro Z. assert (X : In b psi). { apply HPsi. assert (Ib : In b (a :: b :: rest)) by (right; left; reflexivity). apply (Permutation_in _ HO), in_seq in Ib. split; [lia|].
          apply is_order_NoDup in HO. inversion HO as [|? ? NI _]. subst. intro; subst. apply NI. left. reflexivity. } rewrite Z in X. destruct X. }
      { intros v Hv. apply HPsi in Hv. tauto. }
      assert (NN2 : forall i j, In i psi -> In j psi -> (0 <= T 2 i j)%Qc).
      { intros i j Hi Hj. destruct (Nat.eq_dec i j) as [->|Nij]; [rewrite D; apply Qcle_refl|]. destruct (ST i j Hi Hj Nij) as ([->| ->] & _); [|apply tau_nonneg]. apply HPsi in Hi. apply HPsi in Hj. apply NN; tauto. }
      destruct (choice_zero alpha psi (T 2) (c 2) b RC2 NN2) as (_ & Hb & Zb).
      { exists s. split; [exact Hs|]. intros j Hj. destruct (Nat.eq_dec s j) as [->|Nsj]; [apply D|]. pose proof (proj1 (HPsi s) Hs) as [Hs1 Hs2]. pose proof (proj1 (HPsi j) Hj) as [Hj1 Hj2].
        eapply is_min_zero; [apply (ST s j Hs Hj Nsj)|apply NN; assumption|apply tau_nonneg|right]. apply tau_zero; try assumption; [|apply VAL; assumption].
        intros p E. left. destruct (Nat.eq_dec a p) as [Q|Q]; [exact Q|]. exfalso. apply (HP p E). apply HPsi. destruct E as (_ & Hp & _). split; [exact Hp|congruence]. }
      intros p E. destruct (Nat.eq_dec p a) as [Q|Q]; [exact Q|]. exfalso.
      pose proof (edge_irrefl p b E) as Npb. pose proof E as (_ & Hp & _). pose proof (proj1 (HPsi b) Hb) as [Hb1 Hb2].
      assert (Ip : In p psi) by (apply HPsi; split; assumption).
      assert (P : (0 < T 2 b p)%Qc).
      { eapply is_min_pos; [apply (ST b p Hb Ip); congruence|apply PO; exact E|]. apply tau_pos; [exact E|exact ND1|intros [H|[]]; congruence|apply VAL; assumption]. }
      rewrite (Zb p Ip) in P. exact (Qclt_not_le _ _ P (Qcle_refl _)).
  Qed.
End FirstTwo.
