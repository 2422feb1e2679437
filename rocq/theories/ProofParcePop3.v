(** * BottomUpParceLiNGAM on model data: soundness with hidden variables, exactness without *)
From Coq Require Import List Arith Bool ZArith QArith Qcanon Lia Permutation Relations Sorted.
From Verif Require Import Prelude Spec Lib LibMat SpecPop SpecRCDPop SpecParce SpecParcePop ModelDirect ModelParce ModelParcePop ModelRCDPop ProofEffect ProofDirect2 ProofPop ProofPop2 ProofPop3 ProofRCDPop ProofRCDPop2 ProofRCDPop4 ProofParce ProofParce3 ProofParce4 ProofParcePop ProofParcePop2.
From Verif Require ProofLim ProofBootstrap.
Import ListNotations.
Open Scope nat_scope.

Lemma bounded_length : forall n U, NoDup U -> (forall k, In k U -> k < n) -> length U <= n.
Proof. intros n U ND H. rewrite <- (seq_length n 0). apply NoDup_incl_length; [exact ND|]. intros k Hk. apply in_seq. specialize (H k Hk). lia. Qed.
Lemma share_dec : forall N m e y z, {share_no_error N m e y z} + {~ share_no_error N m e y z}.
Proof.
  intros N m e y z. unfold share_no_error. induction m as [|m IH]; [left; intros; lia|].
  destruct IH as [IH|IH]; [|right; intro H; apply IH; intros k Hk; apply H; lia].
  destruct (Qc_eq_dec (cov N y (e m)) 0) as [Z|Z].
  - left. intros k Hk. destruct (Nat.eq_dec k m) as [->|D]; [left; exact Z|apply IH; lia].
  - destruct (Qc_eq_dec (cov N z (e m)) 0) as [Z'|Z'].
    + left. intros k Hk. destruct (Nat.eq_dec k m) as [->|D]; [right; exact Z'|apply IH; lia].
    + right. intro H. destruct (H m (Nat.lt_succ_diag_r m)); contradiction.
Qed.

Lemma precedes_split : forall l l1 i l2 q, l = l1 ++ i :: l2 -> NoDup l -> (precedes l q i <-> In q l1).
Proof.
  intros l l1 i l2 q -> ND. split.
  - intro P. destruct (in_dec Nat.eq_dec q l1) as [Q|Q]; [exact Q|exfalso]. pose proof (proj1 (precedes_In _ _ _ P)) as I. apply in_app_iff in I. destruct I as [I|[<-|I]]; [contradiction| |].
    + exact (precedes_irrefl _ _ ND P).
    + apply (precedes_asym _ _ _ ND P). replace (l1 ++ i :: l2) with ((l1 ++ [i]) ++ l2) by (rewrite <- app_assoc; reflexivity). apply precedes_app_cross; [apply in_or_app; right; left; reflexivity|exact I].
  - intro I. apply precedes_app_cross; [exact I|left; reflexivity].
Qed.

Section Data.
  Variables (N m n : nat) (B : mat Qc) (e x : nat -> sample).
  Variable ols : (nat -> sample) -> list nat -> sample -> nat -> Qc.
  Hypothesis LM : linear_model N m B e x.
  Hypothesis NC : no_cancelling N m B e x.
  Hypothesis OLS : solves_least_squares N ols.
  Hypothesis nm : n <= m.
  Notation xc := (centred N x).
  Notation ec := (centred N e).
  Notation R := (parce_resid N ols x).
  Definition Ind (t : nat) (ps : list nat) (i : nat) : Prop := share_no_error N m e (xc i) (R t ps).
  Notation all_ind := (all_indep Ind).
  Definition observed (a b : nat) : Prop := a < n /\ b < n /\ ancestor m B a b.

  Lemma R_cov : forall t ps z, cov N (R t ps) z = (cov N (x t) z - sumf ps (fun p => ols xc ps (xc t) p * cov N (x p) z))%Qc.
  Proof.
    intros t ps z. unfold parce_resid. cbv zeta. rewrite (cov_minus N (xc t) (fun r => sumf ps (fun p => ols xc ps (xc t) p * xc p r)%Qc) z), (cov_wsum N ps (ols xc ps (xc t)) xc z).
    rewrite centred_cov_l, (sumf_ext _ (fun p => ols xc ps (xc t) p * cov N (xc p) z)%Qc (fun p => ols xc ps (xc t) p * cov N (x p) z)%Qc ps); [reflexivity|]. intros p _. rewrite centred_cov_l. reflexivity.
  Qed.
  Lemma xc_comb : forall i, i < m -> combination N m e (xc i).
  Proof. intros i Hi. apply centred_comb. apply (comb_x N m B ec xc (centred_model N m B e x LM) i Hi). Qed.
  Lemma R_comb : forall t ps, t < m -> (forall p, In p ps -> p < m) -> combination N m e (R t ps).
  Proof.
    intros t ps Ht Hp. unfold parce_resid. cbv zeta. apply comb_minus; [apply xc_comb; exact Ht|]. apply comb_sumf. intros p Ip. right. apply xc_comb, Hp, Ip.
  Qed.
  Lemma all_ind_no_effect : forall U j, NoDup U -> (forall k, In k U -> k < m) -> In j U -> all_ind U j -> forall i, In i U -> ~ ancestor m B j i.
  Proof.
    intros U j ND HU Hj A. apply (accepted_no_effect N m B e x LM U j (ols xc (without j U) (xc j)) (R j (without j U)) HU ND Hj NC).
    - intro z. apply R_cov.
    - intros i Hi k Hk. destruct (A i Hi k Hk) as [Q|Q]; [left|right; exact Q]. rewrite centred_cov_l in Q. exact Q.
  Qed.
  Lemma set_ok_of : forall U, StronglySorted lt U -> 2 <= length U -> (forall k, In k U -> k < n) -> set_ok n U.
  Proof. intros U S L H. split; [exact S|split; [exact L|]]. apply bounded_length; [apply sorted_nodup, S|exact H]. Qed.

  (** The residual of a variable on a set that contains its causes and none of its effects is its error. *)
  Lemma last_all_ind : forall U j, NoDup U -> (forall k, In k U -> k < m) -> In j U -> (forall i, In i U -> ~ ancestor m B j i) ->
    (forall q, edge_of m B q j -> In q U) -> all_ind U j.
  Proof.
    intros U j ND HU Hj NE PU. pose proof (HU j Hj) as Lj.
    set (G := without j U).
    assert (GI : forall g, In g G -> g < m /\ g <> j /\ ~ ancestor m B j g /\ In g U).
    { intros g Ig. apply without_In in Ig. destruct Ig as [I D]. split; [apply HU; exact I|]. split; [exact D|]. split; [apply NE; exact I|exact I]. }
    assert (NDG : NoDup G) by (apply NoDup_filter, ND).
    assert (LS : least_squares N x (x j) G (ols xc G (xc j))).
    { intros q Iq. pose proof (OLS xc G (xc j) NDG q Iq) as Q. rewrite cov_minus, (cov_wsum N G (ols xc G (xc j)) xc (xc q)) in Q. rewrite cov_minus, (cov_wsum N G (ols xc G (xc j)) x (x q)).
      rewrite centred_cov_l, centred_cov_r in Q. refine (eq_trans _ Q). rewrite (sumf_ext _ (fun p => ols xc G (xc j) p * cov N (xc p) (xc q))%Qc (fun p => ols xc G (xc j) p * cov N (x p) (x q))%Qc G); [reflexivity|]. intros p _. rewrite centred_cov_l, centred_cov_r. reflexivity. }
    assert (HP : forall q, edge_of m B q j -> In q G).
    { intros q E. apply without_In. split; [apply PU; exact E|]. intros ->. apply (lm_acyclic _ _ _ _ _ LM j). apply t_step. exact E. }
    pose proof (ls_direct N m B e x LM j G (ols xc G (xc j)) Lj NDG (fun g Ig => conj (proj1 (GI g Ig)) (conj (proj1 (proj2 (GI g Ig))) (proj1 (proj2 (proj2 (GI g Ig)))))) HP LS) as EQ.
    assert (RE : forall z, cov N (R j G) z = cov N (e j) z).
    { intro z. rewrite R_cov, (cov_split N m B e x LM j z Lj). rewrite (sumf_ext _ _ (fun p => B j p * cov N (x p) z)%Qc G) by (intros p Ip; rewrite (EQ p Ip); reflexivity).
      rewrite (sumf_sub m (fun p => B j p * cov N (x p) z)%Qc G NDG (fun g Ig => proj1 (GI g Ig))); [ring|].
      intros q Hq Nq. destruct (Qc_eq_dec (B j q) 0) as [Z|Z]; [rewrite Z; ring|]. contradiction Nq. apply HP. split; [exact Lj|split; [exact Hq|exact Z]]. }
    intros i Hi k Hk. fold G. destruct (GI i Hi) as (Li & D & NA & _). destruct (Nat.eq_dec k j) as [->|Dk].
    - left. rewrite centred_cov_l. apply (load_nonanc N m B e x LM i j Li Hk (not_eq_sym D) NA).
    - right. rewrite RE. apply (lm_uncorrelated _ _ _ _ _ LM j k Lj Hk (not_eq_sym Dk)).
  Qed.

  (** ** Without hidden variables *)
  Section NoHidden.
    Hypothesis mn : m = n.
    Lemma sink_all_ind : forall U j, NoDup U -> ancestral n (edge_of n B) U -> sink_in (edge_of n B) U j -> all_ind U j.
    Proof.
      intros U j ND AN SI. rewrite <- mn in AN, SI. pose proof SI as [Hj _]. pose proof AN as [HU CL].
      apply last_all_ind; [exact ND|exact HU|exact Hj|exact (sink_no_effect m B U j AN SI)|].
      intros q E. apply (CL q j); [apply E|exact E|exact Hj].
    Qed.
    Lemma favours : forall stat acc, (forall U j, set_ok n U -> In j U -> (forall k, In k U -> k < n) -> (acc U j <-> all_ind U j)) ->
      (forall U j i, set_ok n U -> In j U -> In i U -> (forall k, In k U -> k < n) -> all_ind U j -> ~ all_ind U i -> (stat U j < stat U i)%Qc) ->
      favours_sinks n (edge_of n B) stat acc.
    Proof.
      intros stat acc HA HS U j SU L2 AN SI. pose proof AN as [HU _]. pose proof SI as [Hj _]. pose proof (set_ok_of U SU L2 HU) as OK.
      pose proof (sink_all_ind U j (sorted_nodup _ SU) AN SI) as AJ. split; [apply HA; assumption|].
      intros i Hi NS. apply HS; try assumption. intro AI. apply NS. split; [exact Hi|]. intros k Hk E.
      apply (all_ind_no_effect U i (sorted_nodup _ SU) (fun k Ik => Nat.lt_le_trans _ _ _ (HU k Ik) nm) Hi AI k Hk). apply t_step. rewrite mn. exact E.
    Qed.
  End NoHidden.

  (** ** With hidden variables *)
  Lemma rejects : forall acc, (forall U j, set_ok n U -> In j U -> (forall k, In k U -> k < n) -> (acc U j <-> all_ind U j)) -> rejects_causes n observed acc.
  Proof.
    intros acc HA U j SU L2 [HU _] Hj AC. pose proof (set_ok_of U SU L2 HU) as OK. split; [exact Hj|]. intros i Hi (_ & _ & A).
    apply (HA U j OK Hj HU) in AC. exact (all_ind_no_effect U j (sorted_nodup _ SU) (fun k Ik => Nat.lt_le_trans _ _ _ (HU k Ik) nm) Hj AC i Hi A).
  Qed.
  Lemma observed_acyclic : acyclic observed.
  Proof.
    assert (G : forall a b, clos_trans nat observed a b -> ancestor m B a b).
    { intros a b H. induction H as [a b (_ & _ & A)|a b c _ IH1 _ IH2]; [exact A|]. eapply t_trans; eassumption. }
    intros v H. apply (lm_acyclic _ _ _ _ _ LM v). apply G. exact H.
  Qed.

  (** ** The variables left in the block *)
  Section Block.
    Variables (stat : list nat -> nat -> Qc) (acc : list nat -> nat -> Prop).
    Hypothesis HA : forall U j, set_ok n U -> In j U -> (forall k, In k U -> k < n) -> (acc U j <-> all_ind U j).
    Hypothesis HS : forall U j i, set_ok n U -> In j U -> In i U -> (forall k, In k U -> k < n) -> all_ind U j -> ~ all_ind U i -> (stat U j < stat U i)%Qc.
    Lemma chosen_plain : forall U T j, StronglySorted lt U -> chosen_sink stat (fun _ _ => False) U T j -> T = U /\ In j U /\ forall i, In i U -> (stat U j <= stat U i)%Qc.
    Proof.
      intros U T j SU (C & HC & SC & ET & IJ & MIN). assert (EC : C = U) by (apply sorted_unique; [exact SC|exact SU|]; intro v; rewrite HC; split; [intros [H _]; exact H|intro H; split; [exact H|intros k _ []]]).
      subst C. assert (T = U) by (rewrite ET; destruct (length U =? 1); reflexivity). subst T. rewrite H in MIN. split; [exact H|]. split; [exact IJ|]. intros i Hi.
      destruct (MIN i Hi) as [M1 M2]. destruct (lt_eq_lt_dec i j) as [[L|L]|L]; [apply Qclt_le_weak, M1, L|subst; apply Qcle_refl|apply M2, L].
    Qed.
    Lemma block_rejected : forall U K, bottom_up stat acc (fun _ _ => False) U K -> StronglySorted lt U -> 2 <= length U -> (forall k, In k U -> k < n) ->
      setdiff U K = [] \/ (2 <= length (setdiff U K) /\ forall j, In j (setdiff U K) -> ~ all_ind (setdiff U K) j).
    Proof.
      intros U K BU. induction BU as [U T j CH NA|U T j i CH AJ EW|U T j K CH AJ L2' BU IH]; intros SU L2 HU.
      - right. assert (E : setdiff U [] = U) by (unfold setdiff; clear; induction U as [|a U IH]; [reflexivity|cbn; f_equal; exact IH]). rewrite E. split; [exact L2|].
        destruct (chosen_plain U T j SU CH) as (-> & Hj & MIN). pose proof (set_ok_of U SU L2 HU) as OK. intros i Hi AI.
        assert (NAj : ~ all_ind U j) by (intro Q; apply NA; apply HA; assumption).
        apply (Qclt_not_le _ _ (HS U i j OK Hi Hj HU AI NAj)). apply MIN. exact Hi.
      - left. destruct (chosen_plain U T j SU CH) as (-> & Hj & MIN). destruct (setdiff U [i; j]) as [|v l] eqn:D; [reflexivity|exfalso].
        assert (I : In v (setdiff U [i; j])) by (rewrite D; left; reflexivity). apply setdiff_In in I. destruct I as [I1 I2].
        assert (W : In v (without j U)) by (apply without_In; split; [exact I1|intros ->; apply I2; right; left; reflexivity]). rewrite EW in W. destruct W as [<-|[]]. apply I2. left. reflexivity.
      - destruct (chosen_plain U T j SU CH) as (-> & Hj & MIN).
        assert (E : setdiff U (K ++ [j]) = setdiff (without j U) K).
        { apply sorted_unique; [apply sorted_filter, SU|apply sorted_filter, sorted_without, SU|]. intro v. rewrite !setdiff_In, without_In, in_app_iff. cbn [In]. split.
          - intros [I1 I2]. repeat split; [exact I1|intros ->; apply I2; right; left; reflexivity|intro Q; apply I2; left; exact Q].
          - intros [[I1 I2] I3]. split; [exact I1|]. intros [Q|[Q|[]]]; [contradiction|congruence]. }
        rewrite E. apply IH; [apply sorted_without, SU|exact L2'|]. intros k Hk. apply HU. apply without_In in Hk. tauto.
    Qed.
  End Block.

  Section Rows.
    Variable lasso : list nat -> nat -> nat -> num.
    Hypothesis RG : exact_regression N n x lasso.
    (** The row of an ordered variable without hidden direct causes is exact if the order is sound. *)
    Lemma row_exact : forall rest K, is_order n (rest ++ K) ->
      (forall a b, observed a b -> precedes (rest ++ K) a b \/ (In a rest /\ In b rest)) ->
      forall i j, In i K -> j < n -> (forall q, edge_of m B q i -> q < n) ->
      parce_adjacency lasso None (block_items rest ++ map Single K) i j = Some (B i j).
    Proof.
      intros rest K OR SND i j Hi Hj HP. pose proof (is_order_NoDup _ _ OR) as ND.
      rewrite (parce_adjacency_spec lasso None rest K i j ND). pose proof ND as ND'. apply NoDup_app_iff' in ND'. destruct ND' as (_ & _ & DJ).
      assert (NR : memb i rest = false) by (destruct (memb i rest) eqn:Q; [apply memb_In in Q; contradiction (DJ i Q Hi)|reflexivity]).
      rewrite NR, andb_false_r. cbn [andb]. assert (MK : memb i K = true) by (apply memb_In; exact Hi). rewrite MK.
      assert (I : In i (rest ++ K)) by (apply in_or_app; right; exact Hi). apply in_split in I. destruct I as (l1 & l2 & E).
      assert (Li : i < n) by (apply (is_order_In _ _ OR); apply in_or_app; right; exact Hi).
      rewrite (adjacency_row lasso None (rest ++ K) l1 i l2 j E ND). cbn [predictors_of].
      assert (PR : forall q, observed q i -> In q l1).
      { intros q O. destruct (SND q i O) as [Q|[_ Q]]; [|contradiction (DJ i Q Hi)]. apply (precedes_split (rest ++ K) l1 i l2 q E ND). exact Q. }
      assert (PE : forall q, edge_of m B q i -> In q l1) by (intros q Eq; apply PR; split; [apply HP; exact Eq|split; [exact Li|apply t_step; exact Eq]]).
      assert (ND1 : NoDup l1) by (rewrite E in ND; apply NoDup_app_iff' in ND; tauto).
      assert (L1 : forall g, In g l1 -> g < n) by (intros g Ig; apply (is_order_In _ _ OR); rewrite E; apply in_or_app; left; exact Ig).
      assert (G1 : forall g, In g l1 -> g < m /\ g <> i /\ ~ ancestor m B i g).
      { intros g Ig. split; [specialize (L1 g Ig); lia|]. assert (P : precedes (rest ++ K) g i) by (apply (precedes_split (rest ++ K) l1 i l2 g E ND); exact Ig).
        split; [intros ->; exact (precedes_asym _ _ _ ND P P)|]. intro A. destruct (SND i g) as [Q|[Q _]]; [split; [exact Li|split; [apply L1; exact Ig|exact A]]| |contradiction (DJ i Q Hi)].
        exact (precedes_asym _ _ _ ND P Q). }
      destruct (memb j l1) eqn:MJ.
      - apply memb_In in MJ. assert (NE : l1 <> []) by (intros ->; contradiction MJ).
        destruct (RG l1 i Li L1 ND1 NE) as (c & LS & EC). rewrite (EC j MJ). f_equal.
        apply (ls_direct N m B e x LM i l1 c ltac:(lia) ND1 G1 PE LS j MJ).
      - destruct (Qc_eq_dec (B i j) 0) as [Z|Z]; [rewrite Z; reflexivity|]. assert (Ij : In j l1) by (apply PE; split; [lia|split; [lia|exact Z]]). apply memb_In in Ij. congruence.
    Qed.
  End Rows.
End Data.
