(** * BottomUpParceLiNGAM on model data: what the tests decide, and the theorems *)
From Coq Require Import List Arith Bool ZArith QArith Qcanon Lia Permutation Relations Sorted.
From Verif Require Import Prelude Spec Lib LibMat SpecPop SpecRCDPop SpecParce SpecParcePop ModelDirect ModelParce ModelParcePop ModelRCDPop ProofEffect ProofDirect2 ProofPop ProofPop2 ProofPop3 ProofRCDPop ProofRCDPop2 ProofRCDPop4 ProofParce ProofParce3 ProofParce4 ProofParcePop.
From Verif Require ProofLim ProofBootstrap.
Import ListNotations.
Open Scope nat_scope.

(** ** The combined tests accept exactly when every single pair is independent *)
Section Tests.
  Variable I : nat -> list nat -> nat -> Prop.
  Hypothesis Idec : forall t ps i, {I t ps i} + {~ I t ps i}.
  Variables (n : nat) (P : nat -> Prop).
  Definition all_indep (U : list nat) (j : nat) : Prop := forall i, In i (without j U) -> I j (without j U) i.
  Definition set_ok (U : list nat) : Prop := StronglySorted lt U /\ 2 <= length U /\ length U <= n.

  Lemma without_length : forall U j, NoDup U -> In j U -> S (length (without j U)) = length U.
  Proof.
    intros U j ND Hj. assert (PM : Permutation U (j :: without j U)).
    { apply NoDup_Permutation; [exact ND| |].
      - constructor; [intro Q; apply without_In in Q; tauto|apply NoDup_filter, ND].
      - intro q. cbn [In]. rewrite without_In. destruct (Nat.eq_dec q j) as [->|D]; [tauto|]. split; [right; tauto|intros [Q|Q]; [congruence|tauto]]. }
    apply Permutation_length in PM. cbn [length] in PM. lia.
  Qed.
  Lemma not_all : forall U j, ~ all_indep U j -> exists i, In i (without j U) /\ ~ I j (without j U) i.
  Proof.
    intros U j H. set (ps := without j U) in *. assert (D : (forall i, In i ps -> I j ps i) \/ exists i, In i ps /\ ~ I j ps i).
    { clear H. generalize (fun i => Idec j ps i). generalize (I j ps). clear. intros Q D. induction ps as [|a l IH]; [left; intros i []|].
      destruct (D a) as [Y|Y]; [|right; exists a; split; [left; reflexivity|exact Y]].
      destruct IH as [IH|(i & H1 & H2)]; [left; intros i [<-|H]; auto|right; exists i; split; [right; exact H1|exact H2]]. }
    destruct D as [D|D]; [contradiction|exact D].
  Qed.

  Section F.
    Variables (fc : nat -> list nat -> nat -> Qc) (thr : Qc).
    Hypothesis thr_pos : (0 < thr)%Qc.
    Hypothesis FC : forall U j i, set_ok U -> In j U -> (forall k, In k U -> P k) -> In i (without j U) -> ((fc j (without j U) i < thr)%Qc <-> I j (without j U) i).
    Lemma fold_max_lt : forall (g : nat -> Qc) l, ((fold_right (fun i m => if Qclt_le_dec m (g i) then g i else m) 0 l < thr)%Qc <-> forall i, In i l -> (g i < thr)%Qc).
    Proof.
      intros g l. induction l as [|a l IH]; [split; [intros _ i []|intros _; exact thr_pos]|]. cbn [fold_right].
      destruct (Qclt_le_dec _ _) as [Q|Q].
      - split.
        + intros H i [<-|Hi]; [exact H|]. apply (proj1 IH); [|exact Hi]. eapply Qclt_trans; eassumption.
        + intro H. apply H. left. reflexivity.
      - split.
        + intros H i [<-|Hi]; [eapply Qcle_lt_trans; eassumption|]. apply (proj1 IH); assumption.
        + intro H. apply IH. intros i Hi. apply H. right. exact Hi.
    Qed.
    Lemma fcorr_test : forall U j, set_ok U -> In j U -> (forall k, In k U -> P k) -> ((fcorr_of fc U j < thr)%Qc <-> all_indep U j).
    Proof.
      intros U j OK Hj HP. assert (G : (fcorr_of fc U j < thr)%Qc <-> forall i, In i (without j U) -> (fc j (without j U) i < thr)%Qc).
      { unfold fcorr_of. destruct (without j U) as [|a [|b l]] eqn:W.
        - apply (fold_max_lt (fc j []) []).
        - split; [intros H i [<-|[]]; exact H|]. intro H. apply H. left. reflexivity.
        - apply (fold_max_lt (fc j (a :: b :: l)) (a :: b :: l)). }
      rewrite G. unfold all_indep. split; intros H i Hi; specialize (H i Hi); apply (FC U j i OK Hj HP Hi); exact H.
    Qed.
  End F.

  Section H.
    Variables (st pv : nat -> list nat -> nat -> Qc) (m2log : Qc -> Qc) (sf : Qc -> nat -> num) (alpha lo hi cut : Qc).
    Hypothesis nonneg : forall t ps i, (0 <= m2log (pv t ps i))%Qc.
    Hypothesis HI : forall U j i, set_ok U -> In j U -> (forall k, In k U -> P k) -> In i (without j U) -> I j (without j U) i ->
      (m2log (pv j (without j U) i) <= lo)%Qc /\ (alpha <= pv j (without j U) i)%Qc /\ (st j (without j U) i < cut)%Qc.
    Hypothesis HD : forall U j i, set_ok U -> In j U -> (forall k, In k U -> P k) -> In i (without j U) -> ~ I j (without j U) i ->
      (hi <= m2log (pv j (without j U) i))%Qc /\ (pv j (without j U) i < alpha)%Qc /\ (cut <= st j (without j U) i)%Qc.
    Hypothesis lo0 : (0 <= lo)%Qc.
    Hypothesis lohi : (qn n * lo < hi)%Qc.
    Hypothesis SA : forall k s, k < n -> (0 <= s)%Qc -> (s <= qn k * lo)%Qc -> exists p, sf s (2 * k) = Some p /\ (alpha <= p)%Qc.
    Hypothesis SR : forall k s, k < n -> (hi <= s)%Qc -> exists p, sf s (2 * k) = Some p /\ (p < alpha)%Qc.
    Notation acc U j := (forall p, hsic_p_of st pv m2log sf U j = Some p -> ~ (p < alpha)%Qc).

    Lemma sum_nonneg : forall (f : nat -> Qc) l, (forall i, In i l -> (0 <= f i)%Qc) -> (0 <= sumf l f)%Qc.
    Proof.
      intros f l. induction l as [|a l IH]; intro H; [rewrite sumf_nil; apply Qcle_refl|]. rewrite sumf_cons.
      assert (A : (0 + 0 <= f a + sumf l f)%Qc) by (apply Qcplus_le_compat; [apply H; left; reflexivity|apply IH; intros; apply H; right; assumption]).
      replace (0 + 0)%Qc with 0%Qc in A by ring. exact A.
    Qed.
    Lemma sum_le : forall (f : nat -> Qc) l, (forall i, In i l -> (f i <= lo)%Qc) -> (sumf l f <= qn (length l) * lo)%Qc.
    Proof.
      intros f l. induction l as [|a l IH]; intro H; [rewrite sumf_nil; cbn [length]; replace (qn 0 * lo)%Qc with 0%Qc; [apply Qcle_refl|]|].
      - change (qn 0) with 0%Qc. ring.
      - rewrite sumf_cons. cbn [length]. rewrite ProofLim.qn_S. replace ((qn (length l) + 1) * lo)%Qc with (lo + qn (length l) * lo)%Qc by ring.
        apply Qcplus_le_compat; [apply H; left; reflexivity|apply IH; intros; apply H; right; assumption].
    Qed.
    Lemma sum_ge : forall (f : nat -> Qc) l i, (forall i, In i l -> (0 <= f i)%Qc) -> In i l -> (hi <= f i)%Qc -> (hi <= sumf l f)%Qc.
    Proof.
      intros f l i. induction l as [|a l IH]; intros H Hi Q; [contradiction|]. rewrite sumf_cons. destruct Hi as [->|Hi].
      - assert (A : (hi + 0 <= f i + sumf l f)%Qc) by (apply Qcplus_le_compat; [exact Q|apply sum_nonneg; intros; apply H; right; assumption]).
        replace (hi + 0)%Qc with hi in A by ring. exact A.
      - assert (A : (0 + hi <= f a + sumf l f)%Qc) by (apply Qcplus_le_compat; [apply H; left; reflexivity|apply IH; [intros; apply H; right; assumption|exact Hi|exact Q]]).
        replace (0 + hi)%Qc with hi in A by ring. exact A.
    Qed.
    Lemma hsic_test : forall U j, set_ok U -> In j U -> (forall k, In k U -> P k) -> (acc U j <-> all_indep U j).
    Proof.
      intros U j OK Hj HP. pose proof OK as (SU & L2 & Ln). pose proof (without_length U j (sorted_nodup _ SU) Hj) as WL.
      split.
      - intros A i Hi. destruct (Idec j (without j U) i) as [Y|Y]; [exact Y|exfalso]. destruct (HD U j i OK Hj HP Hi Y) as (D1 & D2 & _).
        unfold hsic_p_of, hsic_stat_of in A. destruct (without j U) as [|a [|b l]] eqn:W; [contradiction| |].
        + destruct Hi as [<-|[]]. exact (A _ eq_refl D2).
        + destruct (SR (length (a :: b :: l)) (sumf (a :: b :: l) (fun i => m2log (pv j (a :: b :: l) i)))) as (p & E & Lp); [lia| |exact (A p E Lp)].
          apply (sum_ge (fun i => m2log (pv j (a :: b :: l) i)) (a :: b :: l) i (fun i _ => nonneg _ _ _) Hi D1).
      - intros A. assert (HI' := fun i Hi => HI U j i OK Hj HP Hi (A i Hi)). unfold hsic_p_of, hsic_stat_of. destruct (without j U) as [|a [|b l]] eqn:W; [cbn in WL; lia| |].
        + intros p E. inversion E. apply Qcle_not_lt. apply (HI' a). left. reflexivity.
        + intros p E. destruct (SA (length (a :: b :: l)) (sumf (a :: b :: l) (fun i => m2log (pv j (a :: b :: l) i)))) as (q & E' & Lq); [lia| | |].
          * apply sum_nonneg. intros. apply nonneg.
          * apply sum_le. intros i Hi. apply (HI' i Hi).
          * rewrite E' in E. inversion E. subst. apply Qcle_not_lt. exact Lq.
    Qed.
    Lemma hsic_stat_lt : forall U j i, set_ok U -> In j U -> In i U -> (forall k, In k U -> P k) -> all_indep U j -> ~ all_indep U i ->
      (hsic_stat_of st pv m2log U j < hsic_stat_of st pv m2log U i)%Qc.
    Proof.
      intros U j i OK Hj Hi HP AJ AI. pose proof OK as (SU & L2 & Ln).
      pose proof (without_length U j (sorted_nodup _ SU) Hj) as WJ. pose proof (without_length U i (sorted_nodup _ SU) Hi) as WI.
      destruct (not_all U i AI) as (k & Ik & NK). assert (HJ' := fun q Hq => HI U j q OK Hj HP Hq (AJ q Hq)). pose proof (HD U i k OK Hi HP Ik NK) as (D1 & _ & D3).
      unfold hsic_stat_of. destruct (without j U) as [|a [|b l]] eqn:W; [cbn in WJ; lia| |].
      - destruct (without i U) as [|c [|d l']] eqn:W'; [contradiction| |cbn [length] in *; lia]. destruct Ik as [<-|[]].
        eapply Qclt_le_trans; [apply (HJ' a); left; reflexivity|exact D3].
      - destruct (without i U) as [|c [|d l']] eqn:W'; [contradiction|cbn [length] in *; lia|].
        eapply Qcle_lt_trans; [apply (sum_le (fun i => m2log (pv j (a :: b :: l) i)) (a :: b :: l)); intros q Hq; apply (HJ' q Hq)|].
        eapply Qcle_lt_trans; [|eapply Qclt_le_trans; [exact lohi|apply (sum_ge (fun i0 => m2log (pv i (c :: d :: l') i0)) (c :: d :: l') k (fun _ _ => nonneg _ _ _) Ik D1)]].
        apply Qcmult_le_compat_r; [|exact lo0]. apply ProofBootstrap.qn_le. lia.
    Qed.
  End H.
End Tests.
