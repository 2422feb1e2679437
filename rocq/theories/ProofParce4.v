From Coq Require Import List Arith Lia Bool ZArith QArith Qcanon Permutation Sorted Relations.
From Verif Require Import Prelude Spec Lib SpecDirect SpecPop ModelDirect ProofDirect ProofDirect2 ModelParce ProofParce ProofParce3 SpecParce ProofPop3 ProofPop2.
Import ListNotations.
Open Scope nat_scope.

Definition before_of (n : nat) (pk : option (mat num)) (a b : nat) : Prop :=
  match pk with None => False | Some m => a < n /\ b < n /\ must_precede m a b end.

Section Fit.
  Variables (hsic2 : nat -> list nat -> nat -> num * num) (fcorr : nat -> list nat -> nat -> num)
    (m2log : Qc -> Qc) (sf : ext -> nat -> num) (thr ind_corr : Qc) (mode : indep) (lasso : list nat -> nat -> nat -> num).
  Variables (st pv fc : nat -> list nat -> nat -> Qc).
  Hypothesis fin_h : mode = Hsic -> forall t ps i, hsic2 t ps i = (Some (st t ps i), Some (pv t ps i)) /\
    pv t ps i <> 0%Qc /\ (0 <= m2log (pv t ps i))%Qc.
  Hypothesis fin_f : mode = Fcorr -> forall t ps i, fcorr t ps i = Some (fc t ps i).
  Lemma fit_exact : forall n pk order B, 2 <= n -> (forall m, pk = Some m -> orderable n m) ->
    parce_fit hsic2 fcorr m2log sf thr ind_corr mode lasso n pk true = Ok (order, B) ->
    exists K, bottom_up (stat_of m2log mode st pv fc) (accepts m2log sf thr ind_corr mode st pv fc) (before_of n pk) (seq 0 n) K /\
      is_order n (setdiff (seq 0 n) K ++ K) /\
      order = block_items (setdiff (seq 0 n) K) ++ map Single K /\
      B = parce_adjacency lasso pk (block_items (setdiff (seq 0 n) K) ++ map Single K).
  Proof.
    intros n pk order B Hn HO E. unfold parce_fit in E. assert (En : n =? 1 = false) by (apply Nat.eqb_neq; lia).
    set (epo := match pk with None => Ok None | Some m => let* l := extract_partial_orders n m in Ok (Some l) end) in E.
    destruct epo as [po|] eqn:Epo; [|discriminate]. cbn [bind] in E. rewrite En in E.
    destruct (search_order hsic2 fcorr m2log sf thr ind_corr mode n po (seq 0 n) []) as [K|] eqn:ES; [|discriminate].
    cbn [bind] in E.
    assert (I : sinv n (po_list po) po (seq 0 n) [] /\ (forall a b, In (a, b) (po_list po) <-> a < n /\ b < n /\ before_of n pk a b) /\
      (forall U, 2 <= length U -> NoDup U -> (forall x, In x U -> x < n) -> exists x, In x U /\ forall t, In t U -> ~ In (x, t) (po_list po))).
    { unfold epo in Epo. destruct pk as [m|].
      - destruct (extract_partial_orders n m) as [l|] eqn:EX; [|discriminate]. inversion Epo. subst po. cbn [po_list before_of].
        split; [eapply sinv_init_some; [lia|exact EX]|]. split.
        + intros a b. rewrite (extract_ok n m l EX a b). tauto.
        + destruct (HO m eq_refl) as [l0 [Hl HP]]. intros U L ND HU. destruct (exists_first (rev l0) U) as [x [Hx Hm]].
          * apply NoDup_rev. eapply is_order_NoDup. exact Hl.
          * intros x Hx. apply in_rev. rewrite rev_involutive. apply (is_order_In _ _ Hl). apply HU. exact Hx.
          * destruct U; [simpl in L; lia|discriminate].
          * exists x. split; [exact Hx|]. intros t Ht Hxt. apply (Hm t Ht). apply precedes_rev.
            apply (proj1 (extract_ok n m l EX x t)) in Hxt. apply HP; tauto.
      - inversion Epo. subst po. split; [apply sinv_init_none; lia|]. cbn [po_list before_of]. split.
        + intros a b. cbn [In]. tauto.
        + intros U L ND HU. destruct U as [|u U]; [simpl in L; lia|]. exists u. split; [left; reflexivity|]. intros t _ []. }
    destruct I as [I [BF C]].
    destruct (search_exact hsic2 fcorr m2log sf thr ind_corr mode st pv fc fin_h fin_f n n (po_list po) po (seq 0 n) [] K (before_of n pk) C BF I (sorted_seq n 0) ES)
      as [L [EL BU]]. rewrite app_nil_r in EL. subst L. exists K. split; [exact BU|].
    pose proof (search_sound _ _ _ _ _ _ _ n n (po_list po) po _ _ K I ES) as SO.
    destruct (sout_order hsic2 fcorr m2log thr lasso n (po_list po) K SO) as [block [HL [HOr [HB [HI HP]]]]].
    rewrite HB, HI in E. inversion E; subst order B. rewrite HB. auto.
  Qed.
End Fit.

(** ** Soundness and correctness of a bottom-up run with respect to a graph *)
Lemma sorted_unique : forall a b, StronglySorted lt a -> StronglySorted lt b -> (forall x, In x a <-> In x b) -> a = b.
Proof.
  induction a as [|x a IH]; intros b SA SB H.
  - destruct b as [|y b]; [reflexivity|]. exfalso. apply (H y). left. reflexivity.
  - destruct b as [|y b]; [exfalso; apply (proj1 (H x)); left; reflexivity|].
    inversion SA as [|? ? SA' FA]; subst. inversion SB as [|? ? SB' FB]; subst. rewrite Forall_forall in FA, FB.
    assert (x = y).
    { destruct (proj1 (H x) (or_introl eq_refl)) as [E|E]; [congruence|]. destruct (proj2 (H y) (or_introl eq_refl)) as [E'|E']; [congruence|].
      apply FA in E'. apply FB in E. lia. }
    subst y. f_equal. apply IH; try assumption. intro z. split; intro I.
    + destruct (proj1 (H z) (or_intror I)) as [E|E]; [|exact E]. subst. apply FA in I. lia.
    + destruct (proj2 (H z) (or_intror I)) as [E|E]; [|exact E]. subst. apply FB in I. lia.
Qed.
Lemma without_In : forall j U x, In x (without j U) <-> In x U /\ x <> j.
Proof. intros j U x. apply remove_nat_In. Qed.


Lemma sorted_NoDup : forall l, StronglySorted lt l -> NoDup l.
Proof.
  induction 1 as [|x l H IH F]; constructor; [|exact IH]. rewrite Forall_forall in F. intro I. apply F in I. lia.
Qed.
Lemma sorted_without : forall j l, StronglySorted lt l -> StronglySorted lt (without j l).
Proof. intros. apply sorted_filter. assumption. Qed.
Lemma ancestral_without : forall n E U j, ancestral n E U -> sink_in E U j -> ancestral n E (without j U).
Proof.
  intros n E U j [H1 H2] [Hj S]. split.
  - intros i Hi. apply without_In in Hi. apply H1. tauto.
  - intros a b Ha Eab Hb. apply without_In in Hb. apply without_In. destruct Hb as [Hb Nb]. split; [eapply H2; eassumption|].
    intros ->. exact (S b Hb Eab).
Qed.

Section Graph.
  Variables (stat : list nat -> nat -> Qc) (accepted : list nat -> nat -> Prop) (n : nat) (E : graph).
  Lemma chosen_free : forall U T j, StronglySorted lt U -> chosen_sink stat (fun _ _ => False) U T j ->
    T = U /\ In j U /\ forall i, In i U -> (stat U j <= stat U i)%Qc.
  Proof.
    intros U T j SU (C & HC & SC & HT & Hj & HM).
    assert (C = U) by (apply sorted_unique; [exact SC|exact SU|]; intro x; rewrite (HC x); tauto). subst C.
    assert (T = U) by (destruct (length U =? 1); exact HT). split; [exact H|]. rewrite H in HM. split; [exact Hj|].
    intros i Hi. destruct (HM i Hi) as [A B]. destruct (lt_eq_lt_dec i j) as [[L| ->]|L]; [apply Qclt_le_weak, A, L|apply Qcle_refl|apply B, L].
  Qed.

  Hypothesis irr : forall a, ~ E a a.
  Hypothesis SND : rejects_causes n E accepted.
  Lemma bottom_up_sound : forall U K, bottom_up stat accepted (fun _ _ => False) U K ->
    StronglySorted lt U -> 2 <= length U -> ancestral n E U ->
    (forall x, In x K -> In x U) /\
    (forall a b, In b U -> In a K -> E a b -> precedes K a b).
  Proof.
    intros U K R. induction R as [U T j CH NA|U T j i CH AC W|U T j K CH AC L R IH]; intros SU LU AU.
    - split; [intros x []|intros a b _ []].
    - destruct (chosen_free U T j SU CH) as [-> [Hj _]]. pose proof (SND U j SU LU AU Hj AC) as SK.
      assert (HU : forall x, In x U <-> x = i \/ x = j).
      { intro x. assert (X := without_In j U x). rewrite W in X. cbn [In] in X. destruct (Nat.eq_dec x j) as [->|D]; [tauto|].
        split; [intro; left; symmetry; tauto|]. intros [->|]; [|contradiction]. tauto. }
      split; [intros x [<-|[<-|[]]]; apply HU; auto|].
      intros a b Hb Ha Eab. pose proof Hb as HbU. apply HU in Hb. destruct Ha as [<-|[<-|[]]].
      + destruct Hb as [->| ->]; [exfalso; exact (irr _ Eab)|]. exists [], [], []. reflexivity.
      + exfalso. exact (proj2 SK b HbU Eab).
    - destruct (chosen_free U T j SU CH) as [-> [Hj _]]. pose proof (SND U j SU LU AU Hj AC) as SK.
      destruct (IH (sorted_without j U SU) L (ancestral_without n E U j AU SK)) as [I1 I2].
      split.
      + intros x Hx. apply in_app_iff in Hx. destruct Hx as [Hx|[<-|[]]]; [apply I1, without_In in Hx; tauto|exact Hj].
      + intros a b Hb Ha Eab. apply in_app_iff in Ha. destruct Ha as [Ha|[<-|[]]]; [|exfalso; exact (proj2 SK b Hb Eab)].
        destruct (Nat.eq_dec b j) as [->|D].
        * apply precedes_app_cross; [exact Ha|left; reflexivity].
        * apply precedes_app_l. apply I2; [apply without_In; tauto|exact Ha|exact Eab].
  Qed.

  Hypothesis dec : forall a b, {E a b} + {~ E a b}.
  Hypothesis acyc : acyclic E.
  Hypothesis FAV : favours_sinks n E stat accepted.
  Lemma sink_exists : forall U, U <> [] -> ancestral n E U -> exists j, sink_in E U j.
  Proof.
    intros U NE [AU _]. destruct (topo_exists E n dec acyc) as [l [Hl HP]].
    destruct (exists_first (rev l) U) as [x [Hx Hm]].
    - apply NoDup_rev. eapply is_order_NoDup. exact Hl.
    - intros x Hx. apply in_rev. rewrite rev_involutive. apply (is_order_In _ _ Hl). apply AU. exact Hx.
    - exact NE.
    - exists x. split; [exact Hx|]. intros t Ht Hxt. apply (Hm t Ht). apply precedes_rev. apply HP; auto.
  Qed.
  Lemma chosen_is_sink : forall U T j, StronglySorted lt U -> 2 <= length U -> ancestral n E U ->
    chosen_sink stat (fun _ _ => False) U T j -> T = U /\ sink_in E U j /\ accepted U j.
  Proof.
    intros U T j SU LU AU CH. destruct (chosen_free U T j SU CH) as [ET [Hj HM]]. split; [exact ET|].
    destruct (sink_exists U) as [s Hs]; [destruct U; [simpl in LU; lia|discriminate]|exact AU|].
    destruct (FAV U s SU LU AU Hs) as [_ HF].
    assert (SJ : sink_in E U j).
    { split; [exact Hj|]. intros i Hi Eji. assert (NS : ~ sink_in E U j) by (intros [_ Z]; exact (Z i Hi Eji)).
      pose proof (HF j Hj NS) as Lt. pose proof (HM s (proj1 Hs)) as Le. apply (Qclt_not_le _ _ Lt Le). }
    split; [exact SJ|]. apply (FAV U j SU LU AU SJ).
  Qed.
  Lemma bottom_up_complete : forall U K, bottom_up stat accepted (fun _ _ => False) U K ->
    StronglySorted lt U -> 2 <= length U -> ancestral n E U ->
    (forall x, In x U -> In x K) /\ forall a b, In a U -> In b U -> E a b -> precedes K a b.
  Proof.
    intros U K R. induction R as [U T j CH NA|U T j i CH AC W|U T j K CH AC L R IH]; intros SU LU AU;
      destruct (chosen_is_sink U T j SU LU AU CH) as [-> [SK AK]].
    - contradiction.
    - assert (HU : forall x, In x U <-> x = i \/ x = j).
      { intro x. assert (X := without_In j U x). rewrite W in X. cbn [In] in X. destruct SK as [Hj _]. destruct (Nat.eq_dec x j) as [->|D]; [tauto|].
        split; [intro; left; symmetry; tauto|]. intros [->|]; [|contradiction]. tauto. }
      split; [intros x Hx; apply HU in Hx; destruct Hx as [->| ->]; cbn [In]; tauto|].
      intros a b Ha Hb Eab. pose proof Hb as HbU. apply HU in Hb. apply HU in Ha. destruct Ha as [->| ->].
      + destruct Hb as [->| ->]; [exfalso; exact (irr _ Eab)|]. exists [], [], []. reflexivity.
      + exfalso. exact (proj2 SK b HbU Eab).
    - destruct (IH (sorted_without j U SU) L (ancestral_without n E U j AU SK)) as [I1 I2].
      split.
      + intros x Hx. apply in_app_iff. destruct (Nat.eq_dec x j) as [->|D]; [right; left; reflexivity|left; apply I1, without_In; tauto].
      + intros a b Ha Hb Eab. destruct (Nat.eq_dec a j) as [->|Da]; [exfalso; exact (proj2 SK b Hb Eab)|].
        destruct (Nat.eq_dec b j) as [->|D].
        * apply precedes_app_cross; [apply I1, without_In; tauto|left; reflexivity].
        * apply precedes_app_l. apply I2; [apply without_In; tauto|apply without_In; tauto|exact Eab].
  Qed.
End Graph.

Lemma acyclic_irrefl : forall E : graph, acyclic E -> forall a, ~ E a a.
Proof. intros E A a H. apply (A a). apply t_step. exact H. Qed.

Section Correct.
  Variables (hsic2 : nat -> list nat -> nat -> num * num) (fcorr : nat -> list nat -> nat -> num)
    (m2log : Qc -> Qc) (sf : ext -> nat -> num) (thr ind_corr : Qc) (mode : indep) (lasso : list nat -> nat -> nat -> num).
  Variables (st pv fc : nat -> list nat -> nat -> Qc).
  Hypothesis fin_h : mode = Hsic -> forall t ps i, hsic2 t ps i = (Some (st t ps i), Some (pv t ps i)) /\
    pv t ps i <> 0%Qc /\ (0 <= m2log (pv t ps i))%Qc.
  Hypothesis fin_f : mode = Fcorr -> forall t ps i, fcorr t ps i = Some (fc t ps i).
  Variables (n : nat) (E : graph) (order : list item) (M : mat num).
  Hypothesis Hn : 2 <= n.
  Hypothesis AC : acyclic E.
  Hypothesis FIT : parce_fit hsic2 fcorr m2log sf thr ind_corr mode lasso n None true = Ok (order, M).
  Let acc := accepts m2log sf thr ind_corr mode st pv fc.
  Let stat := stat_of m2log mode st pv fc.
  Lemma all_ancestral : ancestral n E (seq 0 n).
  Proof. split; [intros i Hi; apply in_seq in Hi; lia|]. intros x y Hx _ _. apply in_seq. lia. Qed.
  Lemma flat_of : forall K rest, order = block_items rest ++ map Single K -> flatten order = rest ++ K.
  Proof.
    intros K rest ->. rewrite flatten_app, flatten_singles. destruct rest; [reflexivity|].
    cbn [block_items flatten flat_map]. rewrite app_nil_r. reflexivity.
  Qed.
  Lemma fit_sound : rejects_causes n E acc ->
    forall a b, a < n -> b < n -> E a b ->
      precedes (flatten order) a b \/ exists block, In (Block block) order /\ In a block /\ In b block.
  Proof.
    intros RJ a b Ha Hb Eab.
    destruct (fit_exact hsic2 fcorr m2log sf thr ind_corr mode lasso st pv fc fin_h fin_f n None order M Hn ltac:(discriminate) FIT)
      as (K & BU & OR & EO & _).
    destruct (bottom_up_sound stat acc n E (acyclic_irrefl E AC) RJ (seq 0 n) K BU (sorted_seq n 0)) as [S1 S2].
    - rewrite seq_length. exact Hn.
    - exact all_ancestral.
    - set (rest := setdiff (seq 0 n) K) in *.
      rewrite (flat_of _ _ EO). destruct (in_dec Nat.eq_dec a K) as [Ka|Ka].
      + left. apply precedes_app_r. apply S2; [apply in_seq; lia|exact Ka|exact Eab].
      + assert (Ra : In a rest) by (apply setdiff_In; split; [apply in_seq; lia|exact Ka]).
        destruct (in_dec Nat.eq_dec b K) as [Kb|Kb]; [left; apply precedes_app_cross; assumption|].
        right. exists rest. assert (Rb : In b rest) by (apply setdiff_In; split; [apply in_seq; lia|exact Kb]).
        split; [|split; assumption]. rewrite EO. destruct rest; [destruct Ra|]. left. reflexivity.
  Qed.
  Lemma fit_complete : (forall a b, {E a b} + {~ E a b}) -> favours_sinks n E stat acc ->
    exists K, order = map Single K /\ is_order n K /\ (forall a b, a < n -> b < n -> E a b -> precedes K a b) /\
      forall i j, i < n -> j < n -> M i j = estimate_adjacency_matrix lasso None K i j.
  Proof.
    intros DEC FAV.
    destruct (fit_exact hsic2 fcorr m2log sf thr ind_corr mode lasso st pv fc fin_h fin_f n None order M Hn ltac:(discriminate) FIT)
      as (K & BU & OR & EO & EM).
    destruct (bottom_up_complete stat acc n E (acyclic_irrefl E AC) DEC AC FAV (seq 0 n) K BU (sorted_seq n 0)) as [S1 S2].
    - rewrite seq_length. exact Hn.
    - exact all_ancestral.
    - assert (NR : setdiff (seq 0 n) K = []).
      { destruct (setdiff (seq 0 n) K) as [|x l] eqn:D; [reflexivity|]. exfalso.
        assert (X : In x (setdiff (seq 0 n) K)) by (rewrite D; left; reflexivity). apply setdiff_In in X. destruct X as [X1 X2].
        apply X2, S1, X1. }
      rewrite NR in *. cbn [block_items app] in *. exists K. split; [exact EO|]. split; [exact OR|]. split.
      + intros a b Ha Hb Eab. apply S2; [apply in_seq; lia|apply in_seq; lia|exact Eab].
      + intros i j Hi Hj. rewrite EM.
        pose proof (parce_adjacency_spec lasso None [] K i j (is_order_NoDup _ _ OR)) as P. cbn [block_items app memb existsb] in P.
        rewrite P. rewrite andb_false_r. assert (IK : In i K) by (apply (is_order_In _ _ OR); exact Hi). apply memb_In in IK. rewrite IK. reflexivity.
  Qed.
End Correct.
