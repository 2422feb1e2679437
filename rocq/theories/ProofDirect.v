(** * Proofs about the DirectLiNGAM model. *)
From Coq Require Import List Arith Lia Bool ZArith QArith Qcanon Permutation Relations.
From Verif Require Import Prelude Spec Lib SpecDirect ModelDirect.
Import ListNotations.
Open Scope nat_scope.

(** ** numbers *)
Lemma neqb_Some : forall x v, neqb x (Some v) = true <-> x = Some v.
Proof.
  intros [a|] v; simpl; [|split; discriminate].
  rewrite qeqb_eq. split; congruence.
Qed.
Lemma neqb_Some_false : forall x v, neqb x (Some v) = false <-> x <> Some v.
Proof.
  intros x v. rewrite <- neqb_Some. destruct (neqb x (Some v)); split; congruence.
Qed.

(** ** where / unique *)
Lemma where_eq_In : forall n pk v i j,
  In (i, j) (where_eq n pk v) <-> i < n /\ j < n /\ pk i j = Some v.
Proof.
  intros. unfold where_eq. rewrite filter_In, in_prod_iff, !in_seq. simpl.
  rewrite neqb_Some. intuition lia.
Qed.
Lemma NoDup_app_intro : forall A (l1 l2 : list A),
  NoDup l1 -> NoDup l2 -> (forall x, In x l1 -> ~ In x l2) -> NoDup (l1 ++ l2).
Proof.
  induction l1 as [|x l1 IH]; intros l2 H1 H2 D; simpl; [exact H2|].
  inversion H1; subst. constructor.
  - intro I. apply in_app_or in I. destruct I as [I|I]; [contradiction|].
    apply (D x); [left; reflexivity|exact I].
  - apply IH; try assumption. intros y Hy. apply D. right. exact Hy.
Qed.
Lemma NoDup_list_prod : forall A B (l1 : list A) (l2 : list B),
  NoDup l1 -> NoDup l2 -> NoDup (list_prod l1 l2).
Proof.
  induction l1 as [|x l1 IH]; intros l2 H1 H2; simpl; [constructor|].
  inversion H1; subst. apply NoDup_app_intro.
  - apply FinFun.Injective_map_NoDup; [|exact H2]. intros a b E. congruence.
  - apply IH; assumption.
  - intros p Hp I. apply in_map_iff in Hp. destruct Hp as [y [<- _]].
    apply in_prod_iff in I. destruct I. contradiction.
Qed.
Lemma where_eq_NoDup : forall n pk v, NoDup (where_eq n pk v).
Proof.
  intros. unfold where_eq. apply NoDup_filter. apply NoDup_list_prod; apply seq_NoDup.
Qed.
Lemma swap_pairs_In : forall l a b, In (a, b) (swap_pairs l) <-> In (b, a) l.
Proof.
  intros. unfold swap_pairs. rewrite in_map_iff. split.
  - intros [[x y] [E H]]. simpl in E. inversion E. subst. exact H.
  - intro H. exists (b, a). split; [reflexivity|exact H].
Qed.
Lemma swap_pairs_NoDup : forall l, NoDup l -> NoDup (swap_pairs l).
Proof.
  intros l H. unfold swap_pairs. apply FinFun.Injective_map_NoDup; [|exact H].
  intros [a b] [c d] E. simpl in E. congruence.
Qed.
Lemma count_occ_app_NoDup : forall l1 l2 p, NoDup l1 -> NoDup l2 ->
  count_occ pair_dec (l1 ++ l2) p =
    (if in_dec pair_dec p l1 then 1 else 0) + (if in_dec pair_dec p l2 then 1 else 0).
Proof.
  intros l1 l2 p H1 H2. rewrite count_occ_app.
  assert (C : forall l, NoDup l -> count_occ pair_dec l p = if in_dec pair_dec p l then 1 else 0).
  { intros l H. destruct (in_dec pair_dec p l) as [I|I].
    - apply NoDup_count_occ'; assumption.
    - apply count_occ_not_In. exact I. }
  rewrite !C by assumption. reflexivity.
Qed.
Lemma unique_with_In : forall c l p,
  In p (unique_with c l) <-> In p l /\ c (count_occ pair_dec l p) = true.
Proof.
  intros. unfold unique_with. rewrite filter_In, nodup_In. reflexivity.
Qed.
Lemma unique_with_NoDup : forall c l, NoDup (unique_with c l).
Proof. intros. apply NoDup_filter, NoDup_nodup. Qed.

(** ** Partial orders extracted from prior knowledge *)
Lemma extract_inconsistent : forall n pk,
  extract_partial_orders n pk = Err ValueError <->
  exists i j, i < n /\ j < n /\ pk i j = Some 1%Qc /\ pk j i = Some 1%Qc.
Proof.
  intros n pk. unfold extract_partial_orders.
  set (pp := where_eq n pk 1%Qc).
  assert (Hin : forall p, In p (unique_with (fun c => 1 <? c) (pp ++ swap_pairs pp)) <->
                          In p pp /\ In (snd p, fst p) pp).
  { intros [i j]. rewrite unique_with_In, count_occ_app_NoDup
      by (try apply swap_pairs_NoDup; apply where_eq_NoDup).
    rewrite in_app_iff, swap_pairs_In. simpl.
    destruct (in_dec pair_dec (i, j) pp) as [A|A];
    destruct (in_dec pair_dec (i, j) (swap_pairs pp)) as [B|B];
    rewrite swap_pairs_In in B; simpl; intuition discriminate. }
  destruct (unique_with (fun c => 1 <? c) (pp ++ swap_pairs pp)) as [|[i j] r] eqn:E.
  - split; [discriminate|]. intros [i [j [Hi [Hj [H1 H2]]]]]. exfalso.
    destruct (proj2 (Hin (i, j))). simpl. split; apply where_eq_In; auto.
  - split; [intros _|reflexivity].
    destruct (proj1 (Hin (i, j)) (or_introl eq_refl)) as [A B]. simpl in B.
    apply where_eq_In in A. apply where_eq_In in B.
    exists i, j. intuition.
Qed.

Lemma extract_ok : forall n pk po, extract_partial_orders n pk = Ok po ->
  forall a b, In (a, b) po <-> a < n /\ b < n /\ must_precede pk a b.
Proof.
  intros n pk po H a b. unfold extract_partial_orders in H.
  destruct (unique_with _ (where_eq n pk 1%Qc ++ swap_pairs (where_eq n pk 1%Qc))) as [|q r];
    [|discriminate].
  inversion H; clear H. rewrite swap_pairs_In, nodup_In, in_app_iff, swap_pairs_In.
  set (np := where_eq n pk 0%Qc).
  set (dup := unique_with (fun c => 1 <? c) (np ++ swap_pairs np)).
  assert (Hdup : forall i j, In (i, j) dup <-> In (i, j) np /\ In (j, i) np).
  { intros i j. unfold dup. rewrite unique_with_In, count_occ_app_NoDup
      by (try apply swap_pairs_NoDup; apply where_eq_NoDup).
    rewrite in_app_iff, swap_pairs_In.
    destruct (in_dec pair_dec (i, j) np) as [A|A];
    destruct (in_dec pair_dec (i, j) (swap_pairs np)) as [B|B];
    rewrite swap_pairs_In in B; simpl; intuition discriminate. }
  assert (Hnp : forall i j, In (i, j) (unique_with (fun c => c <? 2) (np ++ dup)) <->
                            In (i, j) np /\ ~ In (j, i) np).
  { intros i j. rewrite unique_with_In, count_occ_app_NoDup
      by (first [apply where_eq_NoDup | apply unique_with_NoDup]).
    rewrite in_app_iff.
    destruct (in_dec pair_dec (i, j) np) as [A|A];
    destruct (in_dec pair_dec (i, j) dup) as [B|B];
    rewrite Hdup in *; simpl; intuition (try discriminate). }
  rewrite Hnp. unfold np. rewrite !where_eq_In. unfold must_precede.
  split.
  - intros [[Hb [Ha H]]|[[Ha [Hb H]] N]].
    + auto.
    + split; [exact Ha|]. split; [exact Hb|]. right. split; [exact H|].
      intro X. apply N. auto.
  - intros [Ha [Hb [H|[H N]]]].
    + left. auto.
    + right. split; [auto|]. intros [_ [_ X]]. contradiction.
Qed.

Lemma extract_cases : forall n pk,
  (exists po, extract_partial_orders n pk = Ok po) \/
  extract_partial_orders n pk = Err ValueError.
Proof.
  intros. unfold extract_partial_orders.
  destruct (unique_with _ _); [left; eexists; reflexivity|right; reflexivity].
Qed.

(** ** Candidates *)
Lemma candidate_incl : forall mode po U x, In x (fst (search_candidate mode po U)) -> In x U.
Proof.
  intros mode po U x. destruct mode as [|pk|pk]; simpl.
  - auto.
  - destruct po as [|p po]; simpl; [auto|]. rewrite filter_In. tauto.
  - destruct (filter (fun j => row_sum_zero pk j (remove_nat j U)) U) as [|y l] eqn:E.
    + rewrite filter_In. tauto.
    + intro H. rewrite <- E in H. apply filter_In in H. tauto.
Qed.

(** An abstract run of the search loop: any candidate may be taken. *)
Definition po_step (mode : pk_mode) (m : nat) (po : list (nat * nat)) : list (nat * nat) :=
  match mode with
  | Strong _ => filter (fun p => negb (fst p =? m)) po
  | _ => po
  end.
Inductive run (mode : pk_mode) : nat -> list (nat * nat) -> list nat -> list nat -> list nat -> Prop :=
| run_0 : forall po U K, run mode 0 po U K K
| run_S : forall s po U K m K',
    In m (fst (search_candidate mode po U)) ->
    run mode s (po_step mode m po) (remove_nat m U) (K ++ [m]) K' ->
    run mode (S s) po U K K'.

(** If no state reachable has an empty candidate list ... *)
Inductive stuck (mode : pk_mode) : nat -> list (nat * nat) -> list nat -> Prop :=
| stuck_now : forall s po U, fst (search_candidate mode po U) = [] -> stuck mode (S s) po U
| stuck_later : forall s po U m, In m (fst (search_candidate mode po U)) ->
    stuck mode s (po_step mode m po) (remove_nat m U) -> stuck mode (S s) po U.

Definition argsel_ok (argsel : list num -> option nat) : Prop :=
  (forall l k, argsel l = Some k -> k < length l) /\ (forall l, argsel l = None <-> l = []).
Lemma np_argmax_ok : argsel_ok np_argmax.
Proof.
  split; [apply np_argmax_bound|]. intros [|x l]; simpl; split; congruence.
Qed.
Lemma np_argmin_ok : argsel_ok np_argmin.
Proof.
  split; [apply np_argmin_bound|]. intros [|x l]; simpl; split; congruence.
Qed.
Lemma argsel_of_ok : forall ms, argsel_ok (argsel_of ms).
Proof. intros []; [apply np_argmax_ok|apply np_argmin_ok]. Qed.

Section SearchProofs.
  Variable Col : Type.
  Variable residual : Col -> Col -> Col.
  Variable score : (nat -> Col) -> list nat -> list nat -> list nat -> nat -> num.
  Variable argsel : list num -> option nat.
  Hypothesis argsel_good : argsel_ok argsel.

  Lemma search_causal_order_cases : forall mode po X U,
    (exists m, search_causal_order Col score argsel mode po X U = Ok m /\
               In m (fst (search_candidate mode po U))) \/
    (search_causal_order Col score argsel mode po X U = Err ValueError /\
     fst (search_candidate mode po U) = []).
  Proof.
    intros mode po X U. unfold search_causal_order.
    destruct (search_candidate mode po U) as [Uc Vj]. simpl.
    destruct Uc as [|x [|y r]].
    - simpl. destruct (argsel []) as [k|] eqn:E.
      + apply (proj1 argsel_good) in E. simpl in E. lia.
      + right. split; reflexivity.
    - left. exists x. split; [reflexivity|left; reflexivity].
    - destruct (argsel (map (score X U (x :: y :: r) Vj) (x :: y :: r))) as [k|] eqn:E.
      + apply (proj1 argsel_good) in E. rewrite map_length in E.
        destruct (nth_error (x :: y :: r) k) as [m|] eqn:N.
        * left. exists m. split; [reflexivity|]. eapply nth_error_In. exact N.
        * apply nth_error_None in N. lia.
      + apply (proj2 argsel_good) in E. discriminate.
  Qed.

  Lemma fit_loop_run : forall steps mode po X U K,
    (exists K', fit_loop Col residual score argsel steps mode po X U K = Ok K' /\
                run mode steps po U K K') \/
    (fit_loop Col residual score argsel steps mode po X U K = Err ValueError /\
     stuck mode steps po U).
  Proof.
    induction steps as [|s IH]; intros mode po X U K; simpl.
    - left. exists K. split; [reflexivity|constructor].
    - destruct (search_causal_order_cases mode po X U) as [[m [-> Hm]]|[-> He]]; simpl.
      + change (match mode with
                | Strong _ => filter (fun p => negb (fst p =? m)) po
                | _ => po end) with (po_step mode m po).
        destruct (IH mode (po_step mode m po) (regress_out Col residual X U m)
                     (remove_nat m U) (K ++ [m])) as [[K' [E R]]|[E R]].
        * left. exists K'. split; [exact E|]. econstructor; eassumption.
        * right. split; [exact E|]. eapply stuck_later; eassumption.
      + right. split; [reflexivity|]. apply stuck_now. exact He.
  Qed.
End SearchProofs.

Lemma run_perm : forall mode s po U K K', run mode s po U K K' ->
  NoDup U -> length U = s -> Permutation K' (K ++ U).
Proof.
  intros mode s po U K K' H. induction H as [po U K|s po U K m K' Hm R IH]; intros ND L.
  - destruct U; [|discriminate]. rewrite app_nil_r. apply Permutation_refl.
  - apply candidate_incl in Hm.
    assert (P := remove_nat_perm m U ND Hm).
    assert (L' : length (remove_nat m U) = s).
    { apply remove_nat_length in Hm; [lia|exact ND]. }
    specialize (IH (remove_nat_NoDup _ _ ND) L').
    eapply perm_trans; [exact IH|]. rewrite <- app_assoc. simpl.
    apply Permutation_app_head. apply Permutation_sym. exact P.
Qed.

(** Strong mode: the candidate taken has no predecessor among the remaining rows. *)
Lemma strong_candidate : forall pk po U m,
  In m (fst (search_candidate (Strong pk) po U)) <-> In m U /\ forall a, ~ In (a, m) po.
Proof.
  intros pk po U m. simpl. destruct po as [|p po].
  - simpl. split; [intro H; split; [exact H|intros a X; contradiction]|tauto].
  - remember (p :: po) as q. simpl. rewrite filter_In, negb_true_iff, memb_notIn.
    split; intros [H N]; split; try exact H.
    + intros a I. apply N. apply in_map_iff. exists (a, m). split; [reflexivity|exact I].
    + intro I. apply in_map_iff in I. destruct I as [[a b] [E I]]. simpl in E. subst b.
      apply (N a). exact I.
Qed.

Lemma run_prefix : forall mode s po U K K', run mode s po U K K' -> exists t, K' = K ++ t.
Proof.
  intros mode s po U K K' R. induction R as [po U K|s po U K m K' Hm R [t IH]].
  - exists []. rewrite app_nil_r. reflexivity.
  - subst K'. exists ([m] ++ t). rewrite <- app_assoc. reflexivity.
Qed.

(** Invariant of the strong search: pairs already dropped are respected. *)
Lemma run_strong_respects : forall pk s po U K K', run (Strong pk) s po U K K' ->
  NoDup U -> length U = s ->
  forall a b, In (a, b) po -> In b U ->
    (In a U -> precedes (K' ) a b).
Proof.
  intros pk s po U K K' H. remember (Strong pk) as mode eqn:Em.
  induction H as [po U K|s po U K m K' Hm R IH]; intros ND L a b Hab Hb Ha; subst mode.
  - destruct U; [contradiction|discriminate].
  - apply strong_candidate in Hm. destruct Hm as [Hm Hn].
    assert (L' : length (remove_nat m U) = s).
    { apply remove_nat_length in Hm; [lia|exact ND]. }
    assert (b <> m) by (intro; subst; apply (Hn a); exact Hab).
    assert (P : Permutation K' ((K ++ [m]) ++ remove_nat m U)).
    { eapply run_perm; [exact R|apply remove_nat_NoDup; exact ND|exact L']. }
    destruct (Nat.eq_dec a m) as [->|D].
    + (* m is placed now, b later *)
      assert (PS : exists t, K' = (K ++ [m]) ++ t) by (eapply run_prefix; exact R).
      destruct PS as [t ->].
      apply Permutation_app_inv_l in P.
      apply precedes_app_cross.
      * apply in_or_app. right. left. reflexivity.
      * apply (Permutation_in b (Permutation_sym P)). apply remove_nat_In. split; assumption.
    + apply IH; try reflexivity.
      * apply remove_nat_NoDup. exact ND.
      * exact L'.
      * simpl. apply filter_In. split; [exact Hab|]. simpl. apply negb_true_iff, Nat.eqb_neq. exact D.
      * apply remove_nat_In. split; assumption.
      * apply remove_nat_In. split; assumption.
Qed.

(** Strong mode never gets stuck when an order compatible with the rows exists. *)
Lemma strong_not_stuck : forall pk l s po U,
  NoDup l -> (forall x, In x U -> In x l) ->
  (forall a b, In (a, b) po -> precedes l a b /\ In a U) ->
  NoDup U -> length U = s -> ~ stuck (Strong pk) s po U.
Proof.
  intros pk l s po U NDl HU Hpo ND L H. remember (Strong pk) as mode eqn:Em.
  induction H as [s po U He|s po U m Hm R IH]; subst mode.
  - (* take the first element of l that lies in U *)
    assert (F : exists x, In x U /\ forall y, In y U -> ~ precedes l y x).
    { apply exists_first; [exact NDl|exact HU|]. destruct U; [discriminate|congruence]. }
    destruct F as [x [Hx Hm]].
    assert (I : In x (fst (search_candidate (Strong pk) po U))).
    { apply strong_candidate. split; [exact Hx|]. intros a Ha.
      destruct (Hpo a x Ha) as [P Hau]. apply (Hm a Hau P). }
    rewrite He in I. contradiction.
  - apply strong_candidate in Hm. destruct Hm as [HmU Hn].
    apply IH; try reflexivity.
    + intros x Hx. apply remove_nat_In in Hx. apply HU. tauto.
    + intros a b Hab. simpl in Hab. apply filter_In in Hab. destruct Hab as [Hab Hne].
      simpl in Hne. apply negb_true_iff, Nat.eqb_neq in Hne.
      destruct (Hpo a b Hab) as [P Ha]. split; [exact P|]. apply remove_nat_In. auto.
    + apply remove_nat_NoDup. exact ND.
    + apply remove_nat_length in HmU; [lia|exact ND].
Qed.

(** ** The complete search *)
Section FitOrder.
  Variable Col : Type.
  Variable residual : Col -> Col -> Col.
  Variable score : (nat -> Col) -> list nat -> list nat -> list nat -> nat -> num.
  Variable argsel : list num -> option nat.
  Hypothesis argsel_good : argsel_ok argsel.

  Lemma run_from_seq_is_order : forall mode n po K,
    run mode n po (seq 0 n) [] K -> is_order n K.
  Proof.
    intros mode n po K R. unfold is_order.
    apply (run_perm _ _ _ _ _ _ R); [apply seq_NoDup|apply seq_length].
  Qed.

  Lemma fit_order_perm : forall n ok mode X K,
    fit_order Col residual score argsel n ok mode X = Ok K -> is_order n K.
  Proof.
    intros n ok mode X K H. unfold fit_order in H.
    assert (G : forall po, fit_loop Col residual score argsel n mode po X (seq 0 n) [] = Ok K ->
                           is_order n K).
    { intros po E.
      destruct (fit_loop_run Col residual score argsel argsel_good n mode po X (seq 0 n) [])
        as [[K' [E' R]]|[E' R]]; rewrite E in E'; [|discriminate].
      inversion E'; subst. eapply run_from_seq_is_order. exact R. }
    destruct mode as [|pk|pk].
    - eapply G. exact H.
    - destruct ok; [|discriminate].
      destruct (extract_partial_orders n pk) as [po|e]; simpl in H; [|discriminate].
      eapply G. exact H.
    - destruct ok; [|discriminate]. eapply G. exact H.
  Qed.

  Lemma nopk_never_stuck : forall s po U, NoDup U -> length U = s -> ~ stuck NoPK s po U.
  Proof.
    intros s po U ND L H. remember NoPK as mode eqn:Em.
    induction H as [s po U He|s po U m Hm R IH]; subst mode.
    - simpl in He. subst U. discriminate.
    - simpl in Hm. apply IH; try reflexivity; [apply remove_nat_NoDup; exact ND|].
      apply remove_nat_length in Hm; [lia|exact ND].
  Qed.

  Lemma fit_order_nopk_ok : forall n ok X,
    exists K, fit_order Col residual score argsel n ok NoPK X = Ok K /\ is_order n K.
  Proof.
    intros n ok X.
    destruct (fit_loop_run Col residual score argsel argsel_good n NoPK [] X (seq 0 n) [])
      as [[K [E R]]|[E R]].
    - exists K. split; [exact E|]. eapply run_from_seq_is_order. exact R.
    - exfalso. revert R. apply nopk_never_stuck; [apply seq_NoDup|apply seq_length].
  Qed.

  Lemma fit_order_strong_respects : forall n ok pk X K,
    fit_order Col residual score argsel n ok (Strong pk) X = Ok K -> respects n pk K.
  Proof.
    intros n ok pk X K H a b Ha Hb MP. unfold fit_order in H. destruct ok; [|discriminate].
    destruct (extract_partial_orders n pk) as [po|e] eqn:Ee; simpl in H; [|discriminate].
    destruct (fit_loop_run Col residual score argsel argsel_good n (Strong pk) po X (seq 0 n) [])
      as [[K' [E' R]]|[E' R]]; rewrite H in E'; [|discriminate].
    inversion E'; subst K'.
    eapply run_strong_respects; try exact R.
    - apply seq_NoDup.
    - apply seq_length.
    - apply (extract_ok n pk po Ee). auto.
    - apply in_seq. lia.
    - apply in_seq. lia.
  Qed.

  Lemma fit_order_strong_complete : forall n pk X, orderable n pk ->
    exists K, fit_order Col residual score argsel n true (Strong pk) X = Ok K.
  Proof.
    intros n pk X [l [Hl HP]]. unfold fit_order.
    destruct (extract_cases n pk) as [[po Ee]|Ee].
    - rewrite Ee. simpl.
      destruct (fit_loop_run Col residual score argsel argsel_good n (Strong pk) po X (seq 0 n) [])
        as [[K' [E' R]]|[E' R]].
      + exists K'. exact E'.
      + exfalso. revert R. apply (strong_not_stuck pk l).
        * eapply is_order_NoDup. exact Hl.
        * intros x Hx. apply (is_order_In n l Hl). apply in_seq in Hx. lia.
        * intros a b Hab. apply (extract_ok n pk po Ee) in Hab. destruct Hab as [Ha [Hb M]].
          split; [apply HP; assumption|apply in_seq; lia].
        * apply seq_NoDup.
        * apply seq_length.
    - exfalso. apply extract_inconsistent in Ee. destruct Ee as [i [j [Hi [Hj [H1 H2]]]]].
      assert (P1 : precedes l j i) by (apply HP; try assumption; left; exact H1).
      assert (P2 : precedes l i j) by (apply HP; try assumption; left; exact H2).
      apply (precedes_asym l i j (is_order_NoDup _ _ Hl) P2 P1).
  Qed.

  Lemma fit_order_strong_errors : forall n ok pk X e,
    fit_order Col residual score argsel n ok (Strong pk) X = Err e -> e = ValueError.
  Proof.
    intros n ok pk X e H. unfold fit_order in H. destruct ok; [|congruence].
    destruct (extract_cases n pk) as [[po Ee]|Ee]; rewrite Ee in H; simpl in H; [|congruence].
    destruct (fit_loop_run Col residual score argsel argsel_good n (Strong pk) po X (seq 0 n) [])
      as [[K' [E' R]]|[E' R]]; congruence.
  Qed.

  Lemma fit_order_strong_iff : forall n pk X,
    orderable n pk <-> exists K, fit_order Col residual score argsel n true (Strong pk) X = Ok K.
  Proof.
    intros n pk X. split.
    - apply fit_order_strong_complete.
    - intros [K H]. exists K. split.
      + eapply fit_order_perm. exact H.
      + eapply fit_order_strong_respects. exact H.
  Qed.

  Lemma fit_order_strong_not_orderable : forall n pk X, ~ orderable n pk ->
    fit_order Col residual score argsel n true (Strong pk) X = Err ValueError.
  Proof.
    intros n pk X N.
    destruct (fit_order Col residual score argsel n true (Strong pk) X) as [K|e] eqn:E.
    - exfalso. apply N. apply (fit_order_strong_iff n pk X). exists K. exact E.
    - apply fit_order_strong_errors in E. congruence.
  Qed.
End FitOrder.
