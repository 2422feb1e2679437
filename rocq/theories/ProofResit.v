(** * Proofs about RESIT *)
From Coq Require Import List Arith Lia Bool QArith Qcanon Permutation.
From Verif Require Import Prelude Spec Lib ModelResit.
Import ListNotations.
Open Scope nat_scope.

Lemma remove_first_In : forall x l y, In y (remove_first x l) -> In y l.
Proof.
  induction l as [|z l IH]; simpl; [tauto|]. intros y. destruct (z =? x); simpl; firstorder.
Qed.
Lemma remove_first_NoDup : forall x l, NoDup l -> remove_first x l = remove_nat x l.
Proof.
  induction l as [|z l IH]; intro ND; [reflexivity|].
  inversion ND as [|? ? H1 H2]; subst. cbn [remove_first remove_nat filter].
  destruct (z =? x) eqn:E; cbn [negb].
  - apply Nat.eqb_eq in E. subst. symmetry. apply remove_nat_notin. exact H1.
  - f_equal. apply IH. exact H2.
Qed.

Section Resit.
  Variable stat : list nat -> nat -> num.
  Variable accepts : nat -> list nat -> bool.

  (** Loop state after some iterations: [U] the unordered variables, [pi] the ordered ones;
      the entry of an ordered variable lists exactly [U] and what precedes it in [pi]. *)
  Definition order_inv (n : nat) (st : list nat * dict * list nat) : Prop :=
    let '(U, pa, pi) := st in
    is_order n (U ++ pi) /\
    forall l1 v l2, pi = l1 ++ v :: l2 -> exists l, pa v = Some l /\ Permutation l (U ++ l1).

  Lemma order_step_inv : forall n U pa pi, 2 <= length U -> order_inv n (U, pa, pi) ->
    exists U' pa' pi', order_step stat (U, pa, pi) = Ok (U', pa', pi') /\ order_inv n (U', pa', pi') /\
      S (length U') = length U.
  Proof.
    intros n U pa pi L [HO HP]. unfold order_step.
    destruct U as [|u0 [|u1 U0]]; [simpl in L; lia|simpl in L; lia|].
    set (U := u0 :: u1 :: U0) in *.
    destruct (np_argmin (map (fun k => stat (remove_nat k U) k) U)) as [i|] eqn:E; [|discriminate].
    apply np_argmin_bound in E. rewrite map_length in E.
    destruct (nth_error U i) as [k|] eqn:E2; [|apply nth_error_None in E2; lia].
    apply nth_error_In in E2.
    assert (ND : NoDup (U ++ pi)) by (apply is_order_NoDup with n; exact HO).
    assert (NDU : NoDup U) by (apply NoDup_app_iff' in ND; tauto).
    assert (Hk : ~ In k pi) by (apply NoDup_app_iff' in ND; destruct ND as [_ [_ H]]; intro; eapply H; eauto).
    do 3 eexists. split; [reflexivity|]. split; [split|].
    - unfold is_order in *. rewrite <- HO. rewrite <- Permutation_middle.
      rewrite (remove_nat_perm k U NDU E2) at 2. simpl. reflexivity.
    - intros l1 v l2 Hpi. destruct l1 as [|w l1]; simpl in Hpi; inversion Hpi; subst.
      + exists (remove_nat v U). unfold upd. rewrite Nat.eqb_refl. rewrite app_nil_r. split; reflexivity.
      + destruct (HP l1 v l2 eq_refl) as [l [Hl Pl]]. exists l. split.
        * unfold upd. destruct (v =? w) eqn:Ev; [|exact Hl].
          apply Nat.eqb_eq in Ev. subst. exfalso. apply Hk. apply in_or_app. right. left. reflexivity.
        * rewrite Pl. rewrite <- Permutation_middle.
          rewrite (remove_nat_perm w U NDU E2) at 1. reflexivity.
    - symmetry. apply remove_nat_length; assumption.
  Qed.

  Lemma order_loop_inv : forall m n U pa pi, S m = length U -> order_inv n (U, pa, pi) ->
    exists k pa' pi', order_loop stat m (U, pa, pi) = Ok ([k], pa', pi') /\ order_inv n ([k], pa', pi').
  Proof.
    induction m as [|m IH]; intros n U pa pi L I.
    - destruct U as [|k [|? ?]]; simpl in L; try lia. exists k, pa, pi. split; [reflexivity|exact I].
    - destruct (order_step_inv n U pa pi) as [U' [pa' [pi' [E [I' L']]]]]; [lia|exact I|].
      cbn [order_loop]. rewrite E. cbn [bind]. apply IH; [lia|exact I'].
  Qed.

  Lemma order_loop_snoc : forall m st,
    order_loop stat (S m) st = let* st' := order_loop stat m st in order_step stat st'.
  Proof.
    induction m as [|m IH]; intros st.
    - cbn [order_loop bind]. destruct (order_step stat st); reflexivity.
    - change (order_loop stat (S (S m)) st) with (let* st' := order_step stat st in order_loop stat (S m) st').
      cbn [order_loop]. destruct (order_step stat st) as [st'|e]; [|reflexivity].
      cbn [bind]. apply IH.
  Qed.

  Lemma estimate_order_ok : forall n, exists pa pi, estimate_order stat n = Ok (pa, pi) /\ is_order n pi /\
    forall l1 v l2, pi = l1 ++ v :: l2 -> exists l, pa v = Some l /\ Permutation l l1.
  Proof.
    intros [|n].
    - exists no_keys, []. split; [reflexivity|]. split; [apply Permutation_refl|].
      intros l1 v l2 H. destruct l1; discriminate.
    - unfold estimate_order. rewrite order_loop_snoc.
      destruct (order_loop_inv n (S n) (seq 0 (S n)) no_keys []) as [k [pa [pi [E [HO HP]]]]].
      + rewrite seq_length. reflexivity.
      + split; [rewrite app_nil_r; apply Permutation_refl|]. intros l1 v l2 H. destruct l1; discriminate.
      + rewrite E. cbn [bind order_step]. do 2 eexists. split; [reflexivity|].
        split; [exact HO|]. intros l1 v l2 H.
        assert (ND := is_order_NoDup _ _ HO). simpl in ND. inversion ND as [|? ? Hk ND']; subst.
        destruct l1 as [|w l1]; simpl in H; inversion H; subst.
        * exists []. unfold upd. rewrite Nat.eqb_refl. split; reflexivity.
        * destruct (HP l1 v l2 eq_refl) as [l [Hl Pl]]. exists l. split; [|exact Pl].
          unfold upd. destruct (v =? w) eqn:Ev; [|exact Hl].
          apply Nat.eqb_eq in Ev. subst. exfalso. apply Hk. apply in_or_app. right. left. reflexivity.
  Qed.

  Lemma prune_one_incl : forall t cur l, incl (prune_one accepts t cur l) cur.
  Proof.
    intros t cur l x. unfold prune_one. destruct (remove_nat l cur); [tauto|].
    destruct (accepts t (n :: l0)); [apply remove_first_In|tauto].
  Qed.
  Lemma prune_fold_incl : forall t ls cur, incl (fold_left (prune_one accepts t) ls cur) cur.
  Proof.
    induction ls as [|l ls IH]; intros cur x H; [exact H|].
    simpl in H. apply IH in H. eapply prune_one_incl. exact H.
  Qed.
  Lemma prune_one_nonempty : forall t cur l, NoDup cur -> cur <> [] ->
    NoDup (prune_one accepts t cur l) /\ prune_one accepts t cur l <> [].
  Proof.
    intros t cur l ND NE. unfold prune_one. destruct (remove_nat l cur) as [|p ps] eqn:E; [tauto|].
    destruct (accepts t (p :: ps)); [|tauto]. rewrite remove_first_NoDup by exact ND.
    split; [apply remove_nat_NoDup; exact ND|]. rewrite E. discriminate.
  Qed.
  Lemma prune_fold_nonempty : forall t ls cur, NoDup cur -> cur <> [] ->
    fold_left (prune_one accepts t) ls cur <> [].
  Proof.
    induction ls as [|l ls IH]; intros cur ND NE; [exact NE|].
    simpl. destruct (prune_one_nonempty t cur l ND NE). apply IH; assumption.
  Qed.

  (** [remove_edges] rewrites the entry of every listed variable and no other entry. *)
  Lemma remove_edges_ok : forall pi pa, NoDup pi ->
    (forall v, In v pi -> exists l, pa v = Some l) ->
    exists pa', remove_edges accepts pi pa = Ok pa' /\
      forall v, pa' v = if memb v pi then option_map (prune_parents accepts v) (pa v) else pa v.
  Proof.
    induction pi as [|w pi IH]; intros pa ND H.
    - exists pa. split; [reflexivity|]. intros v. reflexivity.
    - inversion ND as [|? ? Hw ND']; subst. cbn [remove_edges].
      destruct (H w (or_introl eq_refl)) as [l Hl]. rewrite Hl.
      destruct (IH (upd pa w (Some (prune_parents accepts w l))) ND') as [pa' [E Hpa]].
      { intros v Hv. unfold upd. destruct (v =? w); [eauto|]. apply H. right. exact Hv. }
      exists pa'. split; [exact E|]. intros v. rewrite Hpa. unfold upd.
      cbn [memb existsb]. destruct (v =? w) eqn:Ev; cbn [orb]; [|reflexivity].
      apply Nat.eqb_eq in Ev. subst v.
      assert (M : memb w pi = false) by (apply memb_notIn; exact Hw). rewrite M.
      rewrite Hl. reflexivity.
  Qed.

  Lemma resit_fit_ok : forall n, exists pi B, resit_fit stat accepts n = Ok (pi, B) /\ is_order n pi /\
    forall l1 v l2, pi = l1 ++ v :: l2 ->
      exists l l', Permutation l l1 /\
        l' = (match l1 with [] => l | _ => prune_parents accepts v l end) /\
        forall j, B v j = if memb j l' then 1%Qc else 0%Qc.
  Proof.
    intro n. destruct (estimate_order_ok n) as [pa [pi [E [HO HP]]]].
    unfold resit_fit. rewrite E. cbn [bind].
    assert (ND := is_order_NoDup _ _ HO).
    destruct (remove_edges_ok (tl pi) pa) as [pa' [E' Hpa]].
    { destruct pi; [constructor|]. inversion ND; assumption. }
    { intros v Hv. assert (In v pi) as Hv' by (destruct pi; [destruct Hv|right; exact Hv]).
      apply in_split in Hv'. destruct Hv' as [l1 [l2 Hl]].
      destruct (HP _ _ _ Hl) as [l [? _]]. eauto. }
    rewrite E'. cbn [bind]. do 2 eexists. split; [reflexivity|]. split; [exact HO|].
    intros l1 v l2 Hpi. destruct (HP _ _ _ Hpi) as [l [Hl Pl]].
    exists l. eexists. split; [exact Pl|]. split; [reflexivity|].
    intro j. unfold resit_matrix. rewrite Hpa, Hl. subst pi.
    destruct l1 as [|w l1].
    - simpl. assert (M : memb v l2 = false).
      { apply memb_notIn. simpl in ND. inversion ND; assumption. }
      rewrite M. reflexivity.
    - simpl. assert (M : memb v (l1 ++ v :: l2) = true).
      { apply memb_In. apply in_or_app. right. left. reflexivity. }
      rewrite M. reflexivity.
  Qed.

  Theorem resit_shape : forall n, exists pi B, resit_fit stat accepts n = Ok (pi, B) /\ is_order n pi /\
    (forall i j, i < n -> B i j = 0%Qc \/ B i j = 1%Qc) /\
    (forall i j, i < n -> B i j = 1%Qc -> precedes pi j i).
  Proof.
    intro n. destruct (resit_fit_ok n) as [pi [B [E [HO HB]]]]. exists pi, B.
    split; [exact E|]. split; [exact HO|].
    assert (SP : forall i, i < n -> exists l1 l2, pi = l1 ++ i :: l2).
    { intros i Hi. apply (is_order_In n pi HO) in Hi. apply in_split in Hi. exact Hi. }
    split; intros i j Hi.
    - destruct (SP i Hi) as [l1 [l2 Hpi]]. destruct (HB _ _ _ Hpi) as [l [l' [_ [_ Hj]]]].
      rewrite Hj. destruct (memb j l'); tauto.
    - destruct (SP i Hi) as [l1 [l2 Hpi]]. destruct (HB _ _ _ Hpi) as [l [l' [Pl [El Hj]]]].
      rewrite Hj. destruct (memb j l') eqn:M; [|discriminate]. intros _.
      apply memb_In in M. rewrite Hpi. apply precedes_app_cross; [|left; reflexivity].
      apply (Permutation_in _ Pl). subst l'. destruct l1; [exact M|].
      eapply prune_fold_incl. exact M.
  Qed.

  (** Every variable except the first of the order keeps at least one parent. *)
  Theorem resit_keeps_parent : forall n pi B, resit_fit stat accepts n = Ok (pi, B) ->
    forall l1 v l2, pi = l1 ++ v :: l2 -> l1 <> [] -> exists j, In j l1 /\ B v j = 1%Qc.
  Proof.
    intros n pi B E l1 v l2 Hpi NE. destruct (resit_fit_ok n) as [pi' [B' [E' [HO HB]]]].
    rewrite E in E'. inversion E'; subst pi' B'.
    destruct (HB _ _ _ Hpi) as [l [l' [Pl [El Hj]]]].
    destruct l1 as [|w l1]; [congruence|].
    assert (NDl : NoDup l).
    { apply (Permutation_NoDup (Permutation_sym Pl)). apply is_order_NoDup in HO. rewrite Hpi in HO.
      apply NoDup_app_iff' in HO. tauto. }
    assert (NEl : l <> []).
    { intro; subst l. apply Permutation_nil in Pl. discriminate. }
    pose proof (prune_fold_nonempty v l l NDl NEl) as H. fold (prune_parents accepts v l) in H.
    rewrite El in Hj. destruct (prune_parents accepts v l) as [|j ps] eqn:Ep; [congruence|].
    exists j. split.
    - apply (Permutation_in _ Pl). eapply (prune_fold_incl v l l).
      fold (prune_parents accepts v l). rewrite Ep. left. reflexivity.
    - rewrite Hj. simpl. rewrite Nat.eqb_refl. reflexivity.
  Qed.
End Resit.

(** If every test accepts, each later variable keeps exactly one parent. *)
Lemma all_accept_fold : forall t ls cur, NoDup cur -> cur <> [] -> incl cur ls ->
  length (fold_left (prune_one (fun _ _ => true) t) ls cur) = 1.
Proof.
  induction ls as [|l ls IH]; intros cur ND NE I.
  - destruct cur; [congruence|]. exfalso. apply (I n). left. reflexivity.
  - simpl. unfold prune_one at 2. destruct (remove_nat l cur) as [|p ps] eqn:E.
    + (* cur = [l] *)
      assert (C : cur = [l]).
      { assert (Hc : forall x, In x cur -> x = l).
        { intros x Hx. destruct (Nat.eq_dec x l); [assumption|].
          assert (In x (remove_nat l cur)) by (apply remove_nat_In; tauto). rewrite E in H. destruct H. }
        destruct cur as [|a [|b cur]]; [congruence| |].
        - rewrite (Hc a) by (left; reflexivity). reflexivity.
        - inversion ND as [|? ? Hn _]; subst. exfalso. apply Hn.
          rewrite (Hc a) by (left; reflexivity). rewrite (Hc b) by (right; left; reflexivity).
          left; reflexivity. }
      subst cur. clear.
      assert (K : forall ls, fold_left (prune_one (fun _ _ => true) t) ls [l] = [l]).
      { intro zs; induction zs as [|x zs IH]; [reflexivity|]. simpl. unfold prune_one at 2.
        cbn [remove_nat filter]. destruct (l =? x) eqn:Ex; cbn [negb].
        - exact IH.
        - cbn [remove_first]. rewrite Ex. exact IH. }
      rewrite K. reflexivity.
    + cbn [andb]. rewrite remove_first_NoDup by exact ND. apply IH.
      * apply remove_nat_NoDup. exact ND.
      * rewrite E. discriminate.
      * intros x Hx. apply remove_nat_In in Hx. destruct Hx as [Hx N].
        destruct (I x Hx); [congruence|assumption].
Qed.
