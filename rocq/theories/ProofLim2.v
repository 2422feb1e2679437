(** * Proofs about LiM's local search, stage by stage. *)
From Coq Require Import List Arith Bool ZArith QArith Qcanon Lia Sorted.
From Verif Require Import Prelude Spec SpecLim Lib LibMat ModelLim ProofLim.
Import ListNotations.
Open Scope nat_scope.

(** ** Only the d x d entries matter *)
Lemma mpow_ext : forall d A B k, (forall i j, i < d -> j < d -> A i j = B i j) ->
  forall i j, i < d -> j < d -> mpow d A k i j = mpow d B k i j.
Proof.
  intros d A B k H. induction k as [|k IH]; intros i j Hi Hj; [reflexivity|]. cbn [mpow]. apply mmul_ext; intros; auto.
Qed.
Lemma h_ext : forall d V W, same_entries d V W -> h_of d V = h_of d W.
Proof.
  intros d V W H. unfold h_of. f_equal. apply sumn_ext. intros i Hi. apply sumn_ext. intros j Hj.
  assert (E : forall a b, a < d -> b < d -> h_mat d V a b = h_mat d W a b).
  { intros a b Ha Hb. unfold h_mat, madd. rewrite (H a b Ha Hb). reflexivity. }
  rewrite (E i j Hi Hj), (mpow_ext d _ _ (d - 1) E j i Hj Hi). reflexivity.
Qed.

(** ** Positions *)
Definition lexlt (a b : nat * nat) : Prop := fst a < fst b \/ fst a = fst b /\ snd a < snd b.
Lemma positions_In : forall d i j, In (i, j) (positions d) <-> i < d /\ j < d.
Proof. intros d i j. unfold positions. rewrite in_prod_iff, !in_seq. lia. Qed.
Lemma sorted_app : forall (A : Type) (R : A -> A -> Prop) l l', StronglySorted R l -> StronglySorted R l' ->
  (forall x y, In x l -> In y l' -> R x y) -> StronglySorted R (l ++ l').
Proof.
  intros A R l l' H. induction H as [|a l H IH F]; intros H' C; [exact H'|]. cbn. constructor.
  - apply IH; [exact H'|]. intros x y Hx Hy. apply C; [right; exact Hx|exact Hy].
  - apply Forall_forall. intros y Hy. apply in_app_iff in Hy. destruct Hy as [Hy|Hy].
    + rewrite Forall_forall in F. apply F. exact Hy.
    + apply C; [left; reflexivity|exact Hy].
Qed.
Lemma seq_sorted : forall k s, StronglySorted lt (seq s k).
Proof.
  induction k as [|k IH]; intro s; cbn; constructor; [apply IH|]. apply Forall_forall. intros y Hy. apply in_seq in Hy. lia.
Qed.
Lemma prod_sorted : forall l l', StronglySorted lt l -> StronglySorted lt l' -> StronglySorted lexlt (list_prod l l').
Proof.
  intros l l' H H'. induction H as [|a l H IH F]; [constructor|]. cbn [list_prod]. apply sorted_app; [|exact IH|].
  - clear - H'. induction H' as [|b l' H' IH F]; cbn; constructor; [exact IH|]. apply Forall_forall. intros x Hx.
    apply in_map_iff in Hx. destruct Hx as (y & <- & Hy). rewrite Forall_forall in F. right. cbn. split; [reflexivity|apply F; exact Hy].
  - intros x [y1 y2] Hx Hy. apply in_map_iff in Hx. destruct Hx as (b & <- & Hb). apply in_prod_iff in Hy. destruct Hy as [Hy _].
    left. cbn. rewrite Forall_forall in F. apply F. exact Hy.
Qed.
Lemma filter_sorted : forall (A : Type) (R : A -> A -> Prop) f l, StronglySorted R l -> StronglySorted R (filter f l).
Proof.
  intros A R f l H. induction H as [|a l H IH F]; [constructor|]. cbn. destruct (f a); [|exact IH]. constructor; [exact IH|].
  apply Forall_forall. intros y Hy. apply filter_In in Hy. rewrite Forall_forall in F. apply F. tauto.
Qed.
Lemma nonzeros_sorted : forall d W, StronglySorted lexlt (nonzeros d W).
Proof. intros. apply filter_sorted, prod_sorted; apply seq_sorted. Qed.
Lemma nonzeros_In : forall d W i j, In (i, j) (nonzeros d W) <-> i < d /\ j < d /\ W i j <> 0%Qc.
Proof.
  intros d W i j. unfold nonzeros. rewrite filter_In, positions_In. cbn [fst snd]. rewrite negb_true_iff. split.
  - intros [[H1 H2] H3]. split; [exact H1|]. split; [exact H2|]. intro E. apply qeqb_eq in E. congruence.
  - intros (H1 & H2 & H3). split; [tauto|]. destruct (qeqb (W i j) 0) eqn:E; [|reflexivity]. apply qeqb_eq in E. contradiction.
Qed.

(** ** Reversals *)
Definition flip1 (V : mat Qc) (x : nat * nat) : mat Qc := upd2 (upd2 V (fst x) (snd x) 0%Qc) (snd x) (fst x) 1%Qc.
Definition picked (I : list (nat * nat)) (bits : list bool) : list (nat * nat) := map fst (filter snd (combine I bits)).
Lemma reverse_picked : forall I bits W, reverse_edges W I bits = fold_left flip1 (picked I bits) W.
Proof.
  unfold reverse_edges, picked. intros I bits. generalize (combine I bits). clear. intro l. induction l as [|[[i j] b] l IH]; intro W; [reflexivity|].
  cbn [fold_left filter snd]. destruct b; cbn [map fold_left fst]; apply IH.
Qed.
Definition pair_dec : forall a b : nat * nat, {a = b} + {a <> b}.
Proof. decide equality; apply Nat.eq_dec. Defined.
Definition inl_ (l : list (nat * nat)) (i j : nat) : bool := if in_dec pair_dec (i, j) l then true else false.
Lemma inl_true : forall l i j, inl_ l i j = true <-> In (i, j) l.
Proof. intros. unfold inl_. destruct (in_dec pair_dec (i, j) l); split; try tauto; discriminate. Qed.
Lemma flip_fold : forall l, StronglySorted lexlt l -> forall W i j, fold_left flip1 l W i j = reversal W (inl_ l) i j.
Proof.
  intros l. induction l as [|[a b] l IH] using rev_ind; intros H W i j.
  - cbn. unfold reversal. cbn. destruct (i <=? j); reflexivity.
  - assert (Hl : StronglySorted lexlt l /\ forall x, In x l -> lexlt x (a, b)).
    { clear - H. induction l as [|x l IH]; [split; [constructor|intros x []]|]. cbn in H. inversion H as [|? ? H1 H2]; subst. destruct (IH H1) as [I1 I2].
      rewrite Forall_forall in H2. split.
      - constructor; [exact I1|]. apply Forall_forall. intros y Hy. apply H2. apply in_app_iff. left. exact Hy.
      - intros y [<-|Hy]; [apply H2; apply in_app_iff; right; left; reflexivity|apply I2; exact Hy]. }
    destruct Hl as [Hs Hlt]. rewrite fold_left_app. cbn [fold_left]. unfold flip1 at 1. cbn [fst snd].
    assert (N : ~ In (a, b) l) by (intro K; specialize (Hlt _ K); unfold lexlt in Hlt; cbn in Hlt; lia).
    assert (M : forall x y, inl_ (l ++ [(a, b)]) x y = inl_ l x y || ((x =? a) && (y =? b))).
    { intros x y. apply eq_true_iff_eq. rewrite orb_true_iff, !inl_true, in_app_iff, andb_true_iff, !Nat.eqb_eq. cbn [In]. split.
      - intros [K|[[= <- <-]|[]]]; [left; exact K|right; auto].
      - intros [K|[-> ->]]; auto. }
    unfold reversal. rewrite !M. unfold upd2. specialize (IH Hs W i j). unfold reversal in IH.
    assert (Fba : a <= b -> inl_ l b a = false).
    { intro L. apply not_true_is_false. intro K. apply inl_true in K. specialize (Hlt _ K). unfold lexlt in Hlt. cbn in Hlt. lia. }
    assert (Fab : inl_ l a b = false) by (apply not_true_is_false; intro K; apply inl_true in K; contradiction).
    destruct (Nat.eqb_spec i b) as [Eib|Eib]; destruct (Nat.eqb_spec j a) as [Eja|Eja]; cbn [andb].
    + subst. rewrite orb_true_r. destruct (Nat.leb_spec b a) as [L|L]; [reflexivity|].
      rewrite (Fba ltac:(lia)). cbn [orb]. destruct (Nat.eqb_spec b a); [lia|]. cbn [andb]. reflexivity.
    + destruct (Nat.eqb_spec i a) as [Eia|Eia]; destruct (Nat.eqb_spec j b) as [Ejb|Ejb]; cbn [andb]; rewrite ?orb_false_r; try exact IH. subst. lia.
    + destruct (Nat.eqb_spec i a) as [Eia|Eia]; destruct (Nat.eqb_spec j b) as [Ejb|Ejb]; cbn [andb]; rewrite ?orb_false_r; try exact IH. subst. lia.
    + destruct (Nat.eqb_spec i a) as [Eia|Eia]; destruct (Nat.eqb_spec j b) as [Ejb|Ejb]; cbn [andb]; rewrite ?orb_false_r; try exact IH.
      subst. rewrite orb_true_r. destruct (Nat.leb_spec a b) as [L|L]; [|reflexivity]. rewrite (Fba L). reflexivity.
Qed.
Lemma picked_sub : forall I bits x, In x (picked I bits) -> In x I.
Proof.
  intros I bits x H. unfold picked in H. apply in_map_iff in H. destruct H as ([y b] & <- & H). apply filter_In in H. destruct H as [H _].
  apply in_combine_l in H. exact H.
Qed.
Lemma picked_sorted : forall I bits, StronglySorted lexlt I -> StronglySorted lexlt (picked I bits).
Proof.
  intros I bits H. revert bits. induction H as [|a l H IH F]; intro bits; [constructor|]. destruct bits as [|b bits]; [constructor|].
  unfold picked. cbn [combine filter snd]. destruct b; [|apply IH]. cbn [map fst]. constructor; [apply IH|].
  apply Forall_forall. intros y Hy. rewrite Forall_forall in F. apply F. apply (picked_sub l bits). exact Hy.
Qed.
Lemma picked_map : forall R I, picked I (map (fun x => R (fst x) (snd x)) I) = filter (fun x => R (fst x) (snd x)) I.
Proof.
  intros R I. unfold picked. induction I as [|x I IH]; [reflexivity|]. cbn [map combine filter snd fst]. destruct (R (fst x) (snd x)); cbn [map fst]; rewrite IH; reflexivity.
Qed.
Lemma reversal_ext : forall W R R' i j, R i j = R' i j -> R j i = R' j i -> reversal W R i j = reversal W R' i j.
Proof. intros W R R' i j H1 H2. unfold reversal. rewrite H1, H2. reflexivity. Qed.
(** Every choice of bits is a reversal, and every reversal is reached by a choice of bits. *)
Lemma reverse_sound : forall d W bits, a_reversal d W (reverse_edges W (nonzeros d W) bits).
Proof.
  intros d W bits. exists (inl_ (picked (nonzeros d W) bits)). split.
  - intros i j H. apply inl_true in H. apply picked_sub in H. apply nonzeros_In in H. exact H.
  - intros i j _ _. rewrite reverse_picked. apply flip_fold. apply picked_sorted, nonzeros_sorted.
Qed.
Lemma reverse_complete : forall d W V, a_reversal d W V ->
  exists bits, length bits = length (nonzeros d W) /\ same_entries d V (reverse_edges W (nonzeros d W) bits).
Proof.
  intros d W V (R & HR & E). exists (map (fun x => R (fst x) (snd x)) (nonzeros d W)). split; [apply map_length|].
  intros i j Hi Hj. rewrite (E i j Hi Hj), reverse_picked, picked_map, flip_fold by (apply filter_sorted, nonzeros_sorted).
  assert (Q : forall a b, R a b = inl_ (filter (fun x => R (fst x) (snd x)) (nonzeros d W)) a b).
  { intros a b. apply eq_true_iff_eq. rewrite inl_true, filter_In. cbn [fst snd]. rewrite nonzeros_In. split; [intro K; split; [apply HR; exact K|exact K]|tauto]. }
  apply reversal_ext; apply Q.
Qed.

(** ** Removals and additions *)
Lemma deletion_iff : forall d W V, one_removed d W V <-> exists U, In U (deletions W (nonzeros d W)) /\ same_entries d V U.
Proof.
  intros d W V. unfold one_removed, deletions. split.
  - intros (i & j & Hi & Hj & N & E). eexists. split; [apply in_map_iff; exists (i, j); split; [reflexivity|apply nonzeros_In; auto]|exact E].
  - intros (U & H & E). apply in_map_iff in H. destruct H as ([i j] & <- & H). apply nonzeros_In in H. exists i, j. tauto.
Qed.
Lemma addition_iff : forall d W V, one_added d W V <-> exists U, In U (additions d W) /\ same_entries d V U.
Proof.
  intros d W V. unfold one_added, additions. split.
  - intros (i & j & Hi & Hj & Z & E). eexists. split; [apply in_map_iff; exists (i, j); split; [reflexivity|]|exact E].
    apply filter_In. split; [apply positions_In; auto|]. cbn [fst snd]. apply qeqb_eq. exact Z.
  - intros (U & H & E). apply in_map_iff in H. destruct H as ([i j] & <- & H). cbn [fst snd] in *. apply filter_In in H. destruct H as [H1 H2].
    apply positions_In in H1. cbn [fst snd] in H2. apply qeqb_eq in H2. exists i, j. tauto.
Qed.

(** ** Counting and comparing edges *)
Lemma natsum_S : forall n f, natsum (S n) f = natsum n f + f n.
Proof.
  intros n f. unfold natsum. rewrite seq_S, map_app. cbn [map Nat.add]. induction (map f (seq 0 n)) as [|x l IH]; cbn in *; lia.
Qed.
Lemma count_filter : forall (f : nat * nat -> bool) l l',
  length (filter f (list_prod l l')) = fold_right plus 0 (map (fun i => fold_right plus 0 (map (fun j => if f (i, j) then 1 else 0) l')) l).
Proof.
  intros f l l'. induction l as [|a l IH]; [reflexivity|]. cbn [list_prod map fold_right]. rewrite filter_app, app_length, IH. f_equal.
  clear. induction l' as [|b l' IH]; [reflexivity|]. cbn [map filter fold_right]. destruct (f (a, b)); cbn [length]; rewrite IH; reflexivity.
Qed.
Lemma edge_count_length : forall d W, length (nonzeros d W) = edge_count d W.
Proof.
  intros d W. unfold nonzeros, positions, edge_count, natsum. rewrite count_filter. f_equal. apply map_ext. intro i. f_equal. apply map_ext. intro j. cbn [fst snd].
  destruct (Qc_eq_dec (W i j) 0) as [E|E]; [rewrite (proj2 (qeqb_eq _ _) E); reflexivity|]. destruct (qeqb (W i j) 0) eqn:Q; [apply qeqb_eq in Q; contradiction|reflexivity].
Qed.
Lemma same_pattern_iff : forall d V W, same_pattern d V W = true <-> same_edges d V W.
Proof.
  intros d V W. unfold same_pattern, same_edges. rewrite forallb_forall. split.
  - intros H i j Hi Hj. specialize (H (i, j) (proj2 (positions_In d i j) (conj Hi Hj))). cbn [fst snd] in H. apply Bool.eqb_prop in H.
    rewrite <- !qeqb_eq. rewrite H. tauto.
  - intros H [i j] I. apply positions_In in I. cbn [fst snd]. specialize (H i j ltac:(tauto) ltac:(tauto)). rewrite <- !qeqb_eq in H.
    destruct (qeqb (V i j) 0), (qeqb (W i j) 0); try reflexivity; apply H; reflexivity.
Qed.

(** ** Stages *)
Section Stage.
  Variables (d : nat) (tol : Qc) (loss : mat Qc -> Qc).
  Hypothesis loss_ext : forall V W, same_entries d V W -> loss V = loss W.
  Let ok (V : mat Qc) : Prop := (h_of d V < tol)%Qc.
  Lemma stage : forall (C : mat Qc -> Prop) cands b, snd b = loss (fst b) ->
    (forall U, In U cands -> C U) -> (forall V, C V -> exists U, In U cands /\ same_entries d V U) ->
    let r := improve d tol loss cands b in snd r = loss (fst r) /\ chosen ok loss C (fst b) (fst r).
  Proof.
    intros C cands b Hb H1 H2 r. destruct (improve_spec d tol loss cands b Hb) as (I1 & I2 & I3 & I4). fold r in I1, I2, I3, I4.
    split; [exact I1|]. split.
    - destruct I3 as [->|(J1 & J2 & J3)]; [left; reflexivity|right]. split; [apply H1; exact J1|]. split; assumption.
    - intros V HV Hok. destruct (H2 V HV) as (U & HU & E). rewrite (loss_ext V U E). apply I4; [exact HU|]. unfold ok in Hok. rewrite <- (h_ext d V U E). exact Hok.
  Qed.
  Lemma stage_reverse : forall W,
    let r := improve d tol loss (map (reverse_edges W (nonzeros d W)) (tl (bit_settings (length (nonzeros d W))))) (W, loss W) in
    snd r = loss (fst r) /\ chosen ok loss (a_reversal d W) W (fst r).
  Proof.
    intros W r. set (I := nonzeros d W) in *.
    destruct (improve_spec d tol loss (map (reverse_edges W I) (tl (bit_settings (length I)))) (W, loss W) eq_refl) as (I1 & I2 & I3 & I4).
    fold r in I1, I2, I3, I4. split; [exact I1|]. split.
    - destruct I3 as [->|(J1 & J2 & J3)]; [left; reflexivity|right]. split; [|split; assumption]. apply in_map_iff in J1. destruct J1 as (bits & <- & _). apply reverse_sound.
    - intros V HV Hok. destruct (reverse_complete d W V HV) as (bits & Hb & E). fold I in Hb, E. rewrite (loss_ext V _ E). unfold ok in Hok. rewrite (h_ext d V _ E) in Hok.
      apply (proj2 (bit_settings_In (length I) bits)) in Hb. destruct (bit_settings_hd (length I)) as [q Eq]. rewrite Eq in Hb.
      destruct Hb as [Hb|Hb]; [subst bits; unfold I; rewrite reverse_none; exact I2|].
      apply I4; [|exact Hok]. rewrite Eq. cbn [tl]. apply in_map. exact Hb.
  Qed.
  Lemma stage_delete : forall W b, snd b = loss (fst b) ->
    let r := improve d tol loss (deletions W (nonzeros d W)) b in snd r = loss (fst r) /\ chosen ok loss (one_removed d W) (fst b) (fst r).
  Proof.
    intros W b Hb. apply stage; [exact Hb| |].
    - intros U HU. apply deletion_iff. exists U. split; [exact HU|]. intros i j _ _. reflexivity.
    - intros V HV. apply deletion_iff. exact HV.
  Qed.
  Lemma stage_add : forall W b, snd b = loss (fst b) ->
    let r := improve d tol loss (additions d W) b in snd r = loss (fst r) /\ chosen ok loss (one_added d W) (fst b) (fst r).
  Proof.
    intros W b Hb. apply stage; [exact Hb| |].
    - intros U HU. apply addition_iff. exists U. split; [exact HU|]. intros i j _ _. reflexivity.
    - intros V HV. apply addition_iff. exact HV.
  Qed.
  Lemma local_search_stages : forall W0, exists W1 W2 W3 W4,
    chosen ok loss (a_reversal d W0) W0 W1 /\
    (if (2 <? d) && (d - 1 <? edge_count d W0)
     then chosen ok loss (one_removed d W1) W1 W2 /\
          ((same_edges d W0 W2 /\ W3 = W2) \/ (~ same_edges d W0 W2 /\ chosen ok loss (one_removed d W0) W2 W3))
     else W2 = W1 /\ W3 = W1) /\
    (let W := fst (local_search d tol loss W0) in
     if (2 <? d) && (2 * edge_count d W0 <? d * (d - 1))
     then chosen ok loss (one_added d W3) W3 W4 /\
          ((same_edges d W0 W4 /\ W = W4) \/ (~ same_edges d W0 W4 /\ chosen ok loss (one_added d W0) W4 W))
     else W4 = W3 /\ W = W3).
  Proof.
    intro W0. unfold local_search. rewrite <- !edge_count_length. set (I := nonzeros d W0).
    destruct (stage_reverse W0) as [A1 A2]. fold I in A1, A2.
    set (b1 := improve d tol loss (map (reverse_edges W0 I) (tl (bit_settings (length I)))) (W0, loss W0)) in *.
    destruct (stage_delete (fst b1) b1 A1) as [B1 B2]. set (b2 := improve d tol loss (deletions (fst b1) (nonzeros d (fst b1))) b1) in *.
    destruct (stage_delete W0 b2 B1) as [C1 C2]. fold I in C1, C2. set (b3 := improve d tol loss (deletions W0 I) b2) in *.
    exists (fst b1). cbv zeta.
    set (b := if (2 <? d) && (d - 1 <? length I) then (if same_pattern d W0 (fst b2) then b2 else b3) else b1).
    assert (Hb : snd b = loss (fst b)) by (unfold b; destruct (_ && _); [destruct (same_pattern _ _ _)|]; assumption).
    exists (if (2 <? d) && (d - 1 <? length I) then fst b2 else fst b1), (fst b).
    destruct (stage_add (fst b) b Hb) as [D1 D2]. set (b4 := improve d tol loss (additions d (fst b)) b) in *.
    destruct (stage_add W0 b4 D1) as [E1 E2]. set (b5 := improve d tol loss (additions d W0) b4) in *.
    exists (if (2 <? d) && (2 * length I <? d * (d - 1)) then fst b4 else fst b).
    split; [exact A2|]. split.
    - unfold b. destruct ((2 <? d) && (d - 1 <? length I)); [|split; reflexivity]. split; [exact B2|].
      destruct (same_pattern d W0 (fst b2)) eqn:P; [left; split; [apply same_pattern_iff; exact P|reflexivity]|right]. split; [|exact C2].
      intro K. apply same_pattern_iff in K. congruence.
    - destruct ((2 <? d) && (2 * length I <? d * (d - 1))); [|split; reflexivity]. split; [exact D2|].
      destruct (same_pattern d W0 (fst b4)) eqn:P; [left; split; [apply same_pattern_iff; exact P|reflexivity]|right]. split; [|exact E2].
      intro K. apply same_pattern_iff in K. congruence.
  Qed.
End Stage.
