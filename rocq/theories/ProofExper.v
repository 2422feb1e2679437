(** * Lemmas for the visualisation helper, the data generator and the tuner *)
From Coq Require Import List Arith Bool ZArith QArith Qcanon Lia Permutation Sorted.
From Verif Require Import Prelude Spec Lib ProofBootstrap ProofBootstrap2 ModelRoot ProofRoot ModelExper.
Import ListNotations.
Open Scope nat_scope.

Lemma insert_nat_perm : forall x l, Permutation (insert_nat x l) (x :: l).
Proof.
  intros x l. induction l as [|y l IH]; cbn [insert_nat]; [apply Permutation_refl|]. destruct (x <=? y); [apply Permutation_refl|].
  eapply perm_trans; [apply perm_skip; exact IH|apply perm_swap].
Qed.
Lemma sort_nat_perm : forall l, Permutation (sort_nat l) l.
Proof.
  induction l as [|x l IH]; [constructor|]. unfold sort_nat in *. cbn [fold_right]. eapply perm_trans; [apply insert_nat_perm|]. apply perm_skip. exact IH.
Qed.
Lemma insert_nat_sorted : forall x l, StronglySorted le l -> StronglySorted le (insert_nat x l).
Proof.
  intros x l S. induction S as [|y l S IH F]; cbn [insert_nat]; [constructor; constructor|].
  destruct (Nat.leb_spec x y).
  - constructor; [constructor; assumption|]. constructor; [exact H|]. eapply Forall_impl; [|exact F]. intros a Ha. cbn in *. lia.
  - constructor; [exact IH|]. apply Forall_forall. intros a Ha. apply (Permutation_in _ (insert_nat_perm x l)) in Ha. rewrite Forall_forall in F. destruct Ha as [<-|Ha]; [lia|apply F; exact Ha].
Qed.
Lemma sort_nat_sorted : forall l, StronglySorted le (sort_nat l).
Proof. induction l as [|x l IH]; [constructor|]. apply insert_nat_sorted. exact IH. Qed.
Lemma sort_nat_In : forall l x, In x (sort_nat l) <-> In x l.
Proof. intros l x. split; apply Permutation_in; [apply sort_nat_perm|apply Permutation_sym; apply sort_nat_perm]. Qed.
Lemma sorted_filter : forall (R : nat -> nat -> Prop) P l, StronglySorted R l -> StronglySorted R (filter P l).
Proof.
  intros R P l S. induction S as [|y l S IH F]; cbn [filter]; [constructor|]. destruct (P y); [|exact IH]. constructor; [exact IH|].
  apply Forall_forall. intros a Ha. apply filter_In in Ha. rewrite Forall_forall in F. apply F. tauto.
Qed.
Lemma uniq_sorted : forall l, StronglySorted le l -> StronglySorted lt (uniq l).
Proof.
  intros l S. induction S as [|y l S IH F]; cbn [uniq]; [constructor|]. constructor; [apply sorted_filter; exact IH|].
  apply Forall_forall. intros a Ha. apply filter_In in Ha. destruct Ha as [Ha N]. apply (proj1 (uniq_In _ _)) in Ha. rewrite Forall_forall in F. specialize (F a Ha).
  apply negb_true_iff, Nat.eqb_neq in N. lia.
Qed.

(** ** Data generator *)
Lemma qadd_qsub : forall y p, length p = length y -> qadd (qsub y p) p = y.
Proof.
  induction y as [|a y IH]; intros [|b p] L; cbn in L |- *; try lia; [reflexivity|]. rewrite IH by lia. f_equal. ring.
Qed.
Lemma positions_unique : forall l, NoDup l -> flat_map (fun x => positions_of x l) l = seq 0 (length l).
Proof.
  intros l ND. unfold positions_of.
  assert (P : forall r, r < length l -> filter (fun r' => nth r' l 0 =? nth r l 0) (seq 0 (length l)) = [r]).
  { intros r Hr. assert (G : forall a k, a <= r < a + k -> a + k <= length l -> filter (fun r' => nth r' l 0 =? nth r l 0) (seq a k) = [r]).
    { intros a k. revert a. induction k as [|k IH]; intros a H1 H2; [lia|]. cbn [seq filter]. destruct (Nat.eqb_spec (nth a l 0) (nth r l 0)) as [E|E].
      - assert (a = r) by (apply (proj1 (NoDup_nth l 0) ND); [lia|lia|exact E]). subst a. f_equal.
        assert (Z : forall b m, r < b -> b + m <= length l -> filter (fun r' => nth r' l 0 =? nth r l 0) (seq b m) = []).
        { clear - ND Hr. intros b m. revert b. induction m as [|m IH]; intros b H1 H2; [reflexivity|]. cbn [seq filter].
          destruct (Nat.eqb_spec (nth b l 0) (nth r l 0)) as [E|E]; [|apply IH; lia].
          assert (b = r) by (apply (proj1 (NoDup_nth l 0) ND); [lia|lia|exact E]). lia. }
        apply Z; lia.
      - apply IH; [|lia]. assert (a <> r) by (intros ->; congruence). lia. }
    apply G; lia. }
  assert (Q : flat_map (fun x => filter (fun r => nth r l 0 =? x) (seq 0 (length l))) l =
              flat_map (fun r' => filter (fun r => nth r l 0 =? nth r' l 0) (seq 0 (length l))) (seq 0 (length l))).
  { rewrite !flat_map_concat_map. f_equal. rewrite <- (map_map (fun r' => nth r' l 0) (fun x => filter (fun r => nth r l 0 =? x) (seq 0 (length l)))). f_equal.
    clear. assert (G : forall d, map (fun r => nth r (d ++ l) 0) (seq (length d) (length l)) = l).
    { induction l as [|x l IH]; intro d; [reflexivity|]. cbn [length seq map]. rewrite app_nth2 by lia. rewrite Nat.sub_diag. cbn [nth]. f_equal.
      specialize (IH (d ++ [x])). rewrite <- app_assoc in IH. rewrite app_length in IH. cbn [length app] in IH. rewrite Nat.add_1_r in IH. exact IH. }
    symmetry. apply (G []). }
  rewrite Q. clear Q. assert (G : forall l', (forall r, In r l' -> r < length l) -> flat_map (fun r' => filter (fun r => nth r l 0 =? nth r' l 0) (seq 0 (length l))) l' = l').
  { induction l' as [|r l' IH]; intro H; [reflexivity|]. cbn [flat_map]. rewrite P by (apply H; left; reflexivity). cbn [app]. f_equal. apply IH. intros x Hx. apply H. right. exact Hx. }
  apply G. intros r Hr. apply in_seq in Hr. lia.
Qed.
Lemma map_nth_seq : forall (l : list Qc), map (fun r => nth r l 0%Qc) (seq 0 (length l)) = l.
Proof.
  intro l. assert (G : forall d, map (fun r => nth r (d ++ l) 0%Qc) (seq (length d) (length l)) = l).
  { induction l as [|x l IH]; intro d; [reflexivity|]. cbn [length seq map]. rewrite app_nth2 by lia. rewrite Nat.sub_diag. cbn [nth]. f_equal.
    specialize (IH (d ++ [x])). rewrite <- app_assoc in IH. rewrite app_length in IH. cbn [length app] in IH. rewrite Nat.add_1_r in IH. exact IH. }
  apply (G []).
Qed.
Lemma memb_In : forall x l, memb x l = true <-> In x l.
Proof.
  intros x l. unfold memb. rewrite existsb_exists. split; [intros (y & H & E); apply Nat.eqb_eq in E; subst y; exact H|]. intro H. exists x. split; [exact H|apply Nat.eqb_refl].
Qed.

(** ** Markov blankets *)
Definition oedge (n : nat) (g : mat num) (a b : nat) : Prop := a < n /\ b < n /\ oct_edge (g b a) = true.
Lemma oct_mb_In : forall n g i j, i < n ->
  (In j (oct_mb n g i) <-> oedge n g j i \/ oedge n g i j \/ (j <> i /\ exists c, oedge n g i c /\ oedge n g j c)).
Proof.
  intros n g i j Hi. unfold oct_mb. rewrite uniq_In, sort_nat_In, !in_app_iff, !filter_In, !in_seq, in_flat_map, negb_true_iff, Nat.eqb_neq. unfold oedge. split.
  - intros [[H1 H2]|[[H1 H2]|[(c & H1 & H2) H3]]].
    + left. repeat split; [lia|exact Hi|exact H2].
    + right; left. repeat split; [exact Hi|lia|exact H2].
    + right; right. split; [exact H3|]. apply filter_In in H1, H2. rewrite in_seq in H1, H2. exists c. repeat split; try lia; tauto.
  - intros [(H1 & H2 & H3)|[(H1 & H2 & H3)|[H1 (c & (A1 & A2 & A3) & (B1 & B2 & B3))]]].
    + left. split; [lia|exact H3].
    + right; left. split; [lia|exact H3].
    + right; right. split; [|exact H1]. exists c. rewrite !filter_In, !in_seq. repeat split; try lia; assumption.
Qed.
Lemma oct_mb_sorted : forall n g i, StronglySorted lt (oct_mb n g i).
Proof. intros. unfold oct_mb. apply uniq_sorted. apply sort_nat_sorted. Qed.

(** ** Selection *)
Lemma argbest_min : forall l bi i b, let r := argbest qltb (Some b) bi i (map Some l) in
  (r = bi /\ forall y, In y l -> (b <= y)%Qc) \/
  (exists k v, r = i + k /\ nth_error l k = Some v /\ (v <= b)%Qc /\ forall y, In y l -> (v <= y)%Qc).
Proof.
  induction l as [|x l IH]; intros bi i b r; unfold r; cbn [map argbest].
  - left. split; [reflexivity|intros y []].
  - destruct (qltb x b) eqn:E.
    + right. apply qltb_lt in E. destruct (IH i (S i) x) as [[R M]|(k & v & R & N & V & M)].
      * exists 0, x. split; [rewrite R; lia|]. split; [reflexivity|]. split; [apply Qclt_le_weak; exact E|]. intros y [<-|Hy]; [apply Qcle_refl|apply M; exact Hy].
      * exists (S k), v. split; [rewrite R; lia|]. split; [exact N|]. split; [eapply Qcle_trans; [exact V|apply Qclt_le_weak; exact E]|]. intros y [<-|Hy]; [exact V|apply M; exact Hy].
    + apply qltb_nlt in E. destruct (IH bi (S i) b) as [[R M]|(k & v & R & N & V & M)].
      * left. split; [exact R|]. intros y [<-|Hy]; [exact E|apply M; exact Hy].
      * right. exists (S k), v. split; [rewrite R; lia|]. split; [exact N|]. split; [exact V|]. intros y [<-|Hy]; [eapply Qcle_trans; [exact V|exact E]|apply M; exact Hy].
Qed.
Lemma argmin_spec : forall l, l <> [] -> exists i v, np_argmin (map Some l) = Some i /\ nth_error l i = Some v /\ forall y, In y l -> (v <= y)%Qc.
Proof.
  intros [|x l] NE; [congruence|]. cbn [map np_argmin]. destruct (argbest_min l 0 1 x) as [[R M]|(k & v & R & N & V & M)]; rewrite R.
  - exists 0, x. split; [reflexivity|]. split; [reflexivity|]. intros y [<-|Hy]; [apply Qcle_refl|apply M; exact Hy].
  - exists (1 + k), v. split; [reflexivity|]. split; [exact N|]. intros y [<-|Hy]; [exact V|apply M; exact Hy].
Qed.
Lemma oct_select_spec : forall thr pv mb K best, let r := oct_select thr pv mb K best in
  (r = best \/ (r < K /\ (thr < pv r)%Qc)) /\ (mb r <= mb best)%Qc /\
  (forall k, k < K -> (thr < pv k)%Qc -> k <> best -> (mb r <= mb k)%Qc).
Proof.
  intros thr pv mb K best r. unfold r, oct_select.
  set (P := fun k => negb (k =? best) && qltb thr (pv k)).
  assert (MI : forall k, In k (filter P (seq 0 K)) <-> k < K /\ k <> best /\ (thr < pv k)%Qc).
  { intro k. unfold P. rewrite filter_In, in_seq, andb_true_iff, negb_true_iff, Nat.eqb_neq, qltb_lt. intuition lia. }
  destruct (filter P (seq 0 K)) as [|m ms] eqn:EM.
  - split; [left; reflexivity|]. split; [apply Qcle_refl|]. intros k H1 H2 H3. assert (I : In k []) by (apply MI; tauto). destruct I.
  - set (l := best :: m :: ms). replace (map (fun k => Some (mb k)) l) with (map Some (map mb l)) by (rewrite map_map; reflexivity).
    destruct (argmin_spec (map mb l)) as (i & v & R & N & M); [discriminate|]. rewrite R.
    assert (Hi : i < length l) by (rewrite <- (map_length mb l); apply nth_error_Some; congruence).
    assert (V : v = mb (nth i l best)). { rewrite (nth_error_nth' l best Hi) || idtac. erewrite (map_nth_error mb i l) in N; [|apply (nth_error_nth' l best Hi)]. congruence. }
    assert (I : In (nth i l best) l) by (apply nth_In; exact Hi). rewrite <- V. split; [|split].
    + destruct I as [I|I]; [left; symmetry; exact I|]. right. apply MI in I. tauto.
    + apply M. left. reflexivity.
    + intros k H1 H2 H3. apply M. apply in_map. right. apply MI. tauto.
Qed.
Lemma argbest_max : forall l bi i b, bi < i -> let r := argbest (fun v b => qltb b v) (Some b) bi i (map Some l) in
  (r = bi /\ forall y, In y l -> (y <= b)%Qc) \/
  (exists k v, r = i + k /\ nth_error l k = Some v /\ (b < v)%Qc /\ (forall y, In y l -> (y <= v)%Qc) /\ forall k' y, k' < k -> nth_error l k' = Some y -> (y < v)%Qc).
Proof.
  induction l as [|x l IH]; intros bi i b Hbi r; unfold r; cbn [map argbest].
  - left. split; [reflexivity|intros y []].
  - destruct (qltb b x) eqn:E.
    + right. apply qltb_lt in E. destruct (IH i (S i) x ltac:(lia)) as [[R M]|(k & v & R & N & V & M & F)].
      * exists 0, x. split; [rewrite R; lia|]. split; [reflexivity|]. split; [exact E|]. split; [intros y [<-|Hy]; [apply Qcle_refl|apply M; exact Hy]|intros; lia].
      * exists (S k), v. split; [rewrite R; lia|]. split; [exact N|]. split; [eapply Qclt_trans; eassumption|]. split; [intros y [<-|Hy]; [apply Qclt_le_weak; exact V|apply M; exact Hy]|].
        intros [|k'] y H1 H2; [cbn in H2; injection H2 as ->; exact V|apply (F k' y); [lia|exact H2]].
    + apply qltb_nlt in E. destruct (IH bi (S i) b ltac:(lia)) as [[R M]|(k & v & R & N & V & M & F)].
      * left. split; [exact R|]. intros y [<-|Hy]; [exact E|apply M; exact Hy].
      * right. exists (S k), v. split; [rewrite R; lia|]. split; [exact N|]. split; [exact V|]. split; [intros y [<-|Hy]; [eapply Qcle_trans; [exact E|apply Qclt_le_weak; exact V]|apply M; exact Hy]|].
        intros [|k'] y H1 H2; [cbn in H2; injection H2 as ->; eapply Qcle_lt_trans; eassumption|apply (F k' y); [lia|exact H2]].
Qed.
Lemma argmax_spec : forall l : list Qc, l <> [] ->
  exists b v, oct_best (map Some l) = Some b /\ nth_error l b = Some v /\
    (forall y, In y l -> (y <= v)%Qc) /\ (forall k y, k < b -> nth_error l k = Some y -> (y < v)%Qc).
Proof.
  intros [|x l] NE; [congruence|]. unfold oct_best. cbn [map np_argmax]. destruct (argbest_max l 0 1 x ltac:(lia)) as [[R M]|(k & v & R & N & V & M & F)]; rewrite R.
  - exists 0, x. split; [reflexivity|]. split; [reflexivity|]. split; [intros y [<-|Hy]; [apply Qcle_refl|apply M; exact Hy]|intros; lia].
  - exists (1 + k), v. split; [reflexivity|]. split; [exact N|]. split; [intros y [<-|Hy]; [apply Qclt_le_weak; exact V|apply M; exact Hy]|].
    intros [|k'] y H1 H2; [cbn in H2; injection H2 as ->; exact V|apply (F k' y); [lia|exact H2]].
Qed.

(** ** Blanket sizes *)
Lemma qn_plus : forall a b, qn (a + b) = (qn a + qn b)%Qc.
Proof. intros. unfold qn, qz. apply Qc_is_canon. unfold Qcplus, Q2Qc. cbn [this]. rewrite !Qred_correct. rewrite Nat2Z.inj_add. rewrite inject_Z_plus. reflexivity. Qed.
Lemma qn_mult : forall a b, qn (a * b) = (qn a * qn b)%Qc.
Proof. intros. unfold qn, qz. apply Qc_is_canon. unfold Qcmult, Q2Qc. cbn [this]. rewrite !Qred_correct. rewrite Nat2Z.inj_mul. rewrite inject_Z_mult. reflexivity. Qed.
Lemma qsum_qn : forall l, qsum (map qn l) = qn (list_sum l).
Proof. induction l as [|x l IH]; [apply Qc_is_canon; reflexivity|]. cbn [map qsum fold_right list_sum]. fold (qsum (map qn l)). rewrite IH. fold (list_sum l). symmetry. apply qn_plus. Qed.
Lemma list_sum_le : forall l b, (forall x, In x l -> x <= b) -> list_sum l <= b * length l.
Proof. induction l as [|x l IH]; intros b H; cbn; [lia|]. pose proof (H x (or_introl eq_refl)). specialize (IH b (fun y Hy => H y (or_intror Hy))). cbn in IH. unfold list_sum in IH. nia. Qed.
Lemma list_sum_const : forall l b, (forall x, In x l -> x = b) -> list_sum l = b * length l.
Proof. induction l as [|x l IH]; intros b H; cbn; [lia|]. pose proof (H x (or_introl eq_refl)). specialize (IH b (fun y Hy => H y (or_intror Hy))). cbn in IH. unfold list_sum in IH. nia. Qed.
Lemma sorted_lt_NoDup : forall l, StronglySorted lt l -> NoDup l.
Proof. intros l S. induction S as [|x l S IH F]; constructor; [|exact IH]. intro H. rewrite Forall_forall in F. specialize (F x H). lia. Qed.
Lemma others_length : forall n i, i < n -> length (filter (fun j => negb (j =? i)) (seq 0 n)) = n - 1.
Proof.
  intros n i Hi. replace (seq 0 n) with (seq 0 i ++ i :: seq (S i) (n - S i)).
  2:{ change (i :: seq (S i) (n - S i)) with (seq i (S (n - S i))). rewrite <- seq_app. f_equal. lia. }
  rewrite filter_app. cbn [filter]. rewrite Nat.eqb_refl. cbn [negb]. rewrite app_length.
  assert (G : forall a k, (forall x, a <= x < a + k -> x <> i) -> length (filter (fun j => negb (j =? i)) (seq a k)) = k).
  { intros a k. revert a. induction k as [|k IH]; intros a H; [reflexivity|]. cbn [seq filter]. destruct (Nat.eqb_spec a i) as [E|E]; [exfalso; apply (H a); [lia|exact E]|]. cbn [negb length]. rewrite IH; [reflexivity|]. intros x Hx. apply H. lia. }
  rewrite !G by (intros; lia). lia.
Qed.
Lemma explanatory_length : forall n g i, i < n -> (forall v, ~ oedge n g v v) -> length (oct_explanatory n (Some g) i) <= n - 1.
Proof.
  intros n g i Hi L. cbn [oct_explanatory]. rewrite <- (others_length n i Hi). apply NoDup_incl_length; [apply sorted_lt_NoDup; apply oct_mb_sorted|].
  intros j Hj. apply oct_mb_In in Hj; [|exact Hi]. apply filter_In. rewrite in_seq, negb_true_iff, Nat.eqb_neq.
  destruct Hj as [H|[H|[H (c & _ & (B1 & B2 & _))]]].
  - split; [destruct H; lia|]. intros ->. exact (L i H).
  - split; [destruct H as (? & ? & ?); lia|]. intros ->. exact (L i H).
  - split; [lia|exact H].
Qed.
Lemma mb_size_bounds : forall n gs, 0 < n -> gs <> [] -> (forall g v, In (Some g) gs -> ~ oedge n g v v) ->
  (0 <= oct_mb_size n gs)%Qc /\ (oct_mb_size n gs <= qn (n - 1))%Qc /\ ((forall g, In g gs -> g = None) -> oct_mb_size n gs = qn (n - 1)).
Proof.
  intros n gs Hn NE L. unfold oct_mb_size.
  set (ls := flat_map (fun g => map (fun i => length (oct_explanatory n g i)) (seq 0 n)) gs).
  replace (flat_map (fun g => map (fun i => qn (length (oct_explanatory n g i))) (seq 0 n)) gs) with (map qn ls).
  2:{ unfold ls. clear. induction gs as [|g gs IH]; [reflexivity|]. cbn [flat_map]. rewrite map_app, map_map, IH. reflexivity. }
  rewrite qsum_qn. assert (LL : length ls = length gs * n).
  { unfold ls. clear. induction gs as [|g gs IH]; [reflexivity|]. cbn [flat_map length]. rewrite app_length, map_length, seq_length, IH. lia. }
  assert (GP : 0 < length gs * n). { destruct gs; [congruence|cbn; nia]. }
  assert (T : qn (n - 1) = (qn ((n - 1) * length ls) / qn (length gs * n))%Qc).
  { rewrite LL. rewrite (qn_mult (n - 1)). field. apply ProofBootstrap2.qn_nz. exact GP. }
  split; [|split].
  - unfold Qcdiv. replace 0%Qc with (0 * / qn (length gs * n))%Qc by ring. apply Qcmult_le_compat_r; [apply qn_nonneg|]. apply Qclt_le_weak.
    pose proof (frac_le 0 1 (length gs * n) GP ltac:(lia)) as Q. destruct (Qclt_le_dec 0 (/ qn (length gs * n))) as [P|P]; [exact P|]. exfalso.
    pose proof (qn_pos _ GP) as P0. assert (E : (qn (length gs * n) * / qn (length gs * n) = 1)%Qc) by (apply Qcmult_inv_r; apply ProofBootstrap2.qn_nz; exact GP).
    assert (W : (/ qn (length gs * n) * qn (length gs * n) <= 0 * qn (length gs * n))%Qc) by (apply Qcmult_le_compat_r; [exact P|apply Qclt_le_weak; exact P0]).
    rewrite Qcmult_comm, E in W. rewrite Qcmult_0_l in W. apply W. reflexivity.
  - rewrite T. apply frac_le; [exact GP|]. apply list_sum_le. unfold ls. intros x Hx. apply in_flat_map in Hx. destruct Hx as (g & Hg & Hx). apply in_map_iff in Hx. destruct Hx as (i & <- & Hi). apply in_seq in Hi.
    destruct g as [g|]; [apply explanatory_length; [lia|]; intro v; apply L; exact Hg|cbn [oct_explanatory]; rewrite others_length by lia; lia].
  - intro AN. rewrite T. do 2 f_equal. apply list_sum_const. unfold ls. intros x Hx. apply in_flat_map in Hx. destruct Hx as (g & Hg & Hx). apply in_map_iff in Hx. destruct Hx as (i & <- & Hi). apply in_seq in Hi.
    rewrite (AN g Hg). cbn [oct_explanatory]. apply others_length. lia.
Qed.
