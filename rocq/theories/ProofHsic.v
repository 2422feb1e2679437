(** * Lemmas about the HSIC model *)
From Coq Require Import List Arith Bool ZArith QArith Qcanon Lia Permutation.
From Verif Require Import Prelude Spec Lib LibMat ModelBootstrap ModelHsic ProofLim.
Import ListNotations.
Open Scope nat_scope.

Lemma qn_nz : forall n, 1 <= n -> qn n <> 0%Qc.
Proof. intros n H E. pose proof (qn_pos n H) as P. rewrite E in P. discriminate. Qed.
Lemma sumn_const : forall n c, sumn n (fun _ => c) = (qn n * c)%Qc.
Proof. intros n c. rewrite (sumn_ext n _ (fun _ => 1 * c)%Qc) by (intros; ring). rewrite sumn_scal_r, sumn_one. reflexivity. Qed.

(** ** Centring *)
Lemma centre_rows : forall n K i, 1 <= n -> sumn n (fun j => centre n K i j) = 0%Qc.
Proof.
  intros n K i Hn. pose proof (qn_nz n Hn) as N. unfold centre.
  rewrite sumn_plus, sumn_minus, sumn_const.
  rewrite (sumn_ext n (fun j => ((sumn n (fun i0 => K i0 j) + sumn n (fun j0 => K i j0)) / qn n)%Qc)
                      (fun j => ((sumn n (fun i0 => K i0 j) + sumn n (fun j0 => K i j0)) * / qn n)%Qc)) by reflexivity.
  rewrite sumn_scal_r, sumn_plus, sumn_const, (sumn_swap n n (fun a b => K b a)). change (sumn n (K i)) with (sumn n (fun j => K i j)). field. exact N.
Qed.
Lemma centre_cols : forall n K j, 1 <= n -> sumn n (fun i => centre n K i j) = 0%Qc.
Proof.
  intros n K j Hn. pose proof (qn_nz n Hn) as N. unfold centre.
  rewrite sumn_plus, sumn_minus, sumn_const.
  rewrite (sumn_ext n (fun i => ((sumn n (fun i0 => K i0 j) + sumn n (fun j0 => K i j0)) / qn n)%Qc)
                      (fun i => ((sumn n (fun i0 => K i0 j) + sumn n (fun j0 => K i j0)) * / qn n)%Qc)) by reflexivity.
  rewrite sumn_scal_r, sumn_plus, sumn_const. field. exact N.
Qed.
Lemma centre_sym : forall n K, (forall i j, K i j = K j i) -> forall i j, centre n K i j = centre n K j i.
Proof.
  intros n K S i j. unfold centre. rewrite (S i j), (sumn_ext n (fun i0 => K i0 j) (fun j0 => K j j0)) by (intros; apply S).
  rewrite (sumn_ext n (fun j0 => K i j0) (fun i0 => K i0 i)) by (intros; apply S). f_equal. f_equal. f_equal. ring.
Qed.
(** The centring matrix I - 1/n. *)
Definition hmat (n : nat) : mat Qc := fun i j => (midn i j - 1 / qn n)%Qc.
Lemma hmat_l : forall n A i j, i < n -> mmul n (hmat n) A i j = (A i j - sumn n (fun k => A k j) / qn n)%Qc.
Proof.
  intros n A i j Hi. unfold mmul, hmat. rewrite (sumn_ext n _ (fun k => (midn i k * A k j - A k j * (1 / qn n))%Qc)) by (intros; ring).
  rewrite sumn_minus, sumn_scal_r. fold (mmul n midn A i j). rewrite mmul_id_l by exact Hi. unfold Qcdiv. ring.
Qed.
Lemma hmat_r : forall n A i j, j < n -> mmul n A (hmat n) i j = (A i j - sumn n (fun k => A i k) / qn n)%Qc.
Proof.
  intros n A i j Hj. unfold mmul, hmat. rewrite (sumn_ext n _ (fun k => (A i k * midn k j - A i k * (1 / qn n))%Qc)) by (intros; ring).
  rewrite sumn_minus, sumn_scal_r. fold (mmul n A midn i j). rewrite mmul_id_r by exact Hj. change (sumn n (A i)) with (sumn n (fun k => A i k)). unfold Qcdiv. ring.
Qed.
Lemma centre_hmat : forall n K i j, i < n -> j < n -> centre n K i j = mmul n (mmul n (hmat n) K) (hmat n) i j.
Proof.
  intros n K i j Hi Hj. assert (N : qn n <> 0%Qc) by (apply qn_nz; lia). rewrite hmat_r by exact Hj. rewrite hmat_l by exact Hi.
  rewrite (sumn_ext n (fun k => mmul n (hmat n) K i k) (fun k => (K i k - sumn n (fun a => K a k) * / qn n)%Qc)) by (intros; rewrite hmat_l by exact Hi; reflexivity).
  rewrite sumn_minus, sumn_scal_r. unfold centre. rewrite (sumn_swap n n (fun a b => K a b)). change (sumn n (K i)) with (sumn n (fun j0 => K i j0)). field. exact N.
Qed.
Lemma stat_trace : forall n K L, 1 <= n ->
  hsic_stat n (centre n K) (centre n L) = (1 / qn n * trace n (mmul n K (mmul n (mmul n (hmat n) L) (hmat n))))%Qc.
Proof.
  intros n K L Hn. pose proof (qn_nz n Hn) as N. unfold hsic_stat. f_equal.
  set (Lc := centre n L).
  set (cK := fun j => sumn n (fun i => K i j)). set (rK := fun i => sumn n (fun j => K i j)). set (aK := sumn n rK).
  transitivity (sumn n (fun i => sumn n (fun j => K j i * Lc i j)%Qc)).
  - transitivity (sumn n (fun i => (sumn n (fun j => K j i * Lc i j) - cK i * / qn n * sumn n (fun j => Lc i j)
        - sumn n (fun j => rK j * / qn n * Lc i j) + aK / (qn n * qn n) * sumn n (fun j => Lc i j))%Qc)).
    + apply sumn_ext. intros i _. rewrite <- !sumn_scal, <- sumn_minus, <- sumn_minus, <- sumn_plus. apply sumn_ext. intros j _.
      unfold centre at 1. fold (cK i) (rK j). fold rK. fold aK. unfold Qcdiv. ring.
    + rewrite (sumn_ext n _ (fun i => (sumn n (fun j => K j i * Lc i j) - sumn n (fun j => rK j * / qn n * Lc i j))%Qc)).
      2:{ intros i _. unfold Lc. rewrite centre_rows by exact Hn. ring. }
      rewrite sumn_minus. rewrite (sumn_swap n n (fun a b => (rK b * / qn n * Lc a b)%Qc)).
      rewrite (sumn_zero n (fun k => sumn n (fun a => rK k * / qn n * Lc a k))%Qc); [ring|].
      intros j _. rewrite sumn_scal. unfold Lc. rewrite centre_cols by exact Hn. ring.
  - unfold trace, mmul at 1. rewrite (sumn_swap n n (fun a b => (K a b * mmul n (mmul n (hmat n) L) (hmat n) b a)%Qc)).
    apply sumn_ext. intros i Hi. apply sumn_ext. intros j Hj. unfold Lc. rewrite centre_hmat by assumption. reflexivity.
Qed.

(** ** Kernels *)
Lemma sq_dist_sym : forall m X i j, sq_dist m X i j = sq_dist m X j i.
Proof. intros m X i j. unfold sq_dist. rewrite (sumn_ext m (fun k => X i k * X j k)%Qc (fun k => X j k * X i k)%Qc) by (intros; ring). ring. Qed.
Lemma rbf_sym : forall rexp m X w i j, rbf rexp m X w i j = rbf rexp m X w j i.
Proof. intros. unfold rbf. rewrite sq_dist_sym. reflexivity. Qed.
Lemma qz2 : qz 2 = (1 + 1)%Qc.
Proof. apply Qc_is_canon. reflexivity. Qed.
Lemma sq_dist_squares : forall m X i j, sq_dist m X i j = sumn m (fun k => (X i k - X j k) * (X i k - X j k))%Qc.
Proof.
  intros m X i j. unfold sq_dist. rewrite <- sumn_scal, <- sumn_plus, <- sumn_minus. apply sumn_ext. intros k _. rewrite qz2. ring.
Qed.
Lemma Qcsq_nonneg : forall a, (0 <= a * a)%Qc.
Proof.
  intro a. destruct (Qclt_le_dec a 0) as [H|H].
  - apply Qclt_le_weak, Qcopp_le_compat in H. replace (- 0)%Qc with 0%Qc in H by ring. pose proof (Qcmult_le_compat_r _ _ _ H H) as G.
    replace (0 * - a)%Qc with 0%Qc in G by ring. replace (- a * - a)%Qc with (a * a)%Qc in G by ring. exact G.
  - pose proof (Qcmult_le_compat_r _ _ _ H H) as G. replace (0 * a)%Qc with 0%Qc in G by ring. exact G.
Qed.
Lemma sq_dist_pos : forall m X i j, (0 < sq_dist m X i j)%Qc <-> exists k, k < m /\ X i k <> X j k.
Proof.
  intros m X i j. rewrite sq_dist_squares.
  assert (NN : forall k, In k (seq 0 m) -> (0 <= (X i k - X j k) * (X i k - X j k))%Qc) by (intros; apply Qcsq_nonneg). split.
  - intro H. destruct (existsb (fun k => negb (qeqb (X i k) (X j k))) (seq 0 m)) eqn:E.
    + apply existsb_exists in E. destruct E as (k & K1 & K2). apply in_seq in K1. exists k. split; [lia|]. apply negb_true_iff in K2. apply qeqb_neq in K2. exact K2.
    + exfalso. rewrite sumn_zero in H; [discriminate|]. intros k Hk.
      assert (Q : X i k = X j k). { apply qeqb_eq. destruct (qeqb (X i k) (X j k)) eqn:Q; [reflexivity|]. exfalso.
        assert (T : existsb (fun k => negb (qeqb (X i k) (X j k))) (seq 0 m) = true) by (apply existsb_exists; exists k; split; [apply in_seq; lia|rewrite Q; reflexivity]). congruence. }
      rewrite Q. ring.
  - intros (k & Hk & N). destruct (Qcle_lt_or_eq _ _ (sumf_nonneg _ _ (seq 0 m) NN)) as [H|H]; [exact H|].
    exfalso. apply N. symmetry in H. pose proof (sumf_nonneg_zero _ _ (seq 0 m) NN H k (proj2 (in_seq m 0 k) ltac:(lia))) as Z. cbv beta in Z.
    apply Qcmult_integral in Z. assert (Z' : (X i k - X j k = 0)%Qc) by tauto.
    replace (X i k) with ((X i k - X j k) + X j k)%Qc by ring. rewrite Z'. ring.
Qed.

(** ** Medians *)
Lemma qleb_total : forall a b, qleb a b = false -> qleb b a = true.
Proof. intros a b H. apply qleb_le. apply Qcnot_lt_le. intro G. apply Qclt_le_weak in G. apply qleb_le in G. congruence. Qed.
Lemma qleb_trans : forall a b c, qleb a b = true -> qleb b c = true -> qleb a c = true.
Proof. intros a b c H1 H2. apply qleb_le in H1, H2. apply qleb_le. eapply Qcle_trans; eassumption. Qed.
Lemma insert_comm : forall x y l, insert_q x (insert_q y l) = insert_q y (insert_q x l).
Proof.
  intros x y l. induction l as [|h r IH]; cbn [insert_q].
  - destruct (qleb x y) eqn:A; destruct (qleb y x) eqn:B; try reflexivity.
    + apply qleb_le in A, B. rewrite (Qcle_antisym _ _ A B). reflexivity.
    + apply qleb_total in A. congruence.
  - destruct (qleb y h) eqn:Y; destruct (qleb x h) eqn:X; cbn [insert_q]; rewrite ?X, ?Y.
    + destruct (qleb x y) eqn:A; destruct (qleb y x) eqn:B; try reflexivity.
      * apply qleb_le in A, B. rewrite (Qcle_antisym _ _ A B). reflexivity.
      * apply qleb_total in A. congruence.
    + destruct (qleb x y) eqn:A; [|reflexivity]. pose proof (qleb_trans _ _ _ A Y). congruence.
    + destruct (qleb y x) eqn:A; [|reflexivity]. pose proof (qleb_trans _ _ _ A X). congruence.
    + rewrite IH. reflexivity.
Qed.
Lemma sort_perm : forall l l', Permutation l l' -> sort_q l = sort_q l'.
Proof.
  intros l l' P. unfold sort_q. induction P as [|x l l' P IH|x y l|l l' l'' P1 IH1 P2 IH2]; cbn [fold_right].
  - reflexivity.
  - rewrite IH. reflexivity.
  - apply insert_comm.
  - congruence.
Qed.
Lemma median_perm : forall l l', Permutation l l' -> np_median l = np_median l'.
Proof. intros l l' P. unfold np_median. rewrite (sort_perm _ _ P). reflexivity. Qed.
Lemma Qcmult_pos_le : forall c a b, (0 < c)%Qc -> ((c * a <= c * b)%Qc <-> (a <= b)%Qc).
Proof.
  intros c a b Hc. split; intro H.
  - apply (Qcmult_lt_0_le_reg_r a b c Hc). rewrite (Qcmult_comm a), (Qcmult_comm b). exact H.
  - rewrite (Qcmult_comm c a), (Qcmult_comm c b). apply Qcmult_le_compat_r; [exact H|apply Qclt_le_weak; exact Hc].
Qed.
Lemma qleb_scale : forall c a b, (0 < c)%Qc -> qleb (c * a)%Qc (c * b)%Qc = qleb a b.
Proof.
  intros c a b Hc. destruct (qleb a b) eqn:E.
  - apply qleb_le. apply Qcmult_pos_le; [exact Hc|]. apply qleb_le. exact E.
  - destruct (qleb (c * a) (c * b)) eqn:F; [|reflexivity]. apply qleb_le in F. apply (proj1 (Qcmult_pos_le c a b Hc)) in F. apply qleb_le in F. congruence.
Qed.
Lemma insert_scale : forall c x l, (0 < c)%Qc -> insert_q (c * x)%Qc (map (Qcmult c) l) = map (Qcmult c) (insert_q x l).
Proof.
  intros c x l Hc. induction l as [|y l IH]; [reflexivity|]. cbn [map insert_q]. rewrite qleb_scale by exact Hc.
  destruct (qleb x y); [reflexivity|]. cbn [map]. rewrite IH. reflexivity.
Qed.
Lemma sort_scale : forall c l, (0 < c)%Qc -> sort_q (map (Qcmult c) l) = map (Qcmult c) (sort_q l).
Proof.
  intros c l Hc. unfold sort_q. induction l as [|x l IH]; [reflexivity|]. cbn [map fold_right]. rewrite IH. apply insert_scale. exact Hc.
Qed.
Lemma nth_scale : forall c k l, nth k (map (Qcmult c) l) 0%Qc = (c * nth k l 0)%Qc.
Proof. intros c k l. replace 0%Qc with (c * 0)%Qc at 1 by ring. apply map_nth. Qed.
Lemma median_scale : forall c l, (0 < c)%Qc -> np_median (map (Qcmult c) l) = option_map (Qcmult c) (np_median l).
Proof.
  intros c l Hc. unfold np_median. rewrite sort_scale by exact Hc. rewrite map_length. destruct (length (sort_q l)) as [|k]; [reflexivity|].
  rewrite !nth_scale. destruct (Nat.odd (S k)); cbn [option_map]; [reflexivity|]. f_equal. unfold Qcdiv. ring.
Qed.
Lemma sort_length : forall l, length (sort_q l) = length l.
Proof.
  intro l. unfold sort_q. induction l as [|x l IH]; [reflexivity|]. cbn [fold_right length]. rewrite <- IH. clear IH.
  generalize (fold_right insert_q [] l). intro s. induction s as [|y s IH]; [reflexivity|]. cbn [insert_q]. destruct (qleb x y); cbn [length]; [reflexivity|]. rewrite IH. reflexivity.
Qed.
Lemma median_none : forall l, np_median l = None <-> l = [].
Proof.
  intro l. unfold np_median. rewrite sort_length. destruct l as [|x l]; cbn [length]; [tauto|].
  destruct (Nat.odd (S (length l))); split; discriminate.
Qed.
(** Insertion keeps membership, so the median of a positive sample is positive. *)
Lemma insert_In : forall x l y, In y (insert_q x l) <-> y = x \/ In y l.
Proof.
  intros x l y. induction l as [|h l IH]; cbn [insert_q]; [cbn; intuition congruence|].
  destruct (qleb x h); cbn [In]; [intuition congruence|]. rewrite IH. intuition congruence.
Qed.
Lemma sort_In : forall l y, In y (sort_q l) <-> In y l.
Proof.
  intros l y. unfold sort_q. induction l as [|x l IH]; [reflexivity|]. cbn [fold_right In]. rewrite insert_In, IH. intuition congruence.
Qed.
Lemma median_pos : forall l q, (forall x, In x l -> (0 < x)%Qc) -> np_median l = Some q -> (0 < q)%Qc.
Proof.
  intros l q H E. unfold np_median in E. rewrite sort_length in E. destruct (length l) as [|k] eqn:L; [discriminate|].
  assert (P : forall i, i < S k -> (0 < nth i (sort_q l) 0)%Qc).
  { intros i Hi. apply H. apply sort_In. apply nth_In. rewrite sort_length, L. exact Hi. }
  assert (D : S k / 2 < S k) by (apply Nat.div_lt; lia).
  destruct (Nat.odd (S k)); injection E as <-.
  - apply P. exact D.
  - assert (A : (0 < nth (S k / 2 - 1) (sort_q l) 0)%Qc) by (apply P; lia). assert (B := P _ D).
    assert (C : (0 < nth (S k / 2 - 1) (sort_q l) 0 + nth (S k / 2) (sort_q l) 0)%Qc).
    { replace 0%Qc with (0 + 0)%Qc at 1 by ring. unfold Qclt, Qcplus in *. cbn [this Q2Qc] in *. rewrite !Qred_correct in *. apply Qplus_lt_le_compat; [exact A|apply Qlt_le_weak; exact B]. }
    unfold Qcdiv. apply (Qcmult_lt_compat_r 0 _ (/ qz 2)%Qc) in C; [|reflexivity]. replace (0 * / qz 2)%Qc with 0%Qc in C by ring. exact C.
Qed.

(** ** Distances *)
Fixpoint upper (D : nat -> nat -> Qc) (l : list nat) : list Qc :=
  match l with [] => [] | x :: r => map (D x) r ++ upper D r end.
Lemma upper_perm : forall D l l', (forall i j, D i j = D j i) -> Permutation l l' -> Permutation (upper D l) (upper D l').
Proof.
  intros D l l' S P. induction P as [|x l l' P IH|x y l|l l' l'' P1 IH1 P2 IH2]; cbn [upper].
  - constructor.
  - apply Permutation_app; [apply Permutation_map; exact P|exact IH].
  - cbn [map app]. rewrite (S y x). constructor. rewrite !app_assoc. apply Permutation_app_tail. apply Permutation_app_comm.
  - eapply perm_trans; eassumption.
Qed.
Lemma upper_map : forall D p l, upper (fun i j => D (p i) (p j)) l = upper D (map p l).
Proof. intros D p l. induction l as [|x l IH]; [reflexivity|]. cbn [upper map]. rewrite IH, map_map. reflexivity. Qed.
Lemma filter_flat_map : forall A B (P : B -> bool) (f : A -> list B) l, filter P (flat_map f l) = flat_map (fun x => filter P (f x)) l.
Proof. intros A B P f l. induction l as [|x l IH]; [reflexivity|]. cbn [flat_map]. rewrite filter_app, IH. reflexivity. Qed.
Lemma filter_nil : forall A (P : A -> bool) l, (forall x, In x l -> P x = false) -> filter P l = [].
Proof. intros A P l H. induction l as [|x l IH]; [reflexivity|]. cbn [filter]. rewrite H by (left; reflexivity). apply IH. intros y Hy. apply H. right. exact Hy. Qed.
Definition pos (q : Qc) : bool := qltb 0 q.
Lemma upper_rows : forall D k a N, N = a + k ->
  flat_map (fun i => filter pos (map (fun j => if j <=? i then 0%Qc else D i j) (seq 0 N))) (seq a k) = filter pos (upper D (seq a k)).
Proof.
  intros D. induction k as [|k IH]; intros a N HN; [reflexivity|]. cbn [seq flat_map upper]. rewrite filter_app. f_equal.
  - replace N with (S a + k) by lia. rewrite seq_app, map_app, filter_app. cbn [Nat.add]. rewrite (filter_nil _ pos (map _ (seq 0 (S a)))).
    + cbn [app]. f_equal. apply map_ext_in. intros j Hj. apply in_seq in Hj. destruct (j <=? a) eqn:E; [apply Nat.leb_le in E; lia|reflexivity].
    + intros x Hx. apply in_map_iff in Hx. destruct Hx as (j & <- & Hj). apply in_seq in Hj. replace (j <=? a) with true by (symmetry; apply Nat.leb_le; lia). reflexivity.
  - apply IH. lia.
Qed.
Lemma positive_dists_upper : forall n m X, positive_dists n m X = filter pos (upper (sq_dist m X) (seq 0 n)).
Proof. intros n m X. unfold positive_dists. fold pos. rewrite filter_flat_map. apply (upper_rows (sq_dist m X) n 0 n). reflexivity. Qed.
Lemma filter_perm : forall A (P : A -> bool) l l', Permutation l l' -> Permutation (filter P l) (filter P l').
Proof.
  intros A P l l' H. induction H as [|x l l' H IH|x y l|l l' l'' H1 IH1 H2 IH2]; cbn [filter].
  - constructor.
  - destruct (P x); [constructor; exact IH|exact IH].
  - destruct (P x), (P y); try apply Permutation_refl. apply perm_swap.
  - eapply perm_trans; eassumption.
Qed.
Lemma positive_dists_perm : forall n m X p, Permutation (map p (seq 0 n)) (seq 0 n) ->
  Permutation (positive_dists n m (fun r c => X (p r) c)) (positive_dists n m X).
Proof.
  intros n m X p P. rewrite !positive_dists_upper. apply filter_perm.
  change (sq_dist m (fun r c => X (p r) c)) with (fun i j => sq_dist m X (p i) (p j)). rewrite upper_map.
  apply upper_perm; [apply sq_dist_sym|exact P].
Qed.
Lemma upper_In : forall D l x, In x (upper D l) -> exists i j, In i l /\ In j l /\ x = D i j.
Proof.
  intros D l x. induction l as [|y l IH]; cbn [upper]; [intros []|]. intro H. apply in_app_or in H. destruct H as [H|H].
  - apply in_map_iff in H. destruct H as (j & <- & Hj). exists y, j. cbn. tauto.
  - destruct (IH H) as (i & j & Hi & Hj & E). exists i, j. cbn. tauto.
Qed.
Lemma upper_complete : forall D l i j, (forall i j, D i j = D j i) -> In i l -> In j l -> i <> j -> In (D i j) (upper D l).
Proof.
  intros D l i j S. induction l as [|y l IH]; [intros []|]. intros [->|Hi] [->|Hj] N; cbn [upper]; apply in_or_app.
  - congruence.
  - left. apply in_map. exact Hj.
  - left. rewrite S. apply in_map. exact Hi.
  - right. apply IH; assumption.
Qed.
Lemma positive_dists_nil : forall n m X, positive_dists n m X = [] <-> (forall i j k, i < n -> j < n -> k < m -> X i k = X j k).
Proof.
  intros n m X. rewrite positive_dists_upper. split.
  - intros H i j k Hi Hj Hk. destruct (Qc_eq_dec (X i k) (X j k)) as [E|E]; [exact E|]. exfalso.
    assert (NE : i <> j) by (intros ->; apply E; reflexivity).
    assert (P : (0 < sq_dist m X i j)%Qc) by (apply sq_dist_pos; exists k; tauto).
    assert (I : In (sq_dist m X i j) (filter pos (upper (sq_dist m X) (seq 0 n)))).
    { apply filter_In. split; [apply upper_complete; [apply sq_dist_sym|apply in_seq; lia|apply in_seq; lia|exact NE]|]. unfold pos. apply qltb_lt. exact P. }
    rewrite H in I. destruct I.
  - intro H. apply filter_nil. intros x Hx. destruct (upper_In _ _ _ Hx) as (i & j & Hi & Hj & ->). apply in_seq in Hi, Hj.
    unfold pos. destruct (qltb 0 (sq_dist m X i j)) eqn:E; [|reflexivity]. apply qltb_lt in E. apply (proj1 (sq_dist_pos m X i j)) in E.
    destruct E as (k & Hk & N). exfalso. apply N. apply H; lia.
Qed.
(** Shifts and rescalings. *)
Definition affine (a : nat -> Qc) (s : Qc) (X : mat Qc) : mat Qc := fun r c => (a c + s * X r c)%Qc.
Lemma sq_dist_affine : forall m a s X i j, sq_dist m (affine a s X) i j = (s * s * sq_dist m X i j)%Qc.
Proof.
  intros m a s X i j. rewrite !sq_dist_squares, <- sumn_scal. apply sumn_ext. intros k _. unfold affine. ring.
Qed.
Lemma sq_pos : forall s, s <> 0%Qc -> (0 < s * s)%Qc.
Proof.
  intros s H. destruct (Qcle_lt_or_eq _ _ (Qcsq_nonneg s)) as [G|G]; [exact G|]. symmetry in G. apply Qcmult_integral in G. tauto.
Qed.
Lemma upper_scale : forall c D l, upper (fun i j => (c * D i j)%Qc) l = map (Qcmult c) (upper D l).
Proof. intros c D l. induction l as [|x l IH]; [reflexivity|]. cbn [upper]. rewrite IH, map_app, map_map. reflexivity. Qed.
Lemma upper_ext : forall D D' l, (forall i j, D i j = D' i j) -> upper D l = upper D' l.
Proof. intros D D' l H. induction l as [|x l IH]; [reflexivity|]. cbn [upper]. rewrite IH. f_equal. apply map_ext. apply H. Qed.
Lemma filter_scale : forall c l, (0 < c)%Qc -> filter pos (map (Qcmult c) l) = map (Qcmult c) (filter pos l).
Proof.
  intros c l Hc. induction l as [|x l IH]; [reflexivity|]. cbn [map filter]. rewrite IH.
  replace (pos (c * x)%Qc) with (pos x); [destruct (pos x); reflexivity|]. unfold pos.
  destruct (qltb 0 x) eqn:E; symmetry.
  - apply qltb_lt. apply qltb_lt in E. replace 0%Qc with (0 * c)%Qc by ring. rewrite (Qcmult_comm c x). apply Qcmult_lt_compat_r; assumption.
  - apply qltb_nlt. apply qltb_nlt in E. replace 0%Qc with (c * 0)%Qc by ring. apply Qcmult_pos_le; assumption.
Qed.
Lemma width_affine : forall n m a s X, s <> 0%Qc ->
  kernel_width2 n m (affine a s X) = option_map (Qcmult (s * s)) (kernel_width2 n m X).
Proof.
  intros n m a s X Hs. unfold kernel_width2. generalize (if 100 <? n then 100 else n). intro k. rewrite !positive_dists_upper.
  rewrite (upper_ext _ (fun i j => (s * s * sq_dist m X i j)%Qc)) by (intros; apply sq_dist_affine).
  rewrite upper_scale, filter_scale, median_scale by (apply sq_pos; exact Hs).
  destruct (np_median _); cbn [option_map]; [|reflexivity]. f_equal. ring.
Qed.
Lemma width_pos : forall n m X w, kernel_width2 n m X = Some w -> (0 < w)%Qc.
Proof.
  intros n m X w. unfold kernel_width2. destruct (np_median _) as [q|] eqn:E; cbn [option_map]; [|discriminate]. intro H. injection H as <-.
  apply median_pos in E.
  - apply (Qcmult_lt_compat_r 0 q (qf 1 2)) in E; [|reflexivity]. replace (0 * qf 1 2)%Qc with 0%Qc in E by ring. rewrite Qcmult_comm. exact E.
  - intros x Hx. unfold positive_dists in Hx. apply filter_In in Hx. apply qltb_lt. apply Hx.
Qed.
Lemma width_none : forall n m X, kernel_width2 n m X = None <->
  (forall i j k, i < Nat.min n 100 -> j < Nat.min n 100 -> k < m -> X i k = X j k).
Proof.
  intros n m X. unfold kernel_width2. replace (if 100 <? n then 100 else n) with (Nat.min n 100).
  - rewrite <- positive_dists_nil, <- median_none. destruct (np_median _); cbn [option_map]; split; congruence.
  - destruct (100 <? n) eqn:E; [apply Nat.ltb_lt in E|apply Nat.ltb_ge in E]; lia.
Qed.

(** ** Relabelling the samples *)
Section Relabel.
  Variables (n : nat) (p : nat -> nat).
  Hypothesis P : Permutation (map p (seq 0 n)) (seq 0 n).
  Lemma p_bound : forall i, i < n -> p i < n.
  Proof. intros i Hi. assert (H : In (p i) (seq 0 n)) by (eapply Permutation_in; [exact P|apply in_map, in_seq; lia]). apply in_seq in H. lia. Qed.
  Lemma NoDup_map_inj : forall l, NoDup (map p l) -> forall i j, In i l -> In j l -> p i = p j -> i = j.
  Proof.
    intro l. induction l as [|x l IH]; [intros _ i j []|]. intros ND i j Hi Hj E. cbn [map] in ND. apply NoDup_cons_iff in ND. destruct ND as [N ND].
    destruct Hi as [->|Hi]; destruct Hj as [->|Hj].
    - reflexivity.
    - exfalso. apply N. rewrite E. apply in_map. exact Hj.
    - exfalso. apply N. rewrite <- E. apply in_map. exact Hi.
    - apply IH; assumption.
  Qed.
  Lemma p_inj : forall i j, i < n -> j < n -> p i = p j -> i = j.
  Proof.
    intros i j Hi Hj. apply (NoDup_map_inj (seq 0 n)); [|apply in_seq; lia|apply in_seq; lia].
    eapply Permutation_NoDup; [apply Permutation_sym; exact P|apply seq_NoDup].
  Qed.
  Lemma sumn_p : forall f, sumn n (fun i => f (p i)) = sumn n f.
  Proof. intro f. unfold sumn. rewrite <- (sumf_map _ _ p f). apply sumf_perm. exact P. Qed.
  Definition related (A B : mat Qc) : Prop := forall i j, i < n -> j < n -> A i j = B (p i) (p j).
  Lemma sum2_p : forall A B, related A B -> sumn n (fun i => sumn n (fun j => A i j)) = sumn n (fun i => sumn n (fun j => B i j)).
  Proof.
    intros A B H. rewrite <- (sumn_p (fun i => sumn n (fun j => B i j))). apply sumn_ext. intros i Hi.
    rewrite <- (sumn_p (fun j => B (p i) j)). apply sumn_ext. intros j Hj. apply H; assumption.
  Qed.
  Lemma centre_p : forall A B, related A B -> related (centre n A) (centre n B).
  Proof.
    intros A B H i j Hi Hj. unfold centre. rewrite (H i j Hi Hj). rewrite (sum2_p A B H).
    rewrite <- (sumn_p (fun i0 => B i0 (p j))), <- (sumn_p (fun j0 => B (p i) j0)).
    rewrite (sumn_ext n (fun i0 => A i0 j) (fun i0 => B (p i0) (p j))) by (intros; apply H; assumption).
    rewrite (sumn_ext n (fun j0 => A i j0) (fun j0 => B (p i) (p j0))) by (intros; apply H; assumption). reflexivity.
  Qed.
  Lemma stat_p : forall A B C D, related A B -> related C D -> hsic_stat n A C = hsic_stat n B D.
  Proof.
    intros A B C D H1 H2. unfold hsic_stat. f_equal. apply (sum2_p (fun i j => (A j i * C i j)%Qc) (fun i j => (B j i * D i j)%Qc)).
    intros i j Hi Hj. rewrite H1, H2 by assumption. reflexivity.
  Qed.
  Lemma var_p : forall A B C D, related A B -> related C D -> h0_var n A C = h0_var n B D.
  Proof.
    intros A B C D H1 H2. unfold h0_var. cbv zeta. f_equal. f_equal. f_equal.
    - apply sum2_p. intros i j Hi Hj. rewrite H1, H2 by assumption. reflexivity.
    - rewrite <- (sumn_p (fun i => (qf 1 6 * B i i * D i i * (qf 1 6 * B i i * D i i))%Qc)). apply sumn_ext. intros i Hi.
      rewrite H1, H2 by assumption. reflexivity.
  Qed.
  Lemma off_p : forall A B, related A B -> off_mean n A = off_mean n B.
  Proof.
    intros A B H. unfold off_mean. f_equal. apply (sum2_p (fun i j => if i =? j then 0%Qc else A i j) (fun i j => if i =? j then 0%Qc else B i j)).
    intros i j Hi Hj. cbv beta. destruct (Nat.eqb_spec i j) as [->|N].
    - rewrite Nat.eqb_refl. reflexivity.
    - destruct (Nat.eqb_spec (p i) (p j)) as [E|_]; [exfalso; apply N; apply p_inj; assumption|]. apply H; assumption.
  Qed.
End Relabel.

(** One congruence for everything: equal widths and related kernels give equal results. *)
Lemma hsic_gamma_related : forall rexp sf bw n m1 m2 X Y X' Y' p, Permutation (map p (seq 0 n)) (seq 0 n) ->
  (forall w, width2 bw n m1 X = Some w -> exists w', width2 bw n m1 X' = Some w' /\ related n p (rbf rexp m1 X' w') (rbf rexp m1 X w)) ->
  (forall w, width2 bw n m2 Y = Some w -> exists w', width2 bw n m2 Y' = Some w' /\ related n p (rbf rexp m2 Y' w') (rbf rexp m2 Y w)) ->
  (width2 bw n m1 X = None -> width2 bw n m1 X' = None) -> (width2 bw n m2 Y = None -> width2 bw n m2 Y' = None) ->
  hsic_gamma rexp sf bw n m1 m2 X' Y' = hsic_gamma rexp sf bw n m1 m2 X Y.
Proof.
  intros rexp sf bw n m1 m2 X Y X' Y' p P HX HY NX NY. unfold hsic_gamma. destruct (n <=? 3); [reflexivity|].
  destruct (width2 bw n m1 X) as [wx|]; [|rewrite (NX eq_refl); reflexivity].
  destruct (HX wx eq_refl) as (wx' & EX & RX). rewrite EX.
  destruct (width2 bw n m2 Y) as [wy|]; [|rewrite (NY eq_refl); reflexivity].
  destruct (HY wy eq_refl) as (wy' & EY & RY). rewrite EY. cbv zeta.
  pose proof (centre_p n p P _ _ RX) as CX. pose proof (centre_p n p P _ _ RY) as CY.
  rewrite (stat_p n p P _ _ _ _ CX CY), (var_p n p P _ _ _ _ CX CY).
  unfold h0_mean. rewrite (off_p n p P _ _ RX), (off_p n p P _ _ RY). reflexivity.
Qed.
Lemma map_id_seq : forall n, Permutation (map (fun i => i) (seq 0 n)) (seq 0 n).
Proof. intro n. rewrite map_id. apply Permutation_refl. Qed.

(** ** Symmetry of the whole test *)
Lemma hsic_gamma_sym : forall rexp sf bw n m1 m2 X Y,
  hsic_gamma rexp sf bw n m1 m2 X Y = hsic_gamma rexp sf bw n m2 m1 Y X.
Proof.
  intros rexp sf bw n m1 m2 X Y. unfold hsic_gamma. destruct (n <=? 3); [reflexivity|].
  destruct (width2 bw n m1 X) as [wx|]; destruct (width2 bw n m2 Y) as [wy|]; try reflexivity. cbv zeta.
  set (K := rbf rexp m1 X wx). set (L := rbf rexp m2 Y wy).
  assert (KS : forall i j, centre n K i j = centre n K j i) by (apply centre_sym; intros; apply rbf_sym).
  assert (LS : forall i j, centre n L i j = centre n L j i) by (apply centre_sym; intros; apply rbf_sym).
  assert (S1 : hsic_stat n (centre n K) (centre n L) = hsic_stat n (centre n L) (centre n K)).
  { unfold hsic_stat. f_equal. apply sumn_ext. intros i _. apply sumn_ext. intros j _. rewrite (KS j i), (LS i j). ring. }
  assert (S2 : h0_var n (centre n K) (centre n L) = h0_var n (centre n L) (centre n K)).
  { unfold h0_var. cbv zeta. f_equal. f_equal. f_equal; apply sumn_ext; intros i _; [apply sumn_ext; intros j _|]; ring. }
  assert (S3 : h0_mean n K L = h0_mean n L K) by (unfold h0_mean; f_equal; ring).
  rewrite S1, S2, S3. reflexivity.
Qed.
