(** * Symmetric matrices have orthonormal bases of eigenvectors: routines meeting the specifications exist *)
From Coq Require Import Reals Lra Lia Arith Bool List Permutation ClassicalEpsilon FunctionalExtensionality.
From Verif Require Import Prelude LibR SpecKernel SpecFcorr ModelKernel ModelFcorr ProofKernel ProofHsicR ProofSpectral ProofChol ProofFcorr ProofFcorr2.
Import ListNotations.
Open Scope R_scope.

Definition column (V : rmat) (k : nat) : nat -> R := fun i => V i k.
Lemma complement : forall n k V, (k < n)%nat -> orthonormal n k V -> exists u, 0 < dot n u u /\ forall l, (l < k)%nat -> dot n (column V l) u = 0.
Proof.
  intros n k V Hk O.
  assert (Ex : exists i, (i < n)%nat /\ rsum k (fun l => V i l * V i l) < 1).
  { apply Classical_Prop.NNPP. intro No.
    assert (T : rsum n (fun i => rsum k (fun l => V i l * V i l)) = INR k).
    { rewrite rsum_swap. rewrite (rsum_ext k _ (fun _ => 1)).
      - rewrite rsum_const. ring.
      - intros l Hl. rewrite (O l l Hl Hl), Nat.eqb_refl. reflexivity. }
    assert (L : INR n <= INR k); [|apply INR_le in L; lia].
    rewrite <- T. replace (INR n) with (rsum n (fun _ => 1)) by (rewrite rsum_const; ring). apply rsum_le. intros i Hi.
    apply Rnot_lt_le. intro C. apply No. exists i. split; assumption. }
  destruct Ex as (i & Hi & L). set (a := fun l => V i l). set (p := mv k V a).
  exists (fun j => unit_vec i j - p j).
  assert (Tp : forall l, (l < k)%nat -> dot n (column V l) p = V i l).
  { intros l Hl. change (tmv n V (mv k V a) l = a l). apply ortho_id; assumption. }
  split.
  - rewrite dot_minus_l, (dot_sym n (unit_vec i)), (dot_sym n p), !dot_minus_l, dot_unit_l by exact Hi.
    assert (E : dot n p p = rsum k (fun l => V i l * V i l)) by (unfold p; rewrite ortho_dot by exact O; reflexivity).
    rewrite E, (dot_sym n p (unit_vec i)), dot_unit_l by exact Hi.
    assert (Ep : p i = rsum k (fun l => V i l * V i l)) by reflexivity. rewrite Ep. unfold unit_vec. rewrite Nat.eqb_refl. lra.
  - intros l Hl. rewrite dot_sym, dot_minus_l, dot_unit_l, (dot_sym n p), Tp by assumption. unfold column. ring.
Qed.
Lemma mv_sym_dot : forall n A u v, sym n A -> dot n u (mv n A v) = dot n (mv n A u) v.
Proof. intros n A u v S. rewrite <- bform_mv, (bform_sym n A u v S), bform_mv. apply dot_sym. Qed.
Lemma spectral_step : forall n A k V D, sym n A -> (k < n)%nat -> orthonormal n k V ->
  (forall l, (l < k)%nat -> forall i, (i < n)%nat -> mv n A (column V l) i = D l * V i l) ->
  exists w d, dot n w w = 1 /\ (forall l, (l < k)%nat -> dot n (column V l) w = 0) /\ (forall i, (i < n)%nat -> mv n A w i = d * w i).
Proof.
  intros n A k V D S Hk O E. destruct (complement n k V Hk O) as (u & Pu & Ou). set (c := qform n A u / dot n u u + 1).
  set (A' := fun i j => A i j + rsum k (fun l => (c - D l) * (V i l * V j l))).
  assert (S' : sym n A').
  { intros i j Hi Hj. unfold A'. rewrite (S i j Hi Hj). f_equal. apply rsum_ext. intros; ring. }
  assert (MV : forall z i, mv n A' z i = mv n A z i + rsum k (fun l => (c - D l) * dot n (column V l) z * V i l)).
  { intros z i. unfold mv, A'. rewrite (rsum_ext n _ (fun j => A i j * z j + rsum k (fun l => (c - D l) * (V i l * V j l) * z j))).
    - rewrite rsum_plus. f_equal. rewrite rsum_swap. apply rsum_ext. intros l _. unfold dot, column.
      replace ((c - D l) * rsum n (fun i0 => V i0 l * z i0) * V i l) with (((c - D l) * V i l) * rsum n (fun i0 => V i0 l * z i0)) by ring.
      rewrite <- rsum_scal. apply rsum_ext. intros; ring.
    - intros j _. rewrite Rmult_plus_distr_r, <- rsum_scal_r. reflexivity. }
  destruct (min_eigenvalue n A' ltac:(lia) S') as (d & w & Nw & Ew & Q).
  assert (Dc : d < c).
  { specialize (Q u). rewrite qform_mv in Q. rewrite (dot_ext n u u (mv n A' u) (mv n A u)) in Q.
    - rewrite <- qform_mv in Q. assert (d <= qform n A u / dot n u u); [|unfold c; lra].
      apply (Rmult_le_reg_r (dot n u u)); [exact Pu|]. replace (qform n A u / dot n u u * dot n u u) with (qform n A u) by (field; lra). exact Q.
    - reflexivity.
    - intros i _. rewrite MV, rsum_0; [ring|]. intros l Hl. rewrite Ou by exact Hl. ring. }
  assert (VV : forall l, (l < k)%nat -> forall i, (i < n)%nat -> mv n A' (column V l) i = c * V i l).
  { intros l Hl i Hi. rewrite MV, (E l Hl i Hi). rewrite (rsum_single k _ l Hl).
    - change (dot n (column V l) (column V l)) with (rsum n (fun i => V i l * V i l)). rewrite (O l l Hl Hl), Nat.eqb_refl. ring.
    - intros q Hq Ne. change (dot n (column V q) (column V l)) with (rsum n (fun i => V i q * V i l)). rewrite (O q l Hq Hl).
      destruct (Nat.eqb_spec q l); [contradiction|ring]. }
  assert (Ow : forall l, (l < k)%nat -> dot n (column V l) w = 0).
  { intros l Hl. pose proof (mv_sym_dot n A' (column V l) w S') as M.
    rewrite (dot_ext n (column V l) (column V l) (mv n A' w) (fun i => d * w i)) in M by (intros; try reflexivity; apply Ew; assumption).
    rewrite (dot_ext n (mv n A' (column V l)) (fun i => c * column V l i) w w) in M by (intros; try reflexivity; apply VV; assumption).
    rewrite dot_scal_r, dot_scal_l in M. assert ((c - d) * dot n (column V l) w = 0) by lra.
    apply Rmult_integral in H. destruct H; [lra|assumption]. }
  exists w, d. split; [exact Nw|]. split; [exact Ow|]. intros i Hi. rewrite <- (Ew i Hi), MV, rsum_0; [ring|]. intros l Hl. rewrite Ow by exact Hl. ring.
Qed.
Lemma spectral : forall n A, sym n A -> exists D V, orthonormal n n V /\ forall k i, (k < n)%nat -> (i < n)%nat -> mv n A (column V k) i = D k * V i k.
Proof.
  intros n A S. assert (G : forall k, (k <= n)%nat -> exists D V, orthonormal n k V /\ forall l, (l < k)%nat -> forall i, (i < n)%nat -> mv n A (column V l) i = D l * V i l).
  { induction k as [|k IH]; intro Hk.
    - exists (fun _ => 0), (fun _ _ => 0). split; [intros ? ? ?; lia|intros; lia].
    - destruct (IH ltac:(lia)) as (D & V & O & E). destruct (spectral_step n A k V D S ltac:(lia) O E) as (w & d & Nw & Ow & Ew).
      exists (fun l => if (l =? k)%nat then d else D l), (fun i l => if (l =? k)%nat then w i else V i l). split.
      + intros a b Ha Hb. destruct (Nat.eqb_spec a k) as [->|Na], (Nat.eqb_spec b k) as [->|Nb].
        * rewrite Nat.eqb_refl. exact Nw.
        * replace (k =? b)%nat with false by (symmetry; apply Nat.eqb_neq; congruence). rewrite (rsum_ext n _ (fun i => V i b * w i)) by (intros; ring). apply Ow. lia.
        * replace (a =? k)%nat with false by (symmetry; apply Nat.eqb_neq; congruence). apply Ow. lia.
        * apply O; lia.
      + intros l Hl i Hi. unfold column. destruct (Nat.eqb_spec l k) as [->|Nl]; [apply Ew; exact Hi|apply E; [lia|exact Hi]]. }
  destruct (G n ltac:(lia)) as (D & V & O & E). exists D, V. split; [exact O|]. intros k i Hk Hi. apply E; assumption.
Qed.

(** ** Sorting positions by their values *)
Fixpoint insert_pos (f : nat -> R) (a : nat) (l : list nat) : list nat :=
  match l with [] => [a] | b :: t => if Rle_dec (f a) (f b) then a :: b :: t else b :: insert_pos f a t end.
Definition sort_pos (f : nat -> R) (l : list nat) : list nat := fold_right (insert_pos f) [] l.
Lemma insert_perm : forall f a l, Permutation (insert_pos f a l) (a :: l).
Proof.
  intros f a. induction l as [|b t IH]; [reflexivity|]. cbn [insert_pos]. destruct (Rle_dec (f a) (f b)); [reflexivity|].
  rewrite IH. apply perm_swap.
Qed.
Lemma sort_perm : forall f l, Permutation (sort_pos f l) l.
Proof. intros f. induction l as [|a l IH]; [reflexivity|]. cbn. rewrite insert_perm. constructor. exact IH. Qed.
Fixpoint ordered (f : nat -> R) (l : list nat) : Prop := match l with [] => True | a :: t => (forall b, In b t -> f a <= f b) /\ ordered f t end.
Lemma insert_ordered : forall f a l, ordered f l -> ordered f (insert_pos f a l).
Proof.
  intros f a. induction l as [|b t IH]; intro H; [split; [intros c []|exact I]|]. cbn [insert_pos]. destruct H as [H1 H2]. destruct (Rle_dec (f a) (f b)) as [L|L].
  - split; [|split; assumption]. intros c [<-|Hc]; [exact L|]. specialize (H1 c Hc). lra.
  - split; [|apply IH; exact H2]. intros c Hc. apply (Permutation_in c (insert_perm f a t)) in Hc. destruct Hc as [<-|Hc]; [lra|apply H1; exact Hc].
Qed.
Lemma sort_ordered : forall f l, ordered f (sort_pos f l).
Proof. intros f. induction l as [|a l IH]; [exact I|]. cbn. apply insert_ordered. exact IH. Qed.
Lemma ordered_nth : forall f l j k, ordered f l -> (j < k)%nat -> (k < length l)%nat -> f (nth j l 0%nat) <= f (nth k l 0%nat).
Proof.
  intros f. induction l as [|a l IH]; intros j k H Hjk Hk; [cbn in Hk; lia|]. destruct H as [H1 H2]. cbn [length] in Hk. destruct k as [|k]; [lia|]. destruct j as [|j]; cbn [nth].
  - apply H1, nth_In. lia.
  - apply IH; [exact H2|lia|lia].
Qed.
Definition the_argsort (n : nat) (f : nat -> R) (k : nat) : nat := nth k (sort_pos f (seq 0 n)) 0%nat.
Lemma the_argsort_spec : argsort_spec the_argsort.
Proof.
  intros n f. assert (P := sort_perm f (seq 0 n)). assert (L : length (sort_pos f (seq 0 n)) = n) by (rewrite (Permutation_length P), seq_length; reflexivity).
  assert (ND : NoDup (sort_pos f (seq 0 n))) by (apply (Permutation_NoDup (Permutation_sym P)), seq_NoDup).
  split; [split|].
  - intros k Hk. assert (I : In (the_argsort n f k) (seq 0 n)) by (apply (Permutation_in _ P), nth_In; lia). apply in_seq in I. lia.
  - intros j k Hj Hk E. apply (proj1 (NoDup_nth _ 0%nat) ND); try lia. exact E.
  - intros j k Hjk Hk. apply ordered_nth; [apply sort_ordered|exact Hjk|lia].
Qed.

(** ** Eigenvalues *)
Definition decomposes (r : nat) (M : rmat) (DA : (nat -> R) * rmat) : Prop := symmetric r M ->
  (forall k l, (k < r)%nat -> (l < r)%nat -> rsum r (fun i => snd DA i k * snd DA i l) = if (k =? l)%nat then 1 else 0) /\
  (forall i k, (i < r)%nat -> (k < r)%nat -> rsum r (fun j => M i j * snd DA j k) = fst DA k * snd DA i k).
Lemma decomposition_exists : forall r M, exists DA, decomposes r M DA.
Proof.
  intros r M. destruct (Classical_Prop.classic (symmetric r M)) as [S|S].
  - destruct (spectral r M S) as (D & V & O & E). exists (D, V). intros _. split; [exact O|]. intros i k Hi Hk. apply (E k i Hk Hi).
  - exists ((fun _ => 0), (fun _ _ => 0)). intro H. contradiction.
Qed.
Definition the_eigh (r : nat) (M : rmat) : (nat -> R) * rmat := proj1_sig (constructive_indefinite_description _ (decomposition_exists r M)).
Lemma the_eigh_spec : eigh_spec the_eigh.
Proof. intros r M S. unfold the_eigh. destruct (constructive_indefinite_description _ (decomposition_exists r M)) as [DA H]. cbn. apply H. exact S. Qed.
Definition the_eigsh (n : nat) (M : rmat) : result R :=
  if (n =? 0)%nat then Err ValueError else let D := fst (the_eigh n M) in Ok (D (argmax (fun k => - Rabs (D k)) n)).
Lemma eigenvalue_listed : forall n M D V u, symmetric n M -> orthonormal n n V -> (forall i k, (i < n)%nat -> (k < n)%nat -> rsum n (fun j => M i j * V j k) = D k * V i k) ->
  eigen_of n M u -> exists k, (k < n)%nat /\ D k = u.
Proof.
  intros n M D V u S O E (v & (i & Hi & Ne) & Ev). apply Classical_Prop.NNPP. intro No.
  assert (Z : forall k, (k < n)%nat -> tmv n V v k = 0).
  { intros k Hk. pose proof (mv_sym_dot n M (column V k) v S) as Q.
    rewrite (dot_ext n (column V k) (column V k) (mv n M v) (fun i => u * v i)) in Q by (intros; try reflexivity; apply Ev; assumption).
    rewrite (dot_ext n (mv n M (column V k)) (fun i => D k * column V k i) v v) in Q by (intros; try reflexivity; apply E; assumption).
    rewrite dot_scal_r, dot_scal_l in Q. assert (H : (D k - u) * dot n (column V k) v = 0) by lra.
    apply Rmult_integral in H. destruct H as [H|H]; [|exact H]. exfalso. apply No. exists k. split; [exact Hk|lra]. }
  pose proof (square_complete n V O v) as C. rewrite (dot_ext n _ (fun _ => 0) _ (fun _ => 0)) in C by exact Z.
  pose proof (dot_pos n v i Hi Ne) as P. rewrite <- C in P. unfold dot in P. rewrite rsum_0 in P by (intros; ring). lra.
Qed.
Lemma the_eigsh_spec : eigsh_spec the_eigsh.
Proof.
  intros n M w S E. unfold the_eigsh in E. destruct (Nat.eqb_spec n 0) as [|N0]; [discriminate|]. injection E as <-.
  destruct (the_eigh_spec n M S) as [O Eg]. set (D := fst (the_eigh n M)) in *. set (V := snd (the_eigh n M)) in *.
  set (k := argmax (fun k => - Rabs (D k)) n). assert (Hk : (k < n)%nat) by (apply argmax_below; lia). split.
  - exists (column V k). split; [|intros i Hi; apply Eg; assumption]. apply Classical_Prop.NNPP. intro No.
    pose proof (O k k Hk Hk) as U. rewrite Nat.eqb_refl in U. rewrite rsum_0 in U; [lra|]. intros i Hi.
    destruct (Req_dec (V i k) 0) as [Z|Z]; [rewrite Z; ring|]. exfalso. apply No. exists i. split; assumption.
  - intros u Hu. destruct (eigenvalue_listed n M D V u S O Eg Hu) as (j & Hj & <-).
    pose proof (argmax_max (fun k => - Rabs (D k)) n j Hj) as X. cbn beta in X. fold k in X. lra.
Qed.
Lemma the_eigsh_returns : forall n M, (0 < n)%nat -> exists w, the_eigsh n M = Ok w.
Proof. intros n M Hn. unfold the_eigsh. destruct (Nat.eqb_spec n 0); [lia|]. eexists. reflexivity. Qed.
