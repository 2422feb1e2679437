(** * The F-correlation is a regularised canonical correlation of the two Gaussian gram matrices *)
From Coq Require Import Reals Lra Lia Arith Bool List FinFun FunctionalExtensionality.
From Verif Require Import Prelude LibR SpecKernel SpecFcorr ModelKernel ModelFcorr ProofKernel ProofHsicR ProofSpectral ProofChol.
Import ListNotations.
Open Scope R_scope.

(** ** Rectangular matrices with orthonormal columns *)
Definition tmv (n : nat) (U : rmat) (z : nat -> R) : nat -> R := fun k => rsum n (fun i => U i k * z i).
Definition orthonormal (n m : nat) (U : rmat) : Prop := forall k l, (k < m)%nat -> (l < m)%nat -> rsum n (fun i => U i k * U i l) = if (k =? l)%nat then 1 else 0.
Lemma adjoint : forall n m U u z, dot n (mv m U u) z = dot m u (tmv n U z).
Proof.
  intros n m U u z. unfold dot, mv, tmv. rewrite (rsum_ext n _ (fun i => rsum m (fun k => u k * (U i k * z i)))).
  - rewrite rsum_swap. apply rsum_ext. intros k _. apply rsum_scal.
  - intros i _. rewrite <- rsum_scal_r. apply rsum_ext. intros; ring.
Qed.
Lemma tmv_mv : forall n m1 U2 U1 u p, tmv n U2 (mv m1 U1 u) p = rsum m1 (fun q => rsum n (fun i => U2 i p * U1 i q) * u q) .
Proof.
  intros n m1 U2 U1 u p. unfold tmv, mv. rewrite (rsum_ext n _ (fun i => rsum m1 (fun q => U2 i p * U1 i q * u q))).
  - rewrite rsum_swap. apply rsum_ext. intros q _. apply rsum_scal_r.
  - intros i _. rewrite <- rsum_scal. apply rsum_ext. intros; ring.
Qed.
Lemma ortho_id : forall n m U u k, orthonormal n m U -> (k < m)%nat -> tmv n U (mv m U u) k = u k.
Proof.
  intros n m U u k O Hk. rewrite (tmv_mv n m). rewrite (rsum_single m _ k Hk).
  - rewrite (O k k Hk Hk), Nat.eqb_refl. ring.
  - intros q Hq Ne. rewrite (O k q Hk Hq). destruct (Nat.eqb_spec k q); [congruence|ring].
Qed.
Lemma ortho_dot : forall n m U u v, orthonormal n m U -> dot n (mv m U u) (mv m U v) = dot m u v.
Proof. intros n m U u v O. rewrite adjoint. apply dot_ext; [reflexivity|]. intros k Hk. apply ortho_id; assumption. Qed.
Lemma bessel : forall n m U z, orthonormal n m U -> dot m (tmv n U z) (tmv n U z) <= dot n z z.
Proof.
  intros n m U z O. set (a := tmv n U z). assert (E : dot n (mv m U a) z = dot m a a) by (rewrite adjoint; reflexivity).
  pose proof (dot_cs n (mv m U a) z) as C. rewrite E, ortho_dot in C by exact O.
  pose proof (dot_nonneg m a) as P. destruct P as [P|P]; [|rewrite <- P; apply dot_nonneg].
  apply (Rmult_le_reg_l (dot m a a)); assumption.
Qed.

(** ** The block matrix *)
Definition join (m : nat) (u v : nat -> R) : nat -> R := fun p => if (p <? m)%nat then u p else v (p - m)%nat.
Lemma rsum_join : forall m1 m2 f, rsum (m1 + m2) f = rsum m1 f + rsum m2 (fun q => f (m1 + q)%nat).
Proof. intros. apply rsum_split. Qed.
Lemma join_l : forall m u v p, (p < m)%nat -> join m u v p = u p.
Proof. intros. unfold join. destruct (Nat.ltb_spec p m); [reflexivity|lia]. Qed.
Lemma join_r : forall m u v p, join m u v (m + p)%nat = v p.
Proof. intros. unfold join. destruct (Nat.ltb_spec (m + p) m); [lia|]. f_equal. lia. Qed.
Lemma dot_join : forall m1 m2 u v u' v', dot (m1 + m2) (join m1 u v) (join m1 u' v') = dot m1 u u' + dot m2 v v'.
Proof.
  intros. unfold dot. rewrite rsum_join. f_equal; apply rsum_ext; intros; [rewrite !join_l by assumption|rewrite !join_r]; reflexivity.
Qed.
Lemma rk_top : forall m1 m2 B u v p, (p < m1)%nat -> mv (m1 + m2) (R_kappa m1 B) (join m1 u v) p = u p + tmv m2 B v p.
Proof.
  intros m1 m2 B u v p Hp. unfold mv. rewrite rsum_join. f_equal.
  - rewrite (rsum_single m1 _ p Hp).
    + unfold R_kappa, rid. destruct (Nat.ltb_spec p m1); [|lia]. rewrite Nat.eqb_refl, join_l by exact Hp. ring.
    + intros q Hq Ne. unfold R_kappa, rid. destruct (Nat.ltb_spec p m1); [|lia]. destruct (Nat.ltb_spec q m1); [|lia]. destruct (Nat.eqb_spec p q); [congruence|ring].
  - apply rsum_ext. intros q Hq. unfold R_kappa. destruct (Nat.ltb_spec p m1); [|lia]. destruct (Nat.ltb_spec (m1 + q) m1); [lia|]. rewrite join_r.
    replace (m1 + q - m1)%nat with q by lia. reflexivity.
Qed.
Lemma rk_bot : forall m1 m2 B u v p, (p < m2)%nat -> mv (m1 + m2) (R_kappa m1 B) (join m1 u v) (m1 + p) = mv m1 B u p + v p.
Proof.
  intros m1 m2 B u v p Hp. unfold mv. rewrite rsum_join. f_equal.
  - apply rsum_ext. intros q Hq. unfold R_kappa. destruct (Nat.ltb_spec (m1 + p) m1); [lia|]. destruct (Nat.ltb_spec q m1); [|lia]. rewrite join_l by exact Hq.
    replace (m1 + p - m1)%nat with p by lia. reflexivity.
  - rewrite (rsum_single m2 _ p Hp).
    + unfold R_kappa, rid. destruct (Nat.ltb_spec (m1 + p) m1); [lia|]. rewrite Nat.eqb_refl, join_r. ring.
    + intros q Hq Ne. unfold R_kappa, rid. destruct (Nat.ltb_spec (m1 + p) m1); [lia|]. destruct (Nat.ltb_spec (m1 + q) m1); [lia|].
      destruct (Nat.eqb_spec (m1 + p) (m1 + q)); [lia|ring].
Qed.
Lemma rk_sym : forall m1 m2 B, sym (m1 + m2) (R_kappa m1 B).
Proof.
  intros m1 m2 B p q _ _. unfold R_kappa, rid. destruct (p <? m1)%nat, (q <? m1)%nat; try reflexivity; rewrite (Nat.eqb_sym p q); reflexivity.
Qed.
Lemma rk_form : forall m1 m2 B u v, qform (m1 + m2) (R_kappa m1 B) (join m1 u v) = dot m1 u u + dot m2 v v + 2 * dot m2 v (mv m1 B u).
Proof.
  intros m1 m2 B u v. rewrite qform_mv. unfold dot at 1. rewrite rsum_join.
  rewrite (rsum_ext m1 _ (fun p => u p * u p + u p * tmv m2 B v p)) by (intros p Hp; rewrite join_l, rk_top by exact Hp; ring).
  rewrite (rsum_ext m2 _ (fun p => v p * v p + v p * mv m1 B u p)) by (intros p Hp; rewrite join_r, rk_bot by exact Hp; ring).
  rewrite !rsum_plus. fold (dot m1 u u) (dot m2 v v) (dot m2 v (mv m1 B u)) (dot m1 u (tmv m2 B v)). rewrite <- adjoint, (dot_sym m2 (mv m1 B u)). ring.
Qed.
Lemma join_split : forall m1 m2 (w : nat -> R) p, (p < m1 + m2)%nat -> w p = join m1 w (fun q => w (m1 + q)%nat) p.
Proof. intros m1 m2 w p Hp. unfold join. destruct (Nat.ltb_spec p m1); [reflexivity|]. f_equal. lia. Qed.
Lemma mv_ext : forall n A u u' i, (forall j, (j < n)%nat -> u j = u' j) -> mv n A u i = mv n A u' i.
Proof. intros n A u u' i H. apply rsum_ext. intros j Hj. rewrite H by exact Hj. reflexivity. Qed.

(** ** One sample: kept directions U with eigenvalues D and weights R *)
Record factored (n : nat) (t : R) (m : nat) (Rr : nat -> R) (U : rmat) (D : nat -> R) : Prop := {
  fa_ortho : orthonormal n m U;
  fa_D : forall k, (k < m)%nat -> 0 < D k;
  fa_R : forall k, (k < m)%nat -> Rr k = D k / (t + D k) }.
Definition low_gram (m : nat) (U : rmat) (D : nat -> R) : rmat := fun i j => rsum m (fun k => U i k * D k * U j k).
Lemma low_gram_mv : forall n m U D a i, apply n (low_gram m U D) a i = mv m U (fun k => D k * tmv n U a k) i.
Proof.
  intros n m U D a i. unfold apply, low_gram, mv, tmv.
  rewrite (rsum_ext n _ (fun j => rsum m (fun k => U i k * D k * U j k * a j))) by (intros; symmetry; apply rsum_scal_r).
  rewrite rsum_swap. apply rsum_ext. intros k _. rewrite <- !rsum_scal. apply rsum_ext. intros; ring.
Qed.
Lemma low_gram_form : forall n m U D c, qform n (low_gram m U D) c = rsum m (fun k => D k * (tmv n U c k * tmv n U c k)).
Proof.
  intros n m U D c. rewrite qform_mv.
  rewrite (dot_ext n c c _ (mv m U (fun k => D k * tmv n U c k))); [|reflexivity|intros i _; apply low_gram_mv].
  rewrite dot_sym, adjoint. unfold dot. apply rsum_ext. intros; ring.
Qed.
Definition weights (t : R) (D : nat -> R) (n : nat) (U : rmat) (a : nat -> R) : nat -> R := fun k => (t + D k) * tmv n U a k.
Lemma apply_weights : forall n t m Rr U D a i, 0 < t -> factored n t m Rr U D ->
  apply n (low_gram m U D) a i = mv m U (fun k => Rr k * weights t D n U a k) i.
Proof.
  intros n t m Rr U D a i Ht F. rewrite low_gram_mv. apply mv_ext. intros k Hk. rewrite (fa_R _ _ _ _ _ _ F k Hk). unfold weights.
  pose proof (fa_D _ _ _ _ _ _ F k Hk). field. lra.
Qed.
Lemma weights_norm : forall n t m Rr U D a, factored n t m Rr U D ->
  dot m (weights t D n U a) (weights t D n U a) <= norm2 n (regularised n (low_gram m U D) t a).
Proof.
  intros n t m Rr U D a F. pose proof (bessel n m U (regularised n (low_gram m U D) t a) (fa_ortho _ _ _ _ _ _ F)) as B.
  assert (E : forall k, (k < m)%nat -> weights t D n U a k = tmv n U (regularised n (low_gram m U D) t a) k).
  { intros k Hk. transitivity (tmv n U (mv m U (fun k => D k * tmv n U a k)) k + t * tmv n U a k).
    - rewrite (ortho_id n m U _ k (fa_ortho _ _ _ _ _ _ F) Hk). unfold weights. ring.
    - set (z := mv m U (fun k => D k * tmv n U a k)). unfold tmv. rewrite <- rsum_scal, <- rsum_plus. apply rsum_ext. intros i _.
      unfold regularised. rewrite low_gram_mv. fold z. ring. }
  eapply Rle_trans; [|exact B]. apply Req_le. apply dot_ext; exact E.
Qed.
Lemma inner_block : forall n t m1 m2 R1 R2 U1 U2 D1 D2 a b, 0 < t -> factored n t m1 R1 U1 D1 -> factored n t m2 R2 U2 D2 ->
  rsum n (fun i => apply n (low_gram m1 U1 D1) a i * apply n (low_gram m2 U2 D2) b i) =
  dot m2 (weights t D2 n U2 b) (mv m1 (fun p q => R2 p * rsum n (fun i => U2 i p * U1 i q) * R1 q) (weights t D1 n U1 a)).
Proof.
  intros n t m1 m2 R1 R2 U1 U2 D1 D2 a b Ht F1 F2.
  rewrite (rsum_ext n _ (fun i => mv m2 U2 (fun k => R2 k * weights t D2 n U2 b k) i * mv m1 U1 (fun k => R1 k * weights t D1 n U1 a k) i)).
  2:{ intros i _. rewrite (apply_weights n t m1 R1 U1 D1 a i Ht F1), (apply_weights n t m2 R2 U2 D2 b i Ht F2). ring. }
  change (dot n (mv m2 U2 (fun k => R2 k * weights t D2 n U2 b k)) (mv m1 U1 (fun k => R1 k * weights t D1 n U1 a k)) =
    dot m2 (weights t D2 n U2 b) (mv m1 (fun p q => R2 p * rsum n (fun i => U2 i p * U1 i q) * R1 q) (weights t D1 n U1 a))).
  rewrite adjoint. unfold dot. apply rsum_ext. intros p _. rewrite (tmv_mv n m1). unfold mv.
  replace (R2 p * weights t D2 n U2 b p * rsum m1 (fun q => rsum n (fun i => U2 i p * U1 i q) * (R1 q * weights t D1 n U1 a q)))
    with (weights t D2 n U2 b p * (R2 p * rsum m1 (fun q => rsum n (fun i => U2 i p * U1 i q) * (R1 q * weights t D1 n U1 a q)))) by ring.
  f_equal. rewrite <- rsum_scal. apply rsum_ext. intros; ring.
Qed.
(** Vectors with given weights. *)
Lemma weights_onto : forall n t m Rr U D u, 0 < t -> factored n t m Rr U D -> exists a,
  (forall k, (k < m)%nat -> weights t D n U a k = u k) /\ norm2 n (regularised n (low_gram m U D) t a) = dot m u u.
Proof.
  intros n t m Rr U D u Ht F. exists (mv m U (fun k => u k / (t + D k))).
  assert (O := fa_ortho _ _ _ _ _ _ F). assert (W : forall k, (k < m)%nat -> tmv n U (mv m U (fun k => u k / (t + D k))) k = u k / (t + D k)) by (intros; apply ortho_id; assumption).
  split.
  - intros k Hk. unfold weights. rewrite W by exact Hk. pose proof (fa_D _ _ _ _ _ _ F k Hk). field. lra.
  - transitivity (dot n (mv m U u) (mv m U u)); [|apply ortho_dot; exact O].
    unfold norm2. apply rsum_ext. intros i _.
    assert (E : regularised n (low_gram m U D) t (mv m U (fun k => u k / (t + D k))) i = mv m U u i).
    { unfold regularised. rewrite low_gram_mv. unfold mv at 1 3 4. rewrite <- rsum_scal, <- rsum_plus. apply rsum_ext. intros k Hk.
      rewrite W by exact Hk. pose proof (fa_D _ _ _ _ _ _ F k Hk). field. lra. }
    rewrite E. reflexivity.
Qed.
Lemma reg_scal : forall n A t s a i, regularised n A t (fun i => s * a i) i = s * regularised n A t a i.
Proof. intros. unfold regularised, apply. rewrite Rmult_plus_distr_l, <- rsum_scal. f_equal; [apply rsum_ext; intros; ring|ring]. Qed.
Lemma unit_exists : forall n t m Rr U D, (0 < n)%nat -> 0 < t -> factored n t m Rr U D -> exists a, norm2 n (regularised n (low_gram m U D) t a) = 1.
Proof.
  intros n t m Rr U D Hn Ht F. set (e := unit_vec 0). set (z := regularised n (low_gram m U D) t e).
  assert (P : 0 < dot n z z).
  { assert (Q : 0 < dot n e z).
    { unfold z, regularised. rewrite (dot_plus_r n (apply n (low_gram m U D) e) (fun i => t * e i) e), dot_scal_r.
      change (apply n (low_gram m U D) e) with (mv n (low_gram m U D) e). rewrite <- qform_mv, low_gram_form.
      assert (0 <= rsum m (fun k => D k * (tmv n U e k * tmv n U e k))).
      { apply rsum_nonneg. intros k Hk. apply Rmult_le_pos; [apply Rlt_le, (fa_D _ _ _ _ _ _ F k Hk)|apply Rle_0_sqr]. }
      assert (N1 : dot n e e = 1) by (unfold e; rewrite dot_unit_l by exact Hn; reflexivity). rewrite N1. lra. }
    destruct (dot_nonneg n z) as [H|H]; [exact H|]. exfalso. pose proof (dot_cs n e z) as C. rewrite <- H, Rmult_0_r in C.
    pose proof (Rmult_lt_0_compat _ _ Q Q). lra. }
  exists (fun i => / sqrt (dot n z z) * e i). assert (SP : 0 < sqrt (dot n z z)) by (apply sqrt_lt_R0; exact P).
  transitivity (dot n (fun i => / sqrt (dot n z z) * z i) (fun i => / sqrt (dot n z z) * z i)).
  - apply rsum_ext. intros i _.
    assert (E : regularised n (low_gram m U D) t (fun i => / sqrt (dot n z z) * e i) i = / sqrt (dot n z z) * z i).
    { apply reg_scal. }
    rewrite E. reflexivity.
  - rewrite dot_scal_l, dot_scal_r. rewrite <- (sqrt_sqrt (dot n z z)) at 3 by lra. field. lra.
Qed.

(** ** The core *)
Lemma R_bounds : forall n t m Rr U D k, 0 < t -> factored n t m Rr U D -> (k < m)%nat -> 0 < Rr k < 1.
Proof.
  intros n t m Rr U D k Ht F Hk. rewrite (fa_R _ _ _ _ _ _ F k Hk). pose proof (fa_D _ _ _ _ _ _ F k Hk) as P. split.
  - apply Rdiv_lt_0_compat; lra.
  - apply (Rmult_lt_reg_r (t + D k)); [lra|]. unfold Rdiv. rewrite Rmult_assoc, Rinv_l, Rmult_1_r, Rmult_1_l by lra. lra.
Qed.
Lemma shrink : forall n t m Rr U D u, 0 < t -> factored n t m Rr U D ->
  dot m (fun k => Rr k * u k) (fun k => Rr k * u k) <= dot m u u /\
  (forall i, (i < m)%nat -> u i <> 0 -> dot m (fun k => Rr k * u k) (fun k => Rr k * u k) < dot m u u).
Proof.
  intros n t m Rr U D u Ht F.
  assert (E : dot m u u - dot m (fun k => Rr k * u k) (fun k => Rr k * u k) = rsum m (fun k => (1 - Rr k * Rr k) * (u k * u k))).
  { unfold dot. rewrite <- rsum_minus. apply rsum_ext. intros; ring. }
  assert (P : forall k, (k < m)%nat -> 0 < 1 - Rr k * Rr k).
  { intros k Hk. pose proof (R_bounds n t m Rr U D k Ht F Hk) as B. pose proof (Rmult_lt_compat_l (Rr k) (Rr k) 1 ltac:(lra) ltac:(lra)). lra. }
  assert (N : forall k, (k < m)%nat -> 0 <= (1 - Rr k * Rr k) * (u k * u k)).
  { intros k Hk. apply Rmult_le_pos; [apply Rlt_le, P, Hk|apply Rle_0_sqr]. }
  split.
  - assert (0 <= dot m u u - dot m (fun k => Rr k * u k) (fun k => Rr k * u k)) by (rewrite E; apply rsum_nonneg; exact N). lra.
  - intros i Hi Ne. assert (0 < dot m u u - dot m (fun k => Rr k * u k) (fun k => Rr k * u k)); [|lra]. rewrite E.
    eapply Rlt_le_trans; [|apply (rsum_ge_one m _ i Hi N)]. cbn beta. apply Rmult_lt_0_compat; [apply P; exact Hi|]. apply Rsqr_pos_lt. exact Ne.
Qed.
Section Core.
Context (n m1 m2 : nat) (t : R) (R1 R2 D1 D2 : nat -> R) (U1 U2 : rmat).
Context (Hn : (0 < n)%nat) (Ht : 0 < t) (F1 : factored n t m1 R1 U1 D1) (F2 : factored n t m2 R2 U2 D2).
Let B : rmat := fun p q => R2 p * rsum n (fun i => U2 i p * U1 i q) * R1 q.
Lemma block_inner : forall u v, dot m2 v (mv m1 B u) = dot n (mv m2 U2 (fun k => R2 k * v k)) (mv m1 U1 (fun k => R1 k * u k)).
Proof.
  intros u v. rewrite adjoint. unfold dot. apply rsum_ext. intros p _. rewrite (tmv_mv n m1). unfold mv, B.
  replace (R2 p * v p * rsum m1 (fun q => rsum n (fun i => U2 i p * U1 i q) * (R1 q * u q)))
    with (v p * (R2 p * rsum m1 (fun q => rsum n (fun i => U2 i p * U1 i q) * (R1 q * u q)))) by ring.
  f_equal. rewrite <- rsum_scal. apply rsum_ext. intros; ring.
Qed.
Lemma rk_pd : forall w i, (i < m1 + m2)%nat -> w i <> 0 -> 0 < qform (m1 + m2) (R_kappa m1 B) w.
Proof.
  intros w i Hi Ne. rewrite (qform_ext_c _ _ w (join m1 w (fun q => w (m1 + q)%nat))) by (intros; apply (join_split m1 m2); assumption).
  rewrite rk_form, block_inner. set (v := fun q => w (m1 + q)%nat). set (u := w). change (fun k => R2 k * u (m1 + k)%nat) with (fun k => R2 k * v k).
  change (fun q => u (m1 + q)%nat) with v.
  set (z1 := mv m1 U1 (fun k => R1 k * u k)). set (z2 := mv m2 U2 (fun k => R2 k * v k)).
  assert (N1 : dot n z1 z1 = dot m1 (fun k => R1 k * u k) (fun k => R1 k * u k)) by (apply ortho_dot, F1).
  assert (N2 : dot n z2 z2 = dot m2 (fun k => R2 k * v k) (fun k => R2 k * v k)) by (apply ortho_dot, F2).
  pose proof (dot_nonneg n (fun i => z2 i + z1 i)) as S. rewrite dot_plus_l, !dot_plus_r, (dot_sym n z1 z2), N1, N2 in S.
  destruct (shrink n t m1 R1 U1 D1 u Ht F1) as [A1 L1]. destruct (shrink n t m2 R2 U2 D2 v Ht F2) as [A2 L2].
  destruct (Nat.lt_ge_cases i m1) as [L|L].
  - specialize (L1 i L Ne). lra.
  - assert (Nv : v (i - m1)%nat <> 0) by (unfold v; replace (m1 + (i - m1))%nat with i by lia; exact Ne). specialize (L2 (i - m1)%nat ltac:(lia) Nv). lra.
Qed.
Context (w : R) (Hw : eigen_of (m1 + m2) (R_kappa m1 B) w) (Hmin : forall u, eigen_of (m1 + m2) (R_kappa m1 B) u -> Rabs w <= Rabs u).
Lemma eigen_pos : forall l, eigen_of (m1 + m2) (R_kappa m1 B) l -> 0 < l.
Proof.
  intros l (v & (i & Hi & Ne) & E). pose proof (rk_pd v i Hi Ne) as Q. rewrite qform_mv in Q.
  rewrite (dot_ext _ v v (mv (m1 + m2) (R_kappa m1 B) v) (fun i => l * v i)) in Q by (intros; try reflexivity; apply E; assumption).
  rewrite dot_scal_r in Q. pose proof (dot_pos _ v i Hi Ne). apply Rnot_le_lt. intro C.
  assert (0 <= - l * dot (m1 + m2) v v) by (apply Rmult_le_pos; lra). lra.
Qed.
Lemma eigen_flip : forall l, eigen_of (m1 + m2) (R_kappa m1 B) l -> eigen_of (m1 + m2) (R_kappa m1 B) (2 - l).
Proof.
  intros l (v & (i & Hi & Ne) & E). set (u0 := v). set (v0 := fun q => v (m1 + q)%nat).
  assert (Ej : forall p, mv (m1 + m2) (R_kappa m1 B) v p = mv (m1 + m2) (R_kappa m1 B) (join m1 u0 v0) p) by (intro; apply mv_ext; intros; apply (join_split m1 m2); assumption).
  exists (join m1 u0 (fun q => - v0 q)). split.
  - exists i. split; [exact Hi|]. unfold join. destruct (Nat.ltb_spec i m1); [exact Ne|]. unfold v0. replace (m1 + (i - m1))%nat with i by lia. lra.
  - intros p Hp. change (mv (m1 + m2) (R_kappa m1 B) (join m1 u0 (fun q => - v0 q)) p = (2 - l) * join m1 u0 (fun q => - v0 q) p).
    pose proof (E p Hp) as Ep. change (mv (m1 + m2) (R_kappa m1 B) v p = l * v p) in Ep. rewrite Ej in Ep.
    destruct (Nat.lt_ge_cases p m1) as [L|L].
    + rewrite rk_top in * by exact L. rewrite join_l by exact L.
      assert (T : tmv m2 B (fun q => - v0 q) p = - tmv m2 B v0 p) by (unfold tmv; rewrite <- rsum_opp; apply rsum_ext; intros; ring).
      rewrite T. unfold u0 in *. lra.
    + replace p with (m1 + (p - m1))%nat in * by lia. rewrite rk_bot in * by lia. rewrite join_r. fold (v0 (p - m1)%nat) in Ep. lra.
Qed.
Lemma w_range : 0 < w <= 1.
Proof.
  pose proof (eigen_pos w Hw) as P. split; [exact P|]. pose proof (eigen_flip w Hw) as Fl. pose proof (eigen_pos _ Fl) as P2.
  pose proof (Hmin _ Fl) as M. rewrite !Rabs_pos_eq in M by lra. lra.
Qed.
Lemma w_rayleigh : forall c, w * dot (m1 + m2) c c <= qform (m1 + m2) (R_kappa m1 B) c.
Proof.
  intro c. assert (HN : (0 < m1 + m2)%nat) by (destruct Hw as (v & (i & Hi & _) & _); lia).
  destruct (min_eigenvalue (m1 + m2) (R_kappa m1 B) HN (rk_sym m1 m2 B)) as (l & v & N & E & Q).
  assert (El : eigen_of (m1 + m2) (R_kappa m1 B) l).
  { exists v. split; [|exact E]. apply Classical_Prop.NNPP. intro No.
    assert (Z : dot (m1 + m2) v v = 0); [|lra]. apply rsum_0. intros i Hi. destruct (Req_dec (v i) 0) as [H|H]; [rewrite H; ring|]. exfalso. apply No. exists i. split; assumption. }
  pose proof (eigen_pos l El). pose proof (Hmin l El) as M. pose proof w_range. rewrite !Rabs_pos_eq in M by lra.
  apply Rle_trans with (l * dot (m1 + m2) c c); [apply Rmult_le_compat_r; [apply dot_nonneg|exact M]|apply Q].
Qed.
Lemma block_bound : forall u v, dot m1 u u <= 1 -> dot m2 v v <= 1 -> dot m2 v (mv m1 B u) <= 1 - w.
Proof.
  intros u v Nu Nv. pose proof (w_rayleigh (join m1 u (fun q => (-1) * v q))) as Q. rewrite dot_join, rk_form, dot_scal_l, dot_scal_r, dot_scal_l in Q.
  pose proof w_range. pose proof (dot_nonneg m1 u). pose proof (dot_nonneg m2 v).
  set (a := dot m1 u u) in *. set (b := dot m2 v v) in *. set (d := dot m2 v (mv m1 B u)) in *.
  assert (2 * d <= (1 - w) * (a + b)) by lra.
  assert ((1 - w) * (a + b) <= (1 - w) * 2) by (apply Rmult_le_compat_l; lra). lra.
Qed.
Lemma block_attained : 0 < 1 - w -> exists u v, dot m1 u u = 1 /\ dot m2 v v = 1 /\ dot m2 v (mv m1 B u) = 1 - w.
Proof.
  intro P. destruct Hw as (z & (i & Hi & Ne) & E). set (u := z). set (v := fun q => z (m1 + q)%nat).
  assert (Ej : forall p, mv (m1 + m2) (R_kappa m1 B) z p = mv (m1 + m2) (R_kappa m1 B) (join m1 u v) p) by (intro; apply mv_ext; intros; apply (join_split m1 m2); assumption).
  assert (Eu : forall p, (p < m1)%nat -> tmv m2 B v p = - (1 - w) * u p).
  { intros p Hp. pose proof (E p ltac:(lia)) as Ep. change (mv (m1 + m2) (R_kappa m1 B) z p = w * z p) in Ep. rewrite Ej, rk_top in Ep by exact Hp. fold u in Ep. lra. }
  assert (Ev : forall p, (p < m2)%nat -> mv m1 B u p = - (1 - w) * v p).
  { intros p Hp. pose proof (E (m1 + p)%nat ltac:(lia)) as Ep. change (mv (m1 + m2) (R_kappa m1 B) z (m1 + p) = w * z (m1 + p)%nat) in Ep. rewrite Ej, rk_bot in Ep by exact Hp. fold (v p) in Ep. lra. }
  assert (Du : dot m2 v (mv m1 B u) = - (1 - w) * dot m1 u u).
  { rewrite dot_sym, adjoint. rewrite (dot_ext m1 u u (tmv m2 B v) (fun p => - (1 - w) * u p)) by (intros; try reflexivity; apply Eu; assumption). apply dot_scal_r. }
  assert (Dv : dot m2 v (mv m1 B u) = - (1 - w) * dot m2 v v).
  { rewrite (dot_ext m2 v v (mv m1 B u) (fun p => - (1 - w) * v p)) by (intros; try reflexivity; apply Ev; assumption). apply dot_scal_r. }
  assert (S : dot m1 u u = dot m2 v v).
  { rewrite Du in Dv. apply Rmult_eq_reg_l in Dv; [exact Dv|lra]. }
  assert (Pos : 0 < dot m1 u u).
  { assert (T : 0 < dot m1 u u + dot m2 v v); [|lra]. rewrite <- dot_join.
    rewrite (dot_ext _ _ z _ z) by (intros; symmetry; apply (join_split m1 m2); assumption). apply (dot_pos _ z i Hi Ne). }
  set (s := sqrt (dot m1 u u)). assert (SP : 0 < s) by (apply sqrt_lt_R0; exact Pos). assert (SS : s * s = dot m1 u u) by (apply sqrt_sqrt; lra).
  exists (fun k => / s * u k), (fun k => - / s * v k). split; [|split].
  - rewrite dot_scal_l, dot_scal_r, <- SS. field. lra.
  - rewrite dot_scal_l, dot_scal_r, <- S, <- SS. field. lra.
  - rewrite dot_scal_l. rewrite (dot_ext m2 v v (mv m1 B (fun k => / s * u k)) (fun p => / s * mv m1 B u p)).
    + rewrite dot_scal_r, Du, <- SS. field. lra.
    + reflexivity.
    + intros p _. unfold mv. rewrite <- rsum_scal. apply rsum_ext. intros; ring.
Qed.
Lemma core : 0 <= 1 - w < 1 /\ canonical_correlation n t (low_gram m1 U1 D1) (low_gram m2 U2 D2) (1 - w).
Proof.
  pose proof w_range as W. split; [lra|]. assert (Up : forall a b, norm2 n (regularised n (low_gram m1 U1 D1) t a) = 1 -> norm2 n (regularised n (low_gram m2 U2 D2) t b) = 1 ->
    rsum n (fun i => apply n (low_gram m1 U1 D1) a i * apply n (low_gram m2 U2 D2) b i) <= 1 - w).
  { intros a b Na Nb. rewrite (inner_block n t m1 m2 R1 R2 U1 U2 D1 D2 a b Ht F1 F2). apply block_bound.
    - rewrite <- Na. apply (weights_norm n t m1 R1 U1 D1 a F1).
    - rewrite <- Nb. apply (weights_norm n t m2 R2 U2 D2 b F2). }
  split; [exact Up|]. destruct (Rlt_dec 0 (1 - w)) as [P|P].
  - destruct (block_attained P) as (u & v & Nu & Nv & E).
    destruct (weights_onto n t m1 R1 U1 D1 u Ht F1) as (a & Wa & Na). destruct (weights_onto n t m2 R2 U2 D2 v Ht F2) as (b & Wb & Nb).
    exists a, b. split; [rewrite Na; exact Nu|]. split; [rewrite Nb; exact Nv|].
    rewrite (inner_block n t m1 m2 R1 R2 U1 U2 D1 D2 a b Ht F1 F2), <- E. apply dot_ext; [exact Wb|]. intros p _. apply mv_ext. exact Wa.
  - destruct (unit_exists n t m1 R1 U1 D1 Hn Ht F1) as (a & Na). destruct (unit_exists n t m2 R2 U2 D2 Hn Ht F2) as (b & Nb).
    exists a, b. split; [exact Na|]. split; [exact Nb|]. apply Rle_antisym; [apply Up; assumption|].
    (* the negated vector gives the other inequality *)
    assert (Na' : norm2 n (regularised n (low_gram m1 U1 D1) t (fun i => (-1) * a i)) = 1).
    { rewrite <- Na. unfold norm2. apply rsum_ext. intros i _.
      assert (E : regularised n (low_gram m1 U1 D1) t (fun i => (-1) * a i) i = (-1) * regularised n (low_gram m1 U1 D1) t a i).
      { apply reg_scal. }
      rewrite E. ring. }
    pose proof (Up _ _ Na' Nb) as H.
    rewrite (rsum_ext n _ (fun i => (-1) * (apply n (low_gram m1 U1 D1) a i * apply n (low_gram m2 U2 D2) b i))) in H.
    + rewrite rsum_scal in H. lra.
    + intros i _. assert (E : apply n (low_gram m1 U1 D1) (fun i => (-1) * a i) i = (-1) * apply n (low_gram m1 U1 D1) a i).
      { unfold apply. rewrite <- rsum_scal. apply rsum_ext. intros; ring. }
      rewrite E. ring.
Qed.
End Core.
