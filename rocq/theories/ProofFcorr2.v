(** * From the sample to its kept directions: pivots undone, columns centred, small eigenvalues dropped *)
From Coq Require Import Reals Lra Lia Arith Bool List FinFun FunctionalExtensionality.
From Verif Require Import Prelude LibR SpecKernel SpecFcorr ModelKernel ModelFcorr ProofKernel ProofHsicR ProofSpectral ProofChol ProofFcorr.
Import ListNotations.
Open Scope R_scope.

(** ** argsort of a permutation is its inverse *)
Lemma increasing_id : forall n h, (forall k, (k < n)%nat -> (h k < n)%nat) -> (forall j k, (j < k)%nat -> (k < n)%nat -> (h j < h k)%nat) ->
  forall k, (k < n)%nat -> h k = k.
Proof.
  intros n h B I. assert (Lo : forall k, (k < n)%nat -> (k <= h k)%nat).
  { induction k as [|k IH]; intro Hk; [lia|]. specialize (IH ltac:(lia)). pose proof (I k (S k) ltac:(lia) Hk). lia. }
  assert (Up : forall d k, (k + d = n - 1)%nat -> (k < n)%nat -> (h k <= k)%nat).
  { induction d as [|d IH]; intros k E Hk.
    - specialize (B k Hk). lia.
    - specialize (IH (S k) ltac:(lia) ltac:(lia)). pose proof (I k (S k) ltac:(lia) ltac:(lia)). lia. }
  intros k Hk. specialize (Lo k Hk). specialize (Up (n - 1 - k)%nat k ltac:(lia) Hk). lia.
Qed.
Lemma argsort_inverse : forall argsort n P, argsort_spec argsort -> perm_below n P -> forall k, (k < n)%nat -> P (argsort n (fun i => INR (P i)) k) = k.
Proof.
  intros argsort n P Sp Pp. destruct (Sp n (fun i => INR (P i))) as [Ps So].
  apply (increasing_id n (fun k => P (argsort n (fun i => INR (P i)) k))).
  - intros k Hk. apply Pp, Ps, Hk.
  - intros j k Hjk Hk. pose proof (So j k Hjk Hk) as L. cbn beta in L. apply INR_le in L.
    destruct (Nat.eq_dec (P (argsort n (fun i => INR (P i)) j)) (P (argsort n (fun i => INR (P i)) k))) as [E|]; [|lia].
    apply (proj2 Pp) in E; [|apply Ps; lia|apply Ps; lia]. apply (proj2 Ps) in E; lia.
Qed.

(** ** Gram matrices of factors *)
Definition fgram (r : nat) (G : rmat) : rmat := fun i j => rsum r (fun k => G i k * G j k).
Lemma fgram_form : forall n r G c, qform n (fgram r G) c = rsum r (fun k => tmv n G c k * tmv n G c k).
Proof.
  intros n r G c. rewrite qform_mv.
  rewrite (dot_ext n c c _ (mv r G (tmv n G c))); [|reflexivity|].
  - rewrite dot_sym, adjoint. reflexivity.
  - intros i _. unfold mv, fgram, tmv. rewrite (rsum_ext n _ (fun j => rsum r (fun k => G i k * G j k * c j))) by (intros; symmetry; apply rsum_scal_r).
    rewrite rsum_swap. apply rsum_ext. intros k _. rewrite <- rsum_scal. apply rsum_ext. intros; ring.
Qed.
Definition centred_vec (n : nat) (c : nat -> R) : nat -> R := fun i => c i + - (rsum n c / INR n) * 1.
Lemma tmv_centred : forall n G c k, (0 < n)%nat -> tmv n (fun i k => G i k - mean n (fun i => G i k)) c k = tmv n G (centred_vec n c) k.
Proof.
  intros n G c k Hn. assert (N : INR n <> 0) by (apply not_0_INR; lia). unfold tmv, centred_vec, mean.
  rewrite (rsum_ext n _ (fun i => G i k * c i - c i * (rsum n (fun i => G i k) / INR n))) by (intros; ring).
  rewrite rsum_minus, rsum_scal_r. rewrite (rsum_ext n (fun i => G i k * (c i + _)) (fun i => G i k * c i - G i k * (rsum n c / INR n))) by (intros; ring).
  rewrite rsum_minus, rsum_scal_r. field. exact N.
Qed.
Lemma centred_norm : forall n c, (0 < n)%nat -> dot n (centred_vec n c) (centred_vec n c) <= dot n c c.
Proof.
  intros n c Hn. assert (N : 0 < INR n) by (apply lt_0_INR; exact Hn). set (s := rsum n c).
  assert (E : dot n (centred_vec n c) (centred_vec n c) = dot n c c - s * s / INR n).
  { unfold dot, centred_vec. fold s. rewrite (rsum_ext n _ (fun i => c i * c i + ((- (2 * (s / INR n))) * c i + s / INR n * (s / INR n)))) by (intros; ring).
    rewrite !rsum_plus, rsum_scal, rsum_const. fold s. field. lra. }
  rewrite E. assert (0 <= s * s / INR n) by (apply Rmult_le_pos; [apply Rle_0_sqr|apply Rlt_le, Rinv_0_lt_compat, N]). lra.
Qed.
Lemma double_centre_eq : forall n K i j, double_centre n K i j = gram_centre n K i j.
Proof.
  intros n K i j. unfold double_centre, gram_centre, avg. unfold Rdiv. rewrite rsum_scal_r.
  destruct (Req_dec (INR n) 0) as [Z|Z].
  - rewrite Z. replace (0 ^ 2) with 0 by ring. assert (n = 0%nat) by (apply INR_eq; rewrite Z; reflexivity). subst n. cbn. ring.
  - replace (/ INR n ^ 2) with (/ INR n * / INR n) by (field; exact Z). ring.
Qed.
(** A factor whose residual is semidefinite with small trace, after centring. *)
Lemma centred_factor : forall n r G K tol, (0 < n)%nat -> sym n K -> psd n (fun i j => K i j - fgram r G i j) -> rtrace n (fun i j => K i j - fgram r G i j) <= tol ->
  forall c, let q := qform n (fgram r (fun i k => G i k - mean n (fun i => G i k))) c in
  q <= qform n (double_centre n K) c <= q + tol * dot n c c.
Proof.
  intros n r G K tol Hn SK P T c q.
  assert (Eq : q = qform n (fgram r G) (centred_vec n c)).
  { unfold q. rewrite !fgram_form. apply rsum_ext. intros k _. rewrite tmv_centred by exact Hn. reflexivity. }
  assert (Ek : qform n (double_centre n K) c = qform n K (centred_vec n c)).
  { rewrite (qform_ext n (double_centre n K) (gram_centre n K) c c) by (intros; rewrite double_centre_eq; reflexivity). apply centre_qform; assumption. }
  assert (Ed : forall e, qform n (fun i j => K i j - fgram r G i j) e = qform n K e - qform n (fgram r G) e).
  { intro e. unfold qform. rewrite <- rsum_minus. apply rsum_ext. intros i _. rewrite <- rsum_minus. apply rsum_ext. intros; ring. }
  assert (SR : sym n (fun i j => K i j - fgram r G i j)).
  { intros i j Hi Hj. rewrite (SK i j) by assumption. f_equal. apply rsum_ext. intros; ring. }
  set (e := centred_vec n c) in *. pose proof (P e) as P1. pose proof (psd_trace n _ e SR P) as P2. rewrite Ed in P1, P2. rewrite Eq, Ek.
  assert (T0 : 0 <= tol).
  { apply Rle_trans with (rtrace n (fun i j => K i j - fgram r G i j)); [|exact T]. apply rsum_nonneg. intros i Hi. apply (psd_diag n _ i P Hi). }
  split; [lra|]. set (tr := rtrace n _) in *. pose proof (dot_nonneg n e) as De. pose proof (centred_norm n c Hn) as Dc. fold e in Dc.
  assert (tr * dot n e e <= tol * dot n e e) by (apply Rmult_le_compat_r; assumption).
  assert (tol * dot n e e <= tol * dot n c c) by (apply Rmult_le_compat_l; assumption). lra.
Qed.

(** ** Orthonormal square matrices *)
Lemma square_complete : forall r A, orthonormal r r A -> forall z, dot r (tmv r A z) (tmv r A z) = dot r z z.
Proof.
  intros r A O.
  assert (Le : forall i, (i < r)%nat -> rsum r (fun k => A i k * A i k) <= 1).
  { intros i Hi. pose proof (bessel r r A (unit_vec i) O) as B. rewrite (dot_unit_l r i (unit_vec i) Hi) in B.
    assert (E : forall k, tmv r A (unit_vec i) k = A i k).
    { intro k. unfold tmv. rewrite (rsum_single r _ i Hi).
      - unfold unit_vec. rewrite Nat.eqb_refl. ring.
      - intros j _ Ne. unfold unit_vec. destruct (Nat.eqb_spec j i); [contradiction|ring]. }
    unfold dot in B. rewrite (rsum_ext r _ (fun k => A i k * A i k)) in B by (intros; rewrite E; reflexivity).
    unfold unit_vec in B. rewrite Nat.eqb_refl in B. exact B. }
  assert (T : rsum r (fun i => 1 - rsum r (fun k => A i k * A i k)) = 0).
  { rewrite rsum_minus, rsum_const, rsum_swap. rewrite (rsum_ext r (fun k => rsum r (fun i => A i k * A i k)) (fun _ => 1)).
    - rewrite rsum_const. ring.
    - intros k Hk. rewrite (O k k Hk Hk), Nat.eqb_refl. reflexivity. }
  assert (One : forall i, (i < r)%nat -> rsum r (fun k => A i k * A i k) = 1).
  { intros i Hi. assert (NN : forall i, (i < r)%nat -> 0 <= 1 - rsum r (fun k => A i k * A i k)) by (intros j Hj; specialize (Le j Hj); lra).
    pose proof (rsum_zero_all r _ NN T i Hi) as Z. cbn beta in Z. lra. }
  (* every unit vector is reproduced *)
  assert (Rep : forall i j, (i < r)%nat -> (j < r)%nat -> rsum r (fun k => A j k * A i k) = unit_vec i j).
  { intros i j Hi Hj. set (d := fun j => rsum r (fun k => A j k * A i k) - unit_vec i j).
    assert (D : dot r d d = 0).
    { set (p := mv r A (fun k => A i k)). assert (Ed : forall j, d j = p j - unit_vec i j) by reflexivity.
      assert (E1 : dot r p p = 1). { unfold p. rewrite ortho_dot by exact O. apply One. exact Hi. }
      assert (E2 : dot r p (unit_vec i) = 1).
      { rewrite dot_sym, dot_unit_l by exact Hi. unfold p, mv. apply One. exact Hi. }
      rewrite (dot_ext r d (fun j => p j - unit_vec i j) d (fun j => p j - unit_vec i j)) by (intros; apply Ed).
      rewrite dot_minus_l, (dot_sym r p), (dot_sym r (unit_vec i)), !dot_minus_l, (dot_sym r (unit_vec i) p), E1, E2, dot_unit_l by exact Hi.
      unfold unit_vec. rewrite Nat.eqb_refl. ring. }
    pose proof (dot_zero r d D j Hj) as Z. unfold d in Z. lra. }
  intro z. rewrite <- adjoint.
  apply dot_ext; [|reflexivity]. intros i Hi. unfold mv, tmv.
  rewrite (rsum_ext r _ (fun k => rsum r (fun j => A j k * A i k * z j))) by (intros; rewrite <- rsum_scal; apply rsum_ext; intros; ring).
  rewrite rsum_swap. rewrite (rsum_single r _ i Hi).
  - rewrite rsum_scal_r, (Rep i i Hi Hi). unfold unit_vec. rewrite Nat.eqb_refl. ring.
  - intros j Hj Ne. rewrite rsum_scal_r, (Rep i j Hi Hj). unfold unit_vec. destruct (Nat.eqb_spec j i); [contradiction|ring].
Qed.

(** ** Sums over the kept positions *)
Lemma rsum_list : forall (l : list nat) f, rsum (length l) (fun k => f (nth k l 0%nat)) = fold_right (fun j acc => f j + acc) 0 l.
Proof.
  induction l as [|a l IH]; intro f; [reflexivity|]. cbn [length fold_right]. rewrite <- IH.
  change (S (length l)) with (1 + length l)%nat. rewrite rsum_split. cbn [rsum]. rewrite Rplus_0_l. reflexivity.
Qed.
Lemma fold_filter : forall (p : nat -> bool) f r s, fold_right (fun j acc => f j + acc) 0 (filter p (seq s r)) = rsum r (fun k => if p (s + k)%nat then f (s + k)%nat else 0).
Proof.
  intros p f. induction r as [|r IH]; intro s; [reflexivity|]. change (S r) with (1 + r)%nat at 2. rewrite rsum_split. cbn [rsum seq filter].
  rewrite Nat.add_0_r, Rplus_0_l. rewrite (rsum_ext r _ (fun k => if p (S s + k)%nat then f (S s + k)%nat else 0)).
  - rewrite <- IH. destruct (p s); cbn [fold_right]; ring.
  - intros k _. replace (s + (1 + k))%nat with (S s + k)%nat by lia. reflexivity.
Qed.
Lemma reverse_perm : forall m, perm_below m (fun k => (m - 1 - k)%nat).
Proof. intro m. split; intros; lia. Qed.
Section Kept.
Context (argsort : nat -> (nat -> R) -> nat -> nat) (Sa : argsort_spec argsort).
Context (r : nat) (D : nat -> R) (theta : R).
Let p := fun j => if Rle_dec theta (D j) then true else false.
Let indexes := filter p (seq 0 r).
Let m := length indexes.
Let kept := fun k => nth (argsort m (fun k => D (nth k indexes 0%nat)) (m - 1 - k)%nat) indexes 0%nat.
Lemma kept_perm : perm_below m (fun k => argsort m (fun k => D (nth k indexes 0%nat)) (m - 1 - k)%nat).
Proof. apply (perm_comp m (argsort m (fun k => D (nth k indexes 0%nat))) (fun k => (m - 1 - k)%nat)); [apply Sa|apply reverse_perm]. Qed.
Lemma kept_spec : forall k, (k < m)%nat -> (kept k < r)%nat /\ theta <= D (kept k).
Proof.
  intros k Hk. assert (I : In (kept k) indexes) by (apply nth_In; apply kept_perm; exact Hk).
  apply filter_In in I. destruct I as [I1 I2]. apply in_seq in I1. split; [lia|]. unfold p in I2. destruct (Rle_dec theta (D (kept k))); [assumption|discriminate].
Qed.
Lemma kept_inj : forall j k, (j < m)%nat -> (k < m)%nat -> kept j = kept k -> j = k.
Proof.
  intros j k Hj Hk E. unfold kept in E. apply (proj1 (NoDup_nth indexes 0%nat)) in E.
  - apply (proj2 kept_perm); assumption.
  - apply NoDup_filter, seq_NoDup.
  - apply kept_perm; exact Hj.
  - apply kept_perm; exact Hk.
Qed.
Lemma kept_sum : forall f, rsum m (fun k => f (kept k)) = rsum r (fun j => if p j then f j else 0).
Proof.
  intro f. unfold kept. rewrite (rsum_perm m _ (fun q => f (nth q indexes 0%nat)) kept_perm). unfold m. rewrite rsum_list. unfold indexes. rewrite fold_filter. reflexivity.
Qed.
End Kept.

(** ** The kept directions of one factor *)
Lemma svd_spec : forall argsort eigh n r G kappa, argsort_spec argsort -> eigh_spec eigh -> (0 < n)%nat -> 0 < kappa ->
  exists m Rr U D, svd argsort eigh n r G kappa = (m, Rr, U) /\ factored n (INR n * kappa / 2) m Rr U D /\
  forall c, qform n (low_gram m U D) c <= qform n (fgram r G) c <= qform n (low_gram m U D) c + INR n * (kappa * (1 / 100)) * dot n c c.
Proof.
  intros argsort eigh n r G kappa Sa Se Hn Hk. assert (N : 0 < INR n) by (apply lt_0_INR; exact Hn).
  set (M := fun k l => rsum n (fun i => G i k * G i l)).
  assert (SM : symmetric r M) by (intros i j _ _; unfold M; apply rsum_ext; intros; ring).
  destruct (Se r M SM) as [O Eg]. unfold svd. fold M. destruct (eigh r M) as [D A] eqn:E. cbn [fst snd] in O, Eg.
  set (theta := INR n * (kappa * (1 / 100))). assert (Th : 0 < theta) by (unfold theta; apply Rmult_lt_0_compat; lra).
  set (p := fun j => if Rle_dec theta (D j) then true else false). set (indexes := filter p (seq 0 r)). set (m := length indexes).
  set (kept := fun k => nth (argsort m (fun k => D (nth k indexes 0%nat)) (m - 1 - k)%nat) indexes 0%nat).
  assert (KS : forall k, (k < m)%nat -> (kept k < r)%nat /\ theta <= D (kept k)) by (apply (kept_spec argsort Sa r D theta)).
  assert (KI : forall j k, (j < m)%nat -> (k < m)%nat -> kept j = kept k -> j = k) by (apply (kept_inj argsort Sa r D theta)).
  assert (KT : forall f, rsum m (fun k => f (kept k)) = rsum r (fun j => if p j then f j else 0)) by (apply (kept_sum argsort Sa r D theta)).
  set (U := fun i k => rsum r (fun l => G i l * (A l (kept k) * sqrt (1 / D (kept k))))).
  set (V := fun i j => rsum r (fun l => G i l * A l j)).                     (* columns G A_j *)
  assert (VV : forall j k, (j < r)%nat -> (k < r)%nat -> rsum n (fun i => V i j * V i k) = if (j =? k)%nat then D j else 0).
  { intros j k Hj Hk0. change (rsum n (fun i => V i j * V i k)) with (dot n (mv r G (fun l => A l j)) (mv r G (fun l => A l k))).
    rewrite adjoint. rewrite (dot_ext r (fun l => A l j) (fun l => A l j) (tmv n G (mv r G (fun l => A l k))) (fun l => D k * A l k)).
    - rewrite dot_scal_r. unfold dot. rewrite (O j k Hj Hk0). destruct (Nat.eqb_spec j k) as [->|]; ring.
    - reflexivity.
    - intros l Hl. rewrite tmv_mv. apply (Eg l k Hl Hk0). }
  assert (Uk : forall i k, U i k = V i (kept k) * sqrt (1 / D (kept k))).
  { intros i k. unfold U, V. rewrite <- rsum_scal_r. apply rsum_ext. intros; ring. }
  exists m, (fun k => D (kept k) / (INR n * kappa / 2 + D (kept k))), U, (fun k => D (kept k)).
  assert (Sq : forall k, (k < m)%nat -> sqrt (1 / D (kept k)) * sqrt (1 / D (kept k)) * D (kept k) = 1).
  { intros k Hk0. destruct (KS k Hk0) as [_ T]. rewrite sqrt_sqrt.
    - field. lra.
    - unfold Rdiv. rewrite Rmult_1_l. apply Rlt_le, Rinv_0_lt_compat. lra. }
  split; [reflexivity|]. split.
  - split.
    + intros k l Hk0 Hl. destruct (KS k Hk0) as [K1 K2]. destruct (KS l Hl) as [L1 L2].
      rewrite (rsum_ext n _ (fun i => V i (kept k) * V i (kept l) * (sqrt (1 / D (kept k)) * sqrt (1 / D (kept l))))) by (intros; rewrite !Uk; ring).
      rewrite rsum_scal_r, (VV _ _ K1 L1). destruct (Nat.eqb_spec k l) as [->|Ne].
      * rewrite Nat.eqb_refl. rewrite Rmult_comm. apply Sq. exact Hl.
      * destruct (Nat.eqb_spec (kept k) (kept l)) as [E1|]; [exfalso; apply Ne, KI; assumption|ring].
    + intros k Hk0. destruct (KS k Hk0). lra.
    + intros k Hk0. reflexivity.
  - intro c. set (s := fun j => tmv n V c j).
    assert (Lo : qform n (low_gram m U (fun k => D (kept k))) c = rsum r (fun j => if p j then s j * s j else 0)).
    { rewrite low_gram_form. rewrite <- KT. apply rsum_ext. intros k Hk0.
      assert (Eu : tmv n U c k = s (kept k) * sqrt (1 / D (kept k))).
      { unfold s, tmv. rewrite <- rsum_scal_r. apply rsum_ext. intros i _. rewrite Uk. ring. }
      rewrite Eu. transitivity (s (kept k) * s (kept k) * (sqrt (1 / D (kept k)) * sqrt (1 / D (kept k)) * D (kept k))); [ring|]. rewrite Sq by exact Hk0. ring. }
    assert (Fu : qform n (fgram r G) c = rsum r (fun j => s j * s j)).
    { rewrite fgram_form. change (dot r (tmv n G c) (tmv n G c) = dot r s s). rewrite <- (square_complete r A O). apply dot_ext; intros j _.
      all: unfold s, tmv, V; rewrite (rsum_ext n (fun i => rsum r (fun l => G i l * A l j) * c i) (fun i => rsum r (fun l => A l j * (G i l * c i))))
             by (intros; rewrite <- rsum_scal_r; apply rsum_ext; intros; ring);
           rewrite rsum_swap; apply rsum_ext; intros; symmetry; apply rsum_scal. }
    rewrite Lo, Fu. set (small := fun j => if p j then 0 else s j).
    assert (Df : rsum r (fun j => s j * s j) = rsum r (fun j => if p j then s j * s j else 0) + dot r small small).
    { unfold dot. rewrite <- rsum_plus. apply rsum_ext. intros j _. unfold small. destruct (p j); ring. }
    rewrite Df. pose proof (dot_nonneg r small) as Pos. split; [lra|]. apply Rplus_le_compat_l.
    (* Bessel for the directions of small eigenvalue *)
    set (wv := mv r V small).
    assert (E1 : dot n wv c = dot r small small).
    { unfold wv. rewrite adjoint. fold s. unfold dot. apply rsum_ext. intros j _. unfold small. destruct (p j); [ring|reflexivity]. }
    assert (E2 : dot n wv wv <= theta * dot r small small).
    { unfold wv. rewrite adjoint. unfold dot. rewrite <- rsum_scal. apply rsum_le. intros j Hj. rewrite tmv_mv.
      rewrite (rsum_single r _ j Hj).
      - rewrite (VV j j Hj Hj), Nat.eqb_refl. unfold small, p. destruct (Rle_dec theta (D j)); [lra|].
        replace (s j * (D j * s j)) with (D j * (s j * s j)) by ring. apply Rmult_le_compat_r; [apply Rle_0_sqr|lra].
      - intros q Hq Ne. rewrite (VV j q Hj Hq). destruct (Nat.eqb_spec j q); [congruence|ring]. }
    pose proof (dot_cs n wv c) as C. rewrite E1 in C. pose proof (dot_nonneg n c) as Pc.
    destruct Pos as [Pos|Pos]; [|rewrite <- Pos; apply Rmult_le_pos; lra].
    apply (Rmult_le_reg_l (dot r small small)); [exact Pos|]. eapply Rle_trans; [exact C|].
    apply Rle_trans with (theta * dot r small small * dot n c c); [apply Rmult_le_compat_r; assumption|]. apply Req_le. ring.
Qed.

(** ** One sample *)
Lemma kappa_pos : forall n, 0 < kappa_of n < 1.
Proof. intro n. unfold kappa_of. destruct (1000 <? n)%nat; lra. Qed.
Lemma sigma_nz : forall n, sigma_of n <> 0.
Proof. intro n. unfold sigma_of. destruct (1000 <? n)%nat; lra. Qed.
Lemma factor_spec : forall argsort eigh n x, argsort_spec argsort -> eigh_spec eigh -> (0 < n)%nat ->
  exists m Rr U D, factor argsort eigh n x = Some (m, Rr, U) /\ factored n (INR n * kappa_of n / 2) m Rr U D /\
  approximates n (low_gram m U D) (double_centre n (gauss (sigma_of n) x)) (INR n * kappa_of n * (2 / 100)).
Proof.
  intros argsort eigh n x Sa Se Hn. pose proof (kappa_pos n) as Hk. assert (N : 0 < INR n) by (apply lt_0_INR; exact Hn).
  set (tol := INR n * kappa_of n * (1 / 100)). assert (T0 : 0 <= tol) by (unfold tol; apply Rmult_le_pos; [apply Rmult_le_pos; lra|lra]).
  destruct (chol_result n x (sigma_of n) tol (sigma_nz n) T0) as (r & G & P & E & _ & _ & Pp & _ & _ & _ & PS & Tr). cbn zeta in PS, Tr.
  set (a := argsort n (fun i => INR (P i))). assert (Pa : perm_below n a) by apply Sa.
  assert (Inv : forall k, (k < n)%nat -> P (a k) = k) by (intros; apply argsort_inverse; assumption).
  set (G1 := fun i k => G (a i) k). set (G2 := fun i k => G1 i k - mean n (fun i => G1 i k)).
  destruct (svd_spec argsort eigh n r G2 (kappa_of n) Sa Se Hn (proj1 Hk)) as (m & Rr & U & D & Es & F & Q).
  exists m, Rr, U, D. split; [|split; [exact F|]].
  - unfold factor. fold tol. rewrite E. exact (f_equal Some Es).
  - intro c. set (K := gauss (sigma_of n) x).
    assert (SK : sym n K) by (intros i j _ _; unfold K; rewrite <- !kern_gauss by apply sigma_nz; apply kern_sym).
    set (S0 := fun i j => kern x (sigma_of n) (P i) (P j) - rsum r (fun k => G i k * G j k)) in *.
    assert (ES : forall i j, (i < n)%nat -> (j < n)%nat -> K i j - fgram r G1 i j = S0 (a i) (a j)).
    { intros i j Hi Hj. unfold S0, K. rewrite !Inv by assumption. rewrite kern_gauss by apply sigma_nz. reflexivity. }
    assert (P1 : psd n (fun i j => K i j - fgram r G1 i j)).
    { intro e. rewrite (qform_ext n _ (fun i j => S0 (a i) (a j)) e e) by (intros; rewrite ES by assumption; reflexivity). apply (psd_perm n S0 a Pa PS). }
    assert (T1 : rtrace n (fun i j => K i j - fgram r G1 i j) <= tol).
    { eapply Rle_trans; [|exact Tr]. apply Req_le. unfold rtrace. rewrite (rsum_ext n _ (fun i => S0 (a i) (a i))) by (intros; apply ES; assumption).
      apply (rsum_perm n a (fun i => S0 i i) Pa). }
    pose proof (centred_factor n r G1 K tol Hn SK P1 T1 c) as C. cbn zeta in C. fold G2 in C. specialize (Q c).
    change (norm2 n c) with (dot n c c). unfold tol in C. pose proof (dot_nonneg n c). split; [lra|].
    replace (INR n * kappa_of n * (2 / 100) * dot n c c) with (INR n * kappa_of n * (1 / 100) * dot n c c + INR n * (kappa_of n * (1 / 100)) * dot n c c) by field. lra.
Qed.
