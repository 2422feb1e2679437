(** * The logarithm of the determinant of a positive definite matrix: elimination, monotonicity, Fischer's inequality *)
From Coq Require Import Reals Lra Lia Arith Bool.
From Verif Require Import LibR SpecKernel SpecLogdet ProofKernel ProofSpectral ProofChol.
Open Scope R_scope.

Lemma rsum_S0 : forall n f, rsum (S n) f = f 0%nat + rsum n (fun i => f (S i)).
Proof. intros. change (S n) with (1 + n)%nat. rewrite (rsum_split 1 n f). cbn [rsum]. rewrite Rplus_0_l. reflexivity. Qed.

Definition schur (A : rmat) : rmat := fun i j => A (S i) (S j) - A (S i) 0%nat * A 0%nat (S j) / A 0%nat 0%nat.
Fixpoint logdet (m : nat) (A : rmat) : R := match m with O => 0 | S m => ln (A 0%nat 0%nat) + logdet m (schur A) end.
Fixpoint pivots (m : nat) (A : rmat) : R := match m with O => 1 | S m => A 0%nat 0%nat * pivots m (schur A) end.

Lemma schur_ext : forall m A B, req (S m) A B -> req m (schur A) (schur B).
Proof. intros m A B E i j Hi Hj. unfold schur. rewrite !E by lia. reflexivity. Qed.
Lemma logdet_ext : forall m A B, req m A B -> logdet m A = logdet m B.
Proof.
  induction m as [|m IH]; intros A B E; [reflexivity|]. cbn [logdet]. rewrite (E 0%nat 0%nat) by lia. f_equal. apply IH. apply schur_ext. exact E.
Qed.
Lemma pivots_ext : forall m A B, req m A B -> pivots m A = pivots m B.
Proof.
  induction m as [|m IH]; intros A B E; [reflexivity|]. cbn [pivots]. rewrite (E 0%nat 0%nat) by lia. f_equal. apply IH. apply schur_ext. exact E.
Qed.
Lemma schur_sym : forall m A, sym (S m) A -> sym m (schur A).
Proof. intros m A S i j Hi Hj. unfold schur. rewrite (S (Datatypes.S i) (Datatypes.S j)), (S (Datatypes.S i) 0%nat), (S 0%nat (Datatypes.S j)) by lia. unfold Rdiv. ring. Qed.

(** The part of the quadratic form linear in the first coefficient. *)
Definition lin (m : nat) (A : rmat) (c : nat -> R) : R := rsum m (fun j => A 0%nat (S j) * c (S j)).
Lemma qform_schur : forall m A c, sym (S m) A -> A 0%nat 0%nat <> 0 ->
  qform (S m) A c = A 0%nat 0%nat * (c 0%nat + lin m A c / A 0%nat 0%nat) ^ 2 + qform m (schur A) (fun i => c (S i)).
Proof.
  intros m A c SY NZ. unfold qform at 1. rewrite rsum_S0, rsum_S0.
  replace (rsum m (fun j => c 0%nat * c (S j) * A 0%nat (S j))) with (c 0%nat * lin m A c) by (unfold lin; rewrite <- rsum_scal; apply rsum_ext; intros; ring).
  replace (rsum m (fun i => rsum (S m) (fun j => c (S i) * c j * A (S i) j)))
    with (c 0%nat * lin m A c + rsum m (fun i => rsum m (fun j => c (S i) * c (S j) * A (S i) (S j)))).
  2:{ unfold lin. rewrite <- rsum_scal, <- rsum_plus. apply rsum_ext. intros i Hi. rewrite rsum_S0. f_equal. rewrite (SY 0%nat (S i)) by lia. ring. }
  replace (qform m (schur A) (fun i => c (S i))) with (rsum m (fun i => rsum m (fun j => c (S i) * c (S j) * A (S i) (S j))) - lin m A c * lin m A c / A 0%nat 0%nat).
  - field. exact NZ.
  - unfold qform, schur. rewrite (rsum_ext m (fun i => rsum m (fun j => c (S i) * c (S j) * (A (S i) (S j) - A (S i) 0%nat * A 0%nat (S j) / A 0%nat 0%nat)))
      (fun i => rsum m (fun j => c (S i) * c (S j) * A (S i) (S j)) - (A 0%nat (S i) * c (S i)) * (lin m A c / A 0%nat 0%nat))).
    + rewrite rsum_minus, rsum_scal_r. fold (lin m A c). unfold Rdiv. ring.
    + intros i Hi. unfold lin. replace (A 0%nat (S i) * c (S i) * (rsum m (fun j => A 0%nat (S j) * c (S j)) / A 0%nat 0%nat))
        with (rsum m (fun j => c (S i) * c (S j) * (A (S i) 0%nat * A 0%nat (S j) / A 0%nat 0%nat))).
      * rewrite <- rsum_minus. apply rsum_ext. intros j Hj. ring.
      * replace (A 0%nat (S i) * c (S i) * (rsum m (fun j => A 0%nat (S j) * c (S j)) / A 0%nat 0%nat))
          with ((A 0%nat (S i) * c (S i) / A 0%nat 0%nat) * rsum m (fun j => A 0%nat (S j) * c (S j))) by (unfold Rdiv; ring).
        rewrite <- rsum_scal. apply rsum_ext. intros j Hj. rewrite (SY (S i) 0%nat) by lia. unfold Rdiv. ring.
Qed.
Lemma qform_ext : forall m A c d, (forall i, (i < m)%nat -> c i = d i) -> qform m A c = qform m A d.
Proof. intros m A c d E. unfold qform. apply rsum_ext. intros i Hi. apply rsum_ext. intros j Hj. rewrite !E by assumption. reflexivity. Qed.
Lemma qform_req : forall m A B c, req m A B -> qform m A c = qform m B c.
Proof. intros m A B c E. unfold qform. apply rsum_ext. intros i Hi. apply rsum_ext. intros j Hj. rewrite E by assumption. reflexivity. Qed.

Lemma pd_diag : forall m A, positive_definite (S m) A -> 0 < A 0%nat 0%nat.
Proof.
  intros m A P. rewrite <- (qform_unit (S m) A 0) by lia. apply P. exists 0%nat. split; [lia|]. unfold unit_vec. cbn. lra.
Qed.
(** The best first coefficient. *)
Definition best (m : nat) (A : rmat) (c : nat -> R) : nat -> R := fun i => match i with O => - rsum m (fun j => A 0%nat (S j) * c j) / A 0%nat 0%nat | S i => c i end.
Lemma qform_best : forall m A c, sym (S m) A -> A 0%nat 0%nat <> 0 -> qform (S m) A (best m A c) = qform m (schur A) c.
Proof.
  intros m A c SY NZ. rewrite qform_schur by assumption.
  replace (best m A c 0%nat + lin m A (best m A c) / A 0%nat 0%nat) with 0 by (unfold best, lin; field; exact NZ).
  replace (qform m (schur A) (fun i => best m A c (S i))) with (qform m (schur A) c) by (apply qform_ext; reflexivity). ring.
Qed.
Lemma pd_schur : forall m A, sym (S m) A -> positive_definite (S m) A -> positive_definite m (schur A).
Proof.
  intros m A SY P c (i & Hi & N). pose proof (pd_diag m A P) as D. rewrite <- qform_best by (try exact SY; lra). apply P. exists (S i). split; [lia|exact N].
Qed.
Lemma schur_le : forall m A B, sym (S m) A -> sym (S m) B -> positive_definite (S m) A -> positive_definite (S m) B ->
  (forall c, qform (S m) A c <= qform (S m) B c) -> forall c, qform m (schur A) c <= qform m (schur B) c.
Proof.
  intros m A B SA SB PA PB L c. pose proof (pd_diag m A PA) as DA. pose proof (pd_diag m B PB) as DB.
  rewrite <- (qform_best m B c SB) by lra. eapply Rle_trans; [|apply L]. rewrite qform_schur by (try exact SA; lra).
  replace (qform m (schur A) (fun i => best m B c (S i))) with (qform m (schur A) c) by (apply qform_ext; reflexivity).
  pose proof (pow2_ge_0 (best m B c 0%nat + lin m A (best m B c) / A 0%nat 0%nat)). pose proof (Rmult_le_pos _ _ (Rlt_le _ _ DA) H). lra.
Qed.
Lemma qform_minus : forall m A B c, qform m (fun i j => B i j - A i j) c = qform m B c - qform m A c.
Proof.
  intros. unfold qform. rewrite <- rsum_minus. apply rsum_ext. intros i Hi. rewrite <- rsum_minus. apply rsum_ext. intros j Hj. ring.
Qed.
Lemma ln_le' : forall a b, 0 < a -> a <= b -> ln a <= ln b.
Proof. intros a b H [L|E]; [left; apply ln_increasing; assumption|right; congruence]. Qed.

Lemma logdet_mono : forall m A B, sym m A -> sym m B -> positive_definite m A -> positive_definite m B ->
  (forall c, qform m A c <= qform m B c) -> logdet m A <= logdet m B /\ (logdet m A = logdet m B -> req m A B).
Proof.
  induction m as [|m IH]; intros A B SA SB PA PB L.
  - cbn. split; [lra|]. intros _ i j Hi. lia.
  - pose proof (pd_diag m A PA) as DA. pose proof (pd_diag m B PB) as DB.
    assert (L0 : A 0%nat 0%nat <= B 0%nat 0%nat). { rewrite <- (qform_unit (S m) A 0), <- (qform_unit (S m) B 0) by lia. apply L. }
    pose proof (ln_le' _ _ DA L0) as LL.
    destruct (IH (schur A) (schur B) (schur_sym _ _ SA) (schur_sym _ _ SB) (pd_schur _ _ SA PA) (pd_schur _ _ SB PB) (schur_le _ _ _ SA SB PA PB L)) as [H1 H2].
    cbn [logdet]. split; [lra|]. intro E. assert (E0 : ln (A 0%nat 0%nat) = ln (B 0%nat 0%nat)) by lra. assert (E1 : logdet m (schur A) = logdet m (schur B)) by lra.
    apply ln_inv in E0; [|assumption|assumption]. specialize (H2 E1).
    assert (PS : psd (S m) (fun i j => B i j - A i j)). { intro c. rewrite qform_minus. specialize (L c). lra. }
    assert (SS : sym (S m) (fun i j => B i j - A i j)). { intros i j Hi Hj. rewrite SA, SB by assumption. reflexivity. }
    assert (R0 : forall j, (j < S m)%nat -> A 0%nat j = B 0%nat j).
    { intros j Hj. pose proof (psd_entry (S m) _ 0 j SS PS ltac:(lia) Hj) as Q. cbv beta in Q. rewrite E0 in Q. pose proof (Rle_0_sqr (B 0%nat j - A 0%nat j)) as Q2. unfold Rsqr in Q2.
      assert (Z : (B 0%nat j - A 0%nat j) * (B 0%nat j - A 0%nat j) = 0) by lra. apply Rmult_integral in Z. lra. }
    intros [|i] j Hi Hj; [apply R0; exact Hj|]. destruct j as [|j]; [rewrite SA, SB by lia; apply R0; lia|].
    specialize (H2 i j ltac:(lia) ltac:(lia)). unfold schur in H2. rewrite (SA (S i) 0%nat), (SB (S i) 0%nat), !R0 in H2 by lia. lra.
Qed.

(** ** Fischer's inequality *)
Definition corner (a : nat) (A : rmat) : rmat := fun i j => A (a + i)%nat (a + j)%nat.
Lemma pd_req : forall m A B, req m A B -> positive_definite m A -> positive_definite m B.
Proof. intros m A B E P c H. rewrite <- (qform_req m A B c E). apply P. exact H. Qed.
Lemma qform_pad_l : forall a b A c, (forall i, (i < a)%nat -> c i = 0) -> qform (a + b) A c = qform b (corner a A) (fun i => c (a + i)%nat).
Proof.
  intros a b A c Z. unfold qform, corner. rewrite rsum_split, rsum_0.
  - rewrite Rplus_0_l. apply rsum_ext. intros i Hi. rewrite rsum_split, rsum_0; [ring|]. intros j Hj. rewrite (Z j Hj). ring.
  - intros i Hi. apply rsum_0. intros j Hj. rewrite (Z i Hi). ring.
Qed.
Lemma qform_pad_r : forall a b A c, (forall i, (a <= i)%nat -> c i = 0) -> qform (a + b) A c = qform a A c.
Proof.
  intros a b A c Z. unfold qform. rewrite rsum_split, (rsum_0 b).
  - rewrite Rplus_0_r. apply rsum_ext. intros i Hi. rewrite rsum_split, (rsum_0 b); [ring|]. intros j Hj. rewrite (Z (a + j)%nat) by lia. ring.
  - intros i Hi. apply rsum_0. intros j Hj. rewrite (Z (a + i)%nat) by lia. ring.
Qed.
Lemma pd_corner : forall a b A, positive_definite (a + b) A -> positive_definite b (corner a A).
Proof.
  intros a b A P c (i & Hi & N). set (d := fun k => if (k <? a)%nat then 0 else c (k - a)%nat).
  rewrite (qform_ext b (corner a A) c (fun i => d (a + i)%nat)).
  - rewrite <- qform_pad_l.
    + apply P. exists (a + i)%nat. split; [lia|]. unfold d. destruct (Nat.ltb_spec (a + i) a); [lia|]. replace (a + i - a)%nat with i by lia. exact N.
    + intros k Hk. unfold d. destruct (Nat.ltb_spec k a); [reflexivity|lia].
  - intros k Hk. unfold d. destruct (Nat.ltb_spec (a + k) a); [lia|]. f_equal. lia.
Qed.
Lemma sym_corner : forall a b A, sym (a + b) A -> sym b (corner a A).
Proof. intros a b A S i j Hi Hj. unfold corner. apply S; lia. Qed.

Lemma fischer : forall a b A, sym (a + b) A -> positive_definite (a + b) A ->
  logdet (a + b) A <= logdet a A + logdet b (corner a A) /\
  (logdet (a + b) A = logdet a A + logdet b (corner a A) -> forall i j, (i < a)%nat -> (j < b)%nat -> A i (a + j)%nat = 0).
Proof.
  induction a as [|a IH]; intros b A SY P.
  - cbn [Nat.add logdet]. rewrite Rplus_0_l. split; [right; reflexivity|]. intros _ i j Hi. lia.
  - cbn [Nat.add] in *. pose proof (pd_diag _ _ P) as D. pose proof (schur_sym _ _ SY) as SS. pose proof (pd_schur _ _ SY P) as PS.
    destruct (IH b (schur A) SS PS) as [H1 H2].
    assert (SC : sym b (corner (S a) A)). { apply (sym_corner (S a)). exact SY. }
    assert (PC : positive_definite b (corner (S a) A)). { apply (pd_corner (S a)). exact P. }
    assert (SC' : sym b (corner a (schur A))). { apply (sym_corner a). exact SS. }
    assert (PC' : positive_definite b (corner a (schur A))). { apply (pd_corner a). exact PS. }
    assert (LE : forall c, qform b (corner a (schur A)) c <= qform b (corner (S a) A) c).
    { intro c. replace (qform b (corner a (schur A)) c) with (qform b (corner (S a) A) c - (rsum b (fun i => A 0%nat (S (a + i)) * c i)) ^ 2 / A 0%nat 0%nat).
      - pose proof (pow2_ge_0 (rsum b (fun i => A 0%nat (S (a + i)) * c i))) as Q. assert (0 < / A 0%nat 0%nat) by (apply Rinv_0_lt_compat; exact D).
        pose proof (Rmult_le_pos _ _ Q (Rlt_le _ _ H)). unfold Rdiv. lra.
      - unfold qform, corner, schur. rewrite (rsum_ext b (fun i => rsum b (fun j => c i * c j * (A (S (a + i)) (S (a + j)) - A (S (a + i)) 0%nat * A 0%nat (S (a + j)) / A 0%nat 0%nat)))
          (fun i => rsum b (fun j => c i * c j * A (S a + i)%nat (S a + j)%nat) - (A 0%nat (S (a + i)) * c i) * (rsum b (fun j => A 0%nat (S (a + j)) * c j) / A 0%nat 0%nat))).
        + rewrite rsum_minus, rsum_scal_r. unfold Rdiv. ring.
        + intros i Hi. rewrite (SY (S (a + i)) 0%nat) by lia.
          rewrite (rsum_ext b _ (fun j => c i * c j * A (S a + i)%nat (S a + j)%nat - (A 0%nat (S (a + i)) * c i / A 0%nat 0%nat) * (A 0%nat (S (a + j)) * c j))).
          * rewrite rsum_minus, rsum_scal. unfold Rdiv. ring.
          * intros j Hj. cbn [Nat.add]. unfold Rdiv. ring. }
    destruct (logdet_mono b _ _ SC' SC PC' PC LE) as [M1 M2]. cbn [logdet]. split; [lra|]. intro E.
    assert (E1 : logdet (a + b) (schur A) = logdet a (schur A) + logdet b (corner a (schur A))) by lra.
    assert (E2 : logdet b (corner a (schur A)) = logdet b (corner (S a) A)) by lra.
    specialize (H2 E1). specialize (M2 E2).
    assert (Z0 : forall j, (j < b)%nat -> A 0%nat (S (a + j)) = 0).
    { intros j Hj. specialize (M2 j j Hj Hj). unfold corner, schur in M2. cbn [Nat.add] in M2. rewrite (SY (S (a + j)) 0%nat) in M2 by lia.
      assert (Z : A 0%nat (S (a + j)) * A 0%nat (S (a + j)) / A 0%nat 0%nat = 0) by lra. unfold Rdiv in Z. apply Rmult_integral in Z. destruct Z as [Z|Z].
      - apply Rmult_integral in Z. tauto.
      - apply Rinv_neq_0_compat in Z; [contradiction|lra]. }
    intros [|i] j Hi Hj; [apply Z0; exact Hj|]. specialize (H2 i j ltac:(lia) Hj). unfold schur in H2. rewrite Z0 in H2 by exact Hj. cbn [Nat.add].
    replace (A (S i) 0%nat * 0 / A 0%nat 0%nat) with 0 in H2 by (unfold Rdiv; ring). lra.
Qed.
(** Blocks that do not interact. *)
Lemma logdet_blocks : forall a b A, sym (a + b) A -> positive_definite (a + b) A -> (forall i j, (i < a)%nat -> (j < b)%nat -> A i (a + j)%nat = 0) ->
  logdet (a + b) A = logdet a A + logdet b (corner a A).
Proof.
  induction a as [|a IH]; intros b A SY P Z.
  - cbn [Nat.add logdet]. rewrite Rplus_0_l. reflexivity.
  - cbn [Nat.add] in *. pose proof (pd_diag _ _ P) as D. cbn [logdet]. rewrite IH.
    + rewrite Rplus_assoc. do 2 f_equal. apply logdet_ext. intros i j Hi Hj. unfold corner, schur. cbn [Nat.add]. rewrite (Z 0%nat j) by lia. unfold Rdiv. ring.
    + apply schur_sym. exact SY.
    + apply pd_schur; assumption.
    + intros i j Hi Hj. unfold schur. specialize (Z (S i) j ltac:(lia) Hj) as Z1. cbn [Nat.add] in Z1. rewrite Z1. specialize (Z 0%nat j ltac:(lia) Hj). cbn [Nat.add] in Z. rewrite Z. unfold Rdiv. ring.
Qed.

(** ** Cholesky *)
Lemma logdet_cholesky : forall m L, lower_triangular m L -> (forall i, (i < m)%nat -> 0 < L i i) ->
  logdet m (fun i j => rsum m (fun k => L i k * L j k)) = rsum m (fun i => ln (L i i ^ 2)).
Proof.
  induction m as [|m IH]; intros L T P; [reflexivity|]. cbn [logdet].
  assert (H0 : forall i, (i < S m)%nat -> rsum (S m) (fun k => L 0%nat k * L i k) = L 0%nat 0%nat * L i 0%nat).
  { intros i Hi. rewrite rsum_S0, rsum_0; [ring|]. intros k Hk. rewrite (T 0%nat (S k)) by lia. ring. }
  rewrite (rsum_S0 m (fun i => ln (L i i ^ 2))). f_equal; [f_equal; rewrite H0 by lia; ring|].
  rewrite <- (IH (fun i j => L (S i) (S j))).
  - apply logdet_ext. intros i j Hi Hj. unfold schur. rewrite !H0 by lia.
    replace (rsum (S m) (fun k => L (S i) k * L 0%nat k)) with (L 0%nat 0%nat * L (S i) 0%nat) by (rewrite <- H0 by lia; apply rsum_ext; intros; ring).
    rewrite rsum_S0. field. specialize (P 0%nat ltac:(lia)). lra.
  - intros i j Hi Hj L'. apply T; lia.
  - intros i Hi. apply P. lia.
Qed.
Lemma cholesky_exists : forall m A, sym m A -> positive_definite m A -> exists L, lower_triangular m L /\ (forall i, (i < m)%nat -> 0 < L i i) /\
  req m A (fun i j => rsum m (fun k => L i k * L j k)).
Proof.
  induction m as [|m IH]; intros A SY P.
  - exists (fun _ _ => 0). split; [intros i j Hi; lia|]. split; [intros i Hi; lia|]. intros i j Hi. lia.
  - pose proof (pd_diag _ _ P) as D. destruct (IH (schur A) (schur_sym _ _ SY) (pd_schur _ _ SY P)) as (L & T & PD & E).
    pose proof (sqrt_lt_R0 _ D) as Q. pose proof (sqrt_sqrt _ (Rlt_le _ _ D)) as Q2.
    exists (fun i j => match i, j with O, O => sqrt (A 0%nat 0%nat) | S i, O => A (S i) 0%nat / sqrt (A 0%nat 0%nat) | O, S _ => 0 | S i, S j => L i j end).
    split; [|split].
    + intros [|i] [|j] Hi Hj H; try lia; [reflexivity|]. apply T; lia.
    + intros [|i] Hi; [exact Q|]. apply PD. lia.
    + intros i j Hi Hj. rewrite rsum_S0. destruct i as [|i], j as [|j].
      * rewrite rsum_0 by (intros; ring). rewrite Q2. ring.
      * rewrite rsum_0 by (intros; ring). rewrite (SY 0%nat (S j)) by lia. field. lra.
      * rewrite rsum_0 by (intros; ring). field. lra.
      * rewrite <- E by lia. unfold schur. rewrite (SY 0%nat (S j)) by lia. rewrite <- Q2 at 3. field. lra.
Qed.
Lemma oracle_logdet : forall logsv, log_singular_values logsv -> forall m A, sym m A -> positive_definite m A -> logsv m A = logdet m A.
Proof.
  intros logsv O m A SY P. destruct (cholesky_exists m A SY P) as (L & T & PD & E). rewrite (O m A L T PD E). rewrite (logdet_ext m _ _ E). symmetry. apply logdet_cholesky; assumption.
Qed.
Lemma logdet_pivots : forall m A, sym m A -> positive_definite m A -> 0 < pivots m A /\ logdet m A = ln (pivots m A).
Proof.
  induction m as [|m IH]; intros A SY P; cbn [pivots logdet].
  - split; [lra|]. rewrite ln_1. reflexivity.
  - pose proof (pd_diag _ _ P) as D. destruct (IH _ (schur_sym _ _ SY) (pd_schur _ _ SY P)) as [H1 H2]. split; [apply Rmult_lt_0_compat; assumption|].
    rewrite ln_mult by assumption. rewrite H2. reflexivity.
Qed.
