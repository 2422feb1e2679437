(** * Incomplete Cholesky decomposition of a Gaussian gram matrix *)
From Coq Require Import Reals Lra Lia Arith Bool List FinFun FunctionalExtensionality.
From Verif Require Import Prelude LibR SpecKernel SpecFcorr ModelKernel ModelFcorr ProofKernel ProofHsicR ProofSpectral.
Import ListNotations.
Open Scope R_scope.

(** ** Permutations of positions *)
Lemma perm_surj : forall n s, perm_below n s -> forall i, (i < n)%nat -> exists k, (k < n)%nat /\ s k = i.
Proof.
  intros n s [B I]. assert (F : bFun n s) by exact B.
  assert (J : bInjective n s) by (intros x y Hx Hy E; apply I; assumption).
  apply (bInjective_bSurjective F) in J. intros i Hi. destruct (J i Hi) as (k & Hk & E). exists k. split; assumption.
Qed.
Lemma rsum_perm : forall n s f, perm_below n s -> rsum n (fun k => f (s k)) = rsum n f.
Proof.
  intros n s f P. transitivity (rsum n (fun k => rsum n (fun i => if Nat.eqb i (s k) then f i else 0))).
  - apply rsum_ext. intros k Hk. symmetry. rewrite (rsum_single n _ (s k)).
    + rewrite Nat.eqb_refl. reflexivity.
    + apply P, Hk.
    + intros i _ Ne. destruct (Nat.eqb_spec i (s k)); [contradiction|reflexivity].
  - rewrite rsum_swap. apply rsum_ext. intros i Hi. destruct (perm_surj n s P i Hi) as (k & Hk & E).
    rewrite (rsum_single n _ k Hk).
    + rewrite E, Nat.eqb_refl. reflexivity.
    + intros j Hj Ne. destruct (Nat.eqb_spec i (s j)) as [Ej|]; [|reflexivity]. exfalso. apply Ne. apply (proj2 P); try assumption. congruence.
Qed.
Lemma swap_self : forall (A : Type) (f : nat -> A) i r, swap f i i r = f r.
Proof. intros A f i r. unfold swap. destruct (Nat.eqb_spec r i); congruence. Qed.
Lemma swap_comp : forall (A : Type) (f : nat -> A) i j r, swap f i j r = f (swap (fun k => k) i j r).
Proof. intros A f i j r. unfold swap. destruct (r =? i)%nat; [reflexivity|]. destruct (r =? j)%nat; reflexivity. Qed.
Lemma swap_invol : forall i j r, swap (fun k => k) i j (swap (fun k => k) i j r) = r.
Proof.
  intros i j r. unfold swap. destruct (Nat.eqb_spec r i) as [->|N1].
  - destruct (Nat.eqb_spec j i); [congruence|]. rewrite Nat.eqb_refl. reflexivity.
  - destruct (Nat.eqb_spec r j) as [->|N2]; [rewrite Nat.eqb_refl; reflexivity|].
    destruct (Nat.eqb_spec r i); [contradiction|]. destruct (Nat.eqb_spec r j); [contradiction|]. reflexivity.
Qed.
Lemma swap_below : forall n i j r, (i < n)%nat -> (j < n)%nat -> (r < n)%nat -> (swap (fun k => k) i j r < n)%nat.
Proof. intros. unfold swap. destruct (r =? i)%nat; [assumption|]. destruct (r =? j)%nat; assumption. Qed.
Lemma swap_perm : forall n i j, (i < n)%nat -> (j < n)%nat -> perm_below n (swap (fun k => k) i j).
Proof.
  intros n i j Hi Hj. split; [intros; apply swap_below; assumption|]. intros a b _ _ E.
  rewrite <- (swap_invol i j a), E, swap_invol. reflexivity.
Qed.
Lemma perm_comp : forall n s t, perm_below n s -> perm_below n t -> perm_below n (fun k => s (t k)).
Proof.
  intros n s t [B1 I1] [B2 I2]. split; [intros; apply B1, B2; assumption|]. intros j k Hj Hk E. apply I2; try assumption. apply I1; try apply B2; assumption.
Qed.
Lemma qform_perm : forall n A s c, perm_below n s -> qform n (fun i j => A (s i) (s j)) (fun i => c (s i)) = qform n A c.
Proof.
  intros n A s c P. unfold qform. rewrite <- (rsum_perm n s (fun i => rsum n (fun j => c i * c j * A i j)) P). apply rsum_ext. intros i _.
  apply (rsum_perm n s (fun j => c (s i) * c j * A (s i) j) P).
Qed.
(** The inverse of a permutation of positions. *)
Lemma perm_inverse : forall n s, perm_below n s -> exists t, perm_below n t /\ (forall k, (k < n)%nat -> t (s k) = k) /\ (forall k, (k < n)%nat -> s (t k) = k).
Proof.
  intros n s P. destruct P as [B I]. assert (F : bFun n s) by exact B.
  assert (J : bInjective n s) by (intros x y Hx Hy E; apply I; assumption).
  apply (bInjective_bSurjective F) in J. destruct (bSurjective_bBijective F J) as (t & Ft & Ht).
  exists t. split; [|split].
  - split; [exact Ft|]. intros j k Hj Hk E. destruct (Ht j Hj) as [_ E1]. destruct (Ht k Hk) as [_ E2]. congruence.
  - intros k Hk. apply (Ht k Hk).
  - intros k Hk. apply (Ht k Hk).
Qed.
Lemma psd_perm : forall n A s, perm_below n s -> psd n A -> psd n (fun i j => A (s i) (s j)).
Proof.
  intros n A s P H c. destruct (perm_inverse n s P) as (t & Pt & E1 & E2).
  rewrite (qform_ext_c n _ c (fun i => (fun k => c (t k)) (s i))).
  - rewrite (qform_perm n A s (fun k => c (t k)) P). apply H.
  - intros i Hi. cbn beta. rewrite E1 by exact Hi. reflexivity.
Qed.

(** ** argmax *)
Lemma argmax_below : forall f k, (0 < k)%nat -> (argmax f k < k)%nat.
Proof.
  intros f. induction k as [|k IH]; [lia|]. intros _. cbn [argmax]. destruct (Rlt_dec (f (argmax f k)) (f k)); [lia|].
  destruct k; [cbn; lia|]. specialize (IH ltac:(lia)). lia.
Qed.
Lemma argmax_max : forall f k j, (j < k)%nat -> f j <= f (argmax f k).
Proof.
  intros f. induction k as [|k IH]; [lia|]. intros j Hj. cbn [argmax].
  destruct (Nat.eq_dec j k) as [->|Ne].
  - destruct (Rlt_dec (f (argmax f k)) (f k)); lra.
  - specialize (IH j ltac:(lia)). destruct (Rlt_dec (f (argmax f k)) (f k)); lra.
Qed.

(** ** Forms *)
Lemma psd_cs : forall n A c e, sym n A -> psd n A -> bform n A c e * bform n A c e <= qform n A c * qform n A e.
Proof.
  intros n A c e S P. destruct (Req_dec (qform n A e) 0) as [Z|Z].
  - rewrite (bform_sym n A c e S). rewrite (psd_kernel n A e S P Z c), Z. lra.
  - pose proof (P e) as Q. assert (Q' : 0 < qform n A e) by lra. clear Q.
    pose proof (P (fun i => c i + (- (bform n A c e / qform n A e)) * e i)) as H. rewrite (bform_add n A c e S) in H.
    set (b := bform n A c e) in *. set (q := qform n A e) in *. set (p := qform n A c) in *.
    assert (E : p + 2 * - (b / q) * b + - (b / q) * - (b / q) * q = (p * q - b * b) / q) by (field; lra). rewrite E in H.
    assert (0 <= (p * q - b * b) / q * q) by (apply Rmult_le_pos; lra). replace ((p * q - b * b) / q * q) with (p * q - b * b) in * by (field; lra). lra.
Qed.
Lemma bform_units : forall n A r s, (r < n)%nat -> (s < n)%nat -> bform n A (unit_vec r) (unit_vec s) = A r s.
Proof.
  intros n A r s Hr Hs. rewrite bform_mv, dot_unit_l by exact Hr. unfold mv. rewrite (rsum_single n _ s Hs).
  - unfold unit_vec. rewrite Nat.eqb_refl. ring.
  - intros i _ Ne. unfold unit_vec. destruct (Nat.eqb_spec i s); [contradiction|ring].
Qed.
Lemma psd_entry : forall n A r s, sym n A -> psd n A -> (r < n)%nat -> (s < n)%nat -> A r s * A r s <= A r r * A s s.
Proof.
  intros n A r s S P Hr Hs. pose proof (psd_cs n A (unit_vec r) (unit_vec s) S P) as H. rewrite bform_units, !qform_unit in H by assumption. exact H.
Qed.
Lemma psd_diag : forall n A r, psd n A -> (r < n)%nat -> 0 <= A r r.
Proof. intros n A r P Hr. rewrite <- (qform_unit n A r Hr). apply P. Qed.
Lemma psd_trace : forall n A c, sym n A -> psd n A -> qform n A c <= rtrace n A * dot n c c.
Proof.
  intros n A c S P. apply Rle_trans with (dot n (fun i => Rabs (c i)) (fun i => sqrt (A i i)) * dot n (fun i => Rabs (c i)) (fun i => sqrt (A i i))).
  - unfold qform. unfold dot at 1. rewrite <- rsum_scal_r. apply rsum_le. intros i Hi. unfold dot. rewrite <- rsum_scal. apply rsum_le. intros j Hj.
    apply Rle_trans with (Rabs (c i * c j * A i j)); [apply Rle_abs|]. rewrite !Rabs_mult.
    replace (Rabs (c i) * sqrt (A i i) * (Rabs (c j) * sqrt (A j j))) with (Rabs (c i) * Rabs (c j) * (sqrt (A i i) * sqrt (A j j))) by ring.
    apply Rmult_le_compat_l; [apply Rmult_le_pos; apply Rabs_pos|].
    pose proof (psd_diag n A i P Hi) as Di. pose proof (psd_diag n A j P Hj) as Dj. rewrite <- sqrt_mult by assumption.
    rewrite <- sqrt_Rsqr_abs. apply sqrt_le_1_alt. apply (psd_entry n A i j S P Hi Hj).
  - eapply Rle_trans; [apply dot_cs|]. rewrite Rmult_comm. apply Req_le. f_equal.
    + apply rsum_ext. intros i Hi. apply sqrt_sqrt. apply (psd_diag n); assumption.
    + apply rsum_ext. intros i _. rewrite <- Rabs_mult. apply Rabs_pos_eq, Rle_0_sqr.
Qed.
Lemma rsum_pos_term : forall n f t, 0 <= t -> t < rsum n f -> exists k, (k < n)%nat /\ 0 < f k.
Proof.
  induction n as [|n IH]; intros f t Ht H; cbn [rsum] in H; [lra|].
  destruct (Rlt_dec 0 (f n)) as [P|P]; [exists n; split; [lia|exact P]|].
  destruct (IH f t Ht ltac:(lra)) as (k & Hk & Pk). exists k. split; [lia|exact Pk].
Qed.

(** ** The loop *)
Definition kern (x : nat -> R) (sigma : R) (a b : nat) : R := exp (- (1 / 2) / sigma ^ 2 * squared_dist (x a) (x b)).
Lemma squared_dist_eq : forall a b, squared_dist a b = (a - b) ^ 2.
Proof. intros. unfold squared_dist. replace (a * a + b * b - 2 * (a * b)) with ((a - b) ^ 2) by ring. apply Rabs_pos_eq, pow2_ge_0. Qed.
Lemma kern_rbf : forall x sigma a b, sigma <> 0 -> kern x sigma a b = rbf_dot 1 (fun i _ => x i) sigma a b.
Proof. intros x sigma a b H. unfold kern, rbf_dot. rewrite squared_dist_eq. f_equal. cbn [rsum]. field. exact H. Qed.
Lemma kern_gauss : forall x sigma a b, sigma <> 0 -> kern x sigma a b = gauss sigma x a b.
Proof. intros x sigma a b H. unfold kern, gauss. rewrite squared_dist_eq. f_equal. field. exact H. Qed.
Lemma kern_sym : forall x sigma a b, kern x sigma a b = kern x sigma b a.
Proof. intros. unfold kern. rewrite !squared_dist_eq. f_equal. f_equal. ring. Qed.
Lemma kern_diag : forall x sigma a, kern x sigma a a = 1.
Proof. intros. unfold kern. rewrite squared_dist_eq. replace (_ * _) with 0 by ring. apply exp_0. Qed.
Lemma kern_psd : forall n x sigma, sigma <> 0 -> psd n (kern x sigma).
Proof.
  intros n x sigma H c. pose proof (rbf_psd n 1 (fun i _ => x i) sigma H c) as P. eapply Rle_trans; [exact P|]. apply Req_le. apply qform_ext.
  intros i j _ _. rewrite kern_rbf by exact H. reflexivity.
Qed.
Definition res (x : nat -> R) (sigma : R) (s : chol) : rmat :=
  fun a b => kern x sigma (cP s a) (cP s b) - rsum (ci s) (fun k => cG s a k * cG s b k).
Record Inv (n : nat) (x : nat -> R) (sigma : R) (s : chol) : Prop := {
  iv_le : (ci s <= n)%nat;
  iv_perm : perm_below n (cP s);
  iv_low : forall r c, (r < n)%nat -> (c < ci s)%nat -> (r < c)%nat -> cG s r c = 0;
  iv_zero : forall r c, (r < n)%nat -> (c < ci s)%nat -> res x sigma s r c = 0;
  iv_diag : forall r, (r < n)%nat -> (ci s <= r)%nat -> cGjj s r = res x sigma s r r;
  iv_psd : psd n (res x sigma s);
  iv_piv : forall c, (c < ci s)%nat -> 0 < cG s c c }.
Lemma res_sym : forall n x sigma s, sym n (res x sigma s).
Proof. intros n x sigma s a b _ _. unfold res. rewrite kern_sym. f_equal. apply rsum_ext. intros; ring. Qed.
Lemma inv_init : forall n x sigma, sigma <> 0 -> Inv n x sigma chol_init.
Proof.
  intros n x sigma H. split; unfold res; cbn.
  - lia.
  - split; intros; assumption.
  - lia.
  - lia.
  - intros r _ _. rewrite kern_diag. ring.
  - intro c. rewrite (qform_ext n _ (kern x sigma) c c) by (intros; ring). apply kern_psd. exact H.
  - lia.
Qed.
Lemma inv_step : forall n x sigma tol s, sigma <> 0 -> 0 <= tol -> Inv n x sigma s ->
  tol < rsum (n - ci s) (fun k => cGjj s (ci s + k)%nat) -> Inv n x sigma (chol_step n x sigma s) /\ (ci s < n)%nat.
Proof.
  intros n x sigma tol s Hs Ht I Gt. destruct I as [Ile Iperm Ilow Izero Idiag Ipsd Ipiv].
  set (i := ci s) in *.
  destruct (rsum_pos_term _ _ tol Ht Gt) as (k0 & Hk0 & Pk0).
  assert (Hi : (i < n)%nat) by lia. split; [|exact Hi].
  set (jast := if (0 <? i)%nat then (argmax (fun k => cGjj s (i + k)%nat) (n - i) + i)%nat else 0%nat).
  assert (Hj : (i <= jast < n)%nat).
  { unfold jast. destruct (Nat.ltb_spec 0 i); [|lia]. pose proof (argmax_below (fun k => cGjj s (i + k)%nat) (n - i) ltac:(lia)). lia. }
  assert (Pj : 0 < cGjj s jast).
  { unfold jast. destruct (Nat.ltb_spec 0 i).
    - pose proof (argmax_max (fun k => cGjj s (i + k)%nat) (n - i) k0 Hk0) as M. cbn beta in M. rewrite (Nat.add_comm _ i). lra.
    - rewrite Idiag by lia. unfold res. rewrite kern_diag. replace (ci s) with 0%nat by (fold i; lia). cbn. lra. }
  set (tau := swap (fun k => k) i jast).
  assert (Ptau : perm_below n tau) by (apply swap_perm; lia).
  set (P := fun r => cP s (tau r)). set (G0 := fun r c => cG s (tau r) c).
  set (rt := fun a b => res x sigma s (tau a) (tau b)).
  assert (Ti : tau i = jast) by (unfold tau, swap; rewrite Nat.eqb_refl; reflexivity).
  assert (Tc : forall c, (c < i)%nat -> tau c = c).
  { intros c Hc. unfold tau, swap. destruct (Nat.eqb_spec c i); [lia|]. destruct (Nat.eqb_spec c jast); [lia|reflexivity]. }
  assert (Rt : forall a b, rt a b = kern x sigma (P a) (P b) - rsum i (fun k => G0 a k * G0 b k)) by reflexivity.
  assert (Rsym : forall a b, rt a b = rt b a).
  { intros a b. rewrite !Rt, kern_sym. f_equal. apply rsum_ext. intros; ring. }
  assert (Rpsd : psd n rt) by (apply (psd_perm n (res x sigma s) tau Ptau Ipsd)).
  assert (Rz : forall a c, (a < n)%nat -> (c < i)%nat -> rt a c = 0).
  { intros a c Ha Hc. unfold rt. rewrite (Tc c Hc). apply Izero; [apply Ptau; exact Ha|exact Hc]. }
  set (p := cGjj s jast) in *.
  assert (Ep : rt i i = p).
  { unfold rt. rewrite Ti. symmetry. apply Idiag; lia. }
  set (g := fun a => rt a i / sqrt p).
  assert (Sp : 0 < sqrt p) by (apply sqrt_lt_R0; exact Pj).
  assert (Spp : sqrt p * sqrt p = p) by (apply sqrt_sqrt; lra).
  (* the new state *)
  assert (StepP : forall r, cP (chol_step n x sigma s) r = P r).
  { intro r. unfold chol_step. cbn [cP]. fold i. fold jast. unfold P, tau. destruct (Nat.ltb_spec 0 i); [apply swap_comp|].
    unfold jast. replace (0 <? i)%nat with false by (symmetry; apply Nat.ltb_ge; lia). replace i with 0%nat by lia. rewrite swap_self. reflexivity. }
  assert (StepG0 : forall r c, (if (0 <? i)%nat then (fun r c => swap (fun r => cG s r c) i jast r) else cG s) r c = G0 r c).
  { intros r c. unfold G0, tau. destruct (Nat.ltb_spec 0 i); [apply (swap_comp _ (fun r => cG s r c))|].
    unfold jast. replace (0 <? i)%nat with false by (symmetry; apply Nat.ltb_ge; lia). replace i with 0%nat by lia. rewrite swap_self. reflexivity. }
  assert (StepG : forall r c, (r < n)%nat -> cG (chol_step n x sigma s) r c = if (c <? i)%nat then G0 r c else if (c =? i)%nat then g r else 0).
  { intros r c Hr. unfold chol_step. cbn [cG]. fold i. fold jast. destruct (Nat.ltb_spec c i); [apply StepG0|].
    destruct (Nat.eqb_spec c i); [|reflexivity]. fold p.
    destruct (Nat.eqb_spec r i) as [->|Nr].
    { unfold g. rewrite Ep. rewrite <- Spp at 2. field. lra. }
    destruct (Nat.ltb_spec i r) as [L|L].
    - assert (EK : forall r, exp (- (1 / 2) / sigma ^ 2 * squared_dist (x ((if (0 <? i)%nat then swap (cP s) i jast else cP s) r)) (x ((if (0 <? i)%nat then swap (cP s) i jast else cP s) i))) = kern x sigma (P r) (P i)).
      { intro q. unfold kern. rewrite <- !StepP. unfold chol_step. cbn [cP]. fold i. fold jast. reflexivity. }
      rewrite EK. unfold g. rewrite Rt. destruct (Nat.ltb_spec 0 i) as [L0|L0].
      + rewrite (rsum_ext i _ (fun k => G0 r k * G0 i k)).
        * unfold Rdiv. ring.
        * intros k _. unfold G0, tau. rewrite !(swap_comp _ (fun r => cG s r k)). reflexivity.
      + replace i with 0%nat by lia. cbn [rsum]. unfold Rdiv. ring.
    - unfold g. rewrite Rsym, Rz by lia. unfold Rdiv. ring. }
  assert (StepI : ci (chol_step n x sigma s) = S i) by (unfold chol_step; cbn [ci]; fold i; lia).
  assert (NewRes : forall a b, (a < n)%nat -> (b < n)%nat -> res x sigma (chol_step n x sigma s) a b = rt a b - g a * g b).
  { intros a b Ha Hb. unfold res. rewrite StepI, !StepP. cbn [rsum]. rewrite !StepG by assumption.
    replace (i <? i)%nat with false by (symmetry; apply Nat.ltb_irrefl). rewrite Nat.eqb_refl.
    rewrite (rsum_ext i _ (fun k => G0 a k * G0 b k)).
    - rewrite Rt. ring.
    - intros k Hk. rewrite !StepG by assumption. replace (k <? i)%nat with true by (symmetry; apply Nat.ltb_lt; exact Hk). reflexivity. }
  split.
  - rewrite StepI. lia.
  - split.
    + intros k Hk. rewrite StepP. apply Iperm, Ptau, Hk.
    + intros a b Ha Hb E. rewrite !StepP in E. apply (perm_comp n (cP s) tau Iperm Ptau); assumption.
  - intros r c Hr Hc Hrc. rewrite StepI in Hc. rewrite StepG by exact Hr. destruct (Nat.ltb_spec c i) as [L|L].
    + unfold G0. rewrite Tc by lia. apply Ilow; assumption.
    + destruct (Nat.eqb_spec c i); [|lia]. unfold g. rewrite Rsym, Rz by lia. unfold Rdiv. ring.
  - intros r c Hr Hc. rewrite StepI in Hc. rewrite NewRes by lia. destruct (Nat.eq_dec c i) as [->|Ne].
    + unfold g. rewrite Ep. replace (rt r i / sqrt p * (p / sqrt p)) with (rt r i * p / (sqrt p * sqrt p)) by (field; lra). rewrite Spp. field. lra.
    + unfold g. rewrite (Rsym c i), (Rz r c), (Rz i c) by lia. unfold Rdiv. ring.
  - intros r Hr Hir. rewrite StepI in Hir. unfold res. rewrite StepP, StepI, kern_diag.
    assert (EJ : cGjj (chol_step n x sigma s) r = if (i <? r)%nat then 1 - rsum (i + 1) (fun k => cG (chol_step n x sigma s) r k ^ 2) else cGjj s r) by reflexivity.
    rewrite EJ. replace (i <? r)%nat with true by (symmetry; apply Nat.ltb_lt; lia). f_equal. rewrite Nat.add_1_r. apply rsum_ext. intros k Hk. ring.
  - intro c. rewrite (qform_ext n _ (fun a b => rt a b - rt a i * rt b i / p) c c).
    2:{ intros a b Ha Hb. rewrite NewRes by assumption. unfold g. f_equal. f_equal. rewrite <- Spp at 3. field. lra. }
    assert (E : qform n (fun a b => rt a b - rt a i * rt b i / p) c = qform n rt c - bform n rt c (unit_vec i) * bform n rt c (unit_vec i) / p).
    { assert (Eb : bform n rt c (unit_vec i) = rsum n (fun a => c a * rt a i)).
      { rewrite bform_mv. unfold dot. apply rsum_ext. intros a _. f_equal. unfold mv. rewrite (rsum_single n _ i Hi).
        - unfold unit_vec. rewrite Nat.eqb_refl. ring.
        - intros j _ Ne. unfold unit_vec. destruct (Nat.eqb_spec j i); [contradiction|ring]. }
      rewrite Eb. unfold qform. set (b := rsum n (fun a => c a * rt a i)). unfold b at 1. unfold Rdiv. rewrite <- !rsum_scal_r, <- rsum_minus. apply rsum_ext. intros a _.
      replace (c a * rt a i * b * / p) with ((c a * rt a i * / p) * b) by ring. unfold b. rewrite <- rsum_scal, <- rsum_minus.
      apply rsum_ext. intros; ring. }
    rewrite E. pose proof (psd_cs n rt c (unit_vec i) (fun a b _ _ => Rsym a b) Rpsd) as CS. rewrite qform_unit, Ep in CS by exact Hi.
    set (b := bform n rt c (unit_vec i)) in *. apply (Rmult_le_reg_r p); [exact Pj|].
    replace ((qform n rt c - b * b / p) * p) with (qform n rt c * p - b * b) by (field; lra). lra.
  - intros c Hc. rewrite StepI in Hc. rewrite StepG by lia. destruct (Nat.ltb_spec c i) as [L|L].
    + unfold G0. rewrite Tc by exact L. apply Ipiv. exact L.
    + destruct (Nat.eqb_spec c i) as [->|]; [|lia]. unfold g. rewrite Ep. rewrite <- Spp at 1. replace (sqrt p * sqrt p / sqrt p) with (sqrt p) by (field; lra). exact Sp.
Qed.
Lemma chol_loop_inv : forall fuel n x sigma tol s, sigma <> 0 -> 0 <= tol -> Inv n x sigma s -> (n - ci s < fuel)%nat ->
  exists s', chol_loop fuel n x sigma tol s = Some s' /\ Inv n x sigma s' /\ (ci s <= ci s')%nat /\
    rsum (n - ci s') (fun k => cGjj s' (ci s' + k)%nat) <= tol.
Proof.
  induction fuel as [|f IH]; intros n x sigma tol s Hs Ht I Hf; [lia|]. cbn [chol_loop].
  destruct (Rlt_dec tol (rsum (n - ci s) (fun k => cGjj s (ci s + k)%nat))) as [L|L].
  - destruct (inv_step n x sigma tol s Hs Ht I L) as [I' Hi].
    assert (E : ci (chol_step n x sigma s) = S (ci s)) by (unfold chol_step; cbn [ci]; lia).
    destruct (IH n x sigma tol (chol_step n x sigma s) Hs Ht I') as (s' & E1 & I1 & L1 & T1); [lia|].
    exists s'. repeat split; try assumption; try apply I1. lia.
  - exists s. repeat split; try apply I; [lia|lra].
Qed.
(** All that is needed of the result. *)
Lemma chol_result : forall n x sigma tol, sigma <> 0 -> 0 <= tol -> exists r G P,
  incomplete_cholesky n x sigma tol = Some (r, G, P) /\ (r <= n)%nat /\ (tol < INR n -> (0 < r)%nat) /\ perm_below n P /\
  (forall i k, (i < k)%nat -> (i < n)%nat -> (k < r)%nat -> G i k = 0) /\ (forall k, (k < r)%nat -> 0 < G k k) /\
  let S := fun a b => kern x sigma (P a) (P b) - rsum r (fun k => G a k * G b k) in
  (forall a b, (a < n)%nat -> (b < r)%nat -> S a b = 0) /\ psd n S /\ rtrace n S <= tol.
Proof.
  intros n x sigma tol Hs Ht. destruct (chol_loop_inv (S n) n x sigma tol chol_init Hs Ht (inv_init n x sigma Hs)) as (s & E & I & _ & T); [cbn; lia|].
  assert (R0 : tol < INR n -> (0 < ci s)%nat).
  { intro L. destruct (Nat.eq_dec (ci s) 0) as [Z|]; [|lia]. exfalso.
    cbn [chol_loop] in E. destruct (Rlt_dec tol (rsum (n - ci chol_init) (fun k => cGjj chol_init (ci chol_init + k)%nat))) as [L1|L1].
    - destruct (inv_step n x sigma tol chol_init Hs Ht (inv_init n x sigma Hs) L1) as [I1 Hn].
      destruct (chol_loop_inv n n x sigma tol (chol_step n x sigma chol_init) Hs Ht I1) as (s' & E' & _ & L' & _).
      + unfold chol_step. cbn [ci chol_init]. cbn in Hn. lia.
      + rewrite E' in E. injection E as <-. unfold chol_step in L'. cbn [ci chol_init] in L'. lia.
    - apply L1. cbn. rewrite Nat.sub_0_r, rsum_const. lra. }
  exists (ci s), (cG s), (cP s). unfold incomplete_cholesky. rewrite E. split; [reflexivity|].
  split; [apply I|]. split; [exact R0|]. split; [apply I|]. split; [intros; apply (iv_low _ _ _ _ I); assumption|]. split; [apply I|].
  cbn zeta. split; [apply I|]. split; [apply I|].
  assert (Le : (ci s <= n)%nat) by apply I.
  unfold rtrace. replace n with (ci s + (n - ci s))%nat at 1 by lia. rewrite rsum_split. rewrite rsum_0.
  - rewrite Rplus_0_l. rewrite (rsum_ext _ _ (fun k => cGjj s (ci s + k)%nat)); [exact T|]. intros k Hk. symmetry. apply (iv_diag _ _ _ _ I); lia.
  - intros k Hk. apply (iv_zero _ _ _ _ I); lia.
Qed.
