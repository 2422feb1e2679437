(** * A symmetric real matrix has a smallest eigenvalue, the minimum of its form on the unit sphere *)
From Coq Require Import Reals Lra Lia Arith Bool List Classical FunctionalExtensionality.
From Verif Require Import LibR SpecKernel ModelKernel ProofKernel ProofHsicR.
Open Scope R_scope.

Definition dot (n : nat) (u v : nat -> R) : R := rsum n (fun i => u i * v i).
Lemma dot_nonneg : forall n u, 0 <= dot n u u.
Proof. intros. apply rsum_nonneg. intros. apply Rle_0_sqr. Qed.
Lemma dot_zero : forall n u, dot n u u = 0 -> forall i, (i < n)%nat -> u i = 0.
Proof.
  intros n u H i Hi. pose proof (rsum_zero_all n (fun i => u i * u i) (fun i _ => Rle_0_sqr (u i)) H i Hi) as Z. apply Rsqr_0_uniq. exact Z.
Qed.
Lemma dot_pos : forall n u i, (i < n)%nat -> u i <> 0 -> 0 < dot n u u.
Proof.
  intros n u i Hi Ne. destruct (dot_nonneg n u) as [H|H]; [exact H|]. exfalso. apply Ne. apply (dot_zero n u); [symmetry; exact H|exact Hi].
Qed.
Lemma dot_sym : forall n u v, dot n u v = dot n v u.
Proof. intros. apply rsum_ext. intros; ring. Qed.
Lemma dot_ext : forall n u u' v v', (forall i, (i < n)%nat -> u i = u' i) -> (forall i, (i < n)%nat -> v i = v' i) -> dot n u v = dot n u' v'.
Proof. intros n u u' v v' H K. apply rsum_ext. intros i Hi. rewrite H, K by exact Hi. reflexivity. Qed.
Lemma dot_scal_l : forall n t u v, dot n (fun i => t * u i) v = t * dot n u v.
Proof. intros. unfold dot. rewrite <- rsum_scal. apply rsum_ext. intros; ring. Qed.
Lemma dot_plus_l : forall n u v w, dot n (fun i => u i + v i) w = dot n u w + dot n v w.
Proof. intros. unfold dot. rewrite <- rsum_plus. apply rsum_ext. intros; ring. Qed.
Lemma dot_minus_l : forall n u v w, dot n (fun i => u i - v i) w = dot n u w - dot n v w.
Proof. intros. unfold dot. rewrite <- rsum_minus. apply rsum_ext. intros; ring. Qed.
Lemma dot_scal_r : forall n t u v, dot n u (fun i => t * v i) = t * dot n u v.
Proof. intros. rewrite dot_sym, dot_scal_l, dot_sym. reflexivity. Qed.
Lemma dot_plus_r : forall n u v w, dot n w (fun i => u i + v i) = dot n w u + dot n w v.
Proof. intros. rewrite dot_sym, dot_plus_l, (dot_sym n u), (dot_sym n v). reflexivity. Qed.
Lemma dot_cs : forall n u v, dot n u v * dot n u v <= dot n u u * dot n v v.
Proof. intros. apply cs_list. Qed.
Lemma dot_S : forall n u v, dot (S n) u v = dot n u v + u n * v n.
Proof. reflexivity. Qed.
Definition unit_vec (k : nat) : nat -> R := fun i => if Nat.eqb i k then 1 else 0.
Lemma dot_unit_l : forall n k v, (k < n)%nat -> dot n (unit_vec k) v = v k.
Proof.
  intros n k v Hk. unfold dot, unit_vec. rewrite (rsum_single n _ k Hk).
  - rewrite Nat.eqb_refl. ring.
  - intros i _ Ne. destruct (Nat.eqb_spec i k); [contradiction|ring].
Qed.
Definition mv (n : nat) (A : rmat) (v : nat -> R) : nat -> R := fun i => rsum n (fun j => A i j * v j).
Lemma qform_mv : forall n A v, qform n A v = dot n v (mv n A v).
Proof. intros. unfold qform, dot, mv. apply rsum_ext. intros i _. rewrite <- rsum_scal. apply rsum_ext. intros; ring. Qed.
Lemma bform_mv : forall n A u v, bform n A u v = dot n u (mv n A v).
Proof. intros. unfold bform, dot, mv. apply rsum_ext. intros i _. rewrite <- rsum_scal. apply rsum_ext. intros; ring. Qed.
Lemma bform_sym : forall n A u v, sym n A -> bform n A u v = bform n A v u.
Proof.
  intros n A u v S. unfold bform. rewrite rsum_swap. apply rsum_ext. intros i Hi. apply rsum_ext. intros j Hj. rewrite (S j i) by assumption. ring.
Qed.
Lemma qform_S : forall n A c, sym (S n) A ->
  qform (S n) A c = qform n A c + 2 * c n * rsum n (fun i => c i * A i n) + c n * c n * A n n.
Proof.
  intros n A c S0. unfold qform. cbn [rsum]. rewrite rsum_plus.
  assert (E1 : rsum n (fun i => c i * c n * A i n) = c n * rsum n (fun i => c i * A i n)) by (rewrite <- rsum_scal; apply rsum_ext; intros; ring).
  assert (E2 : rsum n (fun j => c n * c j * A n j) = c n * rsum n (fun i => c i * A i n)).
  { rewrite <- rsum_scal. apply rsum_ext. intros i Hi. rewrite (S0 n i) by lia. ring. }
  rewrite E1, E2. ring.
Qed.
Definition schur_rest (n : nat) (A : rmat) : rmat := fun i j => A i j - A i n * A j n / A n n.
Lemma qform_schur : forall n A c, sym (S n) A -> A n n <> 0 ->
  qform (S n) A c = qform n (schur_rest n A) c + A n n * ((c n + rsum n (fun i => c i * A i n) / A n n) * (c n + rsum n (fun i => c i * A i n) / A n n)).
Proof.
  intros n A c S0 Ne. rewrite qform_S by exact S0. set (b := rsum n (fun i => c i * A i n)).
  assert (E : qform n (schur_rest n A) c = qform n A c - b * b / A n n).
  { unfold qform, schur_rest. unfold b at 1. unfold Rdiv. rewrite <- !rsum_scal_r, <- rsum_minus. apply rsum_ext. intros i _.
    replace (c i * A i n * b * / A n n) with ((c i * A i n * / A n n) * b) by ring. unfold b. rewrite <- rsum_scal, <- rsum_minus.
    apply rsum_ext. intros; ring. }
  rewrite E. field. exact Ne.
Qed.
Lemma qform_ext_c : forall n A c c', (forall i, (i < n)%nat -> c i = c' i) -> qform n A c = qform n A c'.
Proof. intros n A c c' H. apply qform_ext. intros i j Hi Hj. rewrite !H by assumption. reflexivity. Qed.
Lemma qform_unit : forall n A k, (k < n)%nat -> qform n A (unit_vec k) = A k k.
Proof.
  intros n A k Hk. rewrite qform_mv, dot_unit_l by exact Hk. unfold mv. rewrite (rsum_single n _ k Hk).
  - unfold unit_vec. rewrite Nat.eqb_refl. ring.
  - intros i _ Ne. unfold unit_vec. destruct (Nat.eqb_spec i k); [contradiction|ring].
Qed.
(** A positive definite form is bounded below on the unit sphere. *)
Lemma pd_bound : forall n A, sym n A -> (forall c i, (i < n)%nat -> c i <> 0 -> 0 < qform n A c) ->
  exists eps, 0 < eps /\ forall c, eps * dot n c c <= qform n A c.
Proof.
  induction n as [|n IH]; intros A Sy P.
  - exists 1. split; [lra|]. intro c. cbn. lra.
  - assert (Pa : 0 < A n n).
    { rewrite <- (qform_unit (S n) A n) by lia. apply (P _ n); [lia|]. unfold unit_vec. rewrite Nat.eqb_refl. lra. }
    assert (Ss : sym n (schur_rest n A)).
    { intros i j Hi Hj. unfold schur_rest. rewrite (Sy i j) by lia. unfold Rdiv. ring. }
    destruct (IH (schur_rest n A) Ss) as (e & He & Hb).
    { intros c i Hi Ne. set (c' := fun k => if Nat.eqb k n then - (rsum n (fun i => c i * A i n) / A n n) else c k).
      assert (Ec : forall k, (k < n)%nat -> c' k = c k) by (intros k Hk; unfold c'; destruct (Nat.eqb_spec k n); [lia|reflexivity]).
      pose proof (P c' i ltac:(lia)) as Q. rewrite (Ec i Hi) in Q. specialize (Q Ne).
      rewrite (qform_schur n A c' Sy) in Q by lra. rewrite (qform_ext_c n _ c' c Ec) in Q.
      rewrite (rsum_ext n (fun i => c' i * A i n) (fun i => c i * A i n)) in Q by (intros k Hk; rewrite Ec by exact Hk; reflexivity).
      unfold c' in Q. rewrite Nat.eqb_refl in Q.
      match type of Q with 0 < _ + _ * (?a * ?a) => replace a with 0 in Q by ring end. lra. }
    set (B := rsum n (fun i => A i n / A n n * (A i n / A n n))).
    assert (HB : 0 <= B) by (apply rsum_nonneg; intros; apply Rle_0_sqr).
    set (d := Rmin (A n n / 2) (e / (1 + 2 * B))).
    assert (D1 : d <= A n n / 2) by apply Rmin_l. assert (D2 : d <= e / (1 + 2 * B)) by apply Rmin_r.
    assert (D0 : 0 < d) by (apply Rmin_pos; [lra|apply Rdiv_lt_0_compat; lra]).
    exists d. split; [exact D0|]. intro c. rewrite (qform_schur n A c Sy) by lra. rewrite dot_S.
    specialize (Hb c). set (b := rsum n (fun i => c i * A i n) / A n n).
    assert (Hbb : b * b <= dot n c c * B).
    { assert (E : b = dot n c (fun i => A i n / A n n)).
      { unfold b, dot, Rdiv. rewrite <- rsum_scal_r. apply rsum_ext. intros; ring. }
      rewrite E. apply dot_cs. }
    set (q := dot n c c) in *. assert (Q0 : 0 <= q) by apply dot_nonneg. set (t := c n).
    assert (T : t * t <= 2 * ((t + b) * (t + b)) + 2 * (b * b)) by (pose proof (Rle_0_sqr (t + 2 * b)) as W; unfold Rsqr in W; lra).
    assert (F1 : d * (1 + 2 * B) <= e).
    { apply Rle_trans with (e / (1 + 2 * B) * (1 + 2 * B)); [apply Rmult_le_compat_r; lra|]. apply Req_le. field. lra. }
    assert (F2 : d * (1 + 2 * B) * q <= e * q) by (apply Rmult_le_compat_r; assumption).
    assert (F3 : d * (2 * ((t + b) * (t + b))) <= A n n * ((t + b) * (t + b))).
    { pose proof (Rle_0_sqr (t + b)) as W; unfold Rsqr in W. replace (d * (2 * ((t + b) * (t + b)))) with (2 * d * ((t + b) * (t + b))) by ring.
      apply Rmult_le_compat_r; lra. }
    assert (F4 : d * (t * t) <= d * (2 * ((t + b) * (t + b)) + 2 * (q * B))) by (apply Rmult_le_compat_l; lra).
    lra.
Qed.
Definition shift (A : rmat) (l : R) : rmat := fun i j => A i j - (if Nat.eqb i j then l else 0).
Lemma shift_sym : forall n A l, sym n A -> sym n (shift A l).
Proof. intros n A l S i j Hi Hj. unfold shift. rewrite (S i j Hi Hj), (Nat.eqb_sym i j). reflexivity. Qed.
Lemma qform_shift : forall n A l c, qform n (shift A l) c = qform n A c - l * dot n c c.
Proof.
  intros n A l c. unfold qform, shift, dot. rewrite <- rsum_scal, <- rsum_minus. apply rsum_ext. intros i Hi.
  rewrite (rsum_ext n _ (fun j => c i * c j * A i j - (if Nat.eqb i j then c i * c j * l else 0))) by (intros j _; destruct (Nat.eqb i j); ring).
  rewrite rsum_minus. f_equal. rewrite (rsum_single n _ i Hi).
  - rewrite Nat.eqb_refl. ring.
  - intros j _ Ne. destruct (Nat.eqb_spec i j); [congruence|reflexivity].
Qed.
Lemma mv_shift : forall n A l v i, (i < n)%nat -> mv n (shift A l) v i = mv n A v i - l * v i.
Proof.
  intros n A l v i Hi. unfold mv, shift.
  rewrite (rsum_ext n _ (fun j => A i j * v j - (if Nat.eqb i j then l * v j else 0))) by (intros j _; destruct (Nat.eqb i j); ring).
  rewrite rsum_minus. f_equal. rewrite (rsum_single n _ i Hi).
  - rewrite Nat.eqb_refl. reflexivity.
  - intros j _ Ne. destruct (Nat.eqb_spec i j); [congruence|reflexivity].
Qed.
Lemma psd_lower : forall n A, (0 < n)%nat -> exists l, psd n (shift A l).
Proof.
  intros n A Hn. exists (- rsum n (fun i => rsum n (fun j => Rabs (A i j)))). intro c. rewrite qform_shift.
  set (s := rsum n (fun i => rsum n (fun j => Rabs (A i j)))).
  assert (H : - (s * dot n c c) <= qform n A c); [|lra].
  unfold qform, s. rewrite <- rsum_scal_r, <- rsum_opp. apply rsum_le. intros i Hi. rewrite <- rsum_scal_r, <- rsum_opp. apply rsum_le. intros j Hj.
  assert (B : Rabs (c i * c j) <= dot n c c).
  { pose proof (rsum_ge_one n (fun i => c i * c i) i Hi (fun k _ => Rle_0_sqr (c k))) as B1. pose proof (rsum_ge_one n (fun i => c i * c i) j Hj (fun k _ => Rle_0_sqr (c k))) as B2.
    cbn beta in B1, B2. fold (dot n c c) in B1, B2. pose proof (Rle_0_sqr (c i + c j)) as S1. pose proof (Rle_0_sqr (c i - c j)) as S2. unfold Rsqr in *.
    apply Rabs_le. split; lra. }
  assert (E : Rabs (c i * c j * A i j) <= Rabs (A i j) * dot n c c).
  { rewrite Rabs_mult, Rmult_comm. apply Rmult_le_compat_l; [apply Rabs_pos|exact B]. }
  pose proof (Rle_abs (- (c i * c j * A i j))) as L. rewrite Rabs_Ropp in L. lra.
Qed.
Theorem min_eigenvalue : forall n A, (0 < n)%nat -> sym n A ->
  exists l v, dot n v v = 1 /\ (forall i, (i < n)%nat -> mv n A v i = l * v i) /\ (forall c, l * dot n c c <= qform n A c).
Proof.
  intros n A Hn Sy. set (E := fun l => psd n (shift A l)).
  assert (Bd : bound E).
  { exists (A 0%nat 0%nat). intros l Hl. pose proof (Hl (unit_vec 0)) as H. rewrite qform_unit in H by exact Hn. unfold shift in H. cbn in H. lra. }
  assert (Ex : exists l, E l) by (apply psd_lower; exact Hn).
  destruct (completeness E Bd Ex) as [l [Ub Lub] ].
  assert (Pl : psd n (shift A l)).
  { intro c. rewrite qform_shift. apply Rnot_lt_le. intro N. set (d := dot n c c) in *. assert (D : 0 <= d) by apply dot_nonneg.
    destruct D as [D|D].
    - assert (Hq : qform n A c / d < l).
      { apply (Rmult_lt_reg_r d); [exact D|]. replace (qform n A c / d * d) with (qform n A c) by (field; lra). lra. }
      assert (L : l <= qform n A c / d); [|lra]. apply Lub. intros k Hk. pose proof (Hk c) as H. rewrite qform_shift in H. fold d in H.
      apply (Rmult_le_reg_r d); [exact D|]. replace (qform n A c / d * d) with (qform n A c) by (field; lra). lra.
    - rewrite <- D in N. assert (Z : qform n A c = 0); [|lra]. rewrite qform_mv. symmetry in D. unfold d in D.
      apply rsum_0. intros i Hi. rewrite (dot_zero n c D i Hi). ring. }
  destruct (classic (exists c i, (i < n)%nat /\ c i <> 0 /\ qform n (shift A l) c = 0)) as [ (c & i & Hi & Ne & Z) | No].
  - assert (D : 0 < dot n c c) by (apply (dot_pos n c i); assumption).
    exists l, (fun i => / sqrt (dot n c c) * c i).
    assert (SP : 0 < sqrt (dot n c c)) by (apply sqrt_lt_R0; exact D).
    split; [|split].
    + rewrite dot_scal_l, dot_scal_r. rewrite <- (sqrt_sqrt (dot n c c)) at 3 by lra. field. lra.
    + intros k Hk. assert (K : mv n A c k = l * c k).
      { pose proof (psd_kernel n (shift A l) c (shift_sym n A l Sy) Pl Z (unit_vec k)) as B.
        rewrite bform_sym in B by (apply shift_sym; exact Sy). rewrite bform_mv, dot_unit_l, mv_shift in B by exact Hk. lra. }
      unfold mv in *. rewrite (rsum_ext n _ (fun j => / sqrt (dot n c c) * (A k j * c j))) by (intros; ring). rewrite rsum_scal, K. ring.
    + intro e. pose proof (Pl e) as H. rewrite qform_shift in H. lra.
  - exfalso. destruct (pd_bound n (shift A l) (shift_sym n A l Sy)) as (eps & He & Hb).
    { intros c i Hi Ne. destruct (Pl c) as [H|H]; [exact H|]. exfalso. apply No. exists c, i. repeat split; try assumption. symmetry; exact H. }
    assert (El : E (l + eps)).
    { intro c. rewrite qform_shift. pose proof (Hb c) as H. rewrite qform_shift in H. lra. }
    apply Ub in El. lra.
Qed.
