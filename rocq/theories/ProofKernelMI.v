(** * The kernel mutual information is not negative, and vanishes only when the product of the Gram matrices does *)
From Coq Require Import Reals Lra Lia Arith Bool.
From Verif Require Import LibR SpecKernel SpecLogdet SpecMeasure SpecKernelMI ModelKernel ProofKernel ProofSpectral ProofHsicR ProofLogdet.
Open Scope R_scope.

Section Pair.
  Context (n : nat) (c : R) (Hc : 0 < c).

  Lemma regularised_sym : forall K, sym n K -> sym n (regularised c K).
  Proof. intros K S i j Hi Hj. unfold regularised. rewrite (S i j Hi Hj), Nat.eqb_sym. reflexivity. Qed.
  Lemma mv_regularised : forall K v i, (i < n)%nat -> mv n (regularised c K) v i = mv n K v i + c * v i.
  Proof.
    intros K v i Hi. unfold mv, regularised. rewrite (rsum_ext n _ (fun j => K i j * v j + (if (i =? j)%nat then c else 0) * v j)) by (intros; ring).
    rewrite rsum_plus. f_equal. rewrite (rsum_single n _ i Hi); [rewrite Nat.eqb_refl; reflexivity|]. intros j _ N. destruct (Nat.eqb_spec i j); [congruence|ring].
  Qed.
  Lemma dot_mul : forall K L u v, sym n K -> rsum n (fun i => rsum n (fun j => u i * v j * rmul n K L i j)) = dot n (mv n K u) (mv n L v).
  Proof.
    intros K L u v SK. transitivity (rsum n (fun i => rsum n (fun k => u i * K i k * mv n L v k))).
    - apply rsum_ext. intros i Hi. unfold rmul, mv.
      rewrite (rsum_ext n _ (fun j => rsum n (fun k => u i * K i k * (L k j * v j)))) by (intros j _; rewrite <- rsum_scal; apply rsum_ext; intros; ring).
      rewrite rsum_swap. apply rsum_ext. intros k _. apply rsum_scal.
    - rewrite rsum_swap. unfold dot. apply rsum_ext. intros k Hk. rewrite rsum_scal_r. f_equal. unfold mv. apply rsum_ext. intros i Hi. rewrite (SK i k) by assumption. ring.
  Qed.
  Lemma qform_sq : forall K u, sym n K -> qform n (rmul n K K) u = dot n (mv n K u) (mv n K u).
  Proof. intros K u S. unfold qform. apply dot_mul. exact S. Qed.
  (** The regularised square exceeds the square. *)
  Lemma reg_form : forall K u, sym n K -> qform n (rmul n (regularised c K) (regularised c K)) u
    = dot n (mv n K u) (mv n K u) + (2 * c * qform n K u + c * c * dot n u u).
  Proof.
    intros K u S. rewrite qform_sq by (apply regularised_sym; exact S).
    rewrite (dot_ext n (mv n (regularised c K) u) (fun i => mv n K u i + c * u i) (mv n (regularised c K) u) (fun i => mv n K u i + c * u i)) by (intros; apply mv_regularised; assumption).
    rewrite dot_plus_l, !dot_plus_r, !dot_scal_l, !dot_scal_r, (dot_sym n (mv n K u) u), <- qform_mv. ring.
  Qed.
  Lemma qform_blocks : forall A B C D v, qform (n + n) (fun s t =>
      if (s <? n)%nat then if (t <? n)%nat then A s t else B s (t - n)%nat else if (t <? n)%nat then C (s - n)%nat t else D (s - n)%nat (t - n)%nat) v
    = qform n A v + rsum n (fun i => rsum n (fun j => v i * v (n + j)%nat * B i j)) + rsum n (fun i => rsum n (fun j => v (n + i)%nat * v j * C i j))
      + qform n D (fun i => v (n + i)%nat).
  Proof.
    intros A B C D v. unfold qform at 1. rewrite rsum_split. unfold qform. rewrite (Rplus_assoc _ _ (rsum n (fun i => rsum n (fun j => v (n + i)%nat * v (n + j)%nat * D i j)))).
    rewrite <- !rsum_plus. apply rsum_ext; intros i Hi. f_equal.
    - rewrite rsum_split. destruct (Nat.ltb_spec i n); [|lia]. f_equal; apply rsum_ext; intros j Hj.
      + destruct (Nat.ltb_spec j n); [reflexivity|lia].
      + destruct (Nat.ltb_spec (n + j) n); [lia|]. replace (n + j - n)%nat with j by lia. reflexivity.
    - rewrite rsum_split. destruct (Nat.ltb_spec (n + i) n); [lia|]. f_equal; apply rsum_ext; intros j Hj; replace (n + i - n)%nat with i by lia.
      + destruct (Nat.ltb_spec j n); [reflexivity|lia].
      + destruct (Nat.ltb_spec (n + j) n); [lia|]. replace (n + j - n)%nat with j by lia. reflexivity.
  Qed.

  Context (K L : rmat) (SK : sym n K) (SL : sym n L) (PK : psd n K) (PL : psd n L).
  Lemma extra_pos : forall M u, psd n M -> 0 <= 2 * c * qform n M u + c * c * dot n u u.
  Proof. intros M u P. pose proof (P u). pose proof (dot_nonneg n u). pose proof (Rmult_le_pos _ _ (Rlt_le _ _ Hc) H). pose proof (Rmult_le_pos _ _ (Rlt_le _ _ (Rmult_lt_0_compat _ _ Hc Hc)) H0). lra. Qed.
  Lemma extra_strict : forall M u i, psd n M -> (i < n)%nat -> u i <> 0 -> 0 < 2 * c * qform n M u + c * c * dot n u u.
  Proof.
    intros M u i P Hi N. pose proof (P u). pose proof (dot_pos n u i Hi N). pose proof (Rmult_le_pos _ _ (Rlt_le _ _ Hc) H).
    pose proof (Rmult_lt_0_compat _ _ (Rmult_lt_0_compat _ _ Hc Hc) H0). lra.
  Qed.
  Lemma joint_form : forall v, let w := fun i => mv n K v i + mv n L (fun i => v (n + i)%nat) i in
    qform (n + n) (joint n c K L) v = dot n w w + (2 * c * qform n K v + c * c * dot n v v)
      + (2 * c * qform n L (fun i => v (n + i)%nat) + c * c * dot n (fun i => v (n + i)%nat) (fun i => v (n + i)%nat)).
  Proof.
    intros v w. unfold joint. rewrite qform_blocks, !reg_form, !dot_mul by assumption. unfold w. rewrite dot_plus_l, !dot_plus_r.
    rewrite (dot_sym n (mv n L (fun i => v (n + i)%nat)) (mv n K v)). ring.
  Qed.
  Lemma separate_form : forall v, qform (n + n) (separate n c K L) v = qform n (rmul n (regularised c K) (regularised c K)) v
    + qform n (rmul n (regularised c L) (regularised c L)) (fun i => v (n + i)%nat).
  Proof.
    intro v. unfold separate. rewrite (qform_blocks _ (fun _ _ => 0) (fun _ _ => 0)).
    rewrite (rsum_0 n (fun i => rsum n (fun j => v i * v (n + j)%nat * 0))) by (intros; apply rsum_0; intros; ring).
    rewrite (rsum_0 n (fun i => rsum n (fun j => v (n + i)%nat * v j * 0))) by (intros; apply rsum_0; intros; ring). ring.
  Qed.
  Lemma nonzero_half : forall v, (exists i, (i < n + n)%nat /\ v i <> 0) -> (exists i, (i < n)%nat /\ v i <> 0) \/ exists i, (i < n)%nat /\ v (n + i)%nat <> 0.
  Proof.
    intros v (i & Hi & N). destruct (Nat.ltb_spec i n) as [H|H]; [left; exists i; split; assumption|]. right. exists (i - n)%nat. replace (n + (i - n))%nat with i by lia. split; [lia|exact N].
  Qed.
  Lemma joint_pd : positive_definite (n + n) (joint n c K L).
  Proof.
    intros v H. rewrite joint_form. cbv zeta. pose proof (dot_nonneg n (fun i => mv n K v i + mv n L (fun i => v (n + i)%nat) i)).
    pose proof (extra_pos K v PK). pose proof (extra_pos L (fun i => v (n + i)%nat) PL). destruct (nonzero_half v H) as [(i & Hi & N)|(i & Hi & N)].
    - pose proof (extra_strict K v i PK Hi N). lra.
    - pose proof (extra_strict L (fun i => v (n + i)%nat) i PL Hi N). lra.
  Qed.
  Lemma separate_pd : positive_definite (n + n) (separate n c K L).
  Proof.
    intros v H. rewrite separate_form, !reg_form by assumption. pose proof (dot_nonneg n (mv n K v)). pose proof (dot_nonneg n (mv n L (fun i => v (n + i)%nat))).
    pose proof (extra_pos K v PK). pose proof (extra_pos L (fun i => v (n + i)%nat) PL). destruct (nonzero_half v H) as [(i & Hi & N)|(i & Hi & N)].
    - pose proof (extra_strict K v i PK Hi N). lra.
    - pose proof (extra_strict L (fun i => v (n + i)%nat) i PL Hi N). lra.
  Qed.
  Lemma rmul_sym : forall A B i j, sym n A -> sym n B -> (i < n)%nat -> (j < n)%nat -> rmul n A B i j = rmul n B A j i.
  Proof. intros A B i j SA SB Hi Hj. unfold rmul. apply rsum_ext. intros k Hk. rewrite (SA i k), (SB k j) by assumption. ring. Qed.
  Lemma joint_sym : sym (n + n) (joint n c K L).
  Proof.
    intros i j Hi Hj. unfold joint. pose proof (regularised_sym K SK). pose proof (regularised_sym L SL).
    destruct (Nat.ltb_spec i n), (Nat.ltb_spec j n); apply rmul_sym; (assumption || lia).
  Qed.
  Lemma separate_sym : sym (n + n) (separate n c K L).
  Proof.
    intros i j Hi Hj. unfold separate. pose proof (regularised_sym K SK). pose proof (regularised_sym L SL).
    destruct (Nat.ltb_spec i n), (Nat.ltb_spec j n); try reflexivity; apply rmul_sym; (assumption || lia).
  Qed.
  Lemma same_blocks : req n (joint n c K L) (separate n c K L) /\ req n (corner n (joint n c K L)) (corner n (separate n c K L)).
  Proof.
    split; intros i j Hi Hj; unfold corner, joint, separate.
    - destruct (Nat.ltb_spec i n), (Nat.ltb_spec j n); try lia. reflexivity.
    - destruct (Nat.ltb_spec (n + i) n), (Nat.ltb_spec (n + j) n); try lia. reflexivity.
  Qed.
  Lemma gram_mi_nonneg : forall logsv, log_singular_values logsv ->
    0 <= gram_mi logsv n c K L /\ (gram_mi logsv n c K L = 0 <-> forall i j, (i < n)%nat -> (j < n)%nat -> rmul n K L i j = 0).
  Proof.
    intros logsv O. unfold gram_mi. rewrite !(oracle_logdet logsv O) by (apply joint_sym || apply joint_pd || apply separate_sym || apply separate_pd).
    rewrite (logdet_blocks n n (separate n c K L) separate_sym separate_pd).
    2:{ intros i j Hi Hj. unfold separate. destruct (Nat.ltb_spec i n), (Nat.ltb_spec (n + j) n); try lia. reflexivity. }
    destruct same_blocks as [E1 E2]. rewrite <- (logdet_ext n _ _ E1), <- (logdet_ext n _ _ E2).
    destruct (fischer n n (joint n c K L) joint_sym joint_pd) as [F1 F2]. split; [lra|].
    assert (Q : forall i j, (i < n)%nat -> (j < n)%nat -> joint n c K L i (n + j)%nat = rmul n K L i j).
    { intros i j Hi Hj. unfold joint. destruct (Nat.ltb_spec i n), (Nat.ltb_spec (n + j) n); try lia. replace (n + j - n)%nat with j by lia. reflexivity. }
    split; intro H.
    - intros i j Hi Hj. rewrite <- Q by assumption. apply F2; [lra|exact Hi|exact Hj].
    - rewrite (logdet_blocks n n (joint n c K L) joint_sym joint_pd); [lra|]. intros i j Hi Hj. rewrite Q by assumption. apply H; assumption.
  Qed.
End Pair.

(** ** Gaussian Gram matrices *)
Lemma gaussian_rbf : forall sigma x s t, sigma <> 0 -> gaussian_matrix sigma x s t = rbf_dot 1 (fun s _ => x s) sigma s t.
Proof.
  intros sigma x s t N. unfold gaussian_matrix, gaussian, rbf_dot. f_equal. cbn [rsum]. field. exact N.
Qed.
Lemma gaussian_sym : forall n sigma x, sym n (gaussian_matrix sigma x).
Proof. intros n sigma x i j _ _. unfold gaussian_matrix, gaussian. f_equal. f_equal. f_equal. ring. Qed.
Lemma gaussian_psd : forall n sigma x, sigma <> 0 -> psd n (gaussian_matrix sigma x).
Proof.
  intros n sigma x N v. rewrite (qform_req n _ (rbf_dot 1 (fun s _ => x s) sigma) v); [apply rbf_psd; exact N|]. intros i j _ _. apply gaussian_rbf. exact N.
Qed.
Lemma centred_gram : forall n K i j, (0 < n)%nat -> centred n K i j = gram_centre n K i j.
Proof.
  intros n K i j Hn. assert (N : INR n <> 0) by (apply not_0_INR; lia). unfold centred, gram_centre, average.
  replace (rsum n (fun u => rsum n (fun v => K u v) / INR n)) with (rsum n (fun u => rsum n (fun v => K u v)) / INR n).
  - field. exact N.
  - unfold Rdiv. rewrite <- rsum_scal_r. reflexivity.
Qed.
Lemma centred_ext : forall n K K', (0 < n)%nat -> req n K K' -> req n (centred n K) (gram_centre n K').
Proof.
  intros n K K' Hn E i j Hi Hj. rewrite centred_gram by exact Hn. unfold gram_centre. rewrite (E i j Hi Hj).
  rewrite (rsum_ext n (fun i => K i j) (fun i => K' i j)) by (intros; apply E; assumption). rewrite (rsum_ext n (fun j => K i j) (fun j => K' i j)) by (intros; apply E; assumption).
  rewrite (rsum_ext n (fun i => rsum n (fun j => K i j)) (fun i => rsum n (fun j => K' i j))) by (intros; apply rsum_ext; intros; apply E; assumption). reflexivity.
Qed.
Lemma centred_sym : forall n sigma x, (0 < n)%nat -> sym n (centred n (gaussian_matrix sigma x)).
Proof. intros n sigma x Hn i j Hi Hj. rewrite !centred_gram by exact Hn. apply centre_sym; [apply gaussian_sym|exact Hi|exact Hj]. Qed.
Lemma centred_psd : forall n sigma x, (0 < n)%nat -> sigma <> 0 -> psd n (centred n (gaussian_matrix sigma x)).
Proof.
  intros n sigma x Hn N v. rewrite (qform_req n _ (gram_centre n (gaussian_matrix sigma x)) v) by (intros i j _ _; apply centred_gram; exact Hn).
  apply centre_psd; [exact Hn|apply gaussian_sym|apply gaussian_psd; exact N].
Qed.
Lemma centred_row : forall n sigma x i, (0 < n)%nat -> (i < n)%nat -> rsum n (fun j => centred n (gaussian_matrix sigma x) i j) = 0.
Proof.
  intros n sigma x i Hn Hi. rewrite (rsum_ext n _ (fun j => gram_centre n (gaussian_matrix sigma x) i j)) by (intros; apply centred_gram; exact Hn).
  apply centre_row; [exact Hn|apply gaussian_sym|exact Hi].
Qed.
(** The centred kernel as a function of values. *)
Definition centred_fun (n : nat) (sigma : R) (x : nat -> R) (s : nat) (a : R) : R :=
  gaussian sigma (x s) a - average n (fun u => gaussian sigma (x u) a) - average n (fun u => gaussian sigma (x s) (x u))
  + average n (fun u => average n (fun v => gaussian sigma (x u) (x v))).
Lemma centred_fun_eq : forall n sigma x s t, centred n (gaussian_matrix sigma x) s t = centred_fun n sigma x s (x t).
Proof. reflexivity. Qed.

Lemma independent_products : forall n sigma x y, (0 < n)%nat -> independent_sample n x y ->
  forall i j, (i < n)%nat -> (j < n)%nat -> rmul n (centred n (gaussian_matrix sigma x)) (centred n (gaussian_matrix sigma y)) i j = 0.
Proof.
  intros n sigma x y Hn I i j Hi Hj. assert (N : INR n <> 0) by (apply not_0_INR; lia). specialize (I (centred_fun n sigma x i) (centred_fun n sigma y j)).
  unfold average in I. rewrite (rsum_ext n (fun s => centred_fun n sigma x i (x s)) (fun s => centred n (gaussian_matrix sigma x) i s)) in I by reflexivity.
  rewrite centred_row in I by assumption. unfold rmul. rewrite (rsum_ext n _ (fun s => centred_fun n sigma x i (x s) * centred_fun n sigma y j (y s))).
  - unfold Rdiv in I. rewrite Rmult_0_l, Rmult_0_l in I. apply Rmult_integral in I. destruct I as [I|I]; [exact I|]. apply Rinv_neq_0_compat in I; [contradiction|exact N].
  - intros k Hk. f_equal. rewrite (centred_sym n sigma y Hn k j Hk Hj). reflexivity.
Qed.
Lemma products_independent : forall n sigma x y, (0 < n)%nat -> sigma <> 0 ->
  (forall i j, (i < n)%nat -> (j < n)%nat -> rmul n (centred n (gaussian_matrix sigma x)) (centred n (gaussian_matrix sigma y)) i j = 0) -> independent_sample n x y.
Proof.
  intros n sigma x y Hn Ns Z f g. assert (N : INR n <> 0) by (apply not_0_INR; lia).
  assert (CX : req n (centred n (gaussian_matrix sigma x)) (gram_centre n (rbf_dot 1 (fun s _ => x s) sigma))). { apply centred_ext; [exact Hn|]. intros i j _ _. apply gaussian_rbf. exact Ns. }
  assert (CY : req n (centred n (gaussian_matrix sigma y)) (gram_centre n (rbf_dot 1 (fun s _ => y s) sigma))). { apply centred_ext; [exact Hn|]. intros i j _ _. apply gaussian_rbf. exact Ns. }
  assert (H0 : hsic_teststat (gram_centre n (rbf_dot 1 (fun s _ => x s) sigma)) (gram_centre n (rbf_dot 1 (fun s _ => y s) sigma)) n = 0).
  { unfold hsic_teststat. rewrite rsum_0; [ring|]. intros i Hi. rewrite <- (Z i i Hi Hi). unfold rmul. apply rsum_ext. intros j Hj. rewrite CX, CY by assumption.
    rewrite (centre_sym n (rbf_dot 1 (fun s _ => x s) sigma) (rbf_symm n 1 _ sigma) j i Hj Hi), (centre_sym n (rbf_dot 1 (fun s _ => y s) sigma) (rbf_symm n 1 _ sigma) i j Hi Hj). reflexivity. }
  pose proof (zero_counts n 1 1 (fun s _ => x s) (fun s _ => y s) sigma sigma Hn Ns Ns H0) as ZC.
  pose proof (independent_sum n 1 1 (fun s _ => x s) (fun s _ => y s) (fun i j => f (x i) * g (y j)) Hn) as IS.
  assert (E : INR n * rsum n (fun i => f (x i) * g (y i)) = rsum n (fun i => rsum n (fun j => f (x i) * g (y j)))).
  { apply IS; [intros a b _ _; apply ZC|]. intros i a b Hi Ha Hb E1 E2. apply row_eq_spec in E1, E2. specialize (E1 0%nat ltac:(lia)). specialize (E2 0%nat ltac:(lia)). cbv beta in E1, E2. rewrite E1, E2. reflexivity. }
  rewrite (rsum_ext n (fun i => rsum n (fun j => f (x i) * g (y j))) (fun i => f (x i) * rsum n (fun j => g (y j)))) in E by (intros; apply rsum_scal). rewrite rsum_scal_r in E.
  unfold average. apply Rmult_eq_reg_l with (INR n * INR n); [|apply Rmult_integral_contrapositive_currified; exact N].
  transitivity (INR n * rsum n (fun i => f (x i) * g (y i))); [field; exact N|]. rewrite E. field. exact N.
Qed.

Lemma kernel_mi_gram : forall logsv n kappa sigma x y, kernel_mi logsv n kappa sigma x y = gram_mi logsv n (INR n * kappa / 2) (gaussian_matrix sigma x) (gaussian_matrix sigma y).
Proof. reflexivity. Qed.
Lemma reg_pos : forall n kappa, (0 < n)%nat -> 0 < kappa -> 0 < INR n * kappa / 2.
Proof. intros n kappa Hn Hk. assert (0 < INR n) by (apply lt_0_INR; exact Hn). pose proof (Rmult_lt_0_compat _ _ H Hk). lra. Qed.

(** ** Noise that is independent of the cause *)
Lemma average_ext : forall n f g, (forall s, (s < n)%nat -> f s = g s) -> average n f = average n g.
Proof. intros n f g E. unfold average. f_equal. apply rsum_ext. exact E. Qed.
Lemma average_plus : forall n f g, average n (fun s => f s + g s) = average n f + average n g.
Proof. intros. unfold average. rewrite rsum_plus. unfold Rdiv. ring. Qed.
Lemma average_scal : forall n c f, average n (fun s => c * f s) = c * average n f.
Proof. intros. unfold average. rewrite rsum_scal. unfold Rdiv. ring. Qed.
Lemma average_const : forall n c, (0 < n)%nat -> average n (fun _ => c) = c.
Proof. intros n c H. unfold average. rewrite rsum_const. field. apply not_0_INR. lia. Qed.
Lemma independent_map : forall n x y f g x' y', independent_sample n x y -> (forall s, (s < n)%nat -> x' s = f (x s)) -> (forall s, (s < n)%nat -> y' s = g (y s)) ->
  independent_sample n x' y'.
Proof.
  intros n x y f g x' y' I Ex Ey h k. specialize (I (fun a => h (f a)) (fun b => k (g b))). cbv beta in I.
  rewrite (average_ext n (fun s => h (x' s) * k (y' s)) (fun s => h (f (x s)) * k (g (y s)))) by (intros s Hs; rewrite Ex, Ey by exact Hs; reflexivity).
  rewrite (average_ext n (fun s => h (x' s)) (fun s => h (f (x s)))) by (intros s Hs; rewrite Ex by exact Hs; reflexivity).
  rewrite (average_ext n (fun s => k (y' s)) (fun s => k (g (y s)))) by (intros s Hs; rewrite Ey by exact Hs; reflexivity). exact I.
Qed.
Definition spread (n : nat) (x : nat -> R) : R := sqrt (average n (fun t => (x t - average n x) ^ 2)).
Lemma remainder_noise : forall n x y b, (0 < n)%nat -> spread n x <> 0 -> spread n y <> 0 -> independent_sample n x (fun s => y s - b * x s) ->
  forall s, remainder n y x s = (y s - b * x s - average n (fun s => y s - b * x s)) / spread n y.
Proof.
  intros n x y b Hn Hx Hy I s. set (e := fun s => y s - b * x s) in *.
  assert (EY : forall s, y s = b * x s + e s) by (intro; unfold e; ring).
  assert (MY : average n y = b * average n x + average n e). { rewrite (average_ext n y (fun s => b * x s + e s)) by (intros; apply EY). rewrite average_plus, average_scal. reflexivity. }
  assert (VX : average n (fun t => (x t - average n x) ^ 2) = spread n x * spread n x). { unfold spread. rewrite sqrt_sqrt; [reflexivity|]. unfold average at 1. unfold Rdiv. apply Rmult_le_pos; [apply rsum_nonneg; intros; apply pow2_ge_0|]. apply Rlt_le, Rinv_0_lt_compat, lt_0_INR. exact Hn. }
  assert (CE : average n (fun s => (x s - average n x) * (e s - average n e)) = 0).
  { pose proof (I (fun a => a - average n x) (fun a => a - average n e)) as Q. cbv beta in Q. rewrite Q.
    replace (average n (fun s => x s - average n x)) with 0; [ring|]. unfold Rminus. rewrite average_plus, average_const by exact Hn. ring. }
  assert (CR : correlation n y x = b * spread n x / spread n y).
  { unfold correlation. rewrite (average_ext n _ (fun s => b / (spread n y * spread n x) * (x s - average n x) ^ 2 + / (spread n y * spread n x) * ((x s - average n x) * (e s - average n e)))).
    - rewrite average_plus, !average_scal, VX, CE. field. split; assumption.
    - intros t _. unfold standardised. fold (spread n x) (spread n y). rewrite MY, (EY t). field. split; assumption. }
  unfold remainder. rewrite CR. unfold standardised. fold (spread n x) (spread n y). rewrite MY, (EY s). field. split; assumption.
Qed.
