(** * The Gaussian kernel is positive semidefinite; when its forms vanish *)
From Coq Require Import Reals Lra Lia Arith Bool List FunctionalExtensionality.
From Verif Require Import LibR SpecKernel ModelKernel.
Import ListNotations.
Open Scope R_scope.

(** ** Bilinear and quadratic forms *)
Definition bform (n : nat) (A : rmat) (c e : nat -> R) : R := rsum n (fun i => rsum n (fun j => c i * e j * A i j)).
Lemma qform_ext : forall n A B c e, (forall i j, (i < n)%nat -> (j < n)%nat -> c i * c j * A i j = e i * e j * B i j) ->
  qform n A c = qform n B e.
Proof. intros n A B c e H. apply rsum_ext. intros i Hi. apply rsum_ext. intros j Hj. apply H; assumption. Qed.
Lemma bform_add : forall n A c e, (forall i j, (i < n)%nat -> (j < n)%nat -> A i j = A j i) -> forall t,
  qform n A (fun i => c i + t * e i) = qform n A c + 2 * t * bform n A c e + t * t * qform n A e.
Proof.
  intros n A c e S t. unfold qform, bform.
  assert (X : rsum n (fun i => rsum n (fun j => e i * c j * A i j)) = rsum n (fun i => rsum n (fun j => c i * e j * A i j))).
  { rewrite rsum_swap. apply rsum_ext. intros j Hj. apply rsum_ext. intros i Hi. rewrite (S i j) by assumption. ring. }
  transitivity (rsum n (fun i => rsum n (fun j => c i * c j * A i j)) + (t * rsum n (fun i => rsum n (fun j => c i * e j * A i j))
    + (t * rsum n (fun i => rsum n (fun j => e i * c j * A i j)) + t * t * rsum n (fun i => rsum n (fun j => e i * e j * A i j))))).
  - rewrite <- !rsum_scal, <- !rsum_plus. apply rsum_ext. intros i _.
    rewrite <- !rsum_scal, <- !rsum_plus. apply rsum_ext. intros j _. ring.
  - rewrite X. ring.
Qed.
(** A vector on which a semidefinite form vanishes is in its kernel. *)
Lemma psd_kernel : forall n A c, (forall i j, (i < n)%nat -> (j < n)%nat -> A i j = A j i) -> psd n A -> qform n A c = 0 ->
  forall e, bform n A c e = 0.
Proof.
  intros n A c S P Z e. destruct (Req_dec (bform n A c e) 0) as [H|H]; [exact H|]. exfalso.
  set (b := bform n A c e) in *. set (q := qform n A e).
  assert (Q : 0 <= q) by apply P.
  pose proof (P (fun i => c i + (- b / (q + 1)) * e i)) as N. rewrite (bform_add n A c e S), Z in N. fold b q in N.
  assert (E : 0 + 2 * (- b / (q + 1)) * b + - b / (q + 1) * (- b / (q + 1)) * q = - (b * b) * (q + 2) / ((q + 1) * (q + 1))) by (field; lra).
  rewrite E in N. assert (B : 0 < b * b) by (apply Rsqr_pos_lt; exact H).
  assert (0 < b * b * (q + 2) / ((q + 1) * (q + 1))).
  { apply Rdiv_lt_0_compat; [apply Rmult_lt_0_compat; lra|apply Rmult_lt_0_compat; lra]. }
  unfold Rdiv in *. lra.
Qed.
Lemma bform_linear : forall n A c1 c2 t e, bform n A (fun i => c1 i + t * c2 i) e = bform n A c1 e + t * bform n A c2 e.
Proof.
  intros. unfold bform. rewrite <- rsum_scal, <- rsum_plus. apply rsum_ext. intros i _.
  rewrite <- rsum_scal, <- rsum_plus. apply rsum_ext. intros; ring.
Qed.
Lemma bform_ext_l : forall n A c c' e, (forall i, (i < n)%nat -> c i = c' i) -> bform n A c e = bform n A c' e.
Proof. intros n A c c' e H. apply rsum_ext. intros i Hi. apply rsum_ext. intros j _. rewrite H by exact Hi. reflexivity. Qed.

(** ** Multiplying a form entrywise by exp (a x_i x_j) *)
Definition schur (A : rmat) (a : R) (x : nat -> R) : rmat := fun i j => A i j * exp (a * (x i * x j)).
Definition pterm (n : nat) (A : rmat) (a : R) (x c : nat -> R) (k : nat) : R :=
  / INR (fact k) * a ^ k * qform n A (fun i => c i * x i ^ k).

Lemma Un_cv_ext : forall f g l, (forall k, f k = g k) -> Un_cv f l -> Un_cv g l.
Proof. intros f g l E H eps He. destruct (H eps He) as [N HN]. exists N. intros k Hk. rewrite <- E. apply HN, Hk. Qed.
Lemma Un_cv_rsum : forall n (f : nat -> nat -> R) (l : nat -> R), (forall i, (i < n)%nat -> Un_cv (f i) (l i)) ->
  Un_cv (fun N => rsum n (fun i => f i N)) (rsum n l).
Proof.
  induction n as [|n IH]; intros f l H; cbn.
  - intros eps He. exists 0%nat. intros k _. unfold R_dist. rewrite Rminus_0_r, Rabs_R0. exact He.
  - apply CV_plus; [apply IH; auto with arith|apply H; lia].
Qed.
Lemma sum_f_R0_scal : forall f c N, sum_f_R0 (fun k => c * f k) N = c * sum_f_R0 f N.
Proof. intros. rewrite scal_sum. apply sum_eq. intros; ring. Qed.
Lemma rsum_sum_f : forall n (f : nat -> nat -> R) N, rsum n (fun i => sum_f_R0 (f i) N) = sum_f_R0 (fun k => rsum n (fun i => f i k)) N.
Proof.
  induction n as [|n IH]; intros f N; cbn; [symmetry; rewrite (sum_eq _ (fun _ => 0 * 0)) by (intros; ring); rewrite sum_f_R0_scal; ring|].
  rewrite IH, <- plus_sum. reflexivity.
Qed.
Lemma exp_series : forall z, Un_cv (fun N => sum_f_R0 (fun k => / INR (fact k) * z ^ k) N) (exp z).
Proof. intro z. unfold exp. destruct (exist_exp z) as [l Hl]. exact Hl. Qed.

Lemma schur_series : forall n A a x c, Un_cv (fun N => sum_f_R0 (pterm n A a x c) N) (qform n (schur A a x) c).
Proof.
  intros n A a x c.
  apply (Un_cv_ext (fun N => rsum n (fun i => rsum n (fun j => c i * c j * A i j * sum_f_R0 (fun k => / INR (fact k) * (a * (x i * x j)) ^ k) N)))).
  - intro N. rewrite (rsum_ext n _ (fun i => rsum n (fun j => sum_f_R0 (fun k => c i * c j * A i j * (/ INR (fact k) * (a * (x i * x j)) ^ k)) N)))
      by (intros; apply rsum_ext; intros; symmetry; apply sum_f_R0_scal).
    rewrite (rsum_ext n _ (fun i => sum_f_R0 (fun k => rsum n (fun j => c i * c j * A i j * (/ INR (fact k) * (a * (x i * x j)) ^ k))) N))
      by (intros; apply rsum_sum_f).
    rewrite rsum_sum_f. apply sum_eq. intros k _. unfold pterm, qform. rewrite <- rsum_scal. apply rsum_ext. intros i _.
    rewrite <- rsum_scal. apply rsum_ext. intros j _. rewrite !Rpow_mult_distr. ring.
  - unfold qform. apply (Un_cv_rsum n (fun i N => rsum n (fun j => c i * c j * A i j * sum_f_R0 (fun k => / INR (fact k) * (a * (x i * x j)) ^ k) N))).
    intros i _. apply (Un_cv_rsum n (fun j N => c i * c j * A i j * sum_f_R0 (fun k => / INR (fact k) * (a * (x i * x j)) ^ k) N)).
    intros j _. unfold schur.
    replace (c i * c j * (A i j * exp (a * (x i * x j)))) with (c i * c j * A i j * exp (a * (x i * x j))) by ring.
    apply CV_mult; [|apply exp_series].
    intros eps He. exists 0%nat. intros k _. unfold R_dist. rewrite Rminus_eq_0, Rabs_R0. exact He.
Qed.
Lemma pterm_nonneg : forall n A a x c k, 0 < a -> psd n A -> 0 <= pterm n A a x c k.
Proof.
  intros n A a x c k Ha P. unfold pterm. apply Rmult_le_pos; [|apply P]. apply Rmult_le_pos; [|apply pow_le; lra].
  apply Rlt_le, Rinv_0_lt_compat, INR_fact_lt_0.
Qed.
Lemma sum_f_nonneg : forall f N, (forall k, 0 <= f k) -> 0 <= sum_f_R0 f N.
Proof. intros f N H. apply cond_pos_sum. exact H. Qed.
Lemma schur_ge : forall n A a x c k, 0 < a -> psd n A -> pterm n A a x c k <= qform n (schur A a x) c.
Proof.
  intros n A a x c k Ha P. destruct (Rle_lt_dec (pterm n A a x c k) (qform n (schur A a x) c)) as [H|H]; [exact H|]. exfalso.
  destruct (schur_series n A a x c (pterm n A a x c k - qform n (schur A a x) c) ltac:(lra)) as [N HN].
  specialize (HN (N + S k)%nat ltac:(lia)). unfold R_dist in HN. apply Rabs_def2 in HN. destruct HN as [HN _].
  assert (B : pterm n A a x c k <= sum_f_R0 (pterm n A a x c) (N + S k)).
  { assert (M : forall m, (k <= m)%nat -> pterm n A a x c k <= sum_f_R0 (pterm n A a x c) m).
    { induction m as [|m IH]; intro L.
      - replace k with 0%nat by lia. cbn. lra.
      - cbn. destruct (Nat.eq_dec k (S m)) as [->|D].
        + pose proof (sum_f_nonneg (pterm n A a x c) m ltac:(intro; apply pterm_nonneg; assumption)). lra.
        + pose proof (IH ltac:(lia)). pose proof (pterm_nonneg n A a x c (S m) Ha P). lra. }
    apply M. lia. }
  lra.
Qed.
Lemma schur_psd : forall n A a x, 0 < a -> psd n A -> psd n (schur A a x).
Proof.
  intros n A a x Ha P c. eapply Rle_trans; [apply (pterm_nonneg n A a x c 0 Ha P)|apply schur_ge; assumption].
Qed.
Lemma schur_zero : forall n A a x c, 0 < a -> psd n A -> qform n (schur A a x) c = 0 -> forall k, qform n A (fun i => c i * x i ^ k) = 0.
Proof.
  intros n A a x c Ha P Z k. pose proof (schur_ge n A a x c k Ha P) as L. rewrite Z in L. unfold pterm in L.
  set (q := qform n A (fun i => c i * x i ^ k)) in *. pose proof (P (fun i => c i * x i ^ k)) as N. fold q in N.
  destruct (Req_dec q 0) as [E|E]; [exact E|]. exfalso.
  assert (0 < / INR (fact k) * a ^ k * q); [|lra]. apply Rmult_lt_0_compat; [apply Rmult_lt_0_compat|lra].
  - apply Rinv_0_lt_compat, INR_fact_lt_0.
  - apply pow_lt. exact Ha.
Qed.

(** From powers to indicators of a value. *)
Definition sym (n : nat) (A : rmat) : Prop := forall i j, (i < n)%nat -> (j < n)%nat -> A i j = A j i.
Definition others (n : nat) (x : nat -> R) (v : R) : list R :=
  filter (fun b => if Req_EM_T b v then false else true) (map x (seq 0 n)).
Definition vanish (bs : list R) (t : R) : R := fold_right (fun b acc => (t - b) * acc) 1 bs.
Lemma vanish_cons : forall b l t, vanish (b :: l) t = (t - b) * vanish l t.
Proof. reflexivity. Qed.
Lemma vanish_others_0 : forall n x v i, (i < n)%nat -> x i <> v -> vanish (others n x v) (x i) = 0.
Proof.
  intros n x v i Hi D. assert (I : In (x i) (others n x v)).
  { apply filter_In. split; [apply in_map, in_seq; lia|]. destruct (Req_EM_T (x i) v); [contradiction|reflexivity]. }
  induction (others n x v) as [|b l IH]; [contradiction|]. rewrite vanish_cons. destruct I as [->|I]; [ring|]. rewrite (IH I). ring.
Qed.
Lemma vanish_others_nz : forall n x v, vanish (others n x v) v <> 0.
Proof.
  intros n x v. assert (F : Forall (fun b => b <> v) (others n x v)).
  { apply Forall_forall. intros b Hb. apply filter_In in Hb. destruct Hb as [_ Hb]. destruct (Req_EM_T b v); [discriminate|assumption]. }
  induction F as [|b l Hb F IH]; cbn; [lra|]. apply Rmult_integral_contrapositive_currified; [lra|exact IH].
Qed.
Lemma kernel_vanish : forall n A c x bs, sym n A -> psd n A -> (forall k, qform n A (fun i => c i * x i ^ k) = 0) ->
  forall k e, bform n A (fun i => c i * vanish bs (x i) * x i ^ k) e = 0.
Proof.
  intros n A c x bs Hs P Z. induction bs as [|b bs IH]; intros k e.
  - rewrite (bform_ext_l n A _ (fun i => c i * x i ^ k)) by (intros; cbn; ring). apply psd_kernel; auto.
  - rewrite (bform_ext_l n A _ (fun i => c i * vanish bs (x i) * x i ^ S k + - b * (c i * vanish bs (x i) * x i ^ k)))
      by (intros; rewrite vanish_cons; cbn [pow]; ring).
    rewrite bform_linear, !IH. ring.
Qed.
Lemma schur_indicator : forall n A a x c v, 0 < a -> sym n A -> psd n A -> qform n (schur A a x) c = 0 ->
  qform n A (fun i => if Req_EM_T (x i) v then c i else 0) = 0.
Proof.
  intros n A a x c v Ha Hs P Z. pose proof (schur_zero n A a x c Ha P Z) as Zk.
  set (u := vanish (others n x v) v). assert (Hu : u <> 0) by apply vanish_others_nz.
  assert (B : forall e, bform n A (fun i => u * (if Req_EM_T (x i) v then c i else 0)) e = 0).
  { intro e. refine (eq_trans _ (kernel_vanish n A c x (others n x v) Hs P Zk 0%nat e)). apply bform_ext_l. intros i Hi.
    cbn [pow]. destruct (Req_EM_T (x i) v) as [E|E]; [rewrite E; unfold u; ring|]. rewrite vanish_others_0 by assumption. ring. }
  set (c' := fun i => if Req_EM_T (x i) v then c i else 0) in *.
  assert (E : u * qform n A c' = 0).
  { refine (eq_trans _ (B c')). unfold qform, bform. rewrite <- rsum_scal. apply rsum_ext. intros i _. rewrite <- rsum_scal. apply rsum_ext.
    intros j _. change (if Req_EM_T (x i) v then c i else 0) with (c' i). ring. }
  apply Rmult_integral in E. destruct E; [contradiction|assumption].
Qed.

(** ** All columns of the sample *)
Fixpoint schurs (A : rmat) (a : R) (X : rmat) (m : nat) : rmat :=
  match m with O => A | S m => schur (schurs A a X m) a (fun i => X i m) end.
Lemma schurs_eq : forall A a X m i j, schurs A a X m i j = A i j * exp (a * rsum m (fun k => X i k * X j k)).
Proof.
  intros A a X m i j. induction m as [|m IH]; cbn.
  - rewrite Rmult_0_r, exp_0. ring.
  - unfold schur. rewrite IH, Rmult_assoc, <- exp_plus. f_equal. f_equal. ring.
Qed.
Lemma schurs_sym : forall n A a X m, sym n A -> sym n (schurs A a X m).
Proof.
  intros n A a X m H i j Hi Hj. rewrite !schurs_eq, (H i j) by assumption. f_equal. f_equal. f_equal. apply rsum_ext. intros; ring.
Qed.
Lemma schurs_psd : forall n A a X m, 0 < a -> psd n A -> psd n (schurs A a X m).
Proof. intros n A a X m Ha P. induction m as [|m IH]; cbn; [exact P|]. apply schur_psd; assumption. Qed.
Definition row_eq (m : nat) (u v : nat -> R) : bool :=
  forallb (fun k => if Req_EM_T (u k) (v k) then true else false) (seq 0 m).
Lemma row_eq_spec : forall m u v, row_eq m u v = true <-> same_row m u v.
Proof.
  intros m u v. unfold row_eq. rewrite forallb_forall. split.
  - intros H k Hk. specialize (H k). cbn in H. destruct (Req_EM_T (u k) (v k)); [assumption|]. assert (false = true) by (apply H, in_seq; lia). discriminate.
  - intros H k Hk. apply in_seq in Hk. rewrite (H k) by lia. destruct (Req_EM_T (v k) (v k)); [reflexivity|contradiction].
Qed.
Lemma row_eq_S : forall m u v, row_eq (S m) u v = (row_eq m u v && (if Req_EM_T (u m) (v m) then true else false)).
Proof. intros. unfold row_eq. rewrite seq_S, forallb_app. cbn. rewrite andb_true_r. reflexivity. Qed.
Lemma schurs_indicator : forall n A a X v m c, 0 < a -> sym n A -> psd n A -> qform n (schurs A a X m) c = 0 ->
  qform n A (fun i => if row_eq m (X i) v then c i else 0) = 0.
Proof.
  intros n A a X v m. induction m as [|m IH]; intros c Ha Hs P Z.
  - refine (eq_trans _ Z). apply qform_ext. reflexivity.
  - cbn [schurs] in Z. apply (schur_indicator n _ a (fun i => X i m) c (v m) Ha) in Z;
      [|apply schurs_sym; exact Hs|apply schurs_psd; assumption].
    apply IH in Z; try assumption. refine (eq_trans _ Z). apply qform_ext. intros i j _ _. rewrite !row_eq_S.
    destruct (row_eq m (X i) v), (Req_EM_T (X i m) (v m)), (row_eq m (X j) v), (Req_EM_T (X j m) (v m)); reflexivity.
Qed.

(** ** The kernel *)
Definition sqn (m : nat) (u : nat -> R) : R := rsum m (fun k => u k * u k).
Definition wt (m : nat) (width : R) (u : nat -> R) : R := exp (- sqn m u / 2 / width ^ 2).
Lemma rbf_factor : forall m X width i j, width <> 0 ->
  rbf_dot m X width i j = wt m width (X i) * wt m width (X j) * exp (/ width ^ 2 * rsum m (fun k => X i k * X j k)).
Proof.
  intros m X width i j Hw. unfold rbf_dot, wt, sqn. rewrite <- !exp_plus. f_equal. field. exact Hw.
Qed.
Lemma wt_pos : forall m w u, 0 < wt m w u.
Proof. intros. apply exp_pos. Qed.
Lemma wt_row : forall m w u v, row_eq m u v = true -> wt m w u = wt m w v.
Proof.
  intros m w u v H. apply row_eq_spec in H. unfold wt, sqn. f_equal. f_equal. f_equal. f_equal. apply rsum_ext. intros k Hk. rewrite (H k Hk). reflexivity.
Qed.
Lemma width_pos : forall w, w <> 0 -> 0 < / w ^ 2.
Proof. intros w H. apply Rinv_0_lt_compat. cbn. rewrite Rmult_1_r. apply Rsqr_pos_lt. exact H. Qed.
(** A semidefinite form times the kernel. *)
Lemma kernel_schurs : forall n m X w A c, w <> 0 ->
  qform n (fun i j => A i j * rbf_dot m X w i j) c = qform n (schurs A (/ w ^ 2) X m) (fun i => c i * wt m w (X i)).
Proof.
  intros n m X w A c Hw. apply qform_ext. intros i j _ _. rewrite schurs_eq, rbf_factor by exact Hw. ring.
Qed.
Lemma kernel_psd : forall n m X w A, w <> 0 -> psd n A -> psd n (fun i j => A i j * rbf_dot m X w i j).
Proof. intros n m X w A Hw P c. rewrite kernel_schurs by exact Hw. apply schurs_psd; [apply width_pos; exact Hw|exact P]. Qed.
Lemma kernel_indicator : forall n m X w A v, w <> 0 -> sym n A -> psd n A ->
  qform n (fun i j => A i j * rbf_dot m X w i j) (fun _ => 1) = 0 -> qform n A (fun i => if row_eq m (X i) v then 1 else 0) = 0.
Proof.
  intros n m X w A v Hw Hs P Z. rewrite kernel_schurs in Z by exact Hw.
  apply (schurs_indicator n A _ X v m _ (width_pos w Hw) Hs P) in Z.
  assert (E : wt m w v * wt m w v * qform n A (fun i => if row_eq m (X i) v then 1 else 0) = 0).
  { refine (eq_trans _ Z). unfold qform. rewrite <- rsum_scal. apply rsum_ext. intros i _. rewrite <- rsum_scal. apply rsum_ext. intros j _.
    destruct (row_eq m (X i) v) eqn:Ei, (row_eq m (X j) v) eqn:Ej; try ring.
    rewrite (wt_row m w (X i) v Ei), (wt_row m w (X j) v Ej). ring. }
  pose proof (wt_pos m w v). apply Rmult_integral in E. destruct E as [E|E]; [|exact E]. apply Rmult_integral in E. lra.
Qed.
Lemma kernel_vector : forall n m X w c v, w <> 0 -> qform n (rbf_dot m X w) c = 0 ->
  rsum n (fun i => if row_eq m (X i) v then c i else 0) = 0.
Proof.
  intros n m X w c v Hw Z.
  assert (S1 : sym n (fun _ _ => 1)) by (intros i j _ _; reflexivity).
  assert (F : forall e, qform n (fun _ _ => 1) e = rsum n e * rsum n e).
  { intro e. unfold qform. rewrite <- rsum_scal_r. apply rsum_ext. intros i _. rewrite <- rsum_scal. apply rsum_ext. intros; ring. }
  assert (P1 : psd n (fun _ _ => 1)) by (intro e; rewrite F; apply Rle_0_sqr).
  assert (Z' : qform n (schurs (fun _ _ => 1) (/ w ^ 2) X m) (fun i => c i * wt m w (X i)) = 0).
  { rewrite <- kernel_schurs by exact Hw. refine (eq_trans _ Z). apply qform_ext. intros; ring. }
  apply (schurs_indicator n _ _ X v m _ (width_pos w Hw) S1 P1) in Z'. rewrite F in Z'.
  assert (E : wt m w v * rsum n (fun i => if row_eq m (X i) v then c i else 0) = 0).
  { rewrite <- rsum_scal. assert (E0 : rsum n (fun i => if row_eq m (X i) v then c i * wt m w (X i) else 0) = 0) by (apply Rsqr_0_uniq; exact Z').
    refine (eq_trans _ E0). apply rsum_ext. intros i _. destruct (row_eq m (X i) v) eqn:Ei; [rewrite (wt_row m w (X i) v Ei); ring|ring]. }
  pose proof (wt_pos m w v). apply Rmult_integral in E. destruct E; [lra|assumption].
Qed.
Lemma rbf_sym : forall m X w i j, rbf_dot m X w i j = rbf_dot m X w j i.
Proof.
  intros. unfold rbf_dot. f_equal. f_equal. f_equal. f_equal. f_equal.
  - ring.
  - f_equal. apply rsum_ext. intros; ring.
Qed.
Lemma rbf_diag : forall m X w i, rbf_dot m X w i i = 1.
Proof.
  intros. unfold rbf_dot. rewrite <- exp_0. f_equal.
  match goal with |- - (?a + ?b - 2 * ?c) / 2 / _ = 0 => replace (a + b - 2 * c) with 0 by ring end. unfold Rdiv. ring.
Qed.
