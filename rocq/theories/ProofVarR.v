(** * VARLiNGAM on data: least squares without constant term in other units *)
From Coq Require Import Reals Lra Lia Arith Bool List FunctionalExtensionality.
From Verif Require Import Prelude LibR SpecDirectR SpecVarR ModelDirectR ProofDirectR3 ModelVarR.
From Verif Require ModelDirect.
Import ListNotations.
Open Scope R_scope.

(** ** Sums over stacked columns *)
Lemma rsum_shift : forall m f, rsum (S m) f = f 0%nat + rsum m (fun i => f (S i)).
Proof. intros m f. change (S m) with (1 + m)%nat. rewrite rsum_split. cbn [rsum]. change (fun i => f (1 + i)%nat) with (fun i => f (S i)). ring. Qed.
Lemma lin_seq : forall F g s m o, lin (map g (seq o m)) (map F (seq o m)) s = rsum m (fun c => g (o + c)%nat * F (o + c)%nat s).
Proof.
  intros F g s. induction m as [|m IH]; intro o; [reflexivity|]. rewrite rsum_shift. cbn [seq map lin]. rewrite IH, Nat.add_0_r. f_equal.
  apply rsum_ext. intros i _. rewrite Nat.add_succ_r. reflexivity.
Qed.
Lemma rsum_blocks : forall p f m, (0 < p)%nat -> rsum (p * m) (fun c => f (c / p)%nat (c mod p)%nat) = rsum m (fun t => rsum p (f t)).
Proof.
  intros p f m Hp. induction m as [|m IH]; [rewrite Nat.mul_0_r; reflexivity|]. rewrite Nat.mul_succ_r, rsum_split, IH. cbn [rsum]. f_equal.
  apply rsum_ext. intros i Hi. f_equal.
  - rewrite Nat.mul_comm, Nat.div_add_l, Nat.div_small by lia. lia.
  - rewrite Nat.add_comm, Nat.mul_comm, Nat.mod_add, Nat.mod_small by lia. reflexivity.
Qed.
Lemma independent_blocks : forall N p X k, (0 < p)%nat -> var_independent N p X k -> forall (g : nat -> nat -> R) b,
  (forall s, (s < N - k)%nat -> rsum (S k) (fun t => rsum p (fun l => g t l * X (k + s - t)%nat l)) + b = 0) ->
  forall t l, (t < S k)%nat -> (l < p)%nat -> g t l = 0.
Proof.
  intros N p X k Hp I g b H t l Ht Hl.
  pose proof (I (map (fun c => g (c / p)%nat (c mod p)%nat) (seq 0 (p * S k))) b) as J. rewrite !map_length in J. specialize (J eq_refl).
  assert (Q : forall s, (s < N - k)%nat -> lin (map (fun c => g (c / p)%nat (c mod p)%nat) (seq 0 (p * S k))) (map (stacked p X k) (seq 0 (p * S k))) s + b = 0).
  { intros s Hs. rewrite lin_seq. cbn [Nat.add]. unfold stacked.
    rewrite (rsum_blocks p (fun t l => g t l * X (k + s - t)%nat l) (S k) Hp). apply H. exact Hs. }
  specialize (J Q). rewrite Forall_forall in J. apply J. apply in_map_iff. exists (t * p + l)%nat. split.
  - f_equal; [rewrite Nat.div_add_l, Nat.div_small by lia; lia|rewrite Nat.add_comm, Nat.mod_add, Nat.mod_small by lia; reflexivity].
  - apply in_seq. nia.
Qed.
Lemma independent_rows : forall N p X k, (0 < p)%nat -> var_independent N p X k -> (k < N)%nat.
Proof.
  intros N p X k Hp I. destruct (le_lt_dec N k) as [L|L]; [|exact L]. exfalso.
  pose proof (independent_blocks N p X k Hp I (fun _ _ => 1) 0 ltac:(intros s Hs; lia) 0%nat 0%nat ltac:(lia) Hp). lra.
Qed.

(** ** Least squares: uniqueness and units *)
Definition avg_mats (Ms Ms' : list rmat) : list rmat :=
  map (fun t i l => (nth t Ms (fun _ _ => 0) i l + nth t Ms' (fun _ _ => 0) i l) / 2) (seq 0 (length Ms)).
Lemma nth_map_seq : forall (A : Type) (f : nat -> A) d n t, (t < n)%nat -> nth t (map f (seq 0 n)) d = f t.
Proof. intros A f d n t H. rewrite nth_indep with (d' := f 0%nat) by (rewrite map_length, seq_length; exact H). rewrite map_nth, seq_nth by exact H. reflexivity. Qed.
Lemma least_unique : forall N p X k Ms Ms', (0 < p)%nat -> var_independent N p X k ->
  var_least_squares N p X k Ms -> var_least_squares N p X k Ms' ->
  forall t i l, (t < k)%nat -> (i < p)%nat -> (l < p)%nat -> nth t Ms' (fun _ _ => 0) i l = nth t Ms (fun _ _ => 0) i l.
Proof.
  intros N p X k Ms Ms' Hp I [L M] [L' M'] t i l Ht Hi Hl.
  set (d := fun t l => nth t Ms (fun _ _ => 0) i l - nth t Ms' (fun _ _ => 0) i l).
  assert (LA : length (avg_mats Ms Ms') = k) by (unfold avg_mats; rewrite map_length, seq_length; exact L).
  pose proof (M i Hi _ L') as M1. pose proof (M' i Hi _ L) as M2. pose proof (M i Hi _ LA) as M3.
  set (D := fun s => rsum k (fun t => rsum p (fun l => d t l * X (k + s - 1 - t)%nat l))).
  assert (E : prediction_error N p X (avg_mats Ms Ms') i
            = (prediction_error N p X Ms i + prediction_error N p X Ms' i) / 2 - rsum (N - k) (fun s => (D s) ^ 2) / 4).
  { unfold prediction_error. rewrite LA, L, L'. unfold Rdiv. rewrite <- rsum_plus, <- !rsum_scal_r, <- rsum_minus. apply rsum_ext. intros s _.
    assert (P : predicted p (avg_mats Ms Ms') X (k + s) i = (predicted p Ms X (k + s) i + predicted p Ms' X (k + s) i) / 2).
    { unfold predicted. rewrite LA, L, L'. unfold Rdiv. rewrite <- rsum_plus, <- rsum_scal_r. apply rsum_ext. intros u Hu.
      rewrite <- rsum_plus, <- rsum_scal_r. apply rsum_ext. intros v _. unfold avg_mats. rewrite nth_map_seq by lia. field. }
    assert (P2 : D s = predicted p Ms X (k + s) i - predicted p Ms' X (k + s) i).
    { unfold D, predicted, d. rewrite L, L'. rewrite <- rsum_minus. apply rsum_ext. intros u Hu. rewrite <- rsum_minus. apply rsum_ext. intros v _. ring. }
    rewrite P, P2. field. }
  assert (Z : rsum (N - k) (fun s => D s ^ 2) = 0).
  { pose proof (rsum_nonneg (N - k) (fun s => D s ^ 2) (fun i _ => pow2_ge_0 _)). lra. }
  assert (Q : d t l = 0).
  { apply (independent_blocks N p X k Hp I (fun t l => match t with O => 0 | S t => d t l end) 0) with (t := S t) (l := l); [|lia|exact Hl].
    intros s Hs. rewrite rsum_shift. cbn beta. rewrite (rsum_0 p (fun l0 => 0 * _)) by (intros; ring).
    pose proof (rsum_zero_all (N - k) (fun s => D s ^ 2) (fun i _ => pow2_ge_0 _) Z s Hs) as Q. cbn beta in Q.
    assert (D s = 0) by (apply Rsqr_0_uniq; unfold Rsqr; rewrite <- Q; ring).
    replace (rsum k (fun i0 => rsum p (fun l0 => d i0 l0 * X (k + s - S i0)%nat l0))) with (D s); [lra|].
    unfold D. apply rsum_ext. intros u _. apply rsum_ext. intros v _. do 2 f_equal. lia. }
  unfold d in Q. lra.
Qed.
Definition mat_in_units (a : nat -> R) (M : rmat) : rmat := fun i j => a i / a j * M i j.
Lemma nth_mapped : forall (f : rmat -> rmat) (Ms : list rmat) u (i l : nat), (u < length Ms)%nat ->
  nth u (map f Ms) (fun _ _ => 0) i l = f (nth u Ms (fun _ _ => 0)) i l.
Proof.
  intros f Ms u i l. revert u. induction Ms as [|M Ms IH]; intros [|u] H; cbn in *; try lia; [reflexivity|]. apply IH. lia.
Qed.
Section Units.
Context (p : nat) (X : rseries) (a : nat -> R) (Hp : (0 < p)%nat) (Ha : forall j, (j < p)%nat -> a j <> 0).
Lemma predicted_units : forall Ms t i, predicted p (map (mat_in_units a) Ms) (series_in_units a X) t i = a i * predicted p Ms X t i.
Proof.
  intros Ms t i. unfold predicted. rewrite map_length, <- rsum_scal. apply rsum_ext. intros u Hu. rewrite <- rsum_scal. apply rsum_ext. intros l Hl.
  rewrite nth_mapped by exact Hu. unfold mat_in_units, series_in_units.
  field. apply Ha. exact Hl.
Qed.
Lemma error_units : forall N Ms i, prediction_error N p (series_in_units a X) (map (mat_in_units a) Ms) i = (a i) ^ 2 * prediction_error N p X Ms i.
Proof.
  intros N Ms i. unfold prediction_error. rewrite map_length, <- rsum_scal. apply rsum_ext. intros s _. rewrite predicted_units. unfold series_in_units. ring.
Qed.
Lemma predicted_ext : forall Y (Ms Ms' : list rmat) t i, length Ms = length Ms' ->
  (forall u l, (u < length Ms)%nat -> (l < p)%nat -> nth u Ms (fun _ _ => 0) i l = nth u Ms' (fun _ _ => 0) i l) -> predicted p Ms Y t i = predicted p Ms' Y t i.
Proof. intros Y Ms Ms' t i L H. unfold predicted. rewrite <- L. apply rsum_ext. intros u Hu. apply rsum_ext. intros l Hl. rewrite H; auto. Qed.
Lemma error_ext : forall N Y (Ms Ms' : list rmat) i, length Ms = length Ms' ->
  (forall u l, (u < length Ms)%nat -> (l < p)%nat -> nth u Ms (fun _ _ => 0) i l = nth u Ms' (fun _ _ => 0) i l) -> prediction_error N p Y Ms i = prediction_error N p Y Ms' i.
Proof. intros N Y Ms Ms' i L H. unfold prediction_error. rewrite L. apply rsum_ext. intros s _. rewrite (predicted_ext Y Ms Ms') by assumption. reflexivity. Qed.
Lemma least_units : forall N k Ms, var_least_squares N p X k Ms -> var_least_squares N p (series_in_units a X) k (map (mat_in_units a) Ms).
Proof.
  intros N k Ms [L M]. split; [rewrite map_length; exact L|]. intros i Hi Ms' L'.
  set (back := map (mat_in_units (fun j => / a j)) Ms').
  assert (LB : length back = k) by (unfold back; rewrite map_length; exact L').
  rewrite error_units. rewrite (error_ext N (series_in_units a X) Ms' (map (mat_in_units a) back)).
  - rewrite error_units. apply Rmult_le_compat_l; [apply pow2_ge_0|]. apply M; assumption.
  - rewrite map_length. congruence.
  - intros u l Hu Hl. unfold back. rewrite map_map.
    rewrite (nth_mapped (fun M0 => mat_in_units a (mat_in_units (fun j => / a j) M0))) by exact Hu. unfold mat_in_units.
    assert (a i <> 0) by (apply Ha; exact Hi). assert (a l <> 0) by (apply Ha; exact Hl).
    field. split; assumption.
Qed.
Lemma independent_series : forall N k, var_independent N p X k -> var_independent N p (series_in_units a X) k.
Proof.
  intros N k I. unfold var_independent in *.
  rewrite (map_ext _ (fun c => in_units (a (c mod p)) 0 (stacked p X k c))).
  - apply (independent_units (N - k) (stacked p X k) (fun c => a (c mod p)%nat) (fun _ => 0)); [|exact I]. intros c _. apply Ha. apply Nat.mod_upper_bound. lia.
  - intro c. unfold stacked, series_in_units, in_units. extensionality s. ring.
Qed.
Lemma residuals_units : forall (Ms Ms' : list rmat), length Ms' = length Ms ->
  (forall u i l, (u < length Ms)%nat -> (i < p)%nat -> (l < p)%nat -> nth u Ms' (fun _ _ => 0) i l = a i / a l * nth u Ms (fun _ _ => 0) i l) ->
  residuals p Ms' (series_in_units a X) = fun j => in_units (a j) 0 (residuals p Ms X j).
Proof.
  intros Ms Ms' L H. extensionality j. extensionality s. unfold residuals, in_units. destruct (Nat.ltb_spec j p) as [Hj|_]; [|ring].
  rewrite (predicted_ext _ Ms' (map (mat_in_units a) Ms)); [rewrite predicted_units, L; unfold series_in_units; ring|rewrite map_length; exact L|].
  intros u l Hu Hl. rewrite L in Hu. rewrite H by assumption.
  rewrite nth_mapped by exact Hu. reflexivity.
Qed.
End Units.
Lemma residuals_independent : forall N p X Ms, (0 < p)%nat -> var_independent N p X (length Ms) ->
  independent_columns (N - length Ms) (map (residuals p Ms X) (seq 0 p)).
Proof.
  intros N p X Ms Hp I cs b L H. rewrite map_length, seq_length in L.
  assert (Ecs : cs = map (fun j => nth j cs 0) (seq 0 p)).
  { apply nth_ext with (d := 0) (d' := 0); [rewrite map_length, seq_length; exact L|]. intros j Hj. rewrite nth_map_seq by lia. reflexivity. }
  set (k := length Ms) in *.
  set (g := fun t l => match t with O => nth l cs 0 | S t => - rsum p (fun j => nth j cs 0 * nth t Ms (fun _ _ => 0) j l) end).
  pose proof (independent_blocks N p X k Hp I g b) as J.
  rewrite Ecs. apply Forall_forall. intros c Hc. apply in_map_iff in Hc. destruct Hc as (j & <- & Hj). apply in_seq in Hj.
  apply (fun Q => J Q 0%nat j ltac:(lia) ltac:(lia)). intros s Hs. rewrite <- (H s Hs). rewrite Ecs at 1. rewrite lin_seq. cbn [Nat.add]. f_equal.
  rewrite rsum_shift. unfold g at 1.
  assert (E : rsum k (fun t => rsum p (fun l => g (S t) l * X (k + s - S t)%nat l)) = - rsum p (fun j => nth j cs 0 * predicted p Ms X (k + s) j)).
  { set (T := fun t l j => - (nth j cs 0 * (nth t Ms (fun _ _ => 0) j l * X (k + s - 1 - t)%nat l))).
    transitivity (rsum k (fun t => rsum p (fun l => rsum p (fun j => T t l j)))).
    - apply rsum_ext. intros t _. apply rsum_ext. intros l _. unfold g. rewrite <- rsum_opp, <- rsum_scal_r. apply rsum_ext. intros j0 _.
      unfold T. replace (k + s - S t)%nat with (k + s - 1 - t)%nat by lia. ring.
    - rewrite <- rsum_opp. transitivity (rsum p (fun j0 => rsum k (fun t => rsum p (fun l => T t l j0)))).
      + rewrite (rsum_swap p k (fun j0 t => rsum p (fun l => T t l j0))). apply rsum_ext. intros t _. apply rsum_swap.
      + apply rsum_ext. intros j0 _. unfold predicted. fold k. rewrite <- rsum_scal, <- rsum_opp. apply rsum_ext. intros t _.
        rewrite <- rsum_scal, <- rsum_opp. apply rsum_ext. intros l _. reflexivity. }
  rewrite E. rewrite <- rsum_opp, <- rsum_plus. apply rsum_ext. intros j0 Hj0. unfold residuals.
  destruct (Nat.ltb_spec j0 p); [|lia]. fold k. rewrite Nat.sub_0_r. ring.
Qed.
