(** * DirectLiNGAM on data: least squares, and the adjacency matrix in other units *)
From Coq Require Import Reals Lra Lia Arith Bool List FunctionalExtensionality.
From Verif Require Import Prelude LibR SpecFcorr SpecDirectR ModelDirectR ProofDirectR ProofDirectR2.
From Verif Require ModelDirect ProofDirect.
Import ListNotations.
Open Scope R_scope.

(** ** Linear combinations *)
Fixpoint avg (cs ds : list R) : list R := match cs, ds with c :: cs, d :: ds => (c + d) / 2 :: avg cs ds | _, _ => [] end.
Fixpoint dif (cs ds : list R) : list R := match cs, ds with c :: cs, d :: ds => (c - d) :: dif cs ds | _, _ => [] end.
Lemma avg_len : forall cs ds, length cs = length ds -> length (avg cs ds) = length cs.
Proof. induction cs as [|c cs IH]; intros [|d ds] H; try discriminate; [reflexivity|]. cbn. f_equal. apply IH. injection H; auto. Qed.
Lemma dif_len : forall cs ds, length cs = length ds -> length (dif cs ds) = length cs.
Proof. induction cs as [|c cs IH]; intros [|d ds] H; try discriminate; [reflexivity|]. cbn. f_equal. apply IH. injection H; auto. Qed.
Lemma lin_avg : forall cols cs ds s, length cs = length cols -> length ds = length cols -> lin (avg cs ds) cols s = (lin cs cols s + lin ds cols s) / 2.
Proof.
  induction cols as [|x cols IH]; intros [|c cs] [|d ds] s Hc Hd; try discriminate; cbn; [lra|].
  rewrite IH by (injection Hc; injection Hd; auto). field.
Qed.
Lemma lin_dif : forall cols cs ds s, length cs = length cols -> length ds = length cols -> lin (dif cs ds) cols s = lin cs cols s - lin ds cols s.
Proof.
  induction cols as [|x cols IH]; intros [|c cs] [|d ds] s Hc Hd; try discriminate; cbn; [lra|].
  rewrite IH by (injection Hc; injection Hd; auto). ring.
Qed.
Lemma dif_zero : forall cs ds, length cs = length ds -> Forall (fun c => c = 0) (dif cs ds) -> cs = ds.
Proof.
  induction cs as [|c cs IH]; intros [|d ds] H F; try discriminate; [reflexivity|]. cbn in F. inversion F as [|? ? E F']; subst.
  f_equal; [lra|]. apply IH; [injection H; auto|exact F'].
Qed.
Lemma least_squares_unique : forall n cols y cs ds, independent_columns n cols ->
  least_squares n cols y cs -> least_squares n cols y ds -> cs = ds.
Proof.
  intros n cols y cs ds I (Lc & b & Hc) (Ld & d & Hd). apply dif_zero; [congruence|].
  apply (I (dif cs ds) (b - d)); [rewrite dif_len; congruence|].
  pose proof (Hc ds d Ld) as M1. pose proof (Hd cs b Lc) as M2.
  pose proof (Hc (avg cs ds) ((b + d) / 2) ltac:(rewrite avg_len; congruence)) as M3.
  assert (E : sse n (avg cs ds) ((b + d) / 2) cols y =
              (sse n cs b cols y + sse n ds d cols y) / 2 - rsum n (fun s => (lin (dif cs ds) cols s + (b - d)) ^ 2) / 4).
  { unfold sse. unfold Rdiv. rewrite <- rsum_plus, <- !rsum_scal_r, <- rsum_minus. apply rsum_ext. intros s _.
    rewrite lin_avg, lin_dif by assumption. field. }
  assert (Z : rsum n (fun s => (lin (dif cs ds) cols s + (b - d)) ^ 2) = 0).
  { pose proof (rsum_nonneg n (fun s => (lin (dif cs ds) cols s + (b - d)) ^ 2) (fun i _ => pow2_ge_0 _)). lra. }
  intros s Hs. pose proof (rsum_zero_all n (fun s => (lin (dif cs ds) cols s + (b - d)) ^ 2) (fun i _ => pow2_ge_0 _) Z s Hs) as Q. cbn beta in Q.
  apply Rsqr_0_uniq. unfold Rsqr. rewrite <- Q. ring.
Qed.

(** ** Change of units *)
(** coefficient of variable p for a target measured in units b *)
Definition unit_coefs (b : R) (a : nat -> R) (ps : list nat) (cs : list R) : list R :=
  map (fun pc => b / a (fst pc) * snd pc) (combine ps cs).
Lemma unit_coefs_len : forall b a ps cs, length cs = length ps -> length (unit_coefs b a ps cs) = length ps.
Proof. intros. unfold unit_coefs. rewrite map_length, combine_length. lia. Qed.
Lemma unit_coefs_cons : forall b a p ps c cs, unit_coefs b a (p :: ps) (c :: cs) = b / a p * c :: unit_coefs b a ps cs.
Proof. reflexivity. Qed.
Fixpoint shifts (t : nat -> R) (ps : list nat) (cs : list R) : R :=
  match ps, cs with p :: ps, c :: cs => c * t p + shifts t ps cs | _, _ => 0 end.
Lemma lin_units : forall (X : nat -> nat -> R) a t ps cs s, length cs = length ps -> (forall p, In p ps -> a p <> 0) ->
  lin cs (map (fun p => in_units (a p) (t p) (X p)) ps) s = lin (unit_coefs 1 (fun p => / a p) ps cs) (map X ps) s + shifts t ps cs.
Proof.
  intros X a t. induction ps as [|p ps IH]; intros [|c cs] s L N; try discriminate; cbn; [lra|].
  fold (unit_coefs 1 (fun p => / a p) ps cs). rewrite IH; [|injection L; auto|intros; apply N; right; assumption].
  unfold in_units. pose proof (N p (or_introl eq_refl)). field. assumption.
Qed.
Lemma unit_coefs_comp : forall b b' a a' ps cs, length cs = length ps ->
  unit_coefs b a ps (unit_coefs b' a' ps cs) = unit_coefs (b * b') (fun p => a p * a' p) ps cs.
Proof.
  intros b b' a a'. induction ps as [|p ps IH]; intros [|c cs] L; try discriminate; [reflexivity|].
  rewrite !unit_coefs_cons. rewrite IH by (injection L; auto). f_equal. unfold Rdiv. rewrite Rinv_mult. ring.
Qed.
Lemma unit_coefs_id : forall b a ps cs, length cs = length ps -> (forall p, In p ps -> b / a p = 1) -> unit_coefs b a ps cs = cs.
Proof.
  intros b a. induction ps as [|p ps IH]; intros [|c cs] L H; try discriminate; [reflexivity|].
  rewrite unit_coefs_cons, IH; [|injection L; auto|intros; apply H; right; assumption]. rewrite H by (left; reflexivity). rewrite Rmult_1_l. reflexivity.
Qed.
Lemma sse_units : forall n (X : nat -> nat -> R) a t ps b u y ds d, b <> 0 -> length ds = length ps -> (forall p, In p ps -> a p <> 0) ->
  sse n ds d (map (fun p => in_units (a p) (t p) (X p)) ps) (in_units b u y)
  = b ^ 2 * sse n (unit_coefs (/ b) (fun p => / a p) ps ds) ((d + shifts t ps ds - u) / b) (map X ps) y.
Proof.
  intros n X a t ps b u y ds d Hb L N. unfold sse. rewrite <- rsum_scal. apply rsum_ext. intros s _.
  rewrite lin_units by assumption. unfold in_units at 1.
  assert (E : lin (unit_coefs 1 (fun p => / a p) ps ds) (map X ps) s = b * lin (unit_coefs (/ b) (fun p => / a p) ps ds) (map X ps) s).
  { clear N. revert ds L. induction ps as [|p ps IH]; intros [|c cs] L; try discriminate; [cbn; lra|].
    rewrite !unit_coefs_cons. cbn [map lin]. rewrite IH by (injection L; auto). unfold Rdiv. rewrite !Rinv_inv. field. exact Hb. }
  rewrite E. field. exact Hb.
Qed.
Lemma least_squares_units : forall n (X : nat -> nat -> R) a t ps b u y cs, b <> 0 -> (forall p, In p ps -> a p <> 0) ->
  least_squares n (map X ps) y cs ->
  least_squares n (map (fun p => in_units (a p) (t p) (X p)) ps) (in_units b u y) (unit_coefs b a ps cs).
Proof.
  intros n X a t ps b u y cs Hb N (L & d & H). rewrite map_length in L. split; [rewrite map_length; apply unit_coefs_len; exact L|].
  exists (b * d + u - shifts t ps (unit_coefs b a ps cs)). intros ds e Le. rewrite map_length in Le.
  rewrite !sse_units by (try assumption; apply unit_coefs_len; exact L).
  apply Rmult_le_compat_l; [apply pow2_ge_0|].
  rewrite unit_coefs_comp by exact L.
  rewrite (unit_coefs_id (/ b * b)) by (try exact L; intros p Hp; pose proof (N p Hp); field; split; assumption).
  replace ((b * d + u - shifts t ps (unit_coefs b a ps cs) + shifts t ps (unit_coefs b a ps cs) - u) / b) with d by (field; exact Hb).
  apply H. rewrite map_length. apply unit_coefs_len. exact Le.
Qed.
Lemma independent_units : forall n (X : nat -> nat -> R) a t ps, (forall p, In p ps -> a p <> 0) ->
  independent_columns n (map X ps) -> independent_columns n (map (fun p => in_units (a p) (t p) (X p)) ps).
Proof.
  intros n X a t ps N I cs b L H. rewrite map_length in L.
  assert (F : Forall (fun c => c = 0) (unit_coefs 1 (fun p => / a p) ps cs)).
  { apply (I _ (shifts t ps cs + b)); [rewrite map_length; apply unit_coefs_len; exact L|]. intros s Hs.
    pose proof (H s Hs) as E. rewrite lin_units in E by assumption. lra. }
  clear I H. revert cs L F. induction ps as [|p ps IH]; intros [|c cs] L F; try discriminate; constructor.
  - rewrite unit_coefs_cons in F. inversion F as [|? ? E _]; subst. unfold Rdiv in E. rewrite Rinv_inv in E.
    pose proof (N p (or_introl eq_refl)). apply Rmult_integral in E. destruct E as [E|E]; [|exact E]. exfalso. rewrite Rmult_1_l in E. contradiction.
  - apply IH; [intros; apply N; right; assumption|injection L; auto|]. rewrite unit_coefs_cons in F. inversion F; assumption.
Qed.

(** ** Some of the columns *)
Fixpoint val (ps : list nat) (cs : list R) (j : nat) : R :=
  match ps, cs with p :: ps, c :: cs => (if (j =? p)%nat then c else 0) + val ps cs j | _, _ => 0 end.
Lemma lin_map_plus : forall (X : nat -> nat -> R) f g l s, lin (map (fun j => f j + g j) l) (map X l) s = lin (map f l) (map X l) s + lin (map g l) (map X l) s.
Proof. intros X f g l s. induction l as [|j l IH]; cbn; [lra|]. rewrite IH. ring. Qed.
Lemma lin_map_zero : forall (X : nat -> nat -> R) l s, lin (map (fun _ => 0) l) (map X l) s = 0.
Proof. intros X l s. induction l as [|j l IH]; cbn; [reflexivity|]. rewrite IH. ring. Qed.
Lemma lin_map_one : forall (X : nat -> nat -> R) l s p c, NoDup l -> In p l -> lin (map (fun j => if (j =? p)%nat then c else 0) l) (map X l) s = c * X p s.
Proof.
  intros X l s p c ND. induction ND as [|j l NI ND IH]; intro H; [destruct H|]. cbn [map lin]. destruct (Nat.eqb_spec j p) as [->|D].
  - rewrite (map_ext_in _ (fun _ => 0)).
    + rewrite lin_map_zero. ring.
    + intros k Hk. destruct (Nat.eqb_spec k p) as [->|]; [contradiction|reflexivity].
  - destruct H as [H|H]; [contradiction|]. rewrite (IH H). ring.
Qed.
Lemma lin_val : forall (X : nat -> nat -> R) l s, NoDup l -> forall ps cs, incl ps l -> length cs = length ps ->
  lin cs (map X ps) s = lin (map (val ps cs) l) (map X l) s.
Proof.
  intros X l s ND. induction ps as [|p ps IH]; intros [|c cs] HI L; try discriminate.
  - cbn [map lin]. symmetry. apply lin_map_zero.
  - cbn [map lin val]. rewrite lin_map_plus, lin_map_one by (try exact ND; apply HI; left; reflexivity).
    rewrite <- IH; [reflexivity|intros x Hx; apply HI; right; exact Hx|injection L; auto].
Qed.
Lemma val_notin : forall ps cs j, ~ In j ps -> val ps cs j = 0.
Proof.
  induction ps as [|p ps IH]; intros [|c cs] j H; cbn; try reflexivity. destruct (Nat.eqb_spec j p) as [->|]; [exfalso; apply H; left; reflexivity|].
  rewrite IH by (intro Q; apply H; right; exact Q). ring.
Qed.
Lemma val_zero : forall ps cs, NoDup ps -> length cs = length ps -> (forall j, In j ps -> val ps cs j = 0) -> Forall (fun c => c = 0) cs.
Proof.
  induction ps as [|p ps IH]; intros [|c cs] ND L H; try discriminate; constructor; inversion ND as [|? ? NI ND']; subst.
  - pose proof (H p (or_introl eq_refl)) as E. cbn in E. rewrite Nat.eqb_refl, val_notin in E by exact NI. lra.
  - apply IH; [exact ND'|injection L; auto|]. intros j Hj. pose proof (H j (or_intror Hj)) as E. cbn in E.
    destruct (Nat.eqb_spec j p) as [->|]; [contradiction|]. lra.
Qed.
Lemma independent_sub : forall n (X : nat -> nat -> R) l ps, NoDup l -> NoDup ps -> incl ps l ->
  independent_columns n (map X l) -> independent_columns n (map X ps).
Proof.
  intros n X l ps NDl ND HI I cs b L H. rewrite map_length in L. apply (val_zero ps); try assumption. intros j Hj.
  assert (F : Forall (fun c => c = 0) (map (val ps cs) l)).
  { apply (I _ b); [rewrite !map_length; reflexivity|]. intros s Hs. rewrite <- (lin_val X l s NDl ps cs HI L). apply H. exact Hs. }
  rewrite Forall_forall in F. apply F. apply in_map. apply HI. exact Hj.
Qed.
Lemma independent_std : forall n (x : nat -> R), (0 < n)%nat -> independent_columns n [x] -> std n x <> 0.
Proof.
  intros n x Hn I E. apply std_zero in E.
  assert (F : Forall (fun c => c = 0) [1]).
  { apply (I [1] (- mean n x)); [reflexivity|]. intros s Hs. cbn. rewrite (var_zero_const n x Hn E s Hs). ring. }
  inversion F; subst. lra.
Qed.
