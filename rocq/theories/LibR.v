(** * Finite sums and matrices of real numbers *)
From Coq Require Import Reals Lra Lia List Arith.
Open Scope R_scope.

Definition rmat := nat -> nat -> R.
Fixpoint rsum (n : nat) (f : nat -> R) : R := match n with O => 0 | S k => rsum k f + f k end.

Lemma rsum_ext : forall n f g, (forall i, (i < n)%nat -> f i = g i) -> rsum n f = rsum n g.
Proof. induction n as [|n IH]; intros f g H; [reflexivity|]. cbn. rewrite (IH f g), (H n); auto with arith. Qed.
Lemma rsum_0 : forall n f, (forall i, (i < n)%nat -> f i = 0) -> rsum n f = 0.
Proof. induction n as [|n IH]; intros f H; [reflexivity|]. cbn. rewrite IH, (H n); auto with arith; lra. Qed.
Lemma rsum_plus : forall n f g, rsum n (fun i => f i + g i) = rsum n f + rsum n g.
Proof. induction n as [|n IH]; intros f g; cbn; [lra|]. rewrite IH. lra. Qed.
Lemma rsum_minus : forall n f g, rsum n (fun i => f i - g i) = rsum n f - rsum n g.
Proof. induction n as [|n IH]; intros f g; cbn; [lra|]. rewrite IH. lra. Qed.
Lemma rsum_opp : forall n f, rsum n (fun i => - f i) = - rsum n f.
Proof. induction n as [|n IH]; intros f; cbn; [lra|]. rewrite IH. lra. Qed.
Lemma rsum_scal : forall n c f, rsum n (fun i => c * f i) = c * rsum n f.
Proof. induction n as [|n IH]; intros c f; cbn; [lra|]. rewrite IH. lra. Qed.
Lemma rsum_scal_r : forall n c f, rsum n (fun i => f i * c) = rsum n f * c.
Proof. induction n as [|n IH]; intros c f; cbn; [lra|]. rewrite IH. lra. Qed.
Lemma rsum_const : forall n c, rsum n (fun _ => c) = INR n * c.
Proof. induction n as [|n IH]; intro c; [cbn; lra|]. change (rsum (S n) (fun _ => c)) with (rsum n (fun _ => c) + c). rewrite IH, S_INR. lra. Qed.
Lemma rsum_swap : forall n m (f : nat -> nat -> R), rsum n (fun i => rsum m (fun j => f i j)) = rsum m (fun j => rsum n (fun i => f i j)).
Proof.
  induction n as [|n IH]; intros m f; cbn; [symmetry; apply rsum_0; reflexivity|]. rewrite IH, <- rsum_plus. reflexivity.
Qed.
Lemma rsum_le : forall n f g, (forall i, (i < n)%nat -> f i <= g i) -> rsum n f <= rsum n g.
Proof. induction n as [|n IH]; intros f g H; cbn; [lra|]. pose proof (IH f g ltac:(auto with arith)). pose proof (H n (Nat.lt_succ_diag_r n)). lra. Qed.
Lemma rsum_nonneg : forall n f, (forall i, (i < n)%nat -> 0 <= f i) -> 0 <= rsum n f.
Proof. intros n f H. rewrite <- (rsum_0 n (fun _ => 0)) by reflexivity. apply rsum_le. exact H. Qed.
Lemma rsum_single : forall n f k, (k < n)%nat -> (forall i, (i < n)%nat -> i <> k -> f i = 0) -> rsum n f = f k.
Proof.
  induction n as [|n IH]; intros f k Hk H; [lia|]. cbn. destruct (Nat.eq_dec k n) as [->|D].
  - rewrite rsum_0; [lra|]. intros i Hi. apply H; lia.
  - rewrite (IH f k); [|lia|intros; apply H; lia]. rewrite (H n); [lra|lia|congruence].
Qed.
Lemma rsum_ge_one : forall n f k, (k < n)%nat -> (forall i, (i < n)%nat -> 0 <= f i) -> f k <= rsum n f.
Proof.
  induction n as [|n IH]; intros f k Hk H; [lia|]. cbn. destruct (Nat.eq_dec k n) as [->|D].
  - pose proof (rsum_nonneg n f ltac:(auto with arith)). lra.
  - pose proof (IH f k ltac:(lia) ltac:(auto with arith)). pose proof (H n ltac:(lia)). lra.
Qed.
Lemma rsum_zero_all : forall n f, (forall i, (i < n)%nat -> 0 <= f i) -> rsum n f = 0 -> forall i, (i < n)%nat -> f i = 0.
Proof. intros n f H Z i Hi. pose proof (rsum_ge_one n f i Hi H). pose proof (H i Hi). lra. Qed.
Lemma rsum_split : forall a b f, rsum (a + b) f = rsum a f + rsum b (fun i => f (a + i)%nat).
Proof. induction b as [|b IH]; intro f; [rewrite Nat.add_0_r; cbn; lra|]. rewrite Nat.add_succ_r. cbn. rewrite IH. lra. Qed.

(** ** Square matrices *)
Definition rmul (n : nat) (A B : rmat) : rmat := fun i j => rsum n (fun k => A i k * B k j).
Definition rid : rmat := fun i j => if (i =? j)%nat then 1 else 0.
Definition rtrace (n : nat) (A : rmat) : R := rsum n (fun i => A i i).
Fixpoint rpow (n : nat) (A : rmat) (k : nat) : rmat := match k with O => rid | S k => rmul n A (rpow n A k) end.
Definition req (n : nat) (A B : rmat) : Prop := forall i j, (i < n)%nat -> (j < n)%nat -> A i j = B i j.

Lemma rmul_ext : forall n A A' B B', req n A A' -> req n B B' -> req n (rmul n A B) (rmul n A' B').
Proof. intros n A A' B B' HA HB i j Hi Hj. apply rsum_ext. intros k Hk. rewrite HA, HB; auto. Qed.
Lemma rmul_assoc : forall n A B C, req n (rmul n (rmul n A B) C) (rmul n A (rmul n B C)).
Proof.
  intros n A B C i j _ _. unfold rmul.
  rewrite (rsum_ext n _ (fun k => rsum n (fun l => A i l * B l k * C k j))) by (intros; symmetry; apply rsum_scal_r).
  rewrite rsum_swap. apply rsum_ext. intros l _. rewrite <- rsum_scal. apply rsum_ext. intros; ring.
Qed.
Lemma rmul_id_l : forall n A, req n (rmul n rid A) A.
Proof.
  intros n A i j Hi _. unfold rmul, rid. rewrite (rsum_single n _ i Hi); [rewrite Nat.eqb_refl; ring|].
  intros k _ D. destruct (Nat.eqb_spec i k); [congruence|ring].
Qed.
Lemma rmul_id_r : forall n A, req n (rmul n A rid) A.
Proof.
  intros n A i j _ Hj. unfold rmul, rid. rewrite (rsum_single n _ j Hj); [rewrite Nat.eqb_refl; ring|].
  intros k _ D. destruct (Nat.eqb_spec k j); [congruence|ring].
Qed.
Lemma req_refl : forall n A, req n A A.
Proof. intros n A i j _ _. reflexivity. Qed.
Lemma req_sym : forall n A B, req n A B -> req n B A.
Proof. intros n A B H i j Hi Hj. symmetry. apply H; assumption. Qed.
Lemma req_trans : forall n A B C, req n A B -> req n B C -> req n A C.
Proof. intros n A B C H1 H2 i j Hi Hj. rewrite H1, H2; auto. Qed.
Lemma rtrace_ext : forall n A B, req n A B -> rtrace n A = rtrace n B.
Proof. intros n A B H. apply rsum_ext. intros i Hi. apply H; assumption. Qed.
Lemma rtrace_comm : forall n A B, rtrace n (rmul n A B) = rtrace n (rmul n B A).
Proof. intros n A B. unfold rtrace, rmul. rewrite rsum_swap. apply rsum_ext. intros; apply rsum_ext; intros; ring. Qed.
Lemma rpow_comm : forall n A k, req n (rmul n (rpow n A k) A) (rmul n A (rpow n A k)).
Proof.
  induction k as [|k IH]; cbn [rpow].
  - eapply req_trans; [apply rmul_id_l|apply req_sym, rmul_id_r].
  - eapply req_trans; [apply rmul_assoc|]. apply rmul_ext; [apply req_refl|exact IH].
Qed.

(** ** Derivatives of sums *)
Lemma dlim_ext : forall f g x l, (forall t, f t = g t) -> derivable_pt_lim f x l -> derivable_pt_lim g x l.
Proof. intros f g x l E H eps He. destruct (H eps He) as [d Hd]. exists d. intros h Hh Hl. rewrite <- !E. apply Hd; assumption. Qed.
Lemma dlim_val : forall f x l l', l = l' -> derivable_pt_lim f x l -> derivable_pt_lim f x l'.
Proof. intros f x l l' ->. auto. Qed.
Lemma dlim_sum : forall n (f : nat -> R -> R) x (l : nat -> R), (forall i, (i < n)%nat -> derivable_pt_lim (f i) x (l i)) ->
  derivable_pt_lim (fun t => rsum n (fun i => f i t)) x (rsum n l).
Proof.
  induction n as [|n IH]; intros f x l H; cbn; [apply derivable_pt_lim_const|].
  apply (derivable_pt_lim_plus (fun t => rsum n (fun i => f i t)) (f n)); [apply IH; auto with arith|apply H; lia].
Qed.
