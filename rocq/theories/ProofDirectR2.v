(** * DirectLiNGAM on data: the causal order in other units, and for reordered and repeated samples *)
From Coq Require Import Reals Lra Lia Arith Bool List FunctionalExtensionality.
From Verif Require Import Prelude LibR SpecFcorr SpecDirectR ModelDirectR ProofDirectR.
From Verif Require ModelDirect ProofDirect ProofChol.
Import ListNotations.
Open Scope R_scope.

(** ** Ways to choose rows *)
Lemma sd_id : forall n, same_distribution n n (fun s => s).
Proof. intro n. split; [intros; assumption|reflexivity]. Qed.
Lemma sd_perm : forall n pi, perm_below n pi -> same_distribution n n pi.
Proof. intros n pi P. split; [apply P|]. intro f. rewrite (ProofChol.rsum_perm n pi f P). reflexivity. Qed.
Lemma rsum_repeat : forall n f k, (0 < n)%nat -> rsum (k * n) (fun s => f (s mod n)%nat) = INR k * rsum n f.
Proof.
  intros n f k Hn. induction k as [|k IH]; [cbn; ring|]. replace (S k * n)%nat with (k * n + n)%nat by (cbn; lia).
  rewrite rsum_split, IH, S_INR.
  rewrite (rsum_ext n (fun i => f ((k * n + i) mod n)%nat) f).
  - ring.
  - intros i Hi. f_equal. rewrite Nat.add_comm, Nat.mod_add by lia. apply Nat.mod_small. exact Hi.
Qed.
Lemma sd_repeat : forall n k, (0 < n)%nat -> (0 < k)%nat -> same_distribution n (k * n) (fun s => (s mod n)%nat).
Proof.
  intros n k Hn Hk. split; [intros; apply Nat.mod_upper_bound; lia|]. intro f. rewrite rsum_repeat by exact Hn.
  rewrite mult_INR. field. split; apply not_0_INR; lia.
Qed.

(** ** pwling *)
Lemma pwling_order : forall logsv n n' pi p ok mode (X X' : nat -> nat -> R) (a t : nat -> R),
  same_distribution n n' pi -> (0 < n)%nat -> (0 < n')%nat -> (forall j, (j < p)%nat -> a j <> 0) ->
  (forall j s, (j < p)%nat -> (s < n')%nat -> X' j s = in_units (a j) (t j) (X j) (pi s)) ->
  fit_order logsv ModelDirect.Pwling n' p ok mode X' = fit_order logsv ModelDirect.Pwling n p ok mode X.
Proof.
  intros logsv n n' pi p ok mode X X' a t SD Pn Pn' Ha H. unfold fit_order.
  replace (n' =? 0)%nat with false by (symmetry; apply Nat.eqb_neq; lia).
  replace (n =? 0)%nat with false by (symmetry; apply Nat.eqb_neq; lia).
  destruct (p =? 0)%nat; [reflexivity|]. cbn [orb].
  assert (L : forall po, loop (pwling_score n') argmax p n' mode po (fun j => Some (X' j)) (seq 0 p) []
                       = loop (pwling_score n) argmax p n mode po (fun j => Some (X j)) (seq 0 p) []).
  { intro po. apply (loop_rel n n' (affine_rel n' pi)).
    - apply (residual_affine n n' pi SD Pn).
    - apply (pwling_score_rel n n' pi SD Pn).
    - intros j Hj. apply in_seq in Hj. exists (a j), (t j). split; [apply Ha; lia|]. intros s Hs. apply H; [lia|exact Hs].
    - intros mo pp V x. apply ProofDirect.candidate_incl. }
  destruct mode as [|pk|pk]; [apply L| |destruct ok; [apply L|reflexivity] ].
  destruct ok; [|reflexivity]. destruct (ModelDirect.extract_partial_orders p pk) as [po|]; [apply L|reflexivity].
Qed.

Lemma var_zero_const : forall m x, (0 < m)%nat -> var m x = 0 -> forall s, (s < m)%nat -> x s = mean m x.
Proof.
  intros m x Hm V s Hs. unfold var in V. unfold mean at 1 in V.
  assert (Z : rsum m (fun s => (x s - mean m x) ^ 2) = 0).
  { apply (Rmult_eq_reg_r (/ INR m)); [rewrite Rmult_0_l; exact V|]. apply Rinv_neq_0_compat, not_0_INR. lia. }
  pose proof (rsum_zero_all m (fun s => (x s - mean m x) ^ 2) (fun i _ => pow2_ge_0 _) Z s Hs) as E. cbn beta in E.
  assert (x s - mean m x = 0); [|lra]. apply Rsqr_0_uniq. unfold Rsqr. rewrite <- E. ring.
Qed.

(** ** kernel *)
Section Kernel.
Context (logsv : nat -> rmat -> R) (n : nat) (pi : nat -> nat) (PI : perm_below n pi) (Pn : (0 < n)%nat).
Context (LE : forall m A B, req m A B -> logsv m A = logsv m B).
Context (LP : forall m sg A, perm_below m sg -> logsv m (fun s t => A (sg s) (sg t)) = logsv m A).

Definition double (s : nat) : nat := if (s <? n)%nat then pi s else (n + pi (s - n))%nat.
Lemma double_perm : perm_below (n + n) double.
Proof.
  destruct PI as [B I]. unfold double. split.
  - intros s Hs. destruct (Nat.ltb_spec s n); [pose proof (B s H); lia|]. pose proof (B (s - n)%nat ltac:(lia)). lia.
  - intros i j Hi Hj E. destruct (Nat.ltb_spec i n) as [Li|Li], (Nat.ltb_spec j n) as [Lj|Lj].
    + apply I; assumption.
    + pose proof (B i Li). lia.
    + pose proof (B j Lj). lia.
    + assert (pi (i - n)%nat = pi (j - n)%nat) by lia. apply I in H; lia.
Qed.
Definition pulled (A A' : rmat) : Prop := forall s t, (s < n)%nat -> (t < n)%nat -> A' s t = A (pi s) (pi t).
Lemma pulled_mul : forall A A' B B', pulled A A' -> pulled B B' -> pulled (rmul n A B) (rmul n A' B').
Proof.
  intros A A' B B' HA HB s t Hs Ht. unfold rmul. rewrite <- (ProofChol.rsum_perm n pi (fun k => A (pi s) k * B k (pi t)) PI).
  apply rsum_ext. intros k Hk. rewrite HA, HB; auto.
Qed.
Lemma pulled_ridge : forall kappa A A', pulled A A' -> pulled (ridge n kappa A) (ridge n kappa A').
Proof.
  intros kappa A A' H s t Hs Ht. unfold ridge. rewrite (H s t Hs Ht). do 2 f_equal. f_equal. unfold rid.
  destruct (Nat.eqb_spec s t) as [->|N]; [rewrite Nat.eqb_refl; reflexivity|].
  destruct (Nat.eqb_spec (pi s) (pi t)) as [E|]; [|reflexivity]. exfalso. apply N. apply (proj2 PI); assumption.
Qed.
Lemma pulled_zero : pulled (fun _ _ => 0) (fun _ _ => 0).
Proof. intros s t _ _. reflexivity. Qed.
Lemma logsv_blocks : forall A B C D A' B' C' D', pulled A A' -> pulled B B' -> pulled C C' -> pulled D D' ->
  logsv (n + n)%nat (blocks n A' B' C' D') = logsv (n + n)%nat (blocks n A B C D).
Proof.
  intros A B C D A' B' C' D' HA HB HC HD. rewrite <- (LP (n + n) double (blocks n A B C D) double_perm). apply LE.
  assert (Z : forall s, (s < n + n)%nat -> (n <= s)%nat -> (n + pi (s - n) <? n)%nat = false) by (intros; apply Nat.ltb_ge; lia).
  assert (Y : forall s, (s < n)%nat -> (pi s <? n)%nat = true) by (intros s Hs; apply Nat.ltb_lt; apply PI; exact Hs).
  assert (W : forall s, (n + pi s - n)%nat = pi s) by (intro; lia).
  intros s t Hs Ht. unfold blocks, double. destruct (Nat.ltb_spec s n) as [Ls|Ls], (Nat.ltb_spec t n) as [Lt|Lt].
  - rewrite !Y by assumption. apply HA; assumption.
  - rewrite Y, Z, W by assumption. apply HB; lia.
  - rewrite Z, Y, W by assumption. apply HC; lia.
  - rewrite !Z, !W by assumption. apply HD; lia.
Qed.
Lemma pulled_kernel : forall sigma e x x', sign e -> (forall s, (s < n)%nat -> x' s = e * x (pi s)) -> pulled (kernel_matrix sigma x) (kernel_matrix sigma x').
Proof.
  intros sigma e x x' Se H s t Hs Ht. unfold kernel_matrix, kernel_entry. rewrite (H s Hs), (H t Ht). f_equal. f_equal.
  destruct Se as [-> | ->]; ring.
Qed.
Definition kernel_rel (c c' : col) : Prop := exists e, sign e /\ sign_rel n pi e c c'.
Lemma mutual_information_rel : forall kappa sigma x1 x1' x2 x2', kernel_rel x1 x1' -> kernel_rel x2 x2' ->
  mutual_information logsv n x1' x2' kappa sigma = mutual_information logsv n x1 x2 kappa sigma.
Proof.
  intros kappa sigma [x|] [x'|] [y|] [y'|] (e & Se & Hx) (d & Sd & Hy); cbn in Hx, Hy; try tauto; try reflexivity.
  unfold mutual_information. cbn zeta. pose proof (pulled_kernel sigma e x x' Se Hx) as P1. pose proof (pulled_kernel sigma d y y' Sd Hy) as P2.
  pose proof (pulled_ridge kappa _ _ P1) as Q1. pose proof (pulled_ridge kappa _ _ P2) as Q2.
  do 2 f_equal. f_equal; apply logsv_blocks; try apply pulled_mul; try assumption; apply pulled_zero.
Qed.
Lemma residual_kernel : forall xi xi' xj xj', kernel_rel xi xi' -> kernel_rel xj xj' -> kernel_rel (residual n xi xj) (residual n xi' xj').
Proof.
  intros xi xi' xj xj' (e & Se & Hx) (d & Sd & Hy). exists e. split; [exact Se|].
  apply (residual_sign n n pi (sd_perm n pi PI) Pn e d); assumption.
Qed.
Lemma kernel_score_rel : forall X X' U Uc Vj i, (forall j, In j U -> kernel_rel (X j) (X' j)) -> In i U ->
  kernel_score logsv n X' U Uc Vj i = kernel_score logsv n X U Uc Vj i.
Proof.
  intros X X' U Uc Vj i H Hi. unfold kernel_score. destruct (kernel_params n) as [kappa sigma]. f_equal.
  apply fold_left_ext_in. intros T j Hj. destruct T as [T|]; [|reflexivity]. cbn [bind]. destruct (j =? i)%nat; [reflexivity|]. cbn zeta.
  f_equal. apply mutual_information_rel; [apply H; exact Hi|].
  destruct (memb i Vj && memb j Uc); [apply H; exact Hj|]. apply residual_kernel; apply H; assumption.
Qed.
Lemma scale_rel : forall a t x x', a <> 0 -> (forall s, (s < n)%nat -> x' s = a * x (pi s) + t) -> kernel_rel (Some (scale n x)) (Some (scale n x')).
Proof.
  intros a t x x' Ha H. exists (a / Rabs a). split; [apply sign_of; exact Ha|]. cbn. intros s Hs.
  pose proof (rel_mean n n pi (sd_perm n pi PI) Pn a t x x' H) as M. pose proof (rel_std n n pi (sd_perm n pi PI) Pn a t x x' H) as S.
  pose proof (std_zero_rel n n pi (sd_perm n pi PI) Pn a t x x' Ha H) as V. unfold scale. rewrite M, (H s Hs).
  destruct (Req_EM_T (std n x') 0) as [E|E], (Req_EM_T (std n x) 0) as [F|F]; try tauto.
  - rewrite (var_zero_const n x Pn (proj1 (std_zero n x) F) (pi s) (proj1 PI s Hs)). unfold Rdiv. ring.
  - rewrite S. field. split; [exact F|apply Rabs_no_R0; exact Ha].
Qed.
Lemma kernel_order : forall p ok mode (X X' : nat -> nat -> R) (a t : nat -> R), (forall j, (j < p)%nat -> a j <> 0) ->
  (forall j s, (j < p)%nat -> (s < n)%nat -> X' j s = in_units (a j) (t j) (X j) (pi s)) ->
  fit_order logsv ModelDirect.Kernel n p ok mode X' = fit_order logsv ModelDirect.Kernel n p ok mode X.
Proof.
  intros p ok mode X X' a t Ha H. unfold fit_order.
  destruct ((n =? 0)%nat || (p =? 0)%nat); [reflexivity|].
  assert (L : forall po, loop (kernel_score logsv n) argmin p n mode po (fun j => Some (scale n (X' j))) (seq 0 p) []
                       = loop (kernel_score logsv n) argmin p n mode po (fun j => Some (scale n (X j))) (seq 0 p) []).
  { intro po. apply (loop_rel n n kernel_rel).
    - apply residual_kernel.
    - apply kernel_score_rel.
    - intros j Hj. apply in_seq in Hj. apply (scale_rel (a j) (t j)); [apply Ha; lia|]. intros s Hs. apply H; [lia|exact Hs].
    - intros mo pp V x. apply ProofDirect.candidate_incl. }
  destruct mode as [|pk|pk]; [apply L| |destruct ok; [apply L|reflexivity] ].
  destruct ok; [|reflexivity]. destruct (ModelDirect.extract_partial_orders p pk) as [po|]; [apply L|reflexivity].
Qed.
End Kernel.
