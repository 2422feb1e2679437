(** * Incomplete Cholesky: no column without need, and each pivot the largest remaining one *)
From Coq Require Import Reals Lra Lia Arith Bool List FunctionalExtensionality.
From Verif Require Import Prelude LibR SpecKernel SpecFcorr ModelKernel ModelFcorr ProofKernel ProofHsicR ProofSpectral ProofChol.
Import ListNotations.
Open Scope R_scope.

(** What the first [k] columns leave of the diagonal entry of row [a]. *)
Definition left_over (G : rmat) (k a : nat) : R := 1 - rsum k (fun j => G a j ^ 2).
Record Inv2 (n : nat) (tol : R) (s : chol) : Prop := {
  i2_need : forall k, (k < ci s)%nat -> tol < rsum n (left_over (cG s) k);
  i2_greedy : forall k a, (k < ci s)%nat -> (k <= a < n)%nat -> left_over (cG s) k a <= cG s k k ^ 2 }.
Lemma inv2_step : forall n x sigma tol s, sigma <> 0 -> 0 <= tol -> Inv n x sigma s -> Inv2 n tol s ->
  tol < rsum (n - ci s) (fun k => cGjj s (ci s + k)%nat) -> Inv2 n tol (chol_step n x sigma s).
Proof.
  intros n x sigma tol s Hs Ht I [Nd Gr] Gt. destruct (inv_step n x sigma tol s Hs Ht I Gt) as [_ Hi].
  set (i := ci s) in *. set (jast := if (0 <? i)%nat then (argmax (fun k => cGjj s (i + k)%nat) (n - i) + i)%nat else 0%nat).
  assert (Hj : (i <= jast < n)%nat).
  { unfold jast. destruct (Nat.ltb_spec 0 i); [|lia]. pose proof (argmax_below (fun k => cGjj s (i + k)%nat) (n - i) ltac:(lia)). lia. }
  set (tau := swap (fun k => k) i jast). assert (Ptau : perm_below n tau) by (apply swap_perm; lia).
  assert (Tc : forall c, (c < i)%nat -> tau c = c).
  { intros c Hc. unfold tau, swap. destruct (Nat.eqb_spec c i); [lia|]. destruct (Nat.eqb_spec c jast); [lia|reflexivity]. }
  assert (Tg : forall a, (i <= a)%nat -> (i <= tau a)%nat).
  { intros a Ha. unfold tau, swap. destruct (Nat.eqb_spec a i); [lia|]. destruct (Nat.eqb_spec a jast); lia. }
  assert (Old : forall r c, (c < i)%nat -> cG (chol_step n x sigma s) r c = cG s (tau r) c).
  { intros r c Hc. unfold chol_step. cbn [cG]. fold i. fold jast. destruct (Nat.ltb_spec c i); [|lia]. unfold tau. destruct (Nat.ltb_spec 0 i); [|lia].
    apply (swap_comp _ (fun r => cG s r c)). }
  assert (Piv : cG (chol_step n x sigma s) i i = sqrt (cGjj s jast)).
  { unfold chol_step. cbn [cG]. fold i. fold jast. rewrite Nat.ltb_irrefl, Nat.eqb_refl. reflexivity. }
  assert (SI : ci (chol_step n x sigma s) = S i) by (unfold chol_step; cbn [ci]; fold i; lia).
  assert (LO : forall k a, (k <= i)%nat -> left_over (cG (chol_step n x sigma s)) k a = left_over (cG s) k (tau a)).
  { intros k a Hk. unfold left_over. f_equal. apply rsum_ext. intros j Hj0. rewrite Old by lia. reflexivity. }
  assert (RD : forall a, left_over (cG s) i a = res x sigma s a a).
  { intro a. unfold left_over, res. rewrite kern_diag. fold i. f_equal. apply rsum_ext. intros; ring. }
  assert (Pj : 0 <= cGjj s jast).
  { rewrite (iv_diag _ _ _ _ I jast) by (fold i; lia). apply (psd_diag n); [apply I|lia]. }
  assert (Mx : forall a, (i <= a < n)%nat -> res x sigma s a a <= cGjj s jast).
  { intros a Ha. rewrite <- (iv_diag _ _ _ _ I a) by (fold i; lia). unfold jast. destruct (Nat.ltb_spec 0 i).
    - pose proof (argmax_max (fun k => cGjj s (i + k)%nat) (n - i) (a - i) ltac:(lia)) as M. cbn beta in M. replace (i + (a - i))%nat with a in M by lia. rewrite (Nat.add_comm _ i). exact M.
    - rewrite !(iv_diag _ _ _ _ I) by (fold i; lia). unfold res. rewrite !kern_diag. fold i. replace i with 0%nat by lia. cbn. lra. }
  split.
  - intros k Hk. rewrite SI in Hk. rewrite (rsum_ext n _ (fun a => left_over (cG s) k (tau a))) by (intros; apply LO; lia).
    rewrite (rsum_perm n tau (left_over (cG s) k) Ptau). destruct (Nat.eq_dec k i) as [->|Ne]; [|apply Nd; lia].
    eapply Rlt_le_trans; [exact Gt|]. apply Req_le. rewrite (rsum_ext n _ (fun a => res x sigma s a a)) by (intros; apply RD).
    replace n with (i + (n - i))%nat at 2 by lia. rewrite rsum_split. rewrite (rsum_0 i).
    + rewrite Rplus_0_l. apply rsum_ext. intros q Hq. apply (iv_diag _ _ _ _ I); [lia|fold i; lia].
    + intros q Hq. apply (iv_zero _ _ _ _ I); [lia|exact Hq].
  - intros k a Hk Ha. rewrite SI in Hk. rewrite LO by lia. destruct (Nat.eq_dec k i) as [->|Ne].
    + rewrite Piv, RD. cbn [pow]. rewrite Rmult_1_r, sqrt_sqrt by exact Pj. apply Mx. split; [apply Tg; lia|apply Ptau; lia].
    + rewrite (Old k k), (Tc k) by lia. apply Gr; [lia|]. split; [|apply Ptau; lia]. destruct (Nat.lt_ge_cases a i); [rewrite Tc by assumption; lia|pose proof (Tg a ltac:(assumption)); lia].
Qed.
Lemma chol_loop_inv2 : forall fuel n x sigma tol s s', sigma <> 0 -> 0 <= tol -> Inv n x sigma s -> Inv2 n tol s ->
  chol_loop fuel n x sigma tol s = Some s' -> Inv2 n tol s'.
Proof.
  induction fuel as [|f IH]; intros n x sigma tol s s' Hs Ht I J E; cbn [chol_loop] in E; [discriminate|].
  destruct (Rlt_dec tol (rsum (n - ci s) (fun k => cGjj s (ci s + k)%nat))) as [L|L].
  - apply (IH n x sigma tol _ s' Hs Ht (proj1 (inv_step n x sigma tol s Hs Ht I L)) (inv2_step n x sigma tol s Hs Ht I J L) E).
  - injection E as <-. exact J.
Qed.
Lemma chol_greedy : forall n x sigma tol r G P, sigma <> 0 -> 0 <= tol -> incomplete_cholesky n x sigma tol = Some (r, G, P) ->
  (forall k, (k < r)%nat -> tol < rsum n (left_over G k)) /\ (forall k a, (k < r)%nat -> (k <= a < n)%nat -> left_over G k a <= G k k ^ 2).
Proof.
  intros n x sigma tol r G P Hs Ht E. unfold incomplete_cholesky in E.
  destruct (chol_loop (S n) n x sigma tol chol_init) as [s|] eqn:El; [|discriminate]. injection E as <- <- <-.
  assert (J : Inv2 n tol chol_init) by (split; cbn; lia).
  destruct (chol_loop_inv2 _ _ _ _ _ _ _ Hs Ht (inv_init n x sigma Hs) J El) as [A B]. split; assumption.
Qed.
