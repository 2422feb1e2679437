From Coq Require Import List Arith Lia Bool QArith Qcanon.
From Verif Require Import Prelude Lib LibMat Spec SpecPop SpecTsEffect ModelVAR ModelTsEffect ProofPop ProofPop2 ProofVAR ProofLong.
Import ListNotations.
Open Scope nat_scope.

(** The coefficient of the first column is its effect on the target through the part of it the other columns do not explain. *)
Lemma first_coefficient : forall N lr (x0 : sample) (J : list nat) (g : nat -> sample) (w : nat -> Qc) (e y u : sample) theta,
  linear_regression N lr -> (forall r, r < N -> e r = (x0 r - sumf J (fun j => w j * g j r))%Qc) ->
  (forall j, In j J -> cov N e (g j) = 0%Qc) -> var N e <> 0%Qc ->
  (forall r, r < N -> y r = (theta * e r + u r)%Qc) -> cov N u e = 0%Qc -> lr (x0 :: map g J) y 0 = theta.
Proof.
  intros N lr x0 J g w e y u theta LR HE HO HV HY HU. set (cols := x0 :: map g J). set (c := lr cols y).
  assert (X0 : cov N x0 e = var N e).
  { rewrite (cov_ext N x0 (fun r => e r + sumf J (fun j => w j * g j r))%Qc e e); [|intros r Hr; rewrite (HE r Hr); ring|intros; reflexivity].
    rewrite cov_plus, cov_wsum. unfold var. rewrite (sumf_zero _ _ J); [ring|]. intros j Hj. rewrite cov_sym, (HO j Hj). ring. }
  assert (GE : forall k, k < length J -> cov N (nth (S k) cols (fun _ => 0%Qc)) e = 0%Qc).
  { intros k Hk. unfold cols. cbn [nth]. rewrite (nth_indep _ (fun _ => 0%Qc) (g 0)) by (rewrite map_length; exact Hk). rewrite (map_nth g). rewrite cov_sym. apply HO, nth_In, Hk. }
  set (res := fun r => (y r - sumn (length cols) (fun k => c k * nth k cols (fun _ => 0) r))%Qc).
  assert (R1 : forall q, In q cols -> cov N res q = 0%Qc) by (intros q Hq; apply (LR cols y q Hq)).
  assert (RE : cov N res e = 0%Qc).
  { rewrite cov_sym. rewrite (cov_ext N e (fun r => x0 r - sumf J (fun j => w j * g j r))%Qc res res); [|intros r Hr; apply HE, Hr|intros; reflexivity].
    rewrite cov_minus, cov_wsum. rewrite cov_sym, (R1 x0) by (left; reflexivity). rewrite (sumf_zero _ _ J); [ring|]. intros j Hj. rewrite cov_sym, (R1 (g j)); [ring|]. right. apply in_map. exact Hj. }
  unfold res in RE. rewrite cov_minus in RE. rewrite (cov_wsumn N (length cols) c (fun k => nth k cols (fun _ => 0%Qc)) e) in RE. cbn beta in RE.
  assert (S : sumn (length cols) (fun k => c k * cov N (nth k cols (fun _ => 0%Qc)) e)%Qc = (c 0%nat * var N e)%Qc).
  { unfold cols at 1. cbn [length]. rewrite map_length. clear RE. unfold sumn. cbn [seq]. rewrite sumf_cons. replace (cov N (nth 0 cols (fun _ => 0%Qc)) e) with (var N e) by (symmetry; exact X0).
    rewrite (sumf_zero _ _ (seq 1 (length J))); [ring|]. intros k Hk. apply in_seq in Hk. destruct k as [|k]; [lia|]. rewrite GE by lia. ring. }
  rewrite S in RE. rewrite (cov_ext N y (fun r => theta * e r + u r)%Qc e e) in RE; [|intros r Hr; apply HY, Hr|intros; reflexivity].
  rewrite cov_plus, cov_scal, HU in RE. fold (var N e) in RE.
  assert (Z : ((theta - c 0%nat) * var N e = 0)%Qc) by (rewrite <- RE; ring). apply Qcmult_integral in Z. destruct Z as [Z|Z]; [|contradiction].
  change (c 0%nat = theta). transitivity (theta - (theta - c 0%nat))%Qc; [ring|rewrite Z; ring].
Qed.
Lemma nonzero_In : forall n Bs from c, In c (nonzero_cols n Bs from) <-> c < n * length Bs /\ nth (c / n) Bs zmat from (c mod n) <> 0%Qc.
Proof.
  intros n Bs from c. unfold nonzero_cols. rewrite filter_In, in_seq, qltb_lt, qabs_pos. split; intros [H1 H2]; split; try exact H2; lia.
Qed.
(** the sum over the parents is the sum over all blocks and variables *)
Lemma nonzero_sum : forall n Bs from (f : nat -> Qc),
  sumf (nonzero_cols n Bs from) (fun c => nth (c / n) Bs zmat from (c mod n) * f c)%Qc = sumn (length Bs) (fun k => sumn n (fun c => nth k Bs zmat from c * f (n * k + c)%nat))%Qc.
Proof.
  intros n Bs from f. unfold nonzero_cols. rewrite (sumf_filter_zero nat).
  - change (sumn (n * length Bs) (fun c => nth (c / n) Bs zmat from (c mod n) * f c)%Qc = sumn (length Bs) (fun k => sumn n (fun c => nth k Bs zmat from c * f (n * k + c)%nat))%Qc).
    rewrite Nat.mul_comm, sumn_blocks. apply sumn_ext. intros k Hk. apply sumn_ext. intros c Hc. rewrite (Nat.mul_comm k n). destruct (div_mod_unique n k c Hc) as [-> ->]. reflexivity.
  - intros c _ H. assert (Z : nth (c / n) Bs zmat from (c mod n) = 0%Qc); [|rewrite Z; ring]. destruct (Qc_eq_dec (nth (c / n) Bs zmat from (c mod n)) 0%Qc) as [E|E]; [exact E|]. apply qabs_pos, qltb_lt in E. congruence.
Qed.
Lemma var_column_lagged : forall N n X k c, c < n -> var_column N n X (n * k + c) = lagged N X k c.
Proof. intros N n X k c Hc. unfold var_column, lagged, np_roll. destruct (div_mod_unique n k c Hc) as [-> ->]. reflexivity. Qed.
Lemma varma_column_now : forall N n p q X rows E k c, c < n -> k <= p -> forall t, varma_column N n p q X rows E (n * k + c) t = lagged N X k c t.
Proof.
  intros N n p q X rows E k c Hc Hk t. unfold varma_column, lagged, np_roll. destruct (Nat.ltb_spec (n * k + c) (n * (1 + p))) as [_|H]; [|nia].
  destruct (div_mod_unique n k c Hc) as [-> ->]. reflexivity.
Qed.
Lemma varma_column_error : forall N n p q X E k c, c < n -> k < q -> forall t, varma_column N n p q X N E (n * (1 + p + k) + c) t = lagged N E (S k) c t.
Proof.
  intros N n p q X E k c Hc Hk t. unfold varma_column, lagged, np_roll. destruct (Nat.ltb_spec (n * (1 + p + k) + c) (n * (1 + p))) as [H|_]; [nia|].
  destruct (Nat.ltb_spec (n * (1 + p + k) + c) (n * (1 + p + q))) as [_|H]; [|nia]. rewrite Nat.eqb_refl.
  replace (n * (1 + p + k) + c - n * (1 + p)) with (n * k + c) by nia. cbv zeta. destruct (div_mod_unique n k c Hc) as [-> ->]. rewrite Nat.add_1_r. reflexivity.
Qed.
Lemma varma_column_zero : forall N n p q X rows E c, n * (1 + p + q) <= c -> forall t, varma_column N n p q X rows E c t = 0%Qc.
Proof.
  intros N n p q X rows E c H t. unfold varma_column. destruct (Nat.ltb_spec c (n * (1 + p))); [nia|]. destruct (Nat.ltb_spec c (n * (1 + p + q))); [lia|]. reflexivity.
Qed.
