(** * Verified interval arithmetic: Gaussian elimination on matrices of exponentials.

    Fixed point with 80 binary digits; used only for numerical counterexamples. *)
From Coq Require Import Reals Lra Lia Arith Bool List ZArith.
From Verif Require Import LibR ProofLogdet SpecKernelMI.
Import ListNotations.
Open Scope R_scope.

Definition SC : Z := Z.shiftl 1 80.
Definition down (a : Z) : Z := Z.shiftr a 80.
Definition up (a : Z) : Z := (- Z.shiftr (- a) 80)%Z.
Lemma down_eq : forall a, down a = (a / SC)%Z. Proof. intro a. unfold down. rewrite Z.shiftr_div_pow2 by lia. reflexivity. Qed.
Lemma SC_pos : (0 < SC)%Z. Proof. reflexivity. Qed.
Lemma SC_posR : 0 < IZR SC. Proof. apply (IZR_lt 0). reflexivity. Qed.
Opaque SC.
Definition ival : Type := (Z * Z)%type.
Definition inI (i : ival) (r : R) : Prop := IZR (fst i) <= r * IZR SC <= IZR (snd i).

Definition cdiv (a b : Z) : Z := (- ((- a) / b))%Z.
Lemma up_eq : forall a, up a = cdiv a SC.
Proof. intro a. unfold up, cdiv. f_equal. apply (down_eq (- a)). Qed.
Lemma fdiv_le : forall a b, (0 < b)%Z -> IZR (a / b) * IZR b <= IZR a.
Proof. intros a b H. rewrite <- mult_IZR. apply IZR_le. rewrite Z.mul_comm. apply Z.mul_div_le. exact H. Qed.
Lemma cdiv_ge : forall a b, (0 < b)%Z -> IZR a <= IZR (cdiv a b) * IZR b.
Proof. intros a b H. pose proof (fdiv_le (- a) b H) as F. unfold cdiv. rewrite opp_IZR in *. lra. Qed.

Definition iadd (x y : ival) : ival := (fst x + fst y, snd x + snd y)%Z.
Definition isub (x y : ival) : ival := (fst x - snd y, snd x - fst y)%Z.
Definition imul (x y : ival) : ival :=
  let p := (fst x * fst y)%Z in let q := (fst x * snd y)%Z in let r := (snd x * fst y)%Z in let s := (snd x * snd y)%Z in
  (down (Z.min (Z.min p q) (Z.min r s)), up (Z.max (Z.max p q) (Z.max r s))).
Definition iinv (x : ival) : ival := ((SC * SC / snd x)%Z, cdiv (SC * SC) (fst x)).

Lemma iadd_in : forall x y a b, inI x a -> inI y b -> inI (iadd x y) (a + b).
Proof. intros x y a b [H1 H2] [H3 H4]. unfold inI, iadd. cbn [fst snd]. rewrite !plus_IZR. lra. Qed.
Lemma isub_in : forall x y a b, inI x a -> inI y b -> inI (isub x y) (a - b).
Proof. intros x y a b [H1 H2] [H3 H4]. unfold inI, isub. cbn [fst snd]. rewrite !minus_IZR. lra. Qed.
Lemma mul_le_max : forall l u x y, l <= x <= u -> x * y <= Rmax (l * y) (u * y) /\ Rmin (l * y) (u * y) <= x * y.
Proof.
  intros l u x y [H1 H2]. destruct (Rle_dec 0 y) as [P|P].
  - pose proof (Rmult_le_compat_r y _ _ P H1). pose proof (Rmult_le_compat_r y _ _ P H2). split; [eapply Rle_trans; [|apply Rmax_r]; lra|eapply Rle_trans; [apply Rmin_l|]; lra].
  - assert (P' : 0 <= - y) by lra. pose proof (Rmult_le_compat_r _ _ _ P' H1). pose proof (Rmult_le_compat_r _ _ _ P' H2).
    split; [eapply Rle_trans; [|apply Rmax_l]; lra|eapply Rle_trans; [apply Rmin_r|]; lra].
Qed.
Lemma IZR_max : forall a b, IZR (Z.max a b) = Rmax (IZR a) (IZR b).
Proof. intros a b. destruct (Z.max_spec a b) as [[L E]|[L E]]; rewrite E; symmetry; [apply Rmax_right|apply Rmax_left]; apply IZR_le; lia. Qed.
Lemma IZR_min : forall a b, IZR (Z.min a b) = Rmin (IZR a) (IZR b).
Proof. intros a b. destruct (Z.min_spec a b) as [[L E]|[L E]]; rewrite E; symmetry; [apply Rmin_left|apply Rmin_right]; apply IZR_le; lia. Qed.
Lemma Rmax_mono : forall a b c d, a <= c -> b <= d -> Rmax a b <= Rmax c d.
Proof. intros. apply Rmax_lub; [eapply Rle_trans; [|apply Rmax_l]|eapply Rle_trans; [|apply Rmax_r]]; assumption. Qed.
Lemma Rmin_mono : forall a b c d, a <= c -> b <= d -> Rmin a b <= Rmin c d.
Proof. intros. apply Rmin_glb; [eapply Rle_trans; [apply Rmin_l|]|eapply Rle_trans; [apply Rmin_r|]]; assumption. Qed.
Lemma imul_in : forall x y a b, inI x a -> inI y b -> inI (imul x y) (a * b).
Proof.
  intros [x0 x1] [y0 y1] a b [H1 H2] [H3 H4]. cbn [fst snd] in *. pose proof SC_posR as P. unfold inI, imul. cbn [fst snd]. rewrite down_eq, up_eq.
  set (A := a * IZR SC) in *. set (B := b * IZR SC) in *.
  destruct (mul_le_max _ _ A B (conj H1 H2)) as [U1 U2].
  destruct (mul_le_max _ _ B (IZR x0) (conj H3 H4)) as [V1 V2]. destruct (mul_le_max _ _ B (IZR x1) (conj H3 H4)) as [W1 W2].
  rewrite (Rmult_comm B), (Rmult_comm (IZR y0)), (Rmult_comm (IZR y1)) in V1, V2, W1, W2. rewrite <- !mult_IZR in V1, V2, W1, W2. rewrite <- IZR_max in V1, W1. rewrite <- IZR_min in V2, W2.
  assert (E : a * b * IZR SC * IZR SC = A * B) by (unfold A, B; ring). split.
  - apply Rmult_le_reg_r with (IZR SC); [exact P|]. rewrite E. eapply Rle_trans; [apply fdiv_le; exact SC_pos|]. rewrite IZR_min. eapply Rle_trans; [|exact U2]. apply Rmin_mono; assumption.
  - apply Rmult_le_reg_r with (IZR SC); [exact P|]. rewrite E. eapply Rle_trans; [|apply cdiv_ge; exact SC_pos]. rewrite IZR_max. eapply Rle_trans; [exact U1|]. apply Rmax_mono; assumption.
Qed.
Lemma iinv_in : forall x a, (0 < fst x)%Z -> inI x a -> inI (iinv x) (/ a).
Proof.
  intros [x0 x1] a H0 [H1 H2]. cbn [fst snd] in *. pose proof SC_posR as P. assert (P0 : 0 < IZR x0) by (apply (IZR_lt 0); exact H0).
  assert (PA : 0 < a * IZR SC) by lra. assert (P1 : 0 < IZR x1) by lra. assert (Pa : 0 < a) by (apply Rmult_lt_reg_r with (IZR SC); [exact P|lra]).
  assert (Z1 : (0 < x1)%Z) by (apply lt_IZR; exact P1). unfold inI, iinv. cbn [fst snd].
  pose proof (fdiv_le (SC * SC) x1 Z1) as F. pose proof (cdiv_ge (SC * SC) x0 H0) as C. rewrite mult_IZR in F, C. set (f := IZR (SC * SC / x1)) in *. set (k := IZR (cdiv (SC * SC) x0)) in *.
  assert (E : / a * IZR SC * (a * IZR SC) = IZR SC * IZR SC) by (field; lra).
  assert (PI : 0 < / a * IZR SC) by (apply Rmult_lt_0_compat; [apply Rinv_0_lt_compat; exact Pa|exact P]). split.
  - apply Rmult_le_reg_r with (IZR x1); [exact P1|]. eapply Rle_trans; [exact F|]. rewrite <- E. apply Rmult_le_compat_l; lra.
  - apply Rmult_le_reg_r with (IZR x0); [exact P0|]. eapply Rle_trans; [|exact C]. rewrite <- E. apply Rmult_le_compat_l; lra.
Qed.

(** exp (- num / den), from 1 - u <= exp (- u) <= 1 / (1 + u) at u = num / den / 2 ^ 40 *)
Definition iexp (num den : Z) : ival :=
  let d := (den * Z.shiftl 1 40)%Z in
  Nat.iter 40 (fun x => imul x x) ((SC * (d - num) / d)%Z, cdiv (SC * d) (d + num)).
Lemma iter_exp : forall k I t, inI I (exp (- (t / 2 ^ k))) -> inI (Nat.iter k (fun x => imul x x) I) (exp (- t)).
Proof.
  induction k as [|k IH]; intros I t H.
  - cbn in *. replace (t / 1) with t in H by field. exact H.
  - cbn [Nat.iter]. replace (exp (- t)) with (exp (- (t / 2)) * exp (- (t / 2))) by (rewrite <- exp_plus; f_equal; field).
    apply imul_in; apply IH; replace (t / 2 / 2 ^ k) with (t / 2 ^ S k) by (cbn [pow]; field; apply pow_nonzero; lra); exact H.
Qed.
Lemma iexp_in : forall num den t, (0 <= num)%Z -> (0 < den)%Z -> t = IZR num / IZR den -> inI (iexp num den) (exp (- t)).
Proof.
  intros num den t Hn Hd E. unfold iexp. apply iter_exp. set (d := (den * Z.shiftl 1 40)%Z).
  assert (Pd : (0 < d)%Z) by (unfold d; apply Z.mul_pos_pos; [exact Hd|reflexivity]). assert (PD : 0 < IZR d) by (apply (IZR_lt 0); exact Pd). assert (PN : 0 <= IZR num) by (apply (IZR_le 0); exact Hn).
  assert (Pden : 0 < IZR den) by (apply (IZR_lt 0); exact Hd).
  assert (E30 : 2 ^ 40 = IZR (Z.shiftl 1 40)). { change (Z.shiftl 1 40) with (2 ^ Z.of_nat 40)%Z. rewrite <- pow_IZR. reflexivity. }
  assert (U : t / 2 ^ 40 = IZR num / IZR d). { subst t. unfold d. rewrite mult_IZR, <- E30. field. try split; try apply pow_nonzero; lra. }
  rewrite U. pose proof SC_posR as P. set (u := IZR num / IZR d). assert (Eu : u * IZR d = IZR num) by (unfold u; field; lra).
  assert (Pu : 0 <= u). { apply Rmult_le_reg_r with (IZR d); [exact PD|]. lra. }
  pose proof (exp_ineq1_le (- u)) as L1. pose proof (exp_ineq1_le u) as L2. pose proof (exp_pos (- u)) as L3.
  assert (EE : exp (- u) * exp u = 1) by (rewrite <- exp_plus; replace (- u + u) with 0 by ring; apply exp_0).
  unfold inI. cbn [fst snd]. split.
  - apply Rmult_le_reg_r with (IZR d); [exact PD|]. eapply Rle_trans; [apply fdiv_le; exact Pd|]. rewrite mult_IZR, minus_IZR, <- Eu.
    replace (IZR SC * (IZR d - u * IZR d)) with ((1 + - u) * (IZR SC * IZR d)) by ring. rewrite Rmult_assoc. apply Rmult_le_compat_r; [apply Rmult_le_pos; lra|exact L1].
  - assert (Pdn : (0 < d + num)%Z) by lia. assert (PDN : 0 < IZR (d + num)) by (apply (IZR_lt 0); exact Pdn). apply Rmult_le_reg_r with (IZR (d + num)); [exact PDN|]. eapply Rle_trans; [|apply cdiv_ge; exact Pdn].
    rewrite mult_IZR, plus_IZR, <- Eu. replace (exp (- u) * IZR SC * (IZR d + u * IZR d)) with (exp (- u) * (1 + u) * (IZR SC * IZR d)) by ring.
    assert (exp (- u) * (1 + u) <= 1). { rewrite <- EE. apply Rmult_le_compat_l; lra. }
    rewrite <- (Rmult_1_l (IZR SC * IZR d)) at 2. apply Rmult_le_compat_r; [apply Rmult_le_pos; lra|assumption].
Qed.
(** num / den *)
Definition irat (num den : Z) : ival := ((SC * num / den)%Z, cdiv (SC * num) den).
Lemma irat_in : forall num den, (0 < den)%Z -> inI (irat num den) (IZR num / IZR den).
Proof.
  intros num den H. assert (P : 0 < IZR den) by (apply (IZR_lt 0); exact H). unfold inI, irat. cbn [fst snd].
  assert (E : IZR num / IZR den * IZR SC * IZR den = IZR (SC * num)) by (rewrite mult_IZR; field; lra). split; apply Rmult_le_reg_r with (IZR den); try exact P; rewrite E; [apply fdiv_le|apply cdiv_ge]; exact H.
Qed.

(** ** Matrices *)
Definition imat := list (list ival).
Definition entry (M : imat) (i j : nat) : ival := nth j (nth i M []) (0%Z, 0%Z).
Definition mk (m : nat) (f : nat -> nat -> ival) : imat := map (fun i => map (f i) (seq 0 m)) (seq 0 m).
Lemma nth_map_seq : forall (A : Type) (f : nat -> A) m i d, (i < m)%nat -> nth i (map f (seq 0 m)) d = f i.
Proof. intros A f m i d H. rewrite (nth_indep _ d (f 0%nat)) by (rewrite map_length, seq_length; exact H). rewrite map_nth, seq_nth by exact H. reflexivity. Qed.
Lemma entry_mk : forall m f i j, (i < m)%nat -> (j < m)%nat -> entry (mk m f) i j = f i j.
Proof. intros m f i j Hi Hj. unfold entry, mk. rewrite (nth_map_seq _ _ m i) by exact Hi. apply nth_map_seq. exact Hj. Qed.
Definition inM (m : nat) (M : imat) (A : rmat) : Prop := forall i j, (i < m)%nat -> (j < m)%nat -> inI (entry M i j) (A i j).
Lemma mk_in : forall m f A, (forall i j, (i < m)%nat -> (j < m)%nat -> inI (f i j) (A i j)) -> inM m (mk m f) A.
Proof. intros m f A H i j Hi Hj. rewrite entry_mk by assumption. apply H; assumption. Qed.
Fixpoint isum (n : nat) (f : nat -> ival) : ival := match n with O => (0%Z, 0%Z) | S n => iadd (isum n f) (f n) end.
Lemma isum_in : forall n f g, (forall i, (i < n)%nat -> inI (f i) (g i)) -> inI (isum n f) (rsum n g).
Proof.
  induction n as [|n IH]; intros f g H; cbn [isum rsum].
  - unfold inI. cbn [fst snd]. lra.
  - apply iadd_in; [apply IH; intros; apply H; lia|apply H; lia].
Qed.
Definition immul (n : nat) (K L : imat) : imat := mk n (fun i j => isum n (fun k => imul (entry K i k) (entry L k j))).
Lemma immul_in : forall n K L A B, inM n K A -> inM n L B -> inM n (immul n K L) (rmul n A B).
Proof. intros n K L A B HK HL. apply mk_in. intros i j Hi Hj. apply isum_in. intros k Hk. apply imul_in; [apply HK|apply HL]; assumption. Qed.
Definition ireg (n : nat) (c : ival) (K : imat) : imat := mk n (fun i j => if (i =? j)%nat then iadd (entry K i j) c else entry K i j).
Lemma ireg_in : forall n c C K A, inI c C -> inM n K A -> inM n (ireg n c K) (regularised C A).
Proof.
  intros n c C K A Hc H. apply mk_in. intros i j Hi Hj. unfold regularised. destruct (i =? j)%nat; [apply iadd_in; [apply H; assumption|exact Hc]|]. rewrite Rplus_0_r. apply H; assumption.
Qed.
Definition ijoint (n : nat) (c : ival) (K L : imat) : imat :=
  let RK := ireg n c K in let RL := ireg n c L in
  let A := immul n RK RK in let B := immul n K L in let C := immul n L K in let D := immul n RL RL in
  mk (n + n) (fun s t => if (s <? n)%nat then if (t <? n)%nat then entry A s t else entry B s (t - n)
                         else if (t <? n)%nat then entry C (s - n) t else entry D (s - n) (t - n)).
Lemma ijoint_in : forall n c C K L A B, inI c C -> inM n K A -> inM n L B -> inM (n + n) (ijoint n c K L) (joint n C A B).
Proof.
  intros n c C K L A B Hc HK HL. apply mk_in. intros s t Hs Ht. unfold joint. pose proof (ireg_in n c C K A Hc HK). pose proof (ireg_in n c C L B Hc HL).
  destruct (Nat.ltb_spec s n), (Nat.ltb_spec t n); apply immul_in; (assumption || lia).
Qed.
Definition iseparate (n : nat) (c : ival) (K L : imat) : imat :=
  let RK := ireg n c K in let RL := ireg n c L in
  let A := immul n RK RK in let D := immul n RL RL in
  mk (n + n) (fun s t => if (s <? n)%nat then if (t <? n)%nat then entry A s t else (0%Z, 0%Z)
                         else if (t <? n)%nat then (0%Z, 0%Z) else entry D (s - n) (t - n)).
Lemma iseparate_in : forall n c C K L A B, inI c C -> inM n K A -> inM n L B -> inM (n + n) (iseparate n c K L) (separate n C A B).
Proof.
  intros n c C K L A B Hc HK HL. apply mk_in. intros s t Hs Ht. unfold separate. pose proof (ireg_in n c C K A Hc HK). pose proof (ireg_in n c C L B Hc HL).
  destruct (Nat.ltb_spec s n), (Nat.ltb_spec t n); try (apply immul_in; (assumption || lia)); unfold inI; cbn [fst snd]; lra.
Qed.
Definition ischur (m : nat) (M : imat) : imat :=
  let p := iinv (entry M 0 0) in
  mk m (fun i j => isub (entry M (S i) (S j)) (imul (imul (entry M (S i) 0) (entry M 0 (S j))) p)).
Fixpoint ipivots (m : nat) (M : imat) : option ival :=
  match m with
  | O => Some (SC, SC)
  | S m => if (0 <? fst (entry M 0 0))%Z then option_map (imul (entry M 0 0)) (ipivots m (ischur m M)) else None
  end.
Lemma ipivots_in : forall m M A I, inM m M A -> ipivots m M = Some I -> inI I (pivots m A).
Proof.
  induction m as [|m IH]; intros M A I H E; cbn [ipivots pivots] in *.
  - injection E as <-. unfold inI. cbn [fst snd]. lra.
  - destruct (Z.ltb_spec 0 (fst (entry M 0 0))) as [P|]; [|discriminate]. destruct (ipivots m (ischur m M)) as [J|] eqn:EJ; [|discriminate]. cbn in E. injection E as <-.
    apply imul_in; [apply H; lia|]. apply (IH (ischur m M)); [|exact EJ]. apply mk_in. intros i j Hi Hj. unfold schur, Rdiv.
    apply isub_in; [apply H; lia|]. apply imul_in; [apply imul_in; apply H; lia|]. apply iinv_in; [exact P|apply H; lia].
Qed.
