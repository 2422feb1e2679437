(** * Property theorems: remove_effect on a table of whole numbers (C210) *)
From Coq Require Import List Arith Bool ZArith QArith Qcanon Lia Lqa.
From Verif Require Import Prelude Spec SpecPop SpecUtil Lib LibMat ProofPop ModelUtil ModelUtilInt ProofUtil.
From Verif Require Props_Util.
Import ListNotations.
Open Scope nat_scope.

(** A whole number. *)
Definition whole (q : Qc) : Prop := exists z, q = qz z.

Lemma qz_le : forall a b, (a <= b)%Z -> (qz a <= qz b)%Qc.
Proof. intros a b H. unfold qz, Qcle. cbn [this Q2Qc]. rewrite !Qred_correct. unfold Qle. cbn. lia. Qed.
Lemma qz_lin : forall a b c, (qz (a * b + c) = qz a * qz b + qz c)%Qc.
Proof. intros. apply Qc_is_canon. unfold qz, Qcmult, Qcplus. cbn [this Q2Qc]. rewrite !Qred_correct. unfold Qeq, inject_Z, Qplus, Qmult. cbn [Qnum Qden]. rewrite ?Pos.mul_1_r, ?Z.mul_1_r. ring. Qed.
Lemma sum4 : forall f, sumn 4 f = (f 0%nat + f 1%nat + f 2%nat + f 3%nat)%Qc.
Proof. intro f. unfold sumn. cbn. ring. Qed.
Lemma div4_zero : forall x, (x / qz 4 = 0)%Qc -> x = 0%Qc.
Proof. intros x H. transitivity (x / qz 4 * qz 4)%Qc; [field; intro Q; discriminate|]. rewrite H. ring. Qed.
Lemma trunc_spec : forall q, whole (qtrunc q) /\ (qabs (qtrunc q - q) < 1)%Qc /\ (qabs (qtrunc q) <= qabs q)%Qc.
Proof.
  intro q. split; [eexists; reflexivity|]. unfold qtrunc. set (d := Zpos (Qden q)). set (z := Z.quot (Qnum q) d).
  assert (D : (0 < d)%Z) by reflexivity.
  assert (Q : (qz (Qnum q) = q * qz d)%Qc).
  { apply Qc_is_canon. unfold qz, Qcmult. cbn [this Q2Qc]. rewrite !Qred_correct. destruct q as [[a b] H]. unfold d. cbn [this Qnum Qden]. unfold Qeq, inject_Z, Qmult. cbn [Qnum Qden]. rewrite ?Pos.mul_1_r, ?Z.mul_1_r. ring. }
  pose proof (Z.quot_rem' (Qnum q) d) as E. fold z in E. set (m := Z.rem (Qnum q) d) in *.
  assert (QE : (q * qz d = qz d * qz z + qz m)%Qc).
  { rewrite <- Q, E. apply qz_lin. }
  assert (LD : forall a b, (a < b)%Z -> (qz a < qz b)%Qc) by (intros a b H; unfold qz, Qclt; cbn [this Q2Qc]; rewrite !Qred_correct; unfold Qlt; cbn; lia).
  assert (Z0 : qz 0 = 0%Qc) by (apply Qc_is_canon; reflexivity).
  assert (DP : (0 < qz d)%Qc) by (rewrite <- Z0; apply LD; exact D).
  assert (NG : forall a, qz (- a) = (- qz a)%Qc) by (intro a; apply Qc_is_canon; unfold qz, Qcopp; cbn [this Q2Qc]; rewrite !Qred_correct; reflexivity).
  assert (MUL : forall a b, (a * qz d < b * qz d)%Qc -> (a < b)%Qc).
  { intros a b H. destruct (Qclt_le_dec a b) as [L|L]; [exact L|]. exfalso. apply (Qcmult_le_compat_r b a (qz d)) in L; [|apply Qclt_le_weak; exact DP]. revert H L. generalize (a * qz d)%Qc (b * qz d)%Qc. intros. qclra. }
  assert (MULE : forall a b, (a * qz d <= b * qz d)%Qc -> (a <= b)%Qc).
  { intros a b H. destruct (Qclt_le_dec b a) as [L|L]; [|exact L]. exfalso. apply (Qcmult_lt_compat_r b a (qz d) DP) in L. revert H L. generalize (a * qz d)%Qc (b * qz d)%Qc. intros. qclra. }
  destruct (Z_le_gt_dec 0 (Qnum q)) as [P|P].
  - assert (M : (0 <= m < d)%Z) by (apply Z.rem_bound_pos; lia). assert (Zp : (0 <= z)%Z) by (apply Z.quot_pos; lia).
    assert (A : (qz z <= q)%Qc). { apply MULE. rewrite QE. pose proof (qz_le 0 m ltac:(lia)) as H. rewrite Z0 in H. replace (qz z * qz d)%Qc with (qz d * qz z)%Qc by ring. revert H. generalize (qz d * qz z)%Qc (qz m). intros. qclra. }
    assert (B : (q < qz z + 1)%Qc). { apply MUL. rewrite QE. pose proof (LD m d ltac:(lia)) as H. replace ((qz z + 1) * qz d)%Qc with (qz d * qz z + qz d)%Qc by ring. revert H. generalize (qz d * qz z)%Qc (qz m) (qz d). intros. qclra. }
    pose proof (qz_le 0 z Zp) as C. rewrite Z0 in C. clear - A B C. unfold qabs. set (y := qz z) in *. clearbody y. split.
    + destruct (qltb (y - q) 0) eqn:L; qclra.
    + destruct (qltb y 0) eqn:L1; [apply qltb_lt in L1; qclra|]. destruct (qltb q 0) eqn:L2; [apply qltb_lt in L2; qclra|]. exact A.
  - assert (M : (- d < m <= 0)%Z).
    { pose proof (Z.rem_bound_pos (- Qnum q) d ltac:(lia) ltac:(lia)) as R. rewrite Z.rem_opp_l in R by lia. fold m in R. lia. }
    assert (Zp : (z <= 0)%Z). { pose proof (Z.quot_pos (- Qnum q) d ltac:(lia) ltac:(lia)) as R. rewrite Z.quot_opp_l in R by lia. fold z in R. lia. }
    assert (A : (q <= qz z)%Qc). { apply MULE. rewrite QE. pose proof (qz_le m 0 ltac:(lia)) as H. rewrite Z0 in H. replace (qz z * qz d)%Qc with (qz d * qz z)%Qc by ring. revert H. generalize (qz d * qz z)%Qc (qz m). intros. qclra. }
    assert (B : (qz z - 1 < q)%Qc). { apply MUL. rewrite QE. pose proof (LD (- d)%Z m ltac:(lia)) as H. rewrite NG in H. replace ((qz z - 1) * qz d)%Qc with (qz d * qz z - qz d)%Qc by ring. revert H. generalize (qz d * qz z)%Qc (qz m) (qz d). intros. qclra. }
    pose proof (qz_le z 0 Zp) as C. rewrite Z0 in C. clear - A B C. unfold qabs. set (y := qz z) in *. clearbody y. split.
    + destruct (qltb (y - q) 0) eqn:L; [apply qltb_lt in L|]; qclra.
    + destruct (qltb y 0) eqn:L1, (qltb q 0) eqn:L2; try apply qltb_lt in L1; try apply qltb_lt in L2; try apply qltb_nlt in L1; try apply qltb_nlt in L2; qclra.
Qed.
Lemma remove_fold_int : forall lr cols fs X cs0, NoDup fs -> (forall f, In f fs -> ~ In f cols) ->
  let st := fold_left (remove_step_int lr cols) fs (X, cs0) in
  (forall v, ~ In v fs -> fst st v = X v) /\
  (forall f r, In f fs -> fst st f r = qtrunc (X f r - predicted (lr (map X cols) (X f)) (map X cols) r)%Qc) /\
  snd st = cs0 ++ map (fun f => (f, fst (lr (map X cols) (X f)))) fs.
Proof.
  intros lr cols fs. induction fs as [|f fs IH]; intros X cs0 ND HF; cbv zeta; cbn [fold_left].
  - split; [reflexivity|]. split; [intros f r []|]. rewrite app_nil_r. reflexivity.
  - inversion ND as [|? ? N1 N2]; subst. cbn [remove_step_int].
    set (rs := (fun r => qtrunc (X f r - predicted (lr (map X cols) (X f)) (map X cols) r)%Qc) : sample). set (X1 := fun v => if v =? f then rs else X v).
    specialize (IH X1 (cs0 ++ [(f, fst (lr (map X cols) (X f)))]) N2 (fun g Hg => HF g (or_intror Hg))). cbv zeta in IH. destruct IH as (I1 & I2 & I3).
    assert (MC : map X1 cols = map X cols).
    { apply map_ext_in. intros q Hq. unfold X1. destruct (Nat.eqb_spec q f) as [->|]; [exfalso; apply (HF f (or_introl eq_refl)); exact Hq|reflexivity]. }
    assert (XF : forall g, In g fs -> X1 g = X g) by (intros g Hg; unfold X1; destruct (Nat.eqb_spec g f) as [->|]; [contradiction|reflexivity]).
    split; [|split].
    + intros v Hv. rewrite I1 by (intro Q; apply Hv; right; exact Q). unfold X1. destruct (Nat.eqb_spec v f) as [->|]; [exfalso; apply Hv; left; reflexivity|reflexivity].
    + intros g r [<-|Hg].
      * rewrite I1 by exact N1. unfold X1. rewrite Nat.eqb_refl. reflexivity.
      * transitivity (qtrunc (X1 g r - predicted (lr (map X1 cols) (X1 g)) (map X1 cols) r)%Qc); [exact (I2 g r Hg)|]. rewrite MC, (XF g Hg). reflexivity.
    + etransitivity; [exact I3|]. cbn [map]. rewrite <- app_assoc. cbn [app]. f_equal. f_equal. apply map_ext_in. intros g Hg. rewrite MC, (XF g Hg). reflexivity.
Qed.

(** ** C210 *)
(** The result for the same numbers as integers: the removed features and the coefficients are the same, and every other
    column consists of the residuals without their decimals. *)
Theorem C210_cut_off_partial : forall lr N p X rem Y coefs,
  Forall (fun z => (0 <= z < Z.of_nat p)%Z) rem -> remove_effect lr N p X rem = Ok (Y, coefs) ->
  exists Y', remove_effect_int lr N p X rem = Ok (Y', coefs) /\
    (forall q, In (Z.of_nat q) rem -> Y' q = X q) /\
    (forall f r, f < p -> ~ In (Z.of_nat f) rem -> whole (Y' f r) /\ (qabs (Y' f r - Y f r) < 1)%Qc /\ (qabs (Y' f r) <= qabs (Y f r))%Qc).
Proof.
  intros lr N p X rem Y coefs HR. unfold remove_effect, remove_effect_int. destruct ((N =? 0) || (p =? 0)); [discriminate|].
  set (fs := filter (fun i => negb (existsb (Z.eqb (Z.of_nat i)) rem)) (seq 0 p)). rewrite (py_columns_ok p rem HR). cbn [bind].
  assert (FI : forall f, In f fs <-> f < p /\ ~ In (Z.of_nat f) rem).
  { intro f. unfold fs. rewrite filter_In, in_seq, negb_true_iff. split.
    - intros [H1 H2]. split; [lia|]. intro I. assert (E : existsb (Z.eqb (Z.of_nat f)) rem = true) by (apply existsb_exists; exists (Z.of_nat f); split; [exact I|apply Z.eqb_refl]). congruence.
    - intros [H1 H2]. split; [lia|]. destruct (existsb _ rem) eqn:E; [|reflexivity]. apply existsb_exists in E. destruct E as (z & I & E). apply Z.eqb_eq in E. subst z. contradiction. }
  assert (CI : forall q, In q (map Z.to_nat rem) <-> In (Z.of_nat q) rem).
  { intro q. rewrite Forall_forall in HR. split.
    - intro I. apply in_map_iff in I. destruct I as (z & <- & I). rewrite Z2Nat.id; [exact I|]. apply (HR z I).
    - intro I. apply in_map_iff. exists (Z.of_nat q). split; [apply Nat2Z.id|exact I]. }
  assert (ND : NoDup fs) by (apply NoDup_filter, seq_NoDup).
  assert (DJ : forall f, In f fs -> ~ In f (map Z.to_nat rem)) by (intros f Hf I; apply CI in I; apply FI in Hf; tauto).
  destruct fs as [|f0 fs0] eqn:EF.
  - intro H. injection H as <- <-. exists X. split; [reflexivity|]. split; [reflexivity|]. intros f r Hf NI. exfalso. apply (proj2 (FI f)). auto.
  - rewrite <- EF in *. clear f0 fs0 EF. destruct (map Z.to_nat rem) as [|c0 cl] eqn:EC; [discriminate|]. rewrite <- EC in *. clear c0 cl EC.
    intro H. destruct (remove_fold lr (map Z.to_nat rem) fs X [] ND DJ) as (R1 & R2 & R3). destruct (remove_fold_int lr (map Z.to_nat rem) fs X [] ND DJ) as (S1 & S2 & S3).
    set (st := fold_left (remove_step lr (map Z.to_nat rem)) fs (X, [])) in *. set (si := fold_left (remove_step_int lr (map Z.to_nat rem)) fs (X, [])) in *.
    assert (Est : st = (Y, coefs)) by congruence. rewrite Est in R2, R3. cbn [fst snd] in R2, R3.
    exists (fst si). split; [|split].
    + destruct si as [Y' c']. cbn [fst snd] in *. congruence.
    + intros q Hq. apply S1. intro I. apply FI in I. tauto.
    + intros f r Hf NI. assert (If : In f fs) by (apply FI; auto). rewrite (S2 f r If), (R2 f r If). apply trunc_spec.
Qed.
(** Whole residuals are kept. *)
Theorem C210_whole_residuals_partial : forall lr N p X rem Y coefs,
  Forall (fun z => (0 <= z < Z.of_nat p)%Z) rem -> remove_effect lr N p X rem = Ok (Y, coefs) ->
  (forall f r, f < p -> r < N -> whole (Y f r)) ->
  exists Y', remove_effect_int lr N p X rem = Ok (Y', coefs) /\ forall f r, f < p -> r < N -> ~ In (Z.of_nat f) rem -> Y' f r = Y f r.
Proof.
  intros lr N p X rem Y coefs HR H W. destruct (C210_cut_off_partial lr N p X rem Y coefs HR H) as (Y' & E & _ & C). exists Y'. split; [exact E|].
  intros f r Hf Hr NI. destruct (C f r Hf NI) as ((a & A) & B & _). destruct (W f r Hf Hr) as (b & D). rewrite A, D in *. clear - B.
  assert (Q : (qz a - qz b = qz (a - b))%Qc) by (apply Qc_is_canon; unfold qz, Qcminus, Qcplus, Qcopp; cbn [this Q2Qc]; rewrite !Qred_correct; unfold Qeq; cbn; lia).
  rewrite Q in B. f_equal. destruct (Z.eq_dec a b) as [->|D]; [reflexivity|]. exfalso.
  assert (Z1 : qz 1 = 1%Qc) by (apply Qc_is_canon; reflexivity). assert (ZM : qz (-1) = (- (1))%Qc) by (apply Qc_is_canon; reflexivity).
  unfold qabs in B. destruct (qltb (qz (a - b)) 0) eqn:L.
  - apply qltb_lt in L. destruct (Z_le_gt_dec (a - b) (-1)) as [P|P].
    + apply qz_le in P. rewrite ZM in P. qclra.
    + pose proof (qz_le 0 (a - b) ltac:(lia)) as P2. change (qz 0) with (Q2Qc 0) in P2. qclra.
  - apply qltb_nlt in L. destruct (Z_le_gt_dec 1 (a - b)) as [P|P].
    + apply qz_le in P. rewrite Z1 in P. qclra.
    + pose proof (qz_le (a - b) (-1) ltac:(lia)) as P2. rewrite ZM in P2. qclra.
Qed.
(** The columns that remain need not have mean zero, nor be uncorrelated with the removed feature. *)
Definition int_table : nat -> sample := fun v r =>
  match v with 0 => (if r =? 3 then 1%Qc else 0%Qc) | _ => (if r =? 2 then qz 2 else 0%Qc) end.
Theorem C210_uncorrelated_refuted : exists X : nat -> sample, (forall v r, whole (X v r)) /\
  forall lr, ls_fit 4 [X 0] (X 1) (fst (lr [X 0] (X 1))) (snd (lr [X 0] (X 1))) -> exists Y coefs, remove_effect_int lr 4 2 X [0%Z] = Ok (Y, coefs) /\
    mean 4 (Y 1) <> 0%Qc /\ cov 4 (Y 1) (X 0) <> 0%Qc.
Proof.
  exists int_table. split.
  { intros v r. destruct v as [|v]; cbn; [destruct (r =? 3); [exists 1%Z|exists 0%Z]|destruct (r =? 2); [exists 2%Z|exists 0%Z] ]; apply Qc_is_canon; reflexivity. }
  intros lr HL. destruct HL as (L & M & C). specialize (C _ (or_introl eq_refl)).
  unfold remove_effect_int. cbn [Nat.eqb orb seq filter existsb Z.of_nat Z.eqb negb py_columns]. cbn [bind py_column]. eexists. eexists. split; [reflexivity|].
  cbn [fold_left remove_step_int map fst]. cbn [Nat.eqb]. change (Z.to_nat 0) with 0.
  destruct (lr [int_table 0] (int_table 1)) as [cs b]. cbn [fst snd] in *. destruct cs as [|c [|] ]; try discriminate.
  set (rs := fun r => (int_table 1 r - predicted ([c], b) [int_table 0] r)%Qc).
  assert (RV : rs 0 = (- b)%Qc /\ rs 1 = (- b)%Qc /\ rs 2 = (qz 2 - b)%Qc /\ rs 3 = (- c - b)%Qc).
  { unfold rs, predicted, combination, int_table. cbn. repeat split; ring. }
  assert (E1 : (c = - qf 2 3)%Qc /\ (b = qf 2 3)%Qc).
  { change (mean 4 rs = 0%Qc) in M. change (cov 4 rs (int_table 0) = 0%Qc) in C. destruct RV as (R0 & R1 & R2 & R3).
    assert (M' : (- b + - b + (qz 2 - b) + (- c - b) = 0)%Qc).
    { unfold mean in M. rewrite sum4 in M. rewrite R0, R1, R2, R3 in M. replace (qn 4) with (qz 4) in M by (apply Qc_is_canon; reflexivity).
      match type of M with (?s / _ = _)%Qc => assert (Q : s = 0%Qc) end.
      { apply div4_zero. exact M. }
      rewrite <- Q. ring. }
    assert (C' : (- c - b = 0)%Qc).
    { unfold cov in C. rewrite M in C. assert (MI : mean 4 (int_table 0) = qf 1 4) by (apply Qc_is_canon; vm_compute; reflexivity). rewrite MI in C.
      rewrite sum4 in C. rewrite R0, R1, R2, R3 in C. replace (qn 4) with (qz 4) in C by (apply Qc_is_canon; reflexivity).
      match type of C with (?s / _ = _)%Qc => assert (Q : s = 0%Qc) end.
      { apply div4_zero. exact C. }
      unfold int_table in Q. cbn [Nat.eqb] in Q. rewrite <- Q. set (k := qf 1 4).
      transitivity ((- c - b) - k * (- b + - b + (qz 2 - b) + (- c - b)))%Qc; [rewrite M'; ring|ring]. }
    assert (B : (b = qf 2 3)%Qc).
    { assert (T : (qf 1 3 * (1 + 1 + 1) = 1)%Qc) by (apply Qc_is_canon; reflexivity). assert (U : (qf 1 3 * qz 2 = qf 2 3)%Qc) by (apply Qc_is_canon; reflexivity).
      rewrite C' in M'. assert (V : (b + b + b = qz 2)%Qc) by (transitivity (qz 2 - (- b + - b + (qz 2 - b) + 0))%Qc; [ring|rewrite M'; ring]).
      rewrite <- U, <- V. transitivity (qf 1 3 * (1 + 1 + 1) * b)%Qc; [rewrite T; ring|ring]. }
    split; [|exact B]. rewrite <- B. transitivity (- b + (- b - c) - (- b - c) + (c + b))%Qc; [ring|]. replace (c + b)%Qc with (- (- c - b))%Qc by ring. rewrite C'. ring. }
  destruct E1 as [-> ->].
  split; intro H; [|]; apply (f_equal this) in H; vm_compute in H; discriminate.
Qed.

(** ** Example: the four residuals are -2/3, -2/3, 4/3, 0 and become 0, 0, 1, 0 *)
Example C210_example :
  match remove_effect Props_Util.ex_lr 4 2 int_table [0%Z], remove_effect_int Props_Util.ex_lr 4 2 int_table [0%Z] with
  | Ok (Y, _), Ok (Y', _) => map (fun r => this (Y 1 r)) (seq 0 4) = [(-2)#3; (-2)#3; 4#3; 0#1]%Q /\
                             map (fun r => this (Y' 1 r)) (seq 0 4) = [0#1; 0#1; 1#1; 0#1]%Q
  | _, _ => False end /\
  ls_fit 4 [int_table 0] (int_table 1) (fst (Props_Util.ex_lr [int_table 0] (int_table 1))) (snd (Props_Util.ex_lr [int_table 0] (int_table 1))).
Proof.
  split; [vm_compute; auto|]. split; [reflexivity|]. split; [apply Qc_is_canon; vm_compute; reflexivity|]. intros c [<-|[] ]. apply Qc_is_canon. vm_compute. reflexivity.
Qed.
Example C210_whole_example :
  match remove_effect Props_Util.ex_lr 4 2 Props_Util.ex_data [0%Z], remove_effect_int Props_Util.ex_lr 4 2 Props_Util.ex_data [0%Z] with
  | Ok (Y, _), Ok (Y', _) => map (fun r => this (Y 1 r)) (seq 0 4) = [1#1; (-1)#1; 1#1; (-1)#1]%Q /\ map (fun r => this (Y' 1 r)) (seq 0 4) = [1#1; (-1)#1; 1#1; (-1)#1]%Q
  | _, _ => False end.
Proof. vm_compute. auto. Qed.
Print Assumptions C210_cut_off_partial.
Print Assumptions C210_whole_residuals_partial.
Print Assumptions C210_uncorrelated_refuted.
