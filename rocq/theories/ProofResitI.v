(** * The HSIC statistic of integer data, enclosed by verified interval arithmetic *)
From Coq Require Import Reals Lra Lia Arith Bool List ZArith FunctionalExtensionality.
From Verif Require Import Prelude LibR ModelKernel ModelMlHsic ProofMlHsic ProofInterval ModelResitR ProofResitR.
Import ListNotations.
Open Scope R_scope.

Fixpoint zsum (n : nat) (f : nat -> Z) : Z := match n with O => 0%Z | S n => (zsum n f + f n)%Z end.
Lemma zsum_R : forall n f, rsum n (fun k => IZR (f k)) = IZR (zsum n f).
Proof. induction n as [|n IH]; intro f; cbn [rsum zsum]; [reflexivity|]. rewrite IH, plus_IZR. reflexivity. Qed.
Definition zh (m : nat) (Y : nat -> nat -> Z) (i j : nat) : Z := zsum m (fun k => ((Y i k - Y j k) * (Y i k - Y j k))%Z).
Lemma zh_R : forall m Y i j, rsum m (fun k => (IZR (Y i k) - IZR (Y j k)) * (IZR (Y i k) - IZR (Y j k))) = IZR (zh m Y i j).
Proof. intros m Y i j. unfold zh. rewrite <- zsum_R. apply rsum_ext. intros k _. rewrite mult_IZR, minus_IZR. reflexivity. Qed.
Fixpoint zinsert (x : Z) (l : list Z) : list Z := match l with [] => [x] | y :: r => if (x <=? y)%Z then x :: l else y :: zinsert x r end.
Definition zsort (l : list Z) : list Z := fold_right zinsert [] l.
Lemma zinsert_R : forall x l, rinsert (IZR x) (map IZR l) = map IZR (zinsert x l).
Proof.
  intros x l. induction l as [|y l IH]; [reflexivity|]. cbn [map rinsert zinsert]. destruct (Rle_dec (IZR x) (IZR y)) as [L|L], (Z.leb_spec x y) as [G|G]; try reflexivity.
  - apply le_IZR in L. lia.
  - exfalso. apply L, IZR_le, G.
  - rewrite IH. reflexivity.
Qed.
Lemma zsort_R : forall l, rsort (map IZR l) = map IZR (zsort l).
Proof. induction l as [|x l IH]; [reflexivity|]. cbn [map]. change (rsort (IZR x :: map IZR l)) with (rinsert (IZR x) (rsort (map IZR l))). rewrite IH. apply zinsert_R. Qed.
(** twice the median *)
Definition zmed (l : list Z) : Z :=
  let s := zsort l in let k := length s in if Nat.odd k then (2 * nth (k / 2) s 0)%Z else (nth (k / 2 - 1) s 0 + nth (k / 2) s 0)%Z.
Lemma zmed_R : forall l, l <> [] -> rmedian (map IZR l) = Some (IZR (zmed l) / 2).
Proof.
  intros l Hl. unfold rmedian. destruct (map IZR l) as [|r rs] eqn:E; [destruct l; [congruence|discriminate]|]. rewrite <- E, zsort_R. clear E. unfold zmed. rewrite map_length. cbv zeta. f_equal.
  assert (N : forall k, nth k (map IZR (zsort l)) 0 = IZR (nth k (zsort l) 0%Z)) by (intro k; apply (map_nth IZR)). rewrite !N. destruct (Nat.odd _).
  - rewrite mult_IZR. field.
  - rewrite plus_IZR. reflexivity.
Qed.
Definition zdists (n m : nat) (Y : nat -> nat -> Z) : list Z :=
  filter (fun z => (0 <? z)%Z) (flat_map (fun i => map (fun j => if (j <=? i)%nat then 0%Z else zh m Y i j) (seq 0 n)) (seq 0 n)).
Lemma filter_R : forall l, filter positive (map IZR l) = map IZR (filter (fun z => (0 <? z)%Z) l).
Proof.
  induction l as [|z l IH]; [reflexivity|]. cbn [map filter]. unfold positive at 1. destruct (Rlt_dec 0 (IZR z)) as [L|L], (Z.ltb_spec 0 z) as [G|G]; try (rewrite IH; reflexivity).
  - apply lt_IZR in L. lia.
  - exfalso. apply L, (IZR_lt 0), G.
Qed.
Definition realY (Y : nat -> nat -> Z) : rmat := fun s k => IZR (Y s k).
Lemma zdists_R : forall n m Y, block_dists n m (realY Y) = map IZR (zdists n m Y).
Proof.
  intros n m Y. unfold block_dists, zdists. rewrite <- filter_R. f_equal. generalize (seq 0 n) at 2 4 as l. induction l as [|i l IH]; [reflexivity|]. cbn [flat_map]. rewrite map_app, <- IH. f_equal.
  rewrite map_map. apply map_ext. intro j. destruct (j <=? i)%nat; [reflexivity|]. rewrite rsum_sq. unfold realY. apply zh_R.
Qed.
Definition igram (n m : nat) (Y : nat -> nat -> Z) (q : Z) : imat := mk n (fun i j => iexp (2 * zh m Y i j) q).
Definition icentre (n : nat) (K : imat) : imat :=
  let c := irat 1 (Z.of_nat n) in let c2 := irat 1 (Z.of_nat n * Z.of_nat n) in
  let cols := map (fun j => isum n (fun i => entry K i j)) (seq 0 n) in
  let rows := map (fun i => isum n (fun j => entry K i j)) (seq 0 n) in
  let all := isum n (fun i => nth i rows (0%Z, 0%Z)) in
  mk n (fun i j => iadd (isub (entry K i j) (imul (iadd (nth j cols (0%Z, 0%Z)) (nth i rows (0%Z, 0%Z))) c)) (imul all c2)).
Definition ihsic (n m m' : nat) (Y Z : nat -> nat -> Z) : ival :=
  let K := icentre n (igram n m Y (zmed (zdists n m Y))) in let L := icentre n (igram n m' Z (zmed (zdists n m' Z))) in
  imul (irat 1 (Z.of_nat n)) (isum n (fun i => isum n (fun j => imul (entry K j i) (entry L i j)))).
Lemma zsum_nonneg : forall n f, (forall k, (0 <= f k)%Z) -> (0 <= zsum n f)%Z.
Proof. induction n as [|n IH]; intros f H; cbn [zsum]; [lia|]. specialize (IH f H). specialize (H n). lia. Qed.
Lemma irat_inv : forall k, (0 < k)%Z -> inI (irat 1 k) (/ IZR k).
Proof. intros k Hk. replace (/ IZR k) with (1 / IZR k) by (unfold Rdiv; ring). apply (irat_in 1 k Hk). Qed.
Lemma igram_in : forall n m Y q w, (0 < q)%Z -> w * w = 1 / 2 * (IZR q / 2) -> inM n (igram n m Y q) (rbf_dot m (realY Y) w).
Proof.
  intros n m Y q w Hq Hw. apply mk_in. intros i j Hi Hj. unfold rbf_dot. rewrite (Rplus_comm (rsum m (fun k => realY Y j k * realY Y j k))), rsum_sq. unfold realY. rewrite zh_R.
  assert (P : 0 < IZR q) by (apply (IZR_lt 0); exact Hq). replace (w ^ 2) with (IZR q / 4) by (cbn [pow]; lra).
  replace (- IZR (zh m Y i j) / 2 / (IZR q / 4)) with (- (IZR (2 * zh m Y i j) / IZR q)) by (rewrite mult_IZR; field; lra).
  apply iexp_in; [|exact Hq|reflexivity]. assert (0 <= zh m Y i j)%Z; [|lia]. apply zsum_nonneg. intro k. apply Z.square_nonneg.
Qed.
Lemma icentre_in : forall n K A, (0 < n)%nat -> inM n K A -> inM n (icentre n K) (gram_centre n A).
Proof.
  intros n K A Hn H. apply mk_in. intros i j Hi Hj. unfold gram_centre. cbv zeta.
  assert (C : inI (nth j (map (fun j => isum n (fun i => entry K i j)) (seq 0 n)) (0%Z, 0%Z)) (rsum n (fun i => A i j))) by (rewrite ProofInterval.nth_map_seq by exact Hj; apply isum_in; intros; apply H; assumption).
  assert (W : forall i, (i < n)%nat -> inI (nth i (map (fun i => isum n (fun j => entry K i j)) (seq 0 n)) (0%Z, 0%Z)) (rsum n (fun j => A i j))) by (intros i' Hi'; rewrite ProofInterval.nth_map_seq by exact Hi'; apply isum_in; intros; apply H; assumption).
  apply iadd_in; [apply isub_in; [apply H; assumption|]|]; unfold Rdiv; apply imul_in.
  - apply iadd_in; [exact C|apply W; exact Hi].
  - rewrite INR_IZR_INZ. apply irat_inv. lia.
  - apply isum_in. intros i' Hi'. apply W. exact Hi'.
  - replace (INR n ^ 2) with (IZR (Z.of_nat n * Z.of_nat n)) by (rewrite mult_IZR, <- INR_IZR_INZ; cbn [pow]; ring). apply irat_inv. lia.
Qed.
Lemma zwidth : forall n m Y, (n <= 100)%nat -> (0 < zmed (zdists n m Y))%Z -> zdists n m Y <> [] -> exists w, block_width n m (realY Y) = Some w /\ w * w = 1 / 2 * (IZR (zmed (zdists n m Y)) / 2).
Proof.
  intros n m Y Hn Hp Hne. unfold block_width. destruct (Nat.ltb_spec 100 n); [lia|]. rewrite zdists_R, zmed_R by exact Hne. cbn [option_map]. eexists. split; [reflexivity|].
  apply sqrt_sqrt. assert (0 < IZR (zmed (zdists n m Y))) by (apply (IZR_lt 0); exact Hp). lra.
Qed.
Definition zok (n m : nat) (Y : nat -> nat -> Z) : bool := (0 <? zmed (zdists n m Y))%Z && match zdists n m Y with [] => false | _ => true end.
Lemma zok_spec : forall n m Y, zok n m Y = true -> (0 < zmed (zdists n m Y))%Z /\ zdists n m Y <> [].
Proof. intros n m Y H. unfold zok in H. apply andb_prop in H. destruct H as [H1 H2]. split; [apply Z.ltb_lt; exact H1|]. intro E. rewrite E in H2. discriminate. Qed.
Lemma ihsic_in : forall sf n m m' Y Z, (3 < n)%nat -> (n <= 100)%nat -> zok n m Y = true -> zok n m' Z = true ->
  exists v p, hsic_test sf n m m' (realY Y) (realY Z) = Ok (Some v, p) /\ inI (ihsic n m m' Y Z) v.
Proof.
  intros sf n m m' Y Z H3 H100 HY HZ. apply zok_spec in HY, HZ. destruct HY as [PY NY], HZ as [PZ NZ]. destruct (zwidth n m Y H100 PY NY) as (w & EW & QW). destruct (zwidth n m' Z H100 PZ NZ) as (v & EV & QV).
  unfold hsic_test. destruct (Nat.leb_spec n 3); [lia|]. rewrite EW, EV. cbn [get_gram_matrix]. eexists. eexists. split; [reflexivity|]. unfold hsic_teststat, ihsic.
  apply imul_in; [unfold Rdiv; rewrite Rmult_1_l, INR_IZR_INZ; apply irat_inv; lia|]. apply isum_in. intros i Hi. apply isum_in. intros j Hj. apply imul_in.
  - apply icentre_in; [lia| |exact Hj|exact Hi]. apply igram_in; assumption.
  - apply icentre_in; [lia| |exact Hi|exact Hj]. apply igram_in; assumption.
Qed.
Lemma ival_lt : forall I J x y, inI I x -> inI J y -> (snd I <? fst J)%Z = true -> x < y.
Proof. intros I J x y [_ H1] [H2 _] H. apply Z.ltb_lt, IZR_lt in H. pose proof SC_posR. apply Rmult_lt_reg_r with (IZR SC); [assumption|lra]. Qed.
