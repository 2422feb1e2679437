(** * RESIT on data: order and direct causes (C179, C180) *)
From Coq Require Import Reals Arith List Lia Lra Bool Permutation Relations QArith Qcanon.
From Verif Require Import Prelude Spec Lib LibR SpecMeasure SpecResit ModelResit ModelResitData ProofKernelMI ProofResit ProofResit2 ProofResitData ProofResitData2.
Import ListNotations.
Open Scope R_scope.

(** C179.  Data from an additive noise model, a regressor without systematic error, a statistic that is zero exactly for
    independent samples, and a model in which no variable looks like a sink unless it is one (for every set closed under causes): fit
    returns a causal order, and no edge points against the causal direction. *)
Theorem C179_order_is_causal : forall reg hsic_stat hsic_p alpha n p X causes f E,
  (0 < n)%nat -> (0 < p)%nat -> exact_regressor reg -> exact_statistic hsic_stat ->
  additive_noise_model n p causes f E X ->
  (exists L, is_order p L /\ topological (cause_graph p causes) L) ->
  (forall U k b h, NoDup U -> closed (cause_graph p causes) U -> (forall x, In x U -> (x < p)%nat) -> In k U -> In b U -> cause_graph p causes k b ->
     conditional_mean n (values X (remove_nat k U)) (X k) h -> ~ independent n (residual_of X (remove_nat k U) k h) (values X (remove_nat k U))) ->
  exists pi B, resit_data reg hsic_stat hsic_p alpha n X p = Ok (pi, B) /\ is_order p pi /\ topological (cause_graph p causes) pi /\
    forall i j, (i < p)%nat -> B i j = 1%Qc -> ~ clos_trans nat (cause_graph p causes) i j.
Proof.
  intros reg hs hp alpha n p X causes f E Hn Hp HR HS M (L & HL & HT) Id.
  assert (Rg : forall a b, cause_graph p causes a b -> (a < p)%nat /\ (b < p)%nat).
  { intros a b G. destruct (precedes_In _ _ _ (HT a b G)) as [Ia Ib]. split; apply (is_order_In p L HL); assumption. }
  destruct (exact_order (data_stat reg hs n X) p (cause_graph p causes) L HL HT Rg) with (accepts := data_accepts reg hp alpha n X) as (pi & B & Ef & HO & T & HB); [|exact Hp|].
  - intros U k ND L2 Cl RU Hk. unfold data_stat. destruct (HS n (residual reg n X (remove_nat k U) k) (columns X (remove_nat k U)) Hn) as (q & Eq & Pq & Zq).
    exists q. split; [exact Eq|]. split; [exact Pq|]. rewrite Zq. pose proof (HR n (columns X (remove_nat k U)) (X k) Hn) as C. split.
    + intros I b Hb G. exact (Id U k b _ ND Cl RU Hk Hb G C I).
    + intro Sk. exact (sink_residual n p causes f E X L Hn M HL HT U k _ Cl RU Hk Sk C).
  - exists pi, B. split; [exact Ef|]. split; [exact HO|]. split; [exact T|]. intros i j Hi Bij C. pose proof (is_order_NoDup _ _ HO) as ND.
    assert (P : precedes pi i j) by (clear - C T ND; induction C as [a b G|a b c _ IH1 _ IH2]; [apply T; exact G|eapply precedes_trans; eassumption]).
    exact (precedes_asym _ _ _ ND P (HB i j Hi Bij)).
Qed.
Print Assumptions C179_order_is_causal.

(** C180, refuted.  Full statement: with exact regressions and tests fit reports exactly the direct causes of every variable.
    For every sum of functions of m independent causes, fit reports instead one and the same star: the last cause is reported as the only
    cause of the effect, and as the cause of all the other causes.  (The test of lines 130-136 compares the residual with the
    remaining predictors, not with the variable whose edge is in question, and the last remaining predictor is never tested.) *)
Theorem C180_independent_causes_refuted : forall reg hsic_stat hsic_p alpha n m f U X, (0 < n)%nat -> (2 <= m)%nat ->
  exact_regressor reg -> exact_statistic hsic_stat -> exact_p_value alpha hsic_p ->
  mutually_independent n (S m) U ->
  (forall i s, (i < m)%nat -> (s < n)%nat -> X i s = U i s) ->
  (forall s, (s < n)%nat -> X m s = rsum m (fun i => f i (U i s)) + U m s) ->
  (forall i h, (i < m)%nat -> conditional_mean n (values X (remove_nat i (seq 0 (S m)))) (X i) h ->
     ~ independent n (residual_of X (remove_nat i (seq 0 (S m))) i h) (values X (remove_nat i (seq 0 (S m))))) ->
  exists B, resit_data reg hsic_stat hsic_p alpha n X (S m) = Ok (rev (seq 0 m) ++ [m], B) /\
    forall i j, (i <= m)%nat -> B i j = if ((j =? m - 1) && negb (i =? m - 1))%nat then 1%Qc else 0%Qc.
Proof. intros. eapply star_result; eassumption. Qed.
Print Assumptions C180_independent_causes_refuted.

(** ** Oracles that meet the contracts exist *)
Definition frequency_regressor (n : nat) (v : nat -> list R) (y : nat -> R) (w : list R) : R :=
  rsum n (fun s => if list_dec (v s) w then y s else 0) / rsum n (fun s => if list_dec (v s) w then 1 else 0).
Definition deciding_statistic (n : nat) (u : nat -> R) (v : nat -> list R) : num :=
  match lt_dec 0 n with left H => if independent_dec n u v H then Some 0%Qc else Some 1%Qc | right _ => None end.
Definition deciding_p_value (n : nat) (u : nat -> R) (v : nat -> list R) : num :=
  match lt_dec 0 n with left H => if independent_dec n u v H then Some 1%Qc else Some 0%Qc | right _ => None end.
Example C179_example_regressor : exact_regressor frequency_regressor.
Proof.
  intros n v y Hn g. unfold frequency_regressor. set (ind := fun a b : list R => if list_dec a b then 1 else 0). set (cnt := fun w => rsum n (fun s => ind (v s) w)).
  assert (N : INR n <> 0) by (apply not_0_INR; lia). unfold average.
  assert (Z : rsum n (fun s => (y s - rsum n (fun r => if list_dec (v r) (v s) then y r else 0) / cnt (v s)) * g (v s)) = 0); [|unfold cnt, ind in Z; rewrite Z; unfold Rdiv; ring].
  rewrite (rsum_ext n _ (fun s => y s * g (v s) - rsum n (fun r => ind (v s) (v r) * (y r * g (v r) / cnt (v r))))).
  - rewrite rsum_minus, rsum_swap.
    rewrite (rsum_ext n (fun j => rsum n (fun i => ind (v i) (v j) * (y j * g (v j) / cnt (v j)))) (fun r => y r * g (v r))); [ring|].
    intros r Hr. rewrite rsum_scal_r. fold (cnt (v r)). field. pose proof (cnt_pos list_dec n v r Hr) as P. unfold cnt, ind. lra.
  - intros s Hs. rewrite Rmult_minus_distr_r. f_equal. unfold Rdiv. rewrite Rmult_assoc, <- rsum_scal_r. apply rsum_ext. intros r Hr. unfold ind.
    destruct (list_dec (v r) (v s)) as [A|A], (list_dec (v s) (v r)) as [B|B]; try congruence; [rewrite B; ring|ring].
Qed.
Example C179_example_statistic : exact_statistic deciding_statistic.
Proof.
  intros n u v Hn. unfold deciding_statistic. destruct (lt_dec 0 n) as [H|H]; [|contradiction]. destruct (independent_dec n u v H) as [I|I].
  - exists 0%Qc. split; [reflexivity|]. split; [apply Qcle_refl|tauto].
  - exists 1%Qc. split; [reflexivity|]. split; [intro C; vm_compute in C; discriminate C|]. split; [intro C; discriminate C|tauto].
Qed.
Example C180_example_p_value : exact_p_value (qf 1 20) deciding_p_value.
Proof.
  intros n u v Hn. unfold deciding_p_value. destruct (lt_dec 0 n) as [H|H]; [|contradiction]. destruct (independent_dec n u v H) as [I|I].
  - exists 1%Qc. split; [reflexivity|]. split; [tauto|]. intros _. apply qltb_lt. vm_compute. reflexivity.
  - exists 0%Qc. split; [reflexivity|]. split; [|tauto]. intro C. apply qltb_lt in C. vm_compute in C. discriminate C.
Qed.

(** ** Eight rows: x2 = x0 + x1 + e with x0, x1, e all combinations of 0 and 1 *)
Definition bits (j s : nat) : R := nth s (match j with O => [0; 1; 0; 1; 0; 1; 0; 1] | S O => [0; 0; 1; 1; 0; 0; 1; 1] | _ => [0; 0; 0; 0; 1; 1; 1; 1] end) 0.
Definition sum_rows (j s : nat) : R := match j with S (S _) => nth s [0; 1; 1; 2; 1; 2; 2; 3] 0 | _ => bits j s end.
Ltac rows8 := do 8 (match goal with s : nat |- _ => destruct s as [|s]; [cbn; try lra|] end).
Lemma bits_independent : mutually_independent 8 3 bits.
Proof.
  intros i Hi f g. do 3 (destruct i as [|i]; [unfold average, values, all_but; cbn; field|]). lia.
Qed.
Lemma sum_rows_dependent : forall i h, (i < 2)%nat -> conditional_mean 8 (values sum_rows (remove_nat i (seq 0 3))) (sum_rows i) h ->
  ~ independent 8 (residual_of sum_rows (remove_nat i (seq 0 3)) i h) (values sum_rows (remove_nat i (seq 0 3))).
Proof.
  intros i h Hi C I.
  assert (Cd : conditional_mean 8 (values sum_rows (remove_nat i (seq 0 3))) (sum_rows i) (fun l => (nth 1 l 0 - nth 0 l 0) / 2)).
  { intro g. do 2 (destruct i as [|i]; [unfold average, values, remove_nat; cbn; field|]). lia. }
  pose proof (conditional_mean_unique 8 _ _ _ _ ltac:(lia) C Cd) as E. cbv beta in E.
  pose proof (I (fun r => r * r) (fun l => (nth 1 l 0 - nth 0 l 0) * (2 - (nth 1 l 0 - nth 0 l 0)))) as Q. unfold residual_of in Q.
  unfold average in Q. cbn [rsum] in Q. rewrite !E in Q by lia. clear E C Cd I. do 2 (destruct i as [|i]; [unfold values, remove_nat in Q; cbn in Q; lra|]). lia.
Qed.
(** C180, refuted on this sample: whatever exact regressor and tests are used, the direct cause 0 of variable 2 is not reported, and 1 is
    reported as a cause of 0, of which it is independent. *)
Theorem C180_direct_causes_refuted : exists n (X E : nat -> nat -> R) causes f, (0 < n)%nat /\ additive_noise_model n 3 causes f E X /\
  causes 0%nat = [] /\ causes 1%nat = [] /\ causes 2%nat = [0; 1]%nat /\
  (forall s, (s < n)%nat -> X 2%nat s = X 0%nat s + X 1%nat s + E 2%nat s) /\
  forall reg hsic_stat hsic_p alpha, exact_regressor reg -> exact_statistic hsic_stat -> exact_p_value alpha hsic_p ->
    exists B, resit_data reg hsic_stat hsic_p alpha n X 3 = Ok ([1; 0; 2]%nat, B) /\
      B 2%nat 0%nat = 0%Qc /\ B 2%nat 1%nat = 1%Qc /\ B 0%nat 1%nat = 1%Qc.
Proof.
  exists 8%nat, sum_rows, bits, (fun k => match k with 2%nat => [0; 1]%nat | _ => [] end), (fun k l => match k with 2%nat => nth 0 l 0 + nth 1 l 0 | _ => 0 end).
  assert (S : forall s, (s < 8)%nat -> sum_rows 2%nat s = sum_rows 0%nat s + sum_rows 1%nat s + bits 2%nat s) by (intros s Hs; rows8; lia).
  split; [lia|]. split; [|split; [reflexivity|split; [reflexivity|split; [reflexivity|split; [exact S|]]]]].
  - split; [exact bits_independent|]. intros k s Hk Hs. do 3 (destruct k as [|k]; [first [exact (S s Hs)|cbn [sum_rows]; ring]|]). lia.
  - intros reg hs hp alpha HR HS HP.
    destruct (C180_independent_causes_refuted reg hs hp alpha 8 2 (fun _ x => x) bits sum_rows ltac:(lia) ltac:(lia) HR HS HP bits_independent) as (B & Ef & EB).
    + intros i s Hi Hs. do 2 (destruct i as [|i]; [reflexivity|]). lia.
    + intros s Hs. rewrite (S s Hs). cbn [rsum sum_rows]. ring.
    + exact sum_rows_dependent.
    + exists B. split; [exact Ef|]. rewrite !EB by lia. repeat split.
Qed.
Print Assumptions C180_direct_causes_refuted.

Lemma resit_data_shape : forall reg hs hp alpha n X p pi B, resit_data reg hs hp alpha n X p = Ok (pi, B) ->
  (forall i j, (i < p)%nat -> B i j = 0%Qc \/ B i j = 1%Qc) /\ (forall i j, (i < p)%nat -> B i j = 1%Qc -> precedes pi j i).
Proof.
  intros reg hs hp alpha n X p pi B E. destruct (resit_shape (data_stat reg hs n X) (data_accepts reg hp alpha n X) p) as (pi' & B' & E' & _ & H1 & H2).
  unfold resit_data in E. rewrite E in E'. injection E' as <- <-. split; assumption.
Qed.
Lemma precedes_split_first : forall (a : nat) l j, forall (ND : NoDup (a :: l)), ~ precedes (a :: l) j a.
Proof.
  intros a l j ND (m1 & m2 & m3 & E). destruct m1 as [|x m1]; cbn in E; injection E as <- ->; inversion ND as [|? ? N _]; subst; apply N; [apply in_or_app; right; left; reflexivity|].
  apply in_or_app. right. right. apply in_or_app. right. left. reflexivity.
Qed.
(** What does hold: with two variables, one a cause of the other, the result is exactly right (under the hypotheses of C179). *)
Theorem C180_two_variables_right : forall reg hsic_stat hsic_p alpha n X f E a b, (0 < n)%nat ->
  exact_regressor reg -> exact_statistic hsic_stat -> ((a = 0 /\ b = 1) \/ (a = 1 /\ b = 0))%nat ->
  additive_noise_model n 2 (fun k => if (k =? b)%nat then [a] else []) f E X ->
  (forall h, conditional_mean n (values X [b]) (X a) h -> ~ independent n (residual_of X [b] a h) (values X [b])) ->
  exists B, resit_data reg hsic_stat hsic_p alpha n X 2 = Ok ([a; b], B) /\
    forall i j, (i < 2)%nat -> (j < 2)%nat -> B i j = if ((i =? b) && (j =? a))%nat then 1%Qc else 0%Qc.
Proof.
  intros reg hs hp alpha n X f E a b Hn HR HS Hab M Id. set (causes := fun k => if (k =? b)%nat then [a] else []) in *.
  assert (G : forall x y, cause_graph 2 causes x y <-> x = a /\ y = b).
  { intros x y. unfold cause_graph, causes. destruct (Nat.eqb_spec y b) as [->|N]; cbn [In]; intuition (lia || congruence || eauto). }
  destruct (C179_order_is_causal reg hs hp alpha n 2 X causes f E Hn ltac:(lia) HR HS M) as (pi & B & Ef & HO & T & _).
  - exists [a; b]. split; [destruct Hab as [[-> ->]|[-> ->]]; [apply Permutation_refl|apply perm_swap]|]. intros x y Gx. apply G in Gx. destruct Gx as [-> ->]. exists [], [], []. reflexivity.
  - intros U k c h ND Cl RU Hk Hc Gk C. apply G in Gk. destruct Gk as [-> ->].
    assert (EU : remove_nat a U = [b]).
    { pose proof (remove_nat_NoDup a U ND) as NR. assert (Hb : In b (remove_nat a U)) by (apply remove_nat_In; split; [exact Hc|lia]).
      assert (Al : forall x, In x (remove_nat a U) -> x = b) by (intros x Hx; apply remove_nat_In in Hx; destruct Hx as [Hx Nx]; apply RU in Hx; lia).
      destruct (remove_nat a U) as [|x [|y l]]; [destruct Hb|rewrite (Al x (or_introl eq_refl)); reflexivity|].
      exfalso. inversion NR as [|? ? Nx _]; subst. apply Nx. rewrite (Al x (or_introl eq_refl)), (Al y (or_intror (or_introl eq_refl))). left. reflexivity. }
    rewrite EU in *. apply Id. exact C.
  - assert (Ep : pi = [a; b]).
    { assert (P : precedes pi a b) by (apply T, G; split; reflexivity). pose proof (Permutation_length HO) as Lp. cbn in Lp. destruct P as (l1 & l2 & l3 & ->).
      rewrite app_length in Lp. cbn [length] in Lp. rewrite app_length in Lp. cbn [length] in Lp. destruct l1, l2, l3; cbn in Lp; try lia. reflexivity. }
    subst pi. exists B. split; [exact Ef|]. destruct (resit_data_shape reg hs hp alpha n X 2 _ _ Ef) as (H01 & HP2).
    destruct (resit_keeps_parent (data_stat reg hs n X) (data_accepts reg hp alpha n X) 2 _ _ Ef [a] b [] eq_refl ltac:(discriminate)) as (j & [<-|[]] & Bj).
    intros i j Hi Hj. destruct (Nat.eqb_spec i b) as [->|Ni]; [destruct (Nat.eqb_spec j a) as [->|Nj]|]; cbn [andb]; [exact Bj| |].
    + destruct (H01 b j Hi) as [|B1]; [assumption|]. apply HP2 in B1; [|exact Hi]. exfalso. exact (precedes_irrefl [a; b] b (is_order_NoDup _ _ HO) ltac:(replace j with b in B1 by lia; exact B1)).
    + destruct (H01 i j Hi) as [|B1]; [assumption|]. apply HP2 in B1; [|exact Hi]. exfalso. replace i with a in B1 by lia. exact (precedes_split_first a [b] j (is_order_NoDup _ _ HO) B1).
Qed.
Print Assumptions C180_two_variables_right.
(** Four rows x1 = x0 + e with x0, e = 0, 1 meet the hypotheses. *)
Definition two_bits (j s : nat) : R := nth s (match j with O => [0; 1; 0; 1] | _ => [0; 0; 1; 1] end) 0.
Definition two_rows (j s : nat) : R := match j with O => two_bits 0 s | _ => nth s [0; 1; 1; 2] 0 end.
Example C180_example_two_variables :
  additive_noise_model 4 2 (fun k => if (k =? 1)%nat then [0%nat] else []) (fun k l => nth 0 l 0) two_bits two_rows /\
  (forall h, conditional_mean 4 (values two_rows [1%nat]) (two_rows 0%nat) h -> ~ independent 4 (residual_of two_rows [1%nat] 0 h) (values two_rows [1%nat])).
Proof.
  split; [split|].
  - intros i Hi f g. do 2 (destruct i as [|i]; [unfold average, values, all_but; cbn; field|]). lia.
  - intros k s Hk Hs. do 2 (destruct k as [|k]; [do 4 (destruct s as [|s]; [cbn; lra|]); lia|]). lia.
  - intros h C I. assert (Cd : conditional_mean 4 (values two_rows [1%nat]) (two_rows 0%nat) (fun l => nth 0 l 0 / 2)) by (intro g; unfold average, values; cbn; field).
    pose proof (conditional_mean_unique 4 _ _ _ _ ltac:(lia) C Cd) as E. cbv beta in E.
    pose proof (I (fun r => r * r) (fun l => nth 0 l 0 * (2 - nth 0 l 0))) as Q. unfold residual_of in Q. unfold average in Q. cbn [rsum] in Q. rewrite !E in Q by lia.
    unfold values in Q. cbn in Q. lra.
Qed.
(** ... and so do those of C179 for the eight rows. *)
Definition star_causes (k : nat) : list nat := match k with 2%nat => [0; 1]%nat | _ => [] end.
Example C179_example_star :
  additive_noise_model 8 3 star_causes (fun k l => match k with 2%nat => nth 0 l 0 + nth 1 l 0 | _ => 0 end) bits sum_rows /\
  topological (cause_graph 3 star_causes) [0; 1; 2]%nat /\
  forall U k b h, NoDup U -> closed (cause_graph 3 star_causes) U -> (forall x, In x U -> (x < 3)%nat) -> In k U -> In b U -> cause_graph 3 star_causes k b ->
     conditional_mean 8 (values sum_rows (remove_nat k U)) (sum_rows k) h -> ~ independent 8 (residual_of sum_rows (remove_nat k U) k h) (values sum_rows (remove_nat k U)).
Proof.
  assert (G : forall a b, cause_graph 3 star_causes a b -> (a < 2)%nat /\ b = 2%nat).
  { intros a b [Hb Ha]. do 3 (destruct b as [|b]; [cbn in Ha; lia|]). lia. }
  split; [|split].
  - split; [exact bits_independent|]. intros k s Hk Hs. do 3 (destruct k as [|k]; [do 8 (destruct s as [|s]; [cbn; lra|]); lia|]). lia.
  - intros a b Gab. apply G in Gab. destruct Gab as [Ha ->]. destruct a as [|[|a]]; [exists [], [1%nat], []|exists [0%nat], [], []|lia]; reflexivity.
  - intros U k b h ND Cl RU Hk Hb Gk C I. destruct (G k b Gk) as [Hk2 ->].
    assert (I0 : In 0%nat U) by (apply (Cl 0%nat 2%nat); [split; [lia|left; reflexivity]|exact Hb]). assert (I1 : In 1%nat U) by (apply (Cl 1%nat 2%nat); [split; [lia|right; left; reflexivity]|exact Hb]).
    (* the rows of U and of 0, 1, 2 are related by a permutation of the columns *)
    set (V := remove_nat k U) in *. set (W := remove_nat k (seq 0 3)).
    assert (VW : incl V W) by (intros x Hx; apply remove_nat_In in Hx; apply remove_nat_In; split; [apply in_seq; destruct Hx as [Hx _]; apply RU in Hx; lia|tauto]).
    assert (WV : incl W V). { intros x Hx. apply remove_nat_In in Hx. destruct Hx as [Hx Nx]. apply in_seq in Hx. apply remove_nat_In. split; [|exact Nx]. assert (x = 0 \/ x = 1 \/ x = 2)%nat as [-> | [-> | ->]] by lia; assumption. }
    apply (sum_rows_dependent k (fun w => h (pick W V w)) Hk2).
    + intro g. pose proof (C (fun v => g (pick V W v))) as Cg. cbv beta in Cg. rewrite <- Cg. apply average_ext. intros s Hs. fold W. rewrite !pick_values by assumption. reflexivity.
    + apply (independent_comp 8 (residual_of sum_rows V k h) (values sum_rows V) (fun r => r) (pick V W) _ _ I).
      * intros s Hs. unfold residual_of. fold W. rewrite pick_values by assumption. reflexivity.
      * intros s Hs. fold W. rewrite pick_values by assumption. reflexivity.
Qed.
