(** * What the scores of OutOfSampleCausalTuning reward (C181) *)
From Coq Require Import Reals Arith List Lia Lra Bool QArith Qcanon.
From Verif Require Import Prelude Lib LibR SpecMeasure SpecOct ModelExper ModelOct ProofKernelMI ProofOct.
Import ListNotations.
Open Scope R_scope.

(** The score of a variable: undefined when truth or prediction are constant, infinite when the prediction is an affine function of the
    truth (increasing or decreasing), otherwise a number that is never negative, and zero only for uncorrelated predictions. *)
Theorem C181_score_meaning : forall n x y, (2 <= n)%nat ->
  let score := mutual_info (map x (seq 0 n)) (map y (seq 0 n)) in
  (score = Nan <-> constant_on n x \/ constant_on n y) /\
  (score = Inf <-> ~ constant_on n x /\ exists a b, a <> 0 /\ forall s, (s < n)%nat -> y s = a * x s + b) /\
  (forall r, score = Fin r -> 0 <= r /\ (r = 0 <-> rsum n (fun s => (x s - average n x) * (y s - average n y)) = 0)).
Proof.
  intros n x y Hn score. unfold score. clear score. rewrite (mi_seq n Hn). pose proof (cross_zero n Hn x) as Zx. pose proof (cross_zero n Hn y) as Zy.
  destruct (Req_EM_T (cross n x x) 0) as [A|A]; [split; [tauto|split; [split; [discriminate|tauto]|discriminate]]|].
  assert (AffC : forall a b, (forall s, (s < n)%nat -> y s = a * x s + b) -> constant_on n y -> a <> 0 -> constant_on n x).
  { intros a b E C Na s t Hs Ht. specialize (C s t Hs Ht). rewrite (E s Hs), (E t Ht) in C. apply (Rmult_eq_reg_l a); [lra|exact Na]. }
  destruct (Req_EM_T (cross n y y) 0) as [B|B].
  { split; [tauto|]. split; [|discriminate]. split; [discriminate|]. intros (Nx & a & b & Na & E). exfalso. apply Nx. apply (AffC a b E); [tauto|exact Na]. }
  pose proof (cross_pos n x A) as Px. pose proof (cross_pos n y B) as Py. destruct (schwarz n Hn x y Px Py) as [Le Eq].
  destruct (Req_EM_T (1 - rho n x y ^ 2) 0) as [C|C].
  - split; [split; [discriminate|tauto]|]. split; [|discriminate]. split; [intros _; split; [tauto|apply Eq; exact C]|reflexivity].
  - split; [split; [discriminate|tauto]|]. split; [split; [discriminate|tauto]|]. intros r E. assert (Er : r = - (1 / 2) * ln (1 - rho n x y ^ 2)) by congruence. rewrite Er. clear E Er. assert (P : 0 < 1 - rho n x y ^ 2) by lra.
    assert (L1 : 1 - rho n x y ^ 2 <= 1) by (pose proof (pow2_ge_0 (rho n x y)); lra).
    assert (Ln : ln (1 - rho n x y ^ 2) <= 0). { rewrite <- ln_1. destruct L1 as [L1|L1]; [left; apply ln_increasing; lra|right; f_equal; exact L1]. }
    split; [lra|]. fold (cross n x y). split.
    + intro Z. assert (Z' : ln (1 - rho n x y ^ 2) = 0) by lra. rewrite <- ln_1 in Z'. apply ln_inv in Z'; [|exact P|lra].
      assert (R0 : rho n x y ^ 2 = 0) by lra. rewrite (rho_sq n x y Px Py) in R0. assert (S0 : cross n x y ^ 2 = 0).
      { apply (Rmult_eq_reg_r (/ (cross n x x * cross n y y))); [unfold Rdiv in R0; rewrite R0; ring|apply Rinv_neq_0_compat, Rgt_not_eq, Rmult_lt_0_compat; assumption]. }
      destruct (Req_dec (cross n x y) 0) as [|K]; [assumption|exfalso; exact (pow_nonzero _ 2 K S0)].
    + intro Z. rewrite (rho_sq n x y Px Py), Z. replace (1 - 0 ^ 2 / (cross n x x * cross n y y)) with 1 by (field; lra). rewrite ln_1. ring.
Qed.
Print Assumptions C181_score_meaning.

(** C181, refuted.  Full statement: predictions closer to the truth score higher.  Predictions with all signs reversed have the same score. *)
Theorem C181_opposite_predictions_refuted : forall n x y, (2 <= n)%nat ->
  mutual_info (map x (seq 0 n)) (map (fun s => - y s) (seq 0 n)) = mutual_info (map x (seq 0 n)) (map y (seq 0 n)).
Proof.
  intros n x y Hn. rewrite !(mi_seq n Hn). assert (M : average n (fun s => - y s) = - average n y).
  { rewrite (average_ext n _ (fun s => - (1) * y s)) by (intros; ring). rewrite average_scal. ring. }
  assert (E1 : cross n (fun s => - y s) (fun s => - y s) = cross n y y) by (unfold cross; apply rsum_ext; intros; rewrite M; ring).
  assert (E2 : cross n x (fun s => - y s) = - cross n x y). { unfold cross. rewrite (rsum_ext n _ (fun s => - ((x s - average n x) * (y s - average n y)))) by (intros; rewrite M; ring). apply rsum_opp. }
  rewrite E1. replace (rho n x (fun s => - y s) ^ 2) with (rho n x y ^ 2); [reflexivity|]. unfold rho. rewrite E1, E2. unfold Rdiv. ring.
Qed.
Print Assumptions C181_opposite_predictions_refuted.

(** ** The empty graph *)
Lemma numbered_map : forall K (F : nat -> list nat * list nat) (g : nat -> option (mat num)),
  numbered (map F (seq 0 K)) (map g (seq 0 K)) = map (fun f => (f, (F f, g f))) (seq 0 K).
Proof.
  intros K F g. unfold numbered. rewrite combine_map, map_length, seq_length.
  rewrite <- (map_id (seq 0 K)) at 1. apply combine_map.
Qed.
Section Empty.
  Context (d K m : nat) (X : nat -> nat -> R) (forest : nat -> nat -> list R -> R) (g : nat -> mat num).
  Context (HK : (2 <= K)%nat) (Hm : (0 < m)%nat) (Hg : forall f, (f < K)%nat -> no_edges (g f)).
  Let n := (K * m)%nat.
  Let F := fun f => (filter (fun s => negb ((f * m <=? s) && (s <? f * m + m))%nat) (seq 0 n), seq (f * m) m).
  Let folds := map F (seq 0 K).
  Let graphs := map (fun f => Some (g f)) (seq 0 K).
  Lemma truths_all : forall j, truths X folds graphs j = map (X j) (seq 0 n).
  Proof.
    intro j. unfold truths, folds, graphs. rewrite numbered_map, flat_map_concat_map, map_map, <- flat_map_concat_map. cbn [fst snd F].
    rewrite (flat_blocks K m (fun _ => X j) Hm). reflexivity.
  Qed.
  Lemma preds_all : forall j, preds d X forest folds graphs j = map (fun s => INR n / INR (n - m) * average n (X j) - INR m / INR (n - m) * block_mean m (X j) s) (seq 0 n).
  Proof.
    intro j. unfold preds, folds, graphs. rewrite numbered_map, flat_map_concat_map, map_map, <- flat_map_concat_map. cbn [fst snd].
    set (T := fun (f s : nat) => lmean (map (X j) (fst (F f)))).
    rewrite flat_map_concat_map. rewrite (map_ext_in _ (fun f => map (T f) (seq (f * m) m)) (seq 0 K)).
    - rewrite <- flat_map_concat_map. rewrite (flat_blocks K m T Hm). apply map_ext_in. intros s Hs. apply in_seq in Hs. unfold T. cbn [F fst]. unfold lmean.
      assert (Hk : (s / m < K)%nat) by (apply Nat.div_lt_upper_bound; lia). assert (Hb : (s / m * m + m <= n)%nat) by (unfold n; nia).
      destruct (train_sum n (s / m * m) m (X j) Hb) as [T1 T2]. rewrite T1, map_length, T2. unfold average, block_mean.
      assert (N1 : INR n <> 0) by (apply not_0_INR; unfold n; nia). assert (N2 : INR (n - m) <> 0) by (apply not_0_INR; unfold n; nia). assert (N3 : INR m <> 0) by (apply not_0_INR; lia).
      unfold average. field. repeat split; assumption.
    - intros f Hf. apply in_seq in Hf. apply map_ext. intro s. unfold predict. rewrite no_edges_explanatory by (apply Hg; lia). reflexivity.
  Qed.
  Variable j : nat.
  Let x := X j.
  Let bm := block_mean m x.
  Lemma bm_weighted : forall (phi : R -> R), rsum n (fun s => phi (bm s) * x s) = rsum n (fun s => phi (bm s) * bm s).
  Proof.
    intro phi. unfold n. rewrite !blocks_sum. apply rsum_ext. intros k Hk.
    assert (B : forall r, (r < m)%nat -> bm (k * m + r)%nat = average m (fun r => x (k * m + r)%nat)) by (intros r Hr; unfold bm, block_mean; rewrite div_block by exact Hr; reflexivity).
    set (A := average m (fun r => x (k * m + r)%nat)) in *.
    rewrite (rsum_ext m _ (fun r => phi A * x (k * m + r)%nat)) by (intros r Hr; rewrite (B r Hr); reflexivity). rewrite (rsum_ext m (fun r => phi (bm (k * m + r)%nat) * bm (k * m + r)%nat) (fun r => phi A * A)) by (intros r Hr; rewrite (B r Hr); reflexivity).
    rewrite rsum_scal, rsum_const. unfold A at 3, average. field. apply not_0_INR. lia.
  Qed.
  Lemma bm_average : average n bm = average n x.
  Proof. unfold average. f_equal. pose proof (bm_weighted (fun _ => 1)) as E. cbv beta in E. rewrite (rsum_ext n bm (fun s => 1 * bm s)) by (intros; ring). rewrite <- E. apply rsum_ext. intros; ring. Qed.
  Lemma bm_cross : cross n x bm = cross n bm bm.
  Proof.
    unfold cross. rewrite bm_average. set (c := average n x).
    rewrite (rsum_ext n (fun s => (x s - c) * (bm s - c)) (fun s => (bm s - c) * x s - c * (bm s - c))) by (intros; ring).
    rewrite (rsum_ext n (fun s => (bm s - c) * (bm s - c)) (fun s => (bm s - c) * bm s - c * (bm s - c))) by (intros; ring).
    rewrite !rsum_minus. f_equal. exact (bm_weighted (fun v => v - c)).
  Qed.
  Let be := INR m / INR (n - m).
  Lemma be_pos : 0 < be.
  Proof. unfold be. apply Rdiv_lt_0_compat; apply lt_0_INR; unfold n; nia. Qed.
  Let y := fun s => INR n / INR (n - m) * average n x - be * bm s.
  Lemma n2 : (2 <= n)%nat. Proof. unfold n. nia. Qed.
  Lemma y_cross : cross n x y = - be * cross n bm bm /\ cross n y y = be * be * cross n bm bm.
  Proof.
    set (c0 := INR n / INR (n - m) * average n x) in *.
    assert (M : average n y = c0 - be * average n bm). { unfold y. rewrite (average_ext n _ (fun s => c0 + - be * bm s)) by (intros; ring). rewrite average_plus, average_scal, average_const by (pose proof n2; lia). change (average n (fun s => bm s)) with (average n bm). ring. }
    split.
    - rewrite <- bm_cross. unfold cross. rewrite M. rewrite <- rsum_scal. apply rsum_ext. intros s Hs. unfold y. fold c0. ring.
    - unfold cross. rewrite M. rewrite <- rsum_scal. apply rsum_ext. intros s Hs. unfold y. fold c0. ring.
  Qed.
  Lemma empty_corr : corrcoef (truths X folds graphs j) (preds d X forest folds graphs j) =
    if Req_EM_T (scatter n x) 0 then None else if Req_EM_T (scatter n bm) 0 then None else Some (- sqrt (scatter n bm / scatter n x)).
  Proof.
    assert (S : forall z, scatter n z = cross n z z) by (intro z; unfold scatter, cross; apply rsum_ext; intros; ring). rewrite !S.
    rewrite truths_all, preds_all. fold x. fold be. fold bm. change (fun s : nat => INR n / INR (n - m) * average n x - be * bm s) with y.
    rewrite (corrcoef_seq n n2). destruct y_cross as [Cxy Cyy]. pose proof be_pos as Pb. destruct (Req_EM_T (cross n x x) 0) as [A|A]; [reflexivity|].
    rewrite Cyy. destruct (Req_EM_T (be * be * cross n bm bm) 0) as [B|B], (Req_EM_T (cross n bm bm) 0) as [C|C]; try reflexivity.
    - exfalso. apply C. apply (Rmult_eq_reg_l (be * be)); [lra|]. apply Rgt_not_eq, Rmult_lt_0_compat; exact Pb.
    - exfalso. apply B. rewrite C. ring.
    - f_equal. unfold rho. rewrite Cyy, Cxy. pose proof (cross_pos n x A) as Px. pose proof (cross_pos n bm C) as Pm.
      rewrite (sqrt_mult (be * be)) by (try (apply Rlt_le, Rmult_lt_0_compat; exact Pb); lra). rewrite sqrt_square by lra. rewrite sqrt_div_alt by exact Px.
      assert (S1 : 0 < sqrt (cross n x x)) by (apply sqrt_lt_R0; exact Px). assert (S2 : 0 < sqrt (cross n bm bm)) by (apply sqrt_lt_R0; exact Pm).
      rewrite <- (sqrt_sqrt (cross n bm bm)) at 1 by lra. field. lra.
  Qed.
End Empty.

(** Predictions of the empty graph (means of the training rows, K folds of m rows): the correlation with the truth is never positive; it is
    minus the root of the share of the variance between the folds.  So the score of a variable is undefined (and then np.argmax takes it for
    the best) when the means of the folds agree, and positive when they do not. *)
Theorem C181_empty_graph_correlation : forall d K m X forest g j, (2 <= K)%nat -> (0 < m)%nat -> (forall f, (f < K)%nat -> no_edges (g f)) ->
  forall folds, kfold (K * m) K = Ok folds -> let graphs := map (fun f => Some (g f)) (seq 0 K) in
  corrcoef (truths X folds graphs j) (preds d X forest folds graphs j) =
    if Req_EM_T (scatter (K * m) (X j)) 0 then None else if Req_EM_T (scatter (K * m) (block_mean m (X j))) 0 then None
    else Some (- sqrt (scatter (K * m) (block_mean m (X j)) / scatter (K * m) (X j))).
Proof. intros d K m X forest g j HK Hm Hg folds E graphs. rewrite (kfold_equal K m HK Hm) in E. injection E as <-. exact (empty_corr d K m X forest g HK Hm Hg j). Qed.
Print Assumptions C181_empty_graph_correlation.

(** C181, refuted with leave-one-out (cv equal to the number of rows): the empty graph has an infinite score on all data without constant columns. *)
Theorem C181_leave_one_out_refuted : forall d n X forest g folds, (1 <= d)%nat -> (2 <= n)%nat -> (forall f, (f < n)%nat -> no_edges (g f)) ->
  (forall j, (j < d)%nat -> ~ constant_on n (X j)) -> kfold n n = Ok folds ->
  evaluate_config d X forest folds (map (fun f => Some (g f)) (seq 0 n)) = Inf.
Proof.
  intros d n X forest g folds Hd Hn Hg NC E. unfold evaluate_config, score_mean.
  assert (A : forall j, (j < d)%nat -> mutual_info (truths X folds (map (fun f => Some (g f)) (seq 0 n)) j) (preds d X forest folds (map (fun f => Some (g f)) (seq 0 n)) j) = Inf).
  { intros j Hj. rewrite <- (Nat.mul_1_r n) in E at 1. unfold mutual_info. rewrite (C181_empty_graph_correlation d n 1 X forest g j Hn ltac:(lia) Hg folds E). rewrite Nat.mul_1_r.
    assert (S : forall z, scatter n z = cross n z z) by (intro z; unfold scatter, cross; apply rsum_ext; intros; ring).
    assert (Bm : forall s, block_mean 1 (X j) s = X j s). { intro s. unfold block_mean, average. cbn [rsum INR]. rewrite Nat.div_1_r, Nat.mul_1_r, Nat.add_0_r. field. }
    assert (Sb : scatter n (block_mean 1 (X j)) = scatter n (X j)). { unfold scatter. rewrite (average_ext n (block_mean 1 (X j)) (X j)) by (intros; apply Bm). apply rsum_ext. intros. rewrite Bm. reflexivity. }
    rewrite Sb. assert (P : scatter n (X j) <> 0). { rewrite S. intro Z. apply (cross_zero n Hn) in Z. exact (NC j Hj Z). }
    destruct (Req_EM_T (scatter n (X j)) 0) as [Z|_]; [contradiction|]. replace (scatter n (X j) / scatter n (X j)) with 1 by (field; exact P). rewrite sqrt_1.
    destruct (Req_EM_T (1 - (- (1)) ^ 2) 0) as [_|Z]; [reflexivity|exfalso; apply Z; ring]. }
  set (l := map _ (seq 0 d)). assert (L : forall s, In s l -> s = Inf). { intros s Hs. unfold l in Hs. apply in_map_iff in Hs. destruct Hs as (j & <- & Hj). apply A. apply in_seq in Hj. lia. }
  assert (NE : In Inf l). { unfold l. rewrite <- (A 0%nat ltac:(lia)). apply (in_map (fun j => mutual_info (truths X folds (map (fun f => Some (g f)) (seq 0 n)) j) (preds d X forest folds (map (fun f => Some (g f)) (seq 0 n)) j))). apply in_seq. lia. }
  destruct (existsb is_nan l) eqn:N1; [apply existsb_exists in N1; destruct N1 as (s & Hs & Ns); rewrite (L s Hs) in Ns; discriminate|].
  assert (existsb is_inf l = true) as -> by (apply existsb_exists; exists Inf; split; [exact NE|reflexivity]). reflexivity.
Qed.
Print Assumptions C181_leave_one_out_refuted.

Lemma argmax_inf : forall l c, nth_error l c = Some Inf -> (forall i s, nth_error l i = Some s -> i <> c -> exists r, s = Fin r) -> score_argmax l = Ok c.
Proof.
  assert (K : forall l bi i, (forall k s, nth_error l k = Some s -> exists r, s = Fin r) -> argmax_from Inf bi i l = bi).
  { induction l as [|x l IH]; intros bi i H; [reflexivity|]. cbn [argmax_from]. destruct (H 0%nat x eq_refl) as (r & ->). cbn [larger]. apply IH. intros k s Hk. exact (H (S k) s Hk). }
  assert (G : forall l r0 bi i c, nth_error l c = Some Inf -> (forall k s, nth_error l k = Some s -> k <> c -> exists r, s = Fin r) -> argmax_from (Fin r0) bi i l = (i + c)%nat).
  { induction l as [|x l IH]; intros r0 bi i c Hc H; [destruct c; discriminate|]. destruct c as [|c]; cbn [argmax_from].
    - cbn in Hc. injection Hc as ->. cbn [larger]. rewrite K; [lia|]. intros k s Hk. apply (H (S k) s Hk). lia.
    - destruct (H 0%nat x eq_refl ltac:(lia)) as (r & ->). cbn [larger]. assert (H' : forall k s, nth_error l k = Some s -> k <> c -> exists r, s = Fin r) by (intros k s Hk Nk; apply (H (S k) s Hk); lia).
      destruct (Rlt_dec r0 r); rewrite (IH _ _ _ c Hc H'); lia. }
  intros [|x l] c Hc H; [destruct c; discriminate|]. cbn [score_argmax]. f_equal. destruct c as [|c].
  - cbn in Hc. injection Hc as ->. apply K. intros k s Hk. apply (H (S k) s Hk). lia.
  - destruct (H 0%nat x eq_refl ltac:(lia)) as (r & ->). rewrite (G l r 0%nat 1%nat c Hc); [reflexivity|]. intros k s Hk Nk. apply (H (S k) s Hk). lia.
Qed.
(** ... and is chosen, whatever the other configurations predict, as long as their scores are numbers. *)
Theorem C181_empty_graph_chosen_refuted : forall d n X forest g folds configs c, (1 <= d)%nat -> (2 <= n)%nat -> (forall f, (f < n)%nat -> no_edges (g f)) ->
  (forall j, (j < d)%nat -> ~ constant_on n (X j)) -> kfold n n = Ok folds ->
  nth_error configs c = Some (map (fun f => Some (g f)) (seq 0 n)) ->
  (forall i graphs, nth_error configs i = Some graphs -> i <> c -> exists r, evaluate_config d X (forest i) folds graphs = Fin r) ->
  oct_fit d n n X forest configs = Ok c.
Proof.
  intros d n X forest g folds configs c Hd Hn Hg NC E Hc H. unfold oct_fit. rewrite E. cbn [bind].
  assert (At : forall i graphs, nth_error configs i = Some graphs -> nth_error (combine (seq 0 (length configs)) configs) i = Some (i, graphs)).
  { intros i graphs Hi. assert (Z : forall b l i, nth_error l i = Some graphs -> nth_error (combine (seq b (length l)) l) i = Some ((b + i)%nat, graphs)).
    { intros b l. revert b. induction l as [|a l IH]; intros b [|k] Hk; cbn in Hk; try discriminate; cbn [length seq combine nth_error].
      - injection Hk as ->. rewrite Nat.add_0_r. reflexivity.
      - rewrite (IH (S b) k Hk). do 2 f_equal. lia. }
    exact (Z 0%nat configs i Hi). }
  apply argmax_inf.
  - rewrite (map_nth_error _ _ _ (At c _ Hc)). cbn [fst snd]. f_equal. apply (C181_leave_one_out_refuted d n X (forest c) g folds Hd Hn Hg NC E).
  - intros i s Hi Ni. destruct (nth_error configs i) as [graphs|] eqn:Eg.
    + rewrite (map_nth_error _ _ _ (At i graphs Eg)) in Hi. cbn [fst snd] in Hi. injection Hi as <-. exact (H i graphs Eg Ni).
    + exfalso. apply nth_error_None in Eg. assert (nth_error (map (fun c0 => evaluate_config d X (forest (fst c0)) folds (snd c0)) (combine (seq 0 (length configs)) configs)) i <> None) as W by congruence.
      apply nth_error_Some in W. rewrite map_length, combine_length, seq_length in W. lia.
Qed.
Print Assumptions C181_empty_graph_chosen_refuted.

(** Three rows, two columns; configuration 0 predicts each variable from the other, configuration 1 has empty graphs. *)
Definition ox (j s : nat) : R := nth s (match j with O => [0; 1; 3] | _ => [0; 2; 1] end) 0.
Definition oforest (i f j : nat) (l : list R) : R := nth 0 l 0.
Lemma ox_scores : forall folds, kfold 3 3 = Ok folds -> exists r, evaluate_config 2 ox (oforest 0) folds [None; None; None] = Fin r.
Proof.
  intros folds E. cbn in E. injection E as <-. unfold evaluate_config. cbn [seq map].
  assert (T : forall j, truths ox [([1; 2], [0]); ([0; 2], [1]); ([0; 1], [2])]%nat [None; None; None] j = map (ox j) (seq 0 3)) by reflexivity.
  assert (P0 : preds 2 ox (oforest 0) [([1; 2], [0]); ([0; 2], [1]); ([0; 1], [2])]%nat [None; None; None] 0 = map (ox 1) (seq 0 3)) by reflexivity.
  assert (P1 : preds 2 ox (oforest 0) [([1; 2], [0]); ([0; 2], [1]); ([0; 1], [2])]%nat [None; None; None] 1 = map (ox 0) (seq 0 3)) by reflexivity.
  assert (C0 : ~ constant_on 3 (ox 0)) by (intro C; specialize (C 0%nat 1%nat ltac:(lia) ltac:(lia)); cbn in C; lra).
  assert (C1 : ~ constant_on 3 (ox 1)) by (intro C; specialize (C 0%nat 1%nat ltac:(lia) ltac:(lia)); cbn in C; lra).
  assert (F : forall x y, ~ constant_on 3 x -> ~ constant_on 3 y -> ~ (exists a b, a <> 0 /\ forall s, (s < 3)%nat -> y s = a * x s + b) -> exists r, mutual_info (map x (seq 0 3)) (map y (seq 0 3)) = Fin r).
  { intros x y Nx Ny Na. destruct (C181_score_meaning 3 x y ltac:(lia)) as (A & B & _). destruct (mutual_info (map x (seq 0 3)) (map y (seq 0 3))) as [| |r]; [exfalso; tauto|exfalso; tauto|eauto]. }
  rewrite (T 0%nat), (T 1%nat), P0, P1.
  destruct (F (ox 0) (ox 1) C0 C1) as (r0 & ->). { intros (a & b & _ & H). pose proof (H 0%nat ltac:(lia)) as H0. pose proof (H 1%nat ltac:(lia)) as H1. pose proof (H 2%nat ltac:(lia)) as H2. cbn in H0, H1, H2. lra. }
  destruct (F (ox 1) (ox 0) C1 C0) as (r1 & ->). { intros (a & b & _ & H). pose proof (H 0%nat ltac:(lia)) as H0. pose proof (H 1%nat ltac:(lia)) as H1. pose proof (H 2%nat ltac:(lia)) as H2. cbn in H0, H1, H2. lra. }
  unfold score_mean. cbn [existsb is_nan is_inf orb]. eauto.
Qed.
Example C181_example : oct_fit 2 3 3 ox oforest [[None; None; None]; map (fun _ => Some (fun _ _ => Some 0%Qc)) (seq 0 3)] = Ok 1%nat.
Proof.
  destruct (kfold 3 3) as [folds|e] eqn:E; [|discriminate E].
  apply (C181_empty_graph_chosen_refuted 2 3 ox oforest (fun _ _ _ => Some 0%Qc) folds); [lia|lia|intros f _ i j; reflexivity| |exact E|reflexivity|].
  - intros j Hj C. specialize (C 0%nat 1%nat ltac:(lia) ltac:(lia)). destruct j as [|[|j]]; [cbn in C; lra|cbn in C; lra|lia].
  - intros [|[|[|i]]] graphs Hi Ni; cbn in Hi; try discriminate; [|congruence]. injection Hi as <-. apply ox_scores. exact E.
Qed.
