(** * Theorems that pin down details of several models: sums, counts, NaN and exceptions *)
From Coq Require Import Reals Lra Lia Arith Bool List QArith Qcanon Permutation String.
From Verif Require Import Prelude Spec Lib LibR SpecMeasure SpecResit SpecDirectR SpecLongR Loop ModelRCD ModelResit ProofResit ModelResitData ModelCAMUV ProofCAMUV ModelCamData ModelExper ModelOct ModelOctSp ModelSimNames ModelDirectR ModelMultiDirectR ModelLongR ProofLongR ProofInterval.
From Verif Require ModelDirect.
Import ListNotations.
Open Scope nat_scope.

(** ** C180: RESIT removes an edge only after a test *)
Section Prune.
  Variable accepts : nat -> list nat -> bool.
  Lemma remove_first_other : forall x l j, In j l -> j <> x -> In j (remove_first x l).
  Proof.
    intros x l j. induction l as [|y l IH]; intros I N; [destruct I|]. cbn [remove_first]. destruct (Nat.eqb_spec y x) as [E|E].
    - destruct I as [I|I]; [congruence|exact I].
    - destruct I as [I|I]; [left; exact I|right; apply IH; assumption].
  Qed.
  Lemma pruned_by : forall t ls cur j, In j cur -> ~ In j (fold_left (prune_one accepts t) ls cur) ->
    exists L, ~ In j L /\ L <> [] /\ incl L cur /\ accepts t L = true.
  Proof.
    intros t ls. induction ls as [|l ls IH]; intros cur j I NI; [contradiction|]. cbn [fold_left] in NI.
    destruct (in_dec Nat.eq_dec j (prune_one accepts t cur l)) as [J|J].
    - destruct (IH _ _ J NI) as (L & A & B & C & D). exists L. repeat split; try assumption. intros x Hx. exact (prune_one_incl (fun _ _ => None) accepts t cur l x (C x Hx)).
    - unfold prune_one in J. destruct (remove_nat l cur) as [|q ps] eqn:E; [contradiction|]. destruct (accepts t (q :: ps)) eqn:Ac; [|contradiction].
      assert (j = l) by (destruct (Nat.eq_dec j l); [assumption|exfalso; apply J; apply remove_first_other; assumption]). subst l.
      exists (q :: ps). repeat split; [|discriminate| |exact Ac]; rewrite <- E.
      + intro H. apply remove_nat_In in H. tauto.
      + intros x Hx. apply remove_nat_In in Hx. tauto.
  Qed.
End Prune.
Lemma before_split : forall l1 i l2 j, NoDup (l1 ++ i :: l2) -> precedes (l1 ++ i :: l2) j i -> In j l1.
Proof.
  intros l1 i l2 j ND H. pose proof (proj1 (precedes_In _ _ _ H)) as I. apply in_app_or in I. destruct I as [I|[I|I]]; [exact I| |].
  - subst j. exfalso. exact (precedes_irrefl _ _ ND H).
  - exfalso. apply (precedes_asym _ _ _ ND H). apply precedes_app_r. change (i :: l2) with ([i] ++ l2). apply precedes_app_cross; [left; reflexivity|exact I].
Qed.
(** An earlier variable that is not a parent was removed by a test: the residual of the effect on some other earlier variables had a p-value, a
    number, above the level.  A p-value that is not a number removes nothing. *)
Theorem C180_removed_by_test : forall reg hsic_stat hsic_p alpha n X p o M i j,
  resit_data reg hsic_stat hsic_p alpha n X p = Ok (o, M) -> i < p -> precedes o j i -> M i j = 0%Qc ->
  exists L q, ~ In j L /\ L <> [] /\ (forall l, In l L -> precedes o l i) /\
    hsic_p n (residual_of X L i (reg n (values X L) (X i))) (values X L) = Some q /\ (alpha < q)%Qc.
Proof.
  intros reg hsic_stat hsic_p alpha n X p o M i j E Hi Hp HM. unfold resit_data in E.
  destruct (resit_fit_ok (data_stat reg hsic_stat n X) (data_accepts reg hsic_p alpha n X) p) as (o' & M' & E' & HO & HB). rewrite E in E'. injection E' as <- <-.
  pose proof (is_order_NoDup _ _ HO) as ND. assert (Ii : In i o) by (apply (is_order_In p o HO); exact Hi). apply in_split in Ii. destruct Ii as (l1 & l2 & Eo).
  destruct (HB l1 i l2 Eo) as (l & l' & Pl & El & HJ). rewrite HJ in HM. destruct (memb j l') eqn:Mj; [discriminate|].
  assert (Jl1 : In j l1). { rewrite Eo in Hp, ND. apply (before_split l1 i l2 j ND Hp). }
  assert (Jl : In j l) by (apply (Permutation_in _ (Permutation_sym Pl)); exact Jl1). destruct l1 as [|w l1]; [destruct Jl1|].
  assert (NJ : ~ In j (prune_parents (data_accepts reg hsic_p alpha n X) i l)) by (rewrite <- El; intro H; apply memb_In in H; congruence).
  destruct (pruned_by _ _ _ _ _ Jl NJ) as (L & A & B & C & D). unfold data_accepts in D. destruct (hsic_p n (ModelResitData.residual reg n X L i) (columns X L)) as [q|] eqn:Q; [|discriminate].
  exists L, q. repeat split; [exact A|exact B| |exact Q|apply qltb_lt; exact D].
  intros x Hx. rewrite Eo. apply precedes_app_cross; [|left; reflexivity]. apply (Permutation_in _ Pl). apply C. exact Hx.
Qed.
Print Assumptions C180_removed_by_test.

(** ** C183: CAM-UV with tests that give no number *)
(** p-values that are not numbers count as dependence for pairs and accept no parents: every pair is reported as confounded. *)
Theorem C183_no_answer : forall reg hsic_p alpha n X iter maxnum d P B, (forall l, Permutation (iter l) l) ->
  (forall u v, hsic_p n u v = None) -> camuv_data reg hsic_p alpha n X iter maxnum d = Ok (P, B) ->
  forall i j, i < d -> j < d -> P i j = false /\ (i <> j -> B i j = None).
Proof.
  intros reg hsic_p alpha n X iter maxnum d P B IP NP E i j Hi Hj. unfold camuv_data, cam_fit in E. destruct (maxnum =? 0); [discriminate|].
  set (ind := cam_ind reg hsic_p alpha n X) in *. set (value := cam_value reg hsic_p n X) in *.
  assert (I0 : forall a A b C, ind a A b C = false) by (intros; unfold ind, cam_ind; rewrite NP; reflexivity).
  destruct (find_parents d maxnum true alpha None ind value iter (S (Nat.log2 (cam_top d maxnum)))) as [P0|] eqn:F; [|discriminate]. injection E as <- <-.
  assert (GC : forall N Q vs, fst (get_child d true alpha None value iter N Q vs) = None).
  { intros N Q vs. unfold get_child. set (f := fun st c => _). assert (S : forall l, fold_left f l (Some 0%Qc, None) = (Some 0%Qc, None)).
    { induction l as [|c l IH]; [reflexivity|]. cbn [fold_left]. assert (Ef : f (Some 0%Qc, None) c = (Some 0%Qc, None)); [|rewrite Ef; exact IH].
      unfold f. cbn [check_pk]. destruct (negb (check_correlation N c (remove_nat c vs))); [reflexivity|]. unfold value, cam_value. rewrite NP. reflexivity. }
    rewrite S. reflexivity. }
  assert (V : forall N st vs, cam_visit d true alpha None ind value iter N st vs = st).
  { intros N [Q ch] vs. unfold cam_visit. destruct (negb (not_identified Q vs)); [reflexivity|]. specialize (GC N Q vs). destruct (get_child d true alpha None value iter N Q vs) as [o b]. cbn [fst] in GC. rewrite GC. reflexivity. }
  assert (FV : forall N us st, fold_left (cam_visit d true alpha None ind value iter N) us st = st).
  { intros N us. induction us as [|u us IH]; intro st; [reflexivity|]. cbn [fold_left]. rewrite V. apply IH. }
  assert (Z : forall a b, P0 a b = false).
  { unfold find_parents in F. destruct (Loop.loop _ _ (no_sets, 2)) as [s|P1] eqn:L; [discriminate|]. injection F as <-. intros a b.
    destruct (prune d ind P1 a b) eqn:T; [|reflexivity]. apply (prune_sub d ind value) in T.
    destruct (loop_inv _ _ (cam_step d maxnum true alpha None ind value iter (neighborhoods d ind)) (fun st => forall a b, fst st a b = false)) with (k := S (Nat.log2 (cam_top d maxnum))) (s := (no_sets, 2)) (r := P1) as [[P2 t2] [I2 E2]].
    - intros [Q t] s' I E. unfold cam_step in E. rewrite FV in E. destruct (maxnum <? S t); [discriminate|]. injection E as <-. exact I.
    - reflexivity.
    - exact L.
    - unfold cam_step in E2. rewrite FV in E2. destruct (maxnum <? S t2); [|discriminate]. injection E2 as <-. cbn [fst] in I2. rewrite I2 in T. discriminate. }
  split; [apply Z|]. intro NE. unfold cam_adjacency.
  assert (N : forall a b, a < d -> b < d -> a <> b -> neighborhoods d ind a b = true).
  { intros a b Ha Hb Hab. apply neighborhoods_iff. rewrite !I0. destruct (Nat.lt_total a b) as [H|[H|H]]; [left|contradiction|right]; split; auto. }
  assert (U : cam_confounded d ind (neighborhoods d ind) P0 i j = true).
  { apply (cam_confounded_iff d ind value). rewrite !Z, !N by auto. repeat split; [lia|]. destruct (i <? j); apply I0. }
  rewrite U. reflexivity.
Qed.
Print Assumptions C183_no_answer.
Example C183_no_answer_example : forall reg X d, exists P B,
  camuv_data reg (fun _ _ _ => None) (qf 1 100) 10 X (fun l => l) 2 (2 + d) = Ok (P, B) /\ P 0 1 = false /\ B 0 1 = None /\ B 1 0 = None.
Proof.
  intros reg X d. set (h := fun (_ : nat) (_ : nat -> R) (_ : nat -> list R) => @None Qc).
  assert (E : exists P B, camuv_data reg h (qf 1 100) 10 X (fun l => l) 2 (2 + d) = Ok (P, B)).
  { unfold camuv_data, cam_fit, find_parents. destruct (cam_terminates (2 + d) 2 true (qf 1 100) None (cam_ind reg h (qf 1 100) 10 X) (cam_value reg h 10 X) (fun l => l) ltac:(reflexivity) (S (Nat.log2 (cam_top (2 + d) 2)))) as [P E].
    - destruct (Nat.log2_spec (cam_top (2 + d) 2)) as [_ L]; [unfold cam_top; cbn; lia|exact L].
    - rewrite E. eexists. eexists. reflexivity. }
  destruct E as (P & B & E). exists P, B. split; [exact E|].
  pose proof (C183_no_answer reg h (qf 1 100) 10 X (fun l => l) 2 (2 + d) P B ltac:(reflexivity) ltac:(reflexivity) E) as H.
  repeat split; apply H; lia.
Qed.

(** ** C181, C195: scores are means, p-values are proportions *)
(** If every column has a finite score, the score of a configuration is their mean. *)
Theorem C181_mean_of_columns : forall d X forest folds graphs r,
  (forall j, j < d -> mutual_info (truths X folds graphs j) (preds d X forest folds graphs j) = Fin (r j)) ->
  evaluate_config d X forest folds graphs = Fin (average d r).
Proof.
  intros d X forest folds graphs r H. unfold evaluate_config. rewrite (map_ext_in _ (fun j => Fin (r j))) by (intros j Hj; apply in_seq in Hj; apply H; lia).
  unfold score_mean. assert (N : forall (q : score -> bool) l, (forall x, q (Fin x) = false) -> existsb q (map (fun j => Fin (r j)) l) = false).
  { intros q l Q. induction l as [|x l IH]; [reflexivity|]. cbn [map existsb]. rewrite Q, IH. reflexivity. }
  rewrite !N by reflexivity. f_equal. rewrite map_map. cbn [finite_part]. unfold lmean, average. rewrite map_length, seq_length. f_equal. clear.
  assert (S : forall m a, lsum (map r (seq a m)) = rsum m (fun k => r (a + k)%nat)).
  { induction m as [|m IH]; intro a; [reflexivity|]. replace (S m) with (m + 1) by lia. rewrite seq_app, map_app, rsum_split. cbn [seq map rsum]. rewrite <- IH. clear IH. unfold lsum. induction (map r (seq a m)) as [|x l IH]; cbn [app fold_right].
    - replace (a + (m + 0)) with (a + m) by lia. ring.
    - rewrite IH. ring. }
  exact (S d 0).
Qed.
Print Assumptions C181_mean_of_columns.

(** With finite scores the p-value of a configuration is the proportion of trials in which the difference of the shuffled scores exceeds the
    difference of the scores. *)
Theorem C195_p_value_is_a_proportion : forall d truth pred draw trials best k b s (u v : nat -> R),
  config_score d truth pred best = Fin b -> config_score d truth pred k = Fin s ->
  (forall t, t < trials -> score_mean (map (fun j => mutual_info (truth k j) (shuffled (pred best j) (draw k t j true))) (seq 0 d)) = Fin (u t)) ->
  (forall t, t < trials -> score_mean (map (fun j => mutual_info (truth k j) (shuffled (pred k j) (draw k t j false))) (seq 0 d)) = Fin (v t)) ->
  p_value d truth pred draw trials best k
  = (qn (List.length (filter (fun t => if Rlt_dec (b - s) (u t - v t) then true else false) (seq 0 trials))) / qn trials)%Qc.
Proof.
  intros d truth pred draw trials best k b s u v Hb Hs Hu Hv. unfold p_value, above. rewrite Hb, Hs. cbn [score_sub].
  assert (F : forall l, (forall t, In t l -> t < trials) -> filter (fun t => dgt (trial_diff d truth pred draw best k t) (DFin (b - s))) l = filter (fun t => if Rlt_dec (b - s) (u t - v t) then true else false) l).
  { induction l as [|t l IH]; intro H; [reflexivity|]. cbn [filter]. rewrite IH by (intros x Hx; apply H; right; exact Hx). unfold trial_diff. rewrite Hu, Hv by (apply H; left; reflexivity). cbn [score_sub dgt]. reflexivity. }
  rewrite F by (intros t Ht; apply in_seq in Ht; lia). reflexivity.
Qed.
Print Assumptions C195_p_value_is_a_proportion.

(** ** C184, C191: wrong arguments *)
Theorem C184_data_checks : forall p ok mode (Xs : list (nat * (nat -> nat -> R))),
  List.length Xs < 2 \/ (exists d, In d Xs /\ fst d = 0) \/ p = 0 -> group_fit_order p ok mode Xs = Err ValueError.
Proof.
  intros p ok mode Xs H. unfold group_fit_order. destruct (Nat.ltb_spec (List.length Xs) 2) as [L|L]; [reflexivity|].
  destruct H as [H|[(d & Hd & E)|H]]; [lia| |].
  - assert (X : existsb (fun d => fst d =? 0) Xs = true) by (apply existsb_exists; exists d; split; [exact Hd|apply Nat.eqb_eq; exact E]). rewrite X. reflexivity.
  - subst p. rewrite orb_true_r. reflexivity.
Qed.
Print Assumptions C184_data_checks.
Theorem C191_wrong_length : forall names l, List.length l <> List.length names ->
  plain_discrete names (FList l) = Err IndexError /\ plain_discrete names (FArray l) = Err IndexError.
Proof. intros names l H. cbn [plain_discrete]. unfold by_mask. destruct (Nat.eqb_spec (List.length l) (List.length names)); [contradiction|]. split; reflexivity. Qed.
Print Assumptions C191_wrong_length.

(** ** C193: the matrices of LongitudinalLiNGAM are the coefficients of the equations of the data *)
Lemma rsum_blocks : forall p f L, rsum (p * L) f = rsum L (fun l => rsum p (fun j => f (l * p + j)%nat)).
Proof. intros p f L. induction L as [|L IH]; [rewrite Nat.mul_0_r; reflexivity|]. rewrite Nat.mul_succ_r, rsum_split, IH. cbn [rsum]. f_equal. apply rsum_ext. intros j _. rewrite (Nat.mul_comm p L). reflexivity. Qed.
Lemma lin_rsum : forall cs cols s, lin cs cols s = rsum (List.length cols) (fun k => nth k cs 0 * nth k cols (fun _ => 0) s)%R.
Proof.
  intros cs cols. revert cs. induction cols as [|x cols IH]; intros cs s; [destruct cs; reflexivity|]. destruct cs as [|c cs].
  - cbn [lin]. symmetry. apply rsum_0. intros k _. destruct k; cbn; ring.
  - cbn [lin]. rewrite IH. change (List.length (x :: cols)) with (1 + List.length cols). rewrite rsum_split. cbn [rsum Nat.add nth]. ring.
Qed.
(** Whatever the regressions return: at every time point with a full window, the equation of each variable holds exactly with the estimated
    matrices and the (transformed) residuals. *)
Theorem C193_equations : forall lr lars logsv ms T n p L (X : rpanel) rs t K Bs E,
  long_fit lr lars logsv ms T n p L X = Ok rs -> t < T -> nth t rs None = Some (K, Bs, E) ->
  forall i s, i < p ->
  (X t i s - rsum p (fun k => nth 0 Bs (fun _ _ => 0) i k * X t k s)
   = rsum L (fun l => rsum p (fun j => nth (S l) Bs (fun _ _ => 0) i j * X (t - L + l)%nat j s))
     + (E i s - rsum p (fun k => nth 0 Bs (fun _ _ => 0) i k * E k s)))%R.
Proof.
  intros lr lars logsv ms T n p L X rs t K Bs E F Ht N i s Hi. unfold long_fit in F. destruct (T <? 2); [discriminate|]. destruct ((n =? 0) || (p =? 0)); [discriminate|]. destruct (L =? 0); [discriminate|].
  assert (G : forall m a rs, long_times lr lars logsv ms n p L X (seq a m) = Ok rs -> forall t, t < m -> nth t rs None = Some (K, Bs, E) ->
     exists B, Bs = B :: map (fun l => b_tau p B (m_tau lr n p L X (a + t) l)) (seq 0 L) /\ E = n_t lr n p L X (a + t)).
  { clear. induction m as [|m IH]; intros a rs F t Ht N; [lia|]. cbn [seq long_times] in F.
    destruct (a <? L) eqn:TL.
    - cbn [bind] in F. destruct (long_times lr lars logsv ms n p L X (seq (S a) m)) as [rs'|] eqn:R; [|discriminate]. cbn [bind] in F. injection F as <-.
      destruct t as [|t]; [discriminate|]. cbn [nth] in N. replace (a + S t) with (S a + t) by lia. apply (IH (S a) rs' R t ltac:(lia) N).
    - destruct (fit (lr n) (lars n) logsv ms n p true ModelDirect.NoPK (n_t lr n p L X a)) as [KB|] eqn:EF; [|discriminate]. cbn [bind] in F. destruct (long_times lr lars logsv ms n p L X (seq (S a) m)) as [rs'|] eqn:R; [|discriminate]. cbn [bind] in F. injection F as <-.
      destruct t as [|t]; [|cbn [nth] in N; replace (a + S t) with (S a + t) by lia; apply (IH (S a) rs' R t ltac:(lia) N)].
      cbn [nth] in N. rewrite Nat.add_0_r. exists (snd KB). split; congruence. }
  destruct (G T 0 rs F t Ht N) as (B & EB & EE). cbn [Nat.add] in EB, EE. subst Bs E. cbn [nth].
  assert (W : forall k, k < p -> n_t lr n p L X t k s = (X t k s - rsum L (fun l => rsum p (fun j => m_tau lr n p L X t l k j * X (t - L + l)%nat j s)))%R).
  { intros k Hk. unfold n_t. replace (k <? p) with true by (symmetry; apply Nat.ltb_lt; exact Hk). f_equal. rewrite lin_rsum. unfold lag_columns at 1. rewrite map_length, seq_length, rsum_blocks. apply rsum_ext. intros l Hl. apply rsum_ext. intros j Hj.
    unfold m_tau. f_equal. unfold lag_columns. rewrite ProofInterval.nth_map_seq by nia. rewrite Nat.div_add_l, Nat.div_small, Nat.add_0_r by lia. rewrite (Nat.add_comm (l * p) j), Nat.mod_add, Nat.mod_small by lia. reflexivity. }
  set (Z := fun k => rsum L (fun l => rsum p (fun j => m_tau lr n p L X t l k j * X (t - L + l)%nat j s))%R) in *.
  assert (LHS : rsum L (fun l => rsum p (fun j => nth l (map (fun l => b_tau p B (m_tau lr n p L X t l)) (seq 0 L)) (fun _ _ => 0) i j * X (t - L + l)%nat j s))%R = (Z i - rsum p (fun k => B i k * Z k))%R).
  { assert (S1 : forall l, l < L -> rsum p (fun j => nth l (map (fun l => b_tau p B (m_tau lr n p L X t l)) (seq 0 L)) (fun _ _ => 0) i j * X (t - L + l)%nat j s)%R
      = rsum p (fun k => (rid i k - B i k) * rsum p (fun j => m_tau lr n p L X t l k j * X (t - L + l)%nat j s))%R).
    { intros l Hl. rewrite ProofInterval.nth_map_seq by exact Hl. unfold b_tau. rewrite (rsum_ext p _ (fun j => rsum p (fun k => (rid i k - B i k) * (m_tau lr n p L X t l k j * X (t - L + l)%nat j s))%R)).
      - rewrite rsum_swap. apply rsum_ext. intros k _. apply rsum_scal.
      - intros j _. rewrite <- rsum_scal_r. apply rsum_ext. intros k _. ring. }
    rewrite (rsum_ext L _ _ S1), rsum_swap. rewrite (rsum_ext p _ (fun k => rid i k * Z k - B i k * Z k)%R) by (intros k _; rewrite rsum_scal; unfold Z; ring).
    rewrite rsum_minus. f_equal. rewrite (rsum_single p _ i Hi).
    - unfold rid. rewrite Nat.eqb_refl. ring.
    - intros k _ Hk. unfold rid. destruct (Nat.eqb_spec i k); [congruence|ring]. }
  rewrite LHS, (W i Hi). rewrite (rsum_ext p (fun k => B i k * n_t lr n p L X t k s)%R (fun k => B i k * X t k s - B i k * Z k)%R) by (intros k Hk; rewrite (W k Hk); unfold Z; ring).
  rewrite rsum_minus. fold (Z i). ring.
Qed.
Print Assumptions C193_equations.
