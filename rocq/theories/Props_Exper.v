(** * Visualisation helper, data generator, tuner: C63-C65, C98-C104 *)
From Coq Require Import List Arith Bool ZArith QArith Qcanon Lia Permutation Sorted.
From Verif Require Import Prelude Spec Lib ModelRoot ProofRoot ModelExper ProofExper.
Import ListNotations.
Open Scope nat_scope.

(** ** visualize_nonlinear_causal_effect *)
Definition mkq (l : list (list Z)) : mat Qc := fun i j => qz (nth j (nth i l []) 0%Z).

(** C63 fails for weighted graphs: the parent 0 of the cause 1 has weight 2 and is not adjusted for. *)
Theorem C63_adjusts_for_parents_refuted : exists n rows A cause effect res,
  viz_regressions n rows (seq 0 rows) (Matrix A) cause effect = Ok res /\
  edge_of n A 0 cause /\ 0 <> effect /\ forall is ex, In (is, ex) res -> ~ In 0 ex.
Proof.
  exists 3, 2, (mkq [[0;0;0];[2;0;0];[1;1;0]]%Z), 1, 2. eexists. split; [vm_compute; reflexivity|]. split; [|split].
  - split; [lia|]. split; [lia|]. intro E. apply (f_equal this) in E. vm_compute in E. discriminate.
  - lia.
  - intros is ex [E|[]] I. injection E as <- <-. destruct I as [I|[]]. discriminate.
Qed.
Print Assumptions C63_adjusts_for_parents_refuted.

(** For a 0/1 matrix without self loops: the regressors are the cause and its parents, without the
    effect, each once and in increasing order. *)
Theorem C63_adjusts_for_parents_partial : forall n A cause effect, cause < n ->
  (forall i j, A i j = 0%Qc \/ A i j = 1%Qc) -> A cause cause = 0%Qc ->
  let ex := viz_explanatory n A cause effect in
  (forall j, In j ex <-> (j = cause \/ edge_of n A j cause) /\ j <> effect) /\ StronglySorted lt ex.
Proof.
  intros n A cause effect Hc B S ex. unfold ex, viz_explanatory. split.
  - intro j. rewrite filter_In, sort_nat_In, negb_true_iff, Nat.eqb_neq. unfold viz_covariates. cbn [In]. rewrite filter_In, in_seq, qeqb_eq. unfold edge_of. split.
    + intros [[H|[H1 H2]] H3]; (split; [|exact H3]); [left; congruence|]. right. split; [exact Hc|]. split; [lia|]. rewrite H2. discriminate.
    + intros [[H|(H1 & H2 & H4)] H3]; (split; [|exact H3]); [left; congruence|]. right. split; [lia|]. destruct (B cause j); [contradiction|assumption].
  - apply sorted_filter.
    assert (N : NoDup (sort_nat (cause :: viz_covariates n A cause))).
    { eapply Permutation_NoDup; [apply Permutation_sym; apply sort_nat_perm|]. constructor; [|apply NoDup_filter; apply seq_NoDup].
      unfold viz_covariates. rewrite filter_In, qeqb_eq, S. intros [_ E]. discriminate. }
    pose proof (sort_nat_sorted (cause :: viz_covariates n A cause)) as Q. induction Q as [|x l Q IH F]; [constructor|].
    apply NoDup_cons_iff in N. destruct N as [N1 N2]. constructor; [apply IH; exact N2|]. apply Forall_forall. intros y Hy. rewrite Forall_forall in F. specialize (F y Hy).
    assert (x <> y) by (intros ->; contradiction). lia.
Qed.
Print Assumptions C63_adjusts_for_parents_partial.
Example C63_example : viz_explanatory 4 (mkq [[0;0;0;0];[0;0;0;0];[1;1;0;0];[0;0;1;0]]%Z) 2 3 = [0; 1; 2].
Proof. vm_compute. reflexivity. Qed.

(** C98: every matrix of a bootstrap result is used, on its own resample.  False for a result without
    resampled indices, of which only the first matrix is used. *)
Theorem C98_every_resample_used_refuted : exists n rows A1 A2 cause effect res,
  viz_regressions n rows (seq 0 rows) (Boot [A1; A2] None) cause effect = Ok res /\ length res = 1.
Proof. exists 2, 2, midn, midn, 0, 1. eexists. split; [vm_compute; reflexivity|reflexivity]. Qed.
Print Assumptions C98_every_resample_used_refuted.
Theorem C98_every_resample_used_partial : forall n rows labels ms idx cause effect,
  length ms = length idx -> (forall l i, In l idx -> In i l -> i < rows) ->
  exists res, viz_regressions n rows labels (Boot ms (Some idx)) cause effect = Ok res /\
    length res = length ms /\
    forall b, b < length ms -> nth_error res b = Some (nth b idx [], viz_explanatory n (nth b ms midn) cause effect).
Proof.
  intros n rows labels ms idx cause effect. unfold viz_regressions. cbn [viz_runs]. revert idx. induction ms as [|m ms IH]; intros [|i idx] L B; cbn in L; try lia.
  - exists []. split; [reflexivity|]. split; [reflexivity|]. intros b Hb. cbn in Hb. lia.
  - destruct (IH idx) as (res & E & Q & R); [lia|intros l k Hl; apply B; right; exact Hl|].
    exists ((i, viz_explanatory n m cause effect) :: res). cbn [combine fold_right]. rewrite E. cbn [fst snd]. unfold iloc.
    replace (forallb (fun k => k <? rows) i) with true by (symmetry; apply forallb_forall; intros k Hk; apply Nat.ltb_lt; apply (B i k); [left; reflexivity|exact Hk]).
    cbn [bind]. split; [reflexivity|]. split; [cbn; lia|]. intros [|b] Hb; [reflexivity|]. cbn [nth_error nth]. apply R. cbn in Hb. lia.
Qed.
Print Assumptions C98_every_resample_used_partial.
Example C98_example : viz_regressions 2 3 [0;1;2] (Boot [mkq [[0;1];[0;0]]%Z; mkq [[0;0];[1;0]]%Z] (Some [[0;0;2];[1;1;0]])) 1 0 = Ok [([0;0;2], [1]); ([1;1;0], [1])].
Proof. vm_compute. reflexivity. Qed.

(** C99: the data frame's row labels do not matter for a single matrix.  False: labels are used as
    positions. *)
Theorem C99_row_labels_irrelevant_refuted :
  (exists n labels A cause effect, NoDup labels /\ viz_regressions n (length labels) labels (Matrix A) cause effect = Err IndexError) /\
  (exists n labels A cause effect res is ex, viz_regressions n (length labels) labels (Matrix A) cause effect = Ok res /\ In (is, ex) res /\ ~ In 1 is /\ 1 < length labels).
Proof.
  split.
  - exists 2, [5; 7; 9], midn, 0, 1. split; [repeat constructor; cbn; lia|reflexivity].
  - exists 2, [0; 0; 2], midn, 0, 1. eexists. exists [0; 0; 2]. eexists. split; [vm_compute; reflexivity|]. split; [left; reflexivity|]. split; [cbn; lia|cbn; lia].
Qed.
Print Assumptions C99_row_labels_irrelevant_refuted.
(** Labels that are a permutation of the positions are harmless: every row is used exactly once. *)
Theorem C99_row_labels_irrelevant_partial : forall n labels A cause effect, Permutation labels (seq 0 (length labels)) ->
  exists is ex, viz_regressions n (length labels) labels (Matrix A) cause effect = Ok [(is, ex)] /\ Permutation is (seq 0 (length labels)).
Proof.
  intros n labels A cause effect P. exists labels. eexists. split; [|exact P]. unfold viz_regressions. cbn [viz_runs fold_right fst snd]. unfold iloc.
  replace (forallb (fun k => k <? length labels) labels) with true; [reflexivity|]. symmetry. apply forallb_forall. intros k Hk. apply Nat.ltb_lt.
  apply (Permutation_in _ P) in Hk. apply in_seq in Hk. lia.
Qed.
Print Assumptions C99_row_labels_irrelevant_partial.
Example C99_example : Permutation [2;0;1] (seq 0 (length [2;0;1])).
Proof. cbn. apply Permutation_sym. eapply perm_trans; [apply perm_skip; apply perm_swap|]. eapply perm_trans; [apply perm_swap|]. apply Permutation_refl. Qed.

(** ** CausalDataGenerator *)
(** The fitted data, column by column. *)
Definition data_of (X : frame) : list (nat * list Qc) := map (fun c => (c, fr_val X c)) (fr_cols X).
(** Every column has one value per row, no column name occurs twice. *)
Definition well_formed (X : frame) : Prop := NoDup (fr_cols X) /\ forall c, In c (fr_cols X) -> length (fr_val X c) = length (fr_index X).

Definition fr3 (index cols : list nat) : frame :=
  {| fr_index := index; fr_cols := cols; fr_val := fun c => [qz (Z.of_nat c); qz (2 * Z.of_nat c + 1)] |}.
Definition msum (F : list (list Qc)) : list Qc := fold_right qadd [qz 0; qz 0] F.

(** C64 fails without adjustments (AttributeError), with a column that is neither cause, effect nor
    adjustment (KeyError), and for repeated row labels (rows are multiplied). *)
Theorem C64_replay_refuted :
  (exists X cause effect f, well_formed X /\ NoDup (fr_index X) /\ cdg_fit msum msum X cause effect [] = Ok f /\ cdg_generate f [] [] = Err AttributeError) /\
  (exists X cause effect adj f, well_formed X /\ NoDup (fr_index X) /\ cdg_fit msum msum X cause effect adj = Ok f /\ cdg_generate f [] [] = Err KeyError) /\
  (exists X cause effect adj f res, well_formed X /\ cdg_fit msum msum X cause effect adj = Ok f /\ cdg_generate f [] [] = Ok res /\
     exists c v, In (c, v) res /\ length v <> length (fr_index X)).
Proof.
  assert (W : forall i, length i = 2 -> forall cols, NoDup cols -> well_formed (fr3 i cols)) by (intros i Hi cols ND; split; [exact ND|intros c _; symmetry; exact Hi]).
  split; [|split].
  - exists (fr3 [0;1] [0;1]), 0, 1. eexists. split; [apply W; [reflexivity|repeat constructor; cbn; lia]|]. split; [repeat constructor; cbn; lia|]. split; [reflexivity|reflexivity].
  - exists (fr3 [0;1] [0;1;2;3]), 0, 1, [2]. eexists. split; [apply W; [reflexivity|repeat constructor; cbn; lia]|]. split; [repeat constructor; cbn; lia|]. split; [reflexivity|reflexivity].
  - exists (fr3 [5;5] [0;1;2]), 0, 1, [2]. do 2 eexists. split; [apply W; [reflexivity|repeat constructor; cbn; lia]|]. split; [reflexivity|]. split; [reflexivity|].
    do 2 eexists. split; [left; reflexivity|]. cbn. lia.
Qed.
Print Assumptions C64_replay_refuted.

(** A result that does not touch the adjustment columns: what [generate] computes for the cause and
    effect columns. *)
Lemma generate_eval : forall mc me X cause effect adj f endog exog, well_formed X -> NoDup (fr_index X) ->
  cdg_fit mc me X cause effect adj = Ok f -> adj <> [] ->
  (forall c, In c (fr_cols X) -> In c (cause :: effect :: adj)) ->
  check_dict f endog = true -> check_dict f exog = true ->
  exists g, cdg_generate f endog exog = Ok (map (fun c => (c, map (fun r => nth r (g c) 0%Qc) (seq 0 (length (fr_index X))))) (fr_cols X)) /\
    let g1 := fold_left (fun g e => upd g (fst e) (snd e)) exog
                (upd (upd (fr_val X) cause (qsub (fr_val X cause) (mc (map (fr_val X) adj)))) effect (qsub (fr_val X effect) (me (map (fr_val X) (cause :: adj))))) in
    let g2 := match lookup cause endog with Some v => upd g1 cause v | None => upd g1 cause (qadd (g1 cause) (mc (map g1 adj))) end in
    g = match lookup effect endog with Some v => upd g2 effect v | None => upd g2 effect (qadd (g2 effect) (me (map g2 (cause :: adj)))) end.
Proof.
  intros mc me X cause effect adj f endog exog WF NI F NA CO CE CX. unfold cdg_fit in F.
  destruct (negb (memb cause (fr_cols X))); [discriminate|]. destruct (negb (memb effect (fr_cols X))); [discriminate|].
  destruct (negb (forallb (fun a => memb a (fr_cols X)) adj)); [discriminate|]. injection F as <-.
  unfold cdg_generate. rewrite CE, CX. cbn [andb negb]. cbn [ft_X ft_cause ft_effect ft_adj ft_model_cause ft_model_effect ft_err_cause ft_err_effect] in *.
  destruct adj as [|a adj]; [congruence|].
  replace (forallb (fun c => memb c (cause :: effect :: a :: adj)) (fr_cols X)) with true
    by (symmetry; apply forallb_forall; intros c Hc; apply memb_In; apply CO; exact Hc).
  rewrite positions_unique by exact NI. cbn [negb]. eexists. split; [|reflexivity]. cbv zeta. destruct (lookup cause endog) as [v|]; cbn [bind]; reflexivity.
Qed.

Lemma upd_same : forall (f : nat -> list Qc) i v, upd f i v i = v.
Proof. intros. unfold upd. rewrite Nat.eqb_refl. reflexivity. Qed.
Lemma upd_diff : forall (f : nat -> list Qc) i v j, j <> i -> upd f i v j = f j.
Proof. intros f i v j H. unfold upd. destruct (Nat.eqb_spec j i); [contradiction|reflexivity]. Qed.

(** With at least one adjustment, every column covered and distinct row labels the data come back,
    whatever models are fitted. *)
Theorem C64_replay_partial : forall mc me X cause effect adj f, well_formed X -> NoDup (fr_index X) ->
  cdg_fit mc me X cause effect adj = Ok f -> adj <> [] -> cause <> effect -> ~ In cause adj -> ~ In effect adj ->
  (forall c, In c (fr_cols X) -> In c (cause :: effect :: adj)) ->
  length (mc (map (fr_val X) adj)) = length (fr_index X) -> length (me (map (fr_val X) (cause :: adj))) = length (fr_index X) ->
  cdg_generate f [] [] = Ok (data_of X).
Proof.
  intros mc me X cause effect adj f WF NI F NA CE NC NE CO LC LE.
  destruct (generate_eval mc me X cause effect adj f [] [] WF NI F NA CO eq_refl eq_refl) as (g & E & G). cbv zeta in G. cbn [lookup find option_map fold_left] in G.
  rewrite E. f_equal. unfold data_of.
  assert (M : memb cause (fr_cols X) = true /\ memb effect (fr_cols X) = true).
  { unfold cdg_fit in F. destruct (memb cause (fr_cols X)); [|discriminate]. destruct (memb effect (fr_cols X)); [|discriminate]. split; reflexivity. }
  destruct M as [M1 M2]. apply memb_In in M1, M2. destruct WF as [ND WF].
  assert (GV : forall c, g c = fr_val X c).
  { intro c. rewrite G. set (g0 := upd (upd (fr_val X) cause _) effect _).
    assert (G0 : map g0 adj = map (fr_val X) adj).
    { apply map_ext_in. intros a Ha. unfold g0. rewrite upd_diff by (intros ->; contradiction). apply upd_diff. intros ->. contradiction. }
    rewrite G0. replace (g0 cause) with (qsub (fr_val X cause) (mc (map (fr_val X) adj))) by (unfold g0; rewrite upd_diff by exact CE; rewrite upd_same; reflexivity).
    rewrite qadd_qsub by (rewrite WF by exact M1; exact LC). set (g1 := upd g0 cause (fr_val X cause)).
    replace (map g1 (cause :: adj)) with (map (fr_val X) (cause :: adj)).
    2:{ cbn [map]. f_equal; [unfold g1; rewrite upd_same; reflexivity|]. rewrite <- G0. apply map_ext_in. intros a Ha. unfold g1. rewrite upd_diff by (intros ->; contradiction). reflexivity. }
    replace (g1 effect) with (qsub (fr_val X effect) (me (map (fr_val X) (cause :: adj)))) by (unfold g1, g0; rewrite upd_diff by congruence; rewrite upd_same; reflexivity).
    rewrite qadd_qsub by (rewrite WF by exact M2; exact LE).
    destruct (Nat.eq_dec c effect) as [->|N1]; [apply upd_same|]. rewrite upd_diff by exact N1. unfold g1.
    destruct (Nat.eq_dec c cause) as [->|N2]; [apply upd_same|]. rewrite upd_diff by exact N2. unfold g0. rewrite upd_diff by exact N1. apply upd_diff. exact N2. }
  apply map_ext_in. intros c Hc. f_equal. rewrite GV. rewrite <- (WF c Hc). apply map_nth_seq.
Qed.
Print Assumptions C64_replay_partial.
Example C64_example : exists f, well_formed (fr3 [7;4] [2;0;1]) /\ cdg_fit msum msum (fr3 [7;4] [2;0;1]) 0 1 [2] = Ok f /\
  length (msum (map (fr_val (fr3 [7;4] [2;0;1])) [2])) = 2 /\ length (msum (map (fr_val (fr3 [7;4] [2;0;1])) [0;2])) = 2.
Proof. eexists. split; [split; [repeat constructor; cbn; lia|intros; reflexivity]|]. split; [reflexivity|]. split; reflexivity. Qed.

(** C100: a value fixed by interv_endog appears in the generated data.  False for adjustments: the
    intervention is accepted and ignored. *)
Theorem C100_endogenous_intervention_refuted : exists X cause effect adj f a v res,
  well_formed X /\ NoDup (fr_index X) /\ cdg_fit msum msum X cause effect adj = Ok f /\ In a adj /\ v <> fr_val X a /\
  cdg_generate f [(a, v)] [] = Ok res /\ In (a, fr_val X a) res /\ ~ In (a, v) res.
Proof.
  exists (fr3 [0;1] [0;1;2]), 0, 1, [2]. eexists. exists 2, [qz 9; qz 9]. eexists.
  split; [split; [repeat constructor; cbn; lia|intros; reflexivity]|]. split; [repeat constructor; cbn; lia|]. split; [reflexivity|]. split; [left; reflexivity|].
  assert (N : [qz 9; qz 9] <> fr_val (fr3 [0; 1] [0; 1; 2]) 2) by (intro E; apply (f_equal (fun l => this (hd 0%Qc l))) in E; vm_compute in E; discriminate).
  split; [exact N|]. split; [reflexivity|]. split; [right; right; left; reflexivity|].
  intros [E|[E|[E|[]]]]; apply (f_equal fst) in E as E1; cbn in E1; try discriminate.
Qed.
Print Assumptions C100_endogenous_intervention_refuted.
(** For the cause and the effect it does appear. *)
Theorem C100_endogenous_intervention_partial : forall mc me X cause effect adj f endog exog k v, well_formed X -> NoDup (fr_index X) ->
  cdg_fit mc me X cause effect adj = Ok f -> adj <> [] -> cause <> effect ->
  (forall c, In c (fr_cols X) -> In c (cause :: effect :: adj)) ->
  check_dict f endog = true -> check_dict f exog = true ->
  k = cause \/ k = effect -> lookup k endog = Some v ->
  exists res, cdg_generate f endog exog = Ok res /\ In (k, v) res.
Proof.
  intros mc me X cause effect adj f endog exog k v WF NI F NA CE CO KE KX K L.
  destruct (generate_eval mc me X cause effect adj f endog exog WF NI F NA CO KE KX) as (g & E & G). cbv zeta in G. eexists. split; [exact E|].
  assert (LV : length v = length (fr_index X)).
  { unfold lookup in L. destruct (find (fun e => fst e =? k) endog) as [[k' v']|] eqn:Q; [|discriminate]. cbn in L. injection L as ->. apply find_some in Q. destruct Q as [Q _].
    unfold check_dict in KE. rewrite forallb_forall in KE. specialize (KE _ Q). apply andb_true_iff in KE. destruct KE as [_ KE]. apply Nat.eqb_eq in KE. cbn in KE.
    unfold cdg_fit in F. destruct (negb (memb cause (fr_cols X))); [discriminate|]. destruct (negb (memb effect (fr_cols X))); [discriminate|].
    destruct (negb (forallb (fun a => memb a (fr_cols X)) adj)); [discriminate|]. injection F as <-. exact KE. }
  assert (M : In k (fr_cols X)).
  { unfold cdg_fit in F. destruct (memb cause (fr_cols X)) eqn:M1; [|discriminate]. destruct (memb effect (fr_cols X)) eqn:M2; [|discriminate]. apply memb_In in M1, M2. destruct K as [->| ->]; assumption. }
  assert (GV : g k = v).
  { rewrite G. destruct K as [->| ->].
    - rewrite L. destruct (lookup effect endog); rewrite upd_diff by exact CE; apply upd_same.
    - rewrite L. apply upd_same. }
  apply in_map_iff. exists k. split; [|exact M]. rewrite GV. f_equal. rewrite <- LV. apply map_nth_seq.
Qed.
Print Assumptions C100_endogenous_intervention_partial.
Example C100_example : exists f, cdg_fit msum msum (fr3 [7;4] [2;0;1]) 0 1 [2] = Ok f /\ check_dict f [(0, [qz 3; qz 4])] = true /\ lookup 0 [(0, [qz 3; qz 4])] = Some [qz 3; qz 4].
Proof. eexists. split; [reflexivity|]. split; reflexivity. Qed.

(** C101: under an intervention on the cause, the adjustments keep their values and the effect is its
    model at the new cause plus its own residual; an intervention on the effect changes nothing else. *)
Theorem C101_intervention_semantics : forall mc me X cause effect adj f v, well_formed X -> NoDup (fr_index X) ->
  cdg_fit mc me X cause effect adj = Ok f -> adj <> [] -> cause <> effect -> ~ In cause adj -> ~ In effect adj ->
  (forall c, In c (fr_cols X) -> In c (cause :: effect :: adj)) -> length v = length (fr_index X) ->
  (forall F, length (mc F) = length (fr_index X)) -> (forall F, length (me F) = length (fr_index X)) ->
  let residual := qsub (fr_val X effect) (me (map (fr_val X) (cause :: adj))) in
  cdg_generate f [(cause, v)] [] =
    Ok (map (fun c => (c, if c =? effect then qadd residual (me (v :: map (fr_val X) adj)) else if c =? cause then v else fr_val X c)) (fr_cols X)) /\
  cdg_generate f [(effect, v)] [] = Ok (map (fun c => (c, if c =? effect then v else fr_val X c)) (fr_cols X)).
Proof.
  intros mc me X cause effect adj f v WF NI F NA CE NC NE CO LV LC LE residual.
  assert (CK : forall k, k = cause \/ k = effect -> check_dict f [(k, v)] = true).
  { intros k K. unfold check_dict. cbn [forallb fst snd]. unfold cdg_fit in F. destruct (negb (memb cause (fr_cols X))); [discriminate|]. destruct (negb (memb effect (fr_cols X))); [discriminate|].
    destruct (negb (forallb (fun a => memb a (fr_cols X)) adj)); [discriminate|]. injection F as <-. cbn [ft_cause ft_effect ft_adj ft_X]. rewrite andb_true_r. apply andb_true_iff. split; [|apply Nat.eqb_eq; exact LV].
    apply memb_In. destruct K as [->| ->]; [left|right; left]; reflexivity. }
  assert (M : In cause (fr_cols X) /\ In effect (fr_cols X)).
  { unfold cdg_fit in F. destruct (memb cause (fr_cols X)) eqn:M1; [|discriminate]. destruct (memb effect (fr_cols X)) eqn:M2; [|discriminate]. apply memb_In in M1, M2. split; assumption. }
  destruct M as [M1 M2]. pose proof WF as [ND WV].
  assert (LA : forall a b, length a = length (fr_index X) -> length b = length (fr_index X) -> length (qadd a b) = length (fr_index X)).
  { clear. generalize (length (fr_index X)). intros n a. revert n. induction a as [|x a IH]; intros n [|y b] H1 H2; cbn in *; try lia. destruct n; [lia|]. f_equal. apply IH; lia. }
  assert (LS : forall a b, length a = length (fr_index X) -> length b = length (fr_index X) -> length (qsub a b) = length (fr_index X)).
  { clear. generalize (length (fr_index X)). intros n a. revert n. induction a as [|x a IH]; intros n [|y b] H1 H2; cbn in *; try lia. destruct n; [lia|]. f_equal. apply IH; lia. }
  assert (LR : length residual = length (fr_index X)) by (unfold residual; apply LS; [apply WV; exact M2|apply LE]).
  assert (PT : forall l, length l = length (fr_index X) -> map (fun r => nth r l 0%Qc) (seq 0 (length (fr_index X))) = l) by (intros l Hl; rewrite <- Hl; apply map_nth_seq).
  set (g0 := upd (upd (fr_val X) cause (qsub (fr_val X cause) (mc (map (fr_val X) adj)))) effect residual).
  assert (G0 : map g0 adj = map (fr_val X) adj).
  { apply map_ext_in. intros a Ha. unfold g0. rewrite upd_diff by (intros ->; contradiction). apply upd_diff. intros ->. contradiction. }
  split.
  - destruct (generate_eval mc me X cause effect adj f [(cause, v)] [] WF NI F NA CO (CK cause (or_introl eq_refl)) eq_refl) as (g & E & G). rewrite E. f_equal. apply map_ext_in. intros c Hc. f_equal.
    unfold lookup in G. cbn [find fst] in G. rewrite Nat.eqb_refl in G. destruct (Nat.eqb_spec cause effect) as [|_]; [contradiction|]. cbn [option_map snd fold_left] in G. cbv zeta in G. fold residual in G. fold g0 in G.
    set (g1 := upd g0 cause v) in G.
    assert (G1 : map g1 (cause :: adj) = v :: map (fr_val X) adj).
    { cbn [map]. f_equal; [apply upd_same|]. rewrite <- G0. apply map_ext_in. intros a Ha. unfold g1. apply upd_diff. intros ->. contradiction. }
    rewrite G1 in G. replace (g1 effect) with residual in G by (unfold g1, g0; rewrite upd_diff by congruence; rewrite upd_same; reflexivity).
    rewrite G. destruct (Nat.eqb_spec c effect) as [->|N1]; [rewrite upd_same; apply PT; apply LA; [exact LR|apply LE]|]. rewrite upd_diff by exact N1. unfold g1.
    destruct (Nat.eqb_spec c cause) as [->|N2]; [rewrite upd_same; apply PT; exact LV|]. rewrite upd_diff by exact N2. unfold g0. rewrite !upd_diff by assumption. apply PT. apply WV. exact Hc.
  - destruct (generate_eval mc me X cause effect adj f [(effect, v)] [] WF NI F NA CO (CK effect (or_intror eq_refl)) eq_refl) as (g & E & G). rewrite E. f_equal. apply map_ext_in. intros c Hc. f_equal.
    unfold lookup in G. cbn [find fst] in G. rewrite Nat.eqb_refl in G. destruct (Nat.eqb_spec effect cause) as [|_]; [congruence|]. cbn [option_map snd fold_left] in G. cbv zeta in G. fold residual in G. fold g0 in G.
    rewrite G0 in G. replace (g0 cause) with (qsub (fr_val X cause) (mc (map (fr_val X) adj))) in G by (unfold g0; rewrite upd_diff by exact CE; rewrite upd_same; reflexivity).
    rewrite qadd_qsub in G by (rewrite WV by exact M1; apply LC).
    rewrite G. destruct (Nat.eqb_spec c effect) as [->|N1]; [rewrite upd_same; apply PT; exact LV|]. rewrite upd_diff by exact N1.
    destruct (Nat.eq_dec c cause) as [->|N2]; [rewrite upd_same; apply PT; apply WV; exact Hc|]. rewrite upd_diff by exact N2. unfold g0. rewrite !upd_diff by assumption. apply PT. apply WV. exact Hc.
Qed.
Print Assumptions C101_intervention_semantics.
Example C101_example : forall v, exists f, cdg_fit (fun _ => v) (fun _ => v) (fr3 [7;4] [2;0;1]) 0 1 [2] = Ok f /\ NoDup [7;4] /\ ~ In 0 [2] /\ ~ In 1 [2].
Proof. intro v. eexists. split; [reflexivity|]. repeat split; [repeat constructor; cbn; lia|cbn; lia|cbn; lia]. Qed.

(** ** OutOfSampleCausalTuning *)
Definition mkn (l : list (list Z)) : mat num := fun i j => Some (qz (nth j (nth i l []) 0%Z)).
(** Edge j -> i of an estimated matrix: the entry is NaN or larger than 1e-8 in absolute value. *)
Definition tuned_edge (n : nat) (g : mat num) (j i : nat) : Prop :=
  i < n /\ j < n /\ match g i j with None => True | Some w => (qf 1 100000000 < qabs w)%Qc end.
Definition blanket (E : graph) (i j : nat) : Prop := E j i \/ E i j \/ (j <> i /\ exists c, E i c /\ E j c).
Lemma oedge_tuned : forall n g a b, oedge n g a b <-> tuned_edge n g a b.
Proof. intros n g a b. unfold oedge, tuned_edge, oct_edge. destruct (g b a); [rewrite qltb_lt|]; tauto. Qed.
(** C65: the explanatory variables are the Markov blanket, in increasing order without repetition; for
    graphs without self loops a variable never explains itself, and blankets are symmetric. *)
Theorem C65_markov_blanket : forall n g i, i < n ->
  (forall j, In j (oct_explanatory n (Some g) i) <-> blanket (tuned_edge n g) i j) /\
  StronglySorted lt (oct_explanatory n (Some g) i) /\
  ((forall v, ~ tuned_edge n g v v) ->
     ~ In i (oct_explanatory n (Some g) i) /\
     forall j, j < n -> (In j (oct_explanatory n (Some g) i) <-> In i (oct_explanatory n (Some g) j))).
Proof.
  intros n g i Hi. cbn [oct_explanatory].
  assert (G : forall i j, i < n -> (In j (oct_mb n g i) <-> blanket (tuned_edge n g) i j)).
  { intros a b Ha. rewrite oct_mb_In by exact Ha. unfold blanket. rewrite !oedge_tuned. split; (intros [H|[H|[H (c & H1 & H2)]]]; [left|right; left|right; right; split; [|exists c]]; try exact H); rewrite ?oedge_tuned in *; tauto. }
  split; [intro j; apply G; exact Hi|]. split; [apply oct_mb_sorted|]. intro L. split.
  - rewrite G by exact Hi. intros [H|[H|[H _]]]; [exact (L i H)|exact (L i H)|congruence].
  - intros j Hj. rewrite !G by assumption. unfold blanket. split; (intros [H|[H|[H (c & H1 & H2)]]]; [right; left; exact H|left; exact H|right; right; split; [congruence|exists c; tauto]]).
Qed.
Print Assumptions C65_markov_blanket.
Example C65_example : map (oct_explanatory 5 (Some (mkn [[0;0;0;0;0];[0;0;0;0;0];[1;2;0;0;0];[0;0;3;0;0];[0;0;0;0;0]]%Z))) (seq 0 5) = [[1;2];[0;2];[0;1;3];[2];[]].
Proof. vm_compute. reflexivity. Qed.
(** The penalised choice: the unpenalised best or a configuration that passed the permutation test; its
    blanket size is minimal among those. *)
Theorem C65_sparsity_choice : forall thr pv mb K best, let r := oct_select thr pv mb K best in
  (r = best \/ (r < K /\ (thr < pv r)%Qc)) /\ (mb r <= mb best)%Qc /\
  (forall k, k < K -> (thr < pv k)%Qc -> k <> best -> (mb r <= mb k)%Qc).
Proof. exact oct_select_spec. Qed.
Print Assumptions C65_sparsity_choice.
Example C65_choice_example : oct_select (qf 5 100) (fun k => nth k [qf 0 1; qf 1 2; qf 1 100; qf 1 3] 0%Qc) (fun k => nth k [qz 4; qz 3; qz 1; qz 2] 0%Qc) 4 0 = 3.
Proof. vm_compute. reflexivity. Qed.

(** C102: a configuration without a model is rejected by the parameter check with ValueError, as the
    message in the code says.  False: it passes, and fails in the first fold with TypeError. *)
Theorem C102_missing_model_reported_refuted : exists c, cf_all_others c = None /\ cf_model c = None /\
  exists c', check_config c = Ok c' /\ forall fit, config_graph fit c' = Err TypeError.
Proof. exists {| cf_all_others := None; cf_model := None |}. split; [reflexivity|]. split; [reflexivity|]. eexists. split; [reflexivity|]. intro fit. reflexivity. Qed.
Print Assumptions C102_missing_model_reported_refuted.
(** What holds: a configuration with a model, or with all_others, is evaluated as asked. *)
Theorem C102_missing_model_reported_partial : forall c fit,
  exists c', check_config c = Ok c' /\
  (cf_all_others c = Some true -> config_graph fit c' = Ok None) /\
  (forall m, cf_all_others c <> Some true -> cf_model c = Some m -> config_graph fit c' = Ok (Some (fit m))) /\
  (cf_all_others c <> Some true -> cf_model c = None -> config_graph fit c' = Err TypeError).
Proof.
  intros [a m] fit. eexists. split; [reflexivity|]. cbn. unfold config_graph. cbn. split; [intros ->; reflexivity|].
  split; [intros k H ->|intros H ->]; destruct a as [[|]|]; try congruence; reflexivity.
Qed.
Print Assumptions C102_missing_model_reported_partial.
Example C102_example : cf_all_others {| cf_all_others := Some false; cf_model := Some 3 |} <> Some true.
Proof. discriminate. Qed.

(** C103: without the sparsity penalty the chosen configuration has the highest score.  False when a
    score is NaN (a constant prediction makes it NaN): the NaN configuration is chosen. *)
Theorem C103_best_score_refuted : exists scores b, oct_best scores = Some b /\ nth b scores (Some 0%Qc) = None /\ exists k q, nth_error scores k = Some (Some q).
Proof. exists [Some (qz 1); None; Some (qz 2)], 1. split; [reflexivity|]. split; [reflexivity|]. exists 2, (qz 2). reflexivity. Qed.
Print Assumptions C103_best_score_refuted.
Theorem C103_best_score_partial : forall l : list Qc, l <> [] ->
  exists b v, oct_best (map Some l) = Some b /\ nth_error l b = Some v /\
    (forall y, In y l -> (y <= v)%Qc) /\ (forall k y, k < b -> nth_error l k = Some y -> (y < v)%Qc).
Proof. exact argmax_spec. Qed.
Print Assumptions C103_best_score_partial.
Example C103_example : oct_best (map Some [qz 1; qz 3; qz 2; qz 3]) = Some 1.
Proof. vm_compute. reflexivity. Qed.

(** C104: the reported mb_size is the mean number of explanatory variables and lies between 0 and
    n - 1 for graphs without self loops; for all_others it is n - 1. *)
Theorem C104_mb_size : forall n gs, 0 < n -> gs <> [] ->
  (forall g v, In (Some g) gs -> ~ tuned_edge n g v v) ->
  (0 <= oct_mb_size n gs)%Qc /\ (oct_mb_size n gs <= qn (n - 1))%Qc /\
  ((forall g, In g gs -> g = None) -> oct_mb_size n gs = qn (n - 1)).
Proof.
  intros n gs Hn NE L. apply mb_size_bounds; [exact Hn|exact NE|]. intros g v H. rewrite oedge_tuned. apply L. exact H.
Qed.
Print Assumptions C104_mb_size.
Example C104_example : this (oct_mb_size 3 [Some (mkn [[0;0;0];[1;0;0];[0;1;0]]%Z); None]) = (5 # 3)%Q.
Proof. vm_compute. reflexivity. Qed.
