(** * Property theorems: bootstrap summaries of LongitudinalLiNGAM (C120-C123), total effects by
    regression (C124), residuals and p-values (C125).

    Vocabulary: SpecLong.v, SpecBootstrap.v.  A row [((i, tau*p + j, s), c)] of a table of time [t]
    means: effect of variable j at time t - tau on variable i at time t, sign s, count c. *)
From Coq Require Import List Arith Lia Bool ZArith QArith Qcanon Permutation Sorted Relations.
From Verif Require Import Prelude Spec SpecPaths SpecBootstrap SpecLong Lib LibMat ModelPaths ModelBootstrap ModelVAR ProofVAR ModelLong
  ModelDirect ModelTotal ModelQuery ModelLongResult ProofPaths ProofTotal ProofBootstrap ProofBootstrap2 ProofBootstrap3 ProofLong ProofQuery ProofLongResult Props_Bootstrap Props_Long ProofDirect2.
Import ListNotations.
Open Scope nat_scope.

(** ** C120 *)
Theorem C120_direction_counts :
  forall argsort p L T ms min_ce, argsort_ok argsort -> valid_threshold min_ce -> 0 < p -> ms <> [] ->
  exists tables, long_direction_counts argsort p L T ms None min_ce false = Ok tables /\ length tables = T /\
    forall t, t < T -> let rows := nth t tables [] in
      NoDup (map fst rows) /\ StronglySorted (fun a b => snd b <= snd a) rows /\
      forall i col s c, In ((i, col, s), c) rows <->
        exists tau j, col = tau * p + j /\ tau <= L /\ i < p /\ j < p /\ s = 0%Z /\ 0 < c /\
          number_of (fun b => large (threshold min_ce) (coef_of ms t tau i j b)) (length ms) c.
Proof.
  intros argsort p L T ms min_ce OK V Hp NE. unfold long_direction_counts. cbn [check_top bind]. rewrite (check_min_ok _ V). cbn [bind].
  apply (map_result_seq _ _ T (fun t rows => NoDup (map fst rows) /\ StronglySorted (fun a b => snd b <= snd a) rows /\
      forall i col s c, In ((i, col, s), c) rows <->
        exists tau j, col = tau * p + j /\ tau <= L /\ i < p /\ j < p /\ s = 0%Z /\ 0 < c /\
          number_of (fun b => large (threshold min_ce) (coef_of ms t tau i j b)) (length ms) c) []).
  intros t Ht. destruct ms as [|m0 ms0] eqn:EM; [congruence|]. rewrite <- EM in *. clear EM NE.
  destruct (C20_direction_counts argsort p (p * (L + 1)) (map (fun s => long_concat p s t) ms) min_ce OK V) as [rows [E [ND [SS H]]]].
  exists rows. split; [exact E|]. split; [exact ND|]. split; [exact SS|]. intros i col s c. rewrite H, map_length. split.
  - intros (Es & Hi & Hc & Hn & N). apply (col_split p L col Hp) in Hc. destruct Hc as (tau & j & -> & Ht' & Hj).
    exists tau, j. repeat (split; [assumption || reflexivity|]). eapply number_of_ext; [|exact N].
    intros b Hb. symmetry. apply exceeds_concat; assumption.
  - intros (tau & j & -> & Ht' & Hi & Hj & Es & Hn & N). repeat (split; [assumption || (apply (col_split p L _ Hp); exists tau, j; auto)|]).
    eapply number_of_ext; [|exact N]. intros b Hb. apply exceeds_concat; assumption.
Qed.
Print Assumptions C120_direction_counts.
Theorem C120_direction_counts_by_sign :
  forall argsort p L T ms min_ce, argsort_ok argsort -> valid_threshold min_ce -> 0 < p -> ms <> [] ->
  exists tables, long_direction_counts argsort p L T ms None min_ce true = Ok tables /\ length tables = T /\
    forall t, t < T -> let rows := nth t tables [] in
      NoDup (map fst rows) /\ StronglySorted (fun a b => snd b <= snd a) rows /\
      forall i col s c, In ((i, col, s), c) rows <->
        exists tau j, col = tau * p + j /\ tau <= L /\ i < p /\ j < p /\ 0 < c /\
          ((s = 1%Z /\ number_of (fun b => large_pos (threshold min_ce) (coef_of ms t tau i j b)) (length ms) c) \/
           (s = (-1)%Z /\ number_of (fun b => large_neg (threshold min_ce) (coef_of ms t tau i j b)) (length ms) c)).
Proof.
  intros argsort p L T ms min_ce OK V Hp NE. unfold long_direction_counts. cbn [check_top bind]. rewrite (check_min_ok _ V). cbn [bind].
  apply (map_result_seq _ _ T (fun t rows => NoDup (map fst rows) /\ StronglySorted (fun a b => snd b <= snd a) rows /\
      forall i col s c, In ((i, col, s), c) rows <->
        exists tau j, col = tau * p + j /\ tau <= L /\ i < p /\ j < p /\ 0 < c /\
          ((s = 1%Z /\ number_of (fun b => large_pos (threshold min_ce) (coef_of ms t tau i j b)) (length ms) c) \/
           (s = (-1)%Z /\ number_of (fun b => large_neg (threshold min_ce) (coef_of ms t tau i j b)) (length ms) c))) []).
  intros t Ht. destruct ms as [|m0 ms0] eqn:EM; [congruence|]. rewrite <- EM in *. clear EM NE.
  destruct (C20_direction_counts_by_sign argsort p (p * (L + 1)) (map (fun s => long_concat p s t) ms) min_ce OK V) as [rows [E [ND [SS H]]]].
  exists rows. split; [exact E|]. split; [exact ND|]. split; [exact SS|]. intros i col s c. rewrite H, map_length. split.
  - intros (Hi & Hc & Hn & N). apply (col_split p L col Hp) in Hc. destruct Hc as (tau & j & -> & Ht' & Hj).
    exists tau, j. repeat (split; [assumption || reflexivity|]).
    destruct N as [[Es N]|[Es N]]; [left|right]; (split; [exact Es|]); (eapply number_of_ext; [|exact N]);
      intros b Hb; symmetry; apply exceeds_concat; assumption.
  - intros (tau & j & -> & Ht' & Hi & Hj & Hn & N). repeat (split; [assumption || (apply (col_split p L _ Hp); exists tau, j; auto)|]).
    destruct N as [[Es N]|[Es N]]; [left|right]; (split; [exact Es|]); (eapply number_of_ext; [|exact N]);
      intros b Hb; apply exceeds_concat; assumption.
Qed.
Print Assumptions C120_direction_counts_by_sign.
(** n_directions keeps the first rows of every table. *)
Theorem C120_truncation : forall argsort p L T ms z min_ce split tables, (0 < z)%Z ->
  long_direction_counts argsort p L T ms None min_ce split = Ok tables ->
  long_direction_counts argsort p L T ms (Some z) min_ce split = Ok (map (firstn (Z.to_nat z)) tables).
Proof.
  intros argsort p L T ms z min_ce split tables Hz. unfold long_direction_counts. cbn [check_top].
  destruct (Z.ltb_spec 0 z); [|lia]. cbn [bind]. destruct (check_min min_ce) as [m|]; [|discriminate]. cbn [bind].
  generalize (seq 0 T). intros ts. revert tables. induction ts as [|t ts IH]; intros tables; cbn [map_result]; [intros [= <-]; reflexivity|].
  destruct ms as [|m0 ms0]; [discriminate|].
  destruct (get_causal_direction_counts argsort p (p * (L + 1)) (map (fun s => long_concat p s t) (m0 :: ms0)) None min_ce split) as [rows|] eqn:E; [|discriminate].
  rewrite (direction_counts_top _ _ _ _ z _ _ _ Hz E). cbn [bind]. intro H0. destruct (map_result _ ts) as [ys|] eqn:E2 in H0; [|discriminate].
  cbn [bind] in H0. injection H0 as <-. rewrite (IH ys E2). reflexivity.
Qed.
Print Assumptions C120_truncation.
(** Errors: exactly the documented argument errors, and results without any sample. *)
Theorem C120_errors : forall argsort p L T ms k min_ce split e, argsort_ok argsort ->
  (long_direction_counts argsort p L T ms k min_ce split = Err e <->
   e = ValueError /\ ((exists z, k = Some z /\ (z <= 0)%Z) \/ ~ valid_threshold min_ce \/ (ms = [] /\ 0 < T))).
Proof.
  intros argsort p L T ms k min_ce split e OK. unfold long_direction_counts.
  destruct (check_top_cases k) as [[o Eo]|I].
  2: { rewrite (check_top_err k I). cbn [bind]. split; [intros [= <-]; auto|intros [-> _]; reflexivity]. }
  assert (NK : ~ exists z, k = Some z /\ (z <= 0)%Z) by (intro I; rewrite (check_top_err k I) in Eo; discriminate).
  rewrite Eo. cbn [bind]. destruct (check_min min_ce) as [m|e0] eqn:Em; cbn [bind].
  2: { unfold check_min in Em. destruct min_ce as [v|]; [|discriminate]. destruct (qltb 0 v) eqn:Ev; [discriminate|]. injection Em as <-. split.
    - intros [= <-]. split; [reflexivity|]. right. left. intro V. cbn in V. apply qltb_lt in V. congruence.
    - intros [-> _]. reflexivity. }
  assert (V : valid_threshold min_ce).
  { unfold check_min in Em. destruct min_ce as [v|]; [|exact I]. destruct (qltb 0 v) eqn:Ev; [|discriminate]. apply qltb_lt. exact Ev. }
  destruct ms as [|m0 ms0].
  - destruct T as [|T]; cbn [seq map_result bind].
    + split; [discriminate|]. intros (_ & [H|[H|[_ H]]]); [contradiction|contradiction|lia].
    + split; [intros [= <-]; split; [reflexivity|]; right; right; split; [reflexivity|lia]|intros [-> _]; reflexivity].
  - split; [|intros (_ & [H|[H|[H _]]]); [contradiction|contradiction|discriminate]].
    set (f := fun t => _). assert (F : forall t, exists y, f t = Ok y).
    { intro t. unfold f. destruct (C20_direction_counts argsort p (p * (L + 1)) (map (fun s => long_concat p s t) (m0 :: ms0)) min_ce OK V) as [r1 [E1 _]].
      destruct (C20_direction_counts_by_sign argsort p (p * (L + 1)) (map (fun s => long_concat p s t) (m0 :: ms0)) min_ce OK V) as [r2 [E2 _]].
      destruct k as [z|]; [|destruct split; eauto].
      assert (Hz : (0 < z)%Z) by (destruct (Z.ltb_spec 0 z); [assumption|exfalso; apply NK; exists z; split; [reflexivity|lia]]).
      destruct split; [rewrite (direction_counts_top _ _ _ _ z _ _ _ Hz E2)|rewrite (direction_counts_top _ _ _ _ z _ _ _ Hz E1)]; eexists; reflexivity. }
    intro H. exfalso. revert H. generalize (seq 0 T). induction l as [|t l IH]; cbn [map_result]; [discriminate|].
    destruct (F t) as [y ->]. cbn [bind]. destruct (map_result f l); [discriminate|]. cbn [bind]. exact IH.
Qed.
Print Assumptions C120_errors.
(** Two samples, one variable, two lags, three time points; only time 2 has coefficients. *)
Definition ex_ms : list long_sample :=
  [fun t tau _ _ => if t <? 2 then None else Some (qz (nth tau [0; 2; 3]%Z 0%Z));
   fun t tau _ _ => if t <? 2 then None else Some (qz (nth tau [0; 4; 0]%Z 0%Z))].
Example C120_example :
  long_direction_counts ins_argsort 1 2 3 ex_ms None None false = Ok [[]; []; [((0, 1, 0%Z), 2); ((0, 2, 0%Z), 1)]] /\
  long_direction_counts ins_argsort 1 2 3 ex_ms (Some 1%Z) None true = Ok [[]; []; [((0, 1, 1%Z), 2)]] /\
  long_direction_counts ins_argsort 1 2 3 [] None None false = Err ValueError.
Proof. vm_compute. repeat split; reflexivity. Qed.

(** ** C121 *)
(** [E] lists exactly the large coefficients of time [t] in sample [b]; marks are signs or 1. *)
Definition describes_time (p L : nat) (m : Qc) (split : bool) (ms : list long_sample) (t : nat) (E : list (nat * nat * Z)) (b : nat) : Prop :=
  forall i col s, In (i, col, s) E <-> exists tau j, col = tau * p + j /\ tau <= L /\ i < p /\ j < p /\
    large m (coef_of ms t tau i j b) /\
    (if split then (s = 1%Z /\ large_pos m (coef_of ms t tau i j b)) \/ (s = (-1)%Z /\ large_neg m (coef_of ms t tau i j b)) else s = 1%Z).
Lemma describes_time_iff : forall p L m split ms t E b, 0 < p -> b < length ms ->
  (describes p (p * (L + 1)) m split (map (fun s => long_concat p s t) ms) E b <-> describes_time p L m split ms t E b).
Proof.
  intros p L m split ms t E b Hp Hb. unfold describes, describes_time.
  assert (Q : forall i col s,
    (i < p /\ col < p * (L + 1) /\ exceeds m (map (fun s => long_concat p s t) ms) i col b /\
      (if split then (s = 1%Z /\ exceeds_pos m (map (fun s => long_concat p s t) ms) i col b) \/ (s = (-1)%Z /\ exceeds_neg m (map (fun s => long_concat p s t) ms) i col b) else s = 1%Z))
    <-> exists tau j, col = tau * p + j /\ tau <= L /\ i < p /\ j < p /\ large m (coef_of ms t tau i j b) /\
    (if split then (s = 1%Z /\ large_pos m (coef_of ms t tau i j b)) \/ (s = (-1)%Z /\ large_neg m (coef_of ms t tau i j b)) else s = 1%Z)).
  { intros i col s. rewrite (col_split p L col Hp). split.
    - intros (Hi & (tau & j & -> & Ht & Hj) & H1 & H2). exists tau, j.
      destruct (exceeds_concat p ms t m i tau j b Hj Hb) as (X1 & X2 & X3). apply X1 in H1. destruct split; [rewrite X2, X3 in H2|]; auto 8.
    - intros (tau & j & -> & Ht & Hi & Hj & H1 & H2). destruct (exceeds_concat p ms t m i tau j b Hj Hb) as (X1 & X2 & X3).
      split; [exact Hi|]. split; [exists tau, j; auto|]. split; [apply X1; exact H1|]. destruct split; [rewrite X2, X3|]; exact H2. }
  split; intros H i col s; [rewrite <- Q; apply H|rewrite Q; apply H].
Qed.
Theorem C121_graph_counts :
  forall argsort p L T ms min_ce split, argsort_ok argsort -> valid_threshold min_ce -> 0 < p ->
  exists tables, long_dag_counts argsort p L T ms None min_ce split = Ok tables /\ length tables = T /\
    forall t, t < T -> let rows := nth t tables [] in
      list_sum (map snd rows) = length ms /\ StronglySorted (fun a b => snd b <= snd a) rows /\
      (forall E c, In (E, c) rows -> NoDup (map fst E) /\ 0 < c /\
         number_of (describes_time p L (threshold min_ce) split ms t E) (length ms) c) /\
      (forall b, b < length ms -> exists E c, In (E, c) rows /\ describes_time p L (threshold min_ce) split ms t E b) /\
      (forall x y E c E' c', nth_error rows x = Some (E, c) -> nth_error rows y = Some (E', c') ->
         (forall e, In e E <-> In e E') -> x = y).
Proof.
  intros argsort p L T ms min_ce split OK V Hp. unfold long_dag_counts. cbn [check_top bind]. rewrite (check_min_ok _ V). cbn [bind].
  apply (map_result_seq _ _ T (fun t rows => list_sum (map snd rows) = length ms /\ StronglySorted (fun a b => snd b <= snd a) rows /\
      (forall E c, In (E, c) rows -> NoDup (map fst E) /\ 0 < c /\ number_of (describes_time p L (threshold min_ce) split ms t E) (length ms) c) /\
      (forall b, b < length ms -> exists E c, In (E, c) rows /\ describes_time p L (threshold min_ce) split ms t E b) /\
      (forall x y E c E' c', nth_error rows x = Some (E, c) -> nth_error rows y = Some (E', c') -> (forall e, In e E <-> In e E') -> x = y)) []).
  intros t Ht. destruct (C21_graph_counts argsort p (p * (L + 1)) (map (fun s => long_concat p s t) ms) min_ce split OK V) as [rows [E [H1 [H2 [H3 [H4 H5]]]]]].
  rewrite map_length in H1, H3, H4. exists rows. split; [exact E|]. split; [exact H1|]. split; [exact H2|]. split; [|split; [|exact H5]].
  - intros F c I. destruct (H3 F c I) as (A & B & C). split; [exact A|]. split; [exact B|]. eapply number_of_ext; [|exact C].
    intros b Hb. symmetry. apply describes_time_iff; assumption.
  - intros b Hb. destruct (H4 b Hb) as (F & c & I & D). exists F, c. split; [exact I|]. apply describes_time_iff; assumption.
Qed.
Print Assumptions C121_graph_counts.
Example C121_example :
  long_dag_counts ins_argsort 1 2 3 ex_ms None None false
    = Ok [[([], 2)]; [([], 2)]; [([(0, 1, 1%Z); (0, 2, 1%Z)], 1); ([(0, 1, 1%Z)], 1)]].
Proof. vm_compute. reflexivity. Qed.

(** ** C122 *)
Theorem C122_probabilities : forall ms min_ce, ms <> [] -> valid_threshold min_ce ->
  exists P, long_probabilities ms min_ce = Ok P /\
    forall t tau i j, exists c, number_of (fun b => large (threshold min_ce) (coef_of ms t tau i j b)) (length ms) c /\
      P t tau i j = (qn c / qn (length ms))%Qc.
Proof.
  intros ms min_ce NE V. unfold long_probabilities. rewrite (check_min_ok _ V). cbn [bind]. destruct ms as [|m0 ms0] eqn:EM; [congruence|]. rewrite <- EM. clear EM NE.
  eexists. split; [reflexivity|]. intros t tau i j. eexists. split; [|reflexivity].
  pose proof (threshold_nonneg _ V) as Hm. generalize (threshold min_ce) as m, Hm. clear. intros m Hm.
  induction ms as [|s ms IH]; [exists []; split; [split; [constructor|intro k; split; [intros []|intros [H _]; cbn in H; lia]]|reflexivity]|].
  destruct IH as [idx [[ND S] L]]. cbn [filter length].
  assert (A : above m (s t tau) i j = true <-> large m (s t tau i j)).
  { unfold above, large. rewrite qltb_lt. destruct (s t tau i j) as [v|]; cbn [nan_to_num].
    - split; [intro H; exists v; auto|intros (w & [= <-] & H); exact H].
    - split; [intro H; exfalso; apply (Qclt_not_le _ _ H); exact Hm|intros (w & D & _); discriminate]. }
  assert (SU : forall k, In k (map Datatypes.S idx) <-> exists k', k = Datatypes.S k' /\ In k' idx).
  { intro k. rewrite in_map_iff. split; intros (k' & H1 & H2); exists k'; auto. }
  destruct (above m (s t tau) i j).
  - exists (0 :: map Datatypes.S idx). split; [split|cbn [length]; rewrite map_length; congruence].
    + constructor; [rewrite SU; intros (k' & D & _); discriminate|]. apply FinFun.Injective_map_NoDup; [intros a b; congruence|exact ND].
    + intros [|k]; cbn [In].
      * split; [intros _; split; [lia|]; apply A; reflexivity|auto].
      * rewrite SU. split.
        -- intros [D|(k' & [= <-] & H)]; [discriminate|]. apply S in H. destruct H as [H1 H2]. split; [lia|exact H2].
        -- intros [H1 H2]. right. exists k. split; [reflexivity|]. apply S. split; [lia|exact H2].
  - exists (map Datatypes.S idx). split; [split|rewrite map_length; exact L].
    + apply FinFun.Injective_map_NoDup; [intros a b; congruence|exact ND].
    + intros [|k]; rewrite SU.
      * split; [intros (k' & D & _); discriminate|]. intros [_ H]. apply A in H. discriminate.
      * split.
        -- intros (k' & [= <-] & H). apply S in H. destruct H as [H1 H2]. split; [lia|exact H2].
        -- intros [H1 H2]. exists k. split; [reflexivity|]. apply S. split; [lia|exact H2].
Qed.
Print Assumptions C122_probabilities.
Example C122_example :
  match long_probabilities ex_ms None with Ok P => map (fun tau => this (P 2 tau 0 0)) [0; 1; 2] | Err _ => [] end = [0; 1; 1 # 2]%Q /\
  match long_probabilities ex_ms (Some (qz 2)) with Ok P => this (P 2 1 0 0) | Err _ => 9%Q end = (1 # 2)%Q.
Proof. split; vm_compute; reflexivity. Qed.
(** Total effects: rows are indexed by time and variable (to_t * p + to, from_t * p + from). *)
Theorem C122_total_effects_partial :
  forall argsort p T tes min_ce, argsort_ok argsort -> tes <> [] -> valid_threshold min_ce ->
  exists rows, long_total_effects argsort p T tes min_ce = Ok rows /\
    NoDup (map (fun r => fst (fst r)) rows) /\ StronglySorted (fun a b => (snd b <= snd a)%Qc) rows /\
    (forall i j e q, In (i, j, e, q) rows <-> i < T * p /\ j < T * p /\
       exists c v, 0 < c /\ number_of (fun k => (threshold min_ce < qabs (nth k tes (fun _ _ => 0%Qc) i j))%Qc) (length tes) c /\
         q = (qn c / qn (length tes))%Qc /\ e = Some v /\
         median_over (fun k => nth k tes (fun _ _ => 0%Qc) i j <> 0%Qc) (length tes) (fun k => nth k tes (fun _ _ => 0%Qc) i j) v).
Proof. intros argsort p T tes min_ce OK NE V. exact (total_causal_effects_spec argsort (T * p) (T * p) tes min_ce OK NE V). Qed.
Print Assumptions C122_total_effects_partial.
(** The effect column ignores the threshold, as in C23. *)
Theorem C122_effect_uses_threshold_refuted :
  show (long_total_effects ins_argsort 1 2 [upd2 (fun _ _ => 0%Qc) 1 0 1%Qc; upd2 (fun _ _ => 0%Qc) 1 0 (qz 10)] (Some (qz 5)))
  = Ok [((1, 0), Some (11 # 2)%Q, (1 # 2)%Q)] /\
  median_over (fun k => (qz 5 < qabs (nth k [1%Qc; qz 10] 0%Qc))%Qc) 2 (fun k => nth k [1%Qc; qz 10] 0%Qc) (qz 10).
Proof.
  split; [vm_compute; reflexivity|]. exists [1]. split.
  - split; [repeat constructor; auto|]. intro k. split.
    + intros [<-|[]]. split; [lia|reflexivity].
    + intros [L X]. destruct k as [|[|k]]; [exfalso; vm_compute in X; discriminate|left; reflexivity|lia].
  - exists [qz 10]. split; [discriminate|]. split; [reflexivity|]. split; [repeat constructor|]. apply Qc_is_canon. reflexivity.
Qed.
Print Assumptions C122_effect_uses_threshold_refuted.

(** ** C123 *)
(** Every directed path of the unrolled graphs, with the fraction of samples that contain it and the
    median of its effects in these. *)
Theorem C123_paths :
  forall argsort p L T ms from to_ from_t to_t min_ce,
  argsort_ok argsort -> ms <> [] -> valid_threshold min_ce -> from < p -> to_ < p -> from_t <= to_t -> to_t < T ->
  (from_t = to_t -> from <> to_) ->
  (forall s t, In s ms -> from_t <= t -> t <= to_t -> acyclic (fun u v => u < p /\ v < p /\ large (threshold min_ce) (s t 0 v u))) ->
  let sample k := nth k ms (fun _ _ _ _ => None) in
  let has q k := dpath (unrolled_edge p L (sample k) from_t to_t (threshold min_ce)) from (p * (to_t - from_t) + to_) q in
  exists rows, long_get_paths argsort p L T ms from to_ from_t to_t min_ce = Ok rows /\
    NoDup (map (fun r => fst (fst r)) rows) /\ StronglySorted (fun a b => (snd b <= snd a)%Qc) rows /\
    (forall q e pr, In (q, e, pr) rows <->
      exists c v, 0 < c /\ number_of (has q) (length ms) c /\ pr = (qn c / qn (length ms))%Qc /\ e = Some v /\
        median_over (has q) (length ms) (fun k => walk_weight (unrolled p L (sample k) from_t) q) v).
Proof.
  intros argsort p L T ms from to_ from_t to_t min_ce OK NE V Hf Hg Ht HT D HA sample has.
  assert (Hp : 0 < p) by lia. set (n_t := to_t - from_t + 1). set (ex := map (fun s => long_expansion p L s from_t n_t) ms).
  assert (LE : length ex = length ms) by apply map_length.
  assert (NT : forall k, k < length ms -> nth k ex (fun _ _ => None) = long_expansion p L (sample k) from_t n_t).
  { intros k Hk. unfold ex. rewrite (nth_indep _ (fun _ _ => None) (long_expansion p L (fun _ _ _ _ => None) from_t n_t)) by (rewrite map_length; exact Hk).
    apply (map_nth (fun s => long_expansion p L s from_t n_t)). }
  pose proof (threshold_nonneg _ V) as Hm.
  destruct (C24_bootstrap_paths argsort (p * n_t) ex from (p * (to_t - from_t) + to_) min_ce OK) as [rows [E [ND [SS H]]]].
  - intro Z. apply NE. apply length_zero_iff_nil. rewrite <- LE, Z. reflexivity.
  - exact V.
  - unfold n_t. nia.
  - destruct (Nat.eq_dec from_t to_t) as [Q|Q]; [subst to_t; rewrite Nat.sub_diag, Nat.mul_0_r; apply D; reflexivity|].
    assert (1 <= to_t - from_t) by lia. nia.
  - intros am I. unfold ex in I. apply in_map_iff in I. destruct I as [s [<- I]].
    eapply acyclic_sub; [|apply (unrolled_acyclic p L s from_t to_t (threshold min_ce) Hp Ht)].
    + intros a b. apply (thr_edge_unrolled p L s from_t to_t (threshold min_ce) Hp Ht Hm).
    + intros t H1 H2. apply HA; assumption.
  - exists rows. split.
    { unfold long_get_paths. rewrite (check_min_ok _ V). cbn [bind]. destruct (Nat.ltb_spec to_t from_t); [lia|].
      replace ((to_t =? from_t) && (to_ =? from)) with false.
      2: { symmetry. destruct (Nat.eqb_spec to_t from_t) as [Q|]; [|reflexivity]. destruct (Nat.eqb_spec to_ from) as [Q'|]; [|reflexivity].
           exfalso. apply (D (eq_sym Q)). symmetry. exact Q'. }
      destruct ms as [|m0 ms0]; [congruence|]. destruct (Nat.leb_spec T to_t); [lia|]. exact E. }
    split; [exact ND|]. split; [exact SS|]. rewrite LE in H.
    assert (HH : forall q k, k < length ms -> (dpath (thr_edge (p * n_t) (nth k ex (fun _ _ => None)) (threshold min_ce)) from (p * (to_t - from_t) + to_) q <-> has q k)).
    { intros q k Hk. rewrite (NT k Hk). apply dpath_iff. intros u v. apply (thr_edge_unrolled p L (sample k) from_t to_t (threshold min_ce) Hp Ht Hm). }
    assert (WW : forall q k, k < length ms -> has q k -> walk_weight (denan (nth k ex (fun _ _ => None))) q = walk_weight (unrolled p L (sample k) from_t) q).
    { intros q k Hk [[_ [_ [_ W]]] _]. rewrite (NT k Hk). apply (unrolled_weight p L (sample k) from_t to_t (threshold min_ce) Hp q W). }
    intros q e pr. rewrite H. split; intros (c & v & H1 & H2 & H3 & H4 & H5); exists c, v; (split; [exact H1|]); (split; [|split; [exact H3|split; [exact H4|]]]).
    + eapply number_of_ext; [|exact H2]. intros k Hk. symmetry. apply HH. exact Hk.
    + eapply median_over_ext; [| |exact H5]; [intros k Hk; symmetry; apply HH; exact Hk|]. intros k Hk X. symmetry. apply WW; assumption.
    + eapply number_of_ext; [|exact H2]. intros k Hk. apply HH. exact Hk.
    + eapply median_over_ext; [| |exact H5]; [intros k Hk; apply HH; exact Hk|]. intros k Hk X. apply WW; [exact Hk|]. apply HH; assumption.
Qed.
Print Assumptions C123_paths.
Theorem C123_errors : forall argsort p L T ms from to_ from_t to_t min_ce,
  (~ valid_threshold min_ce \/ to_t < from_t \/ (to_t = from_t /\ to_ = from) ->
   long_get_paths argsort p L T ms from to_ from_t to_t min_ce = Err ValueError) /\
  (valid_threshold min_ce -> from_t <= to_t -> (from_t = to_t -> from <> to_) -> ms <> [] -> T <= to_t ->
   long_get_paths argsort p L T ms from to_ from_t to_t min_ce = Err IndexError).
Proof.
  intros argsort p L T ms from to_ from_t to_t min_ce. unfold long_get_paths. split.
  - intro H. destruct (check_min min_ce) as [m|e] eqn:E; cbn [bind].
    + assert (V : valid_threshold min_ce).
      { unfold check_min in E. destruct min_ce as [v|]; [|exact I]. destruct (qltb 0 v) eqn:Ev; [|discriminate]. apply qltb_lt. exact Ev. }
      destruct H as [H|[H|[-> ->]]]; [contradiction| |].
      * destruct (Nat.ltb_spec to_t from_t); [reflexivity|lia].
      * rewrite Nat.ltb_irrefl, !Nat.eqb_refl. reflexivity.
    + unfold check_min in E. destruct min_ce as [v|]; [|discriminate]. destruct (qltb 0 v); [discriminate|]. injection E as <-. reflexivity.
  - intros V H D NE HT. rewrite (check_min_ok _ V). cbn [bind]. destruct (Nat.ltb_spec to_t from_t); [lia|].
    replace ((to_t =? from_t) && (to_ =? from)) with false.
    2: { symmetry. destruct (Nat.eqb_spec to_t from_t) as [Q|]; [|reflexivity]. destruct (Nat.eqb_spec to_ from) as [Q'|]; [|reflexivity].
         exfalso. apply (D (eq_sym Q)). symmetry. exact Q'. }
    destruct ms; [congruence|]. destruct (Nat.leb_spec T to_t); [reflexivity|lia].
Qed.
Print Assumptions C123_errors.
Example C123_example : (* x_0 -> x_2 directly (weight 3) and through x_1 (2 * 2); one of two samples has both *)
  show (long_get_paths ins_argsort 1 2 3 [fun t tau _ _ => Some (qz (nth tau [0; 2; 3]%Z 0%Z)); fun t tau _ _ => Some (qz (nth tau [0; 4; 0]%Z 0%Z))] 0 0 0 2 None)
  = Ok [([0; 1; 2], Some 10%Q, 1%Q); ([0; 2], Some 3%Q, (1 # 2)%Q)].
Proof. vm_compute. reflexivity. Qed.

(** ** C124: estimate_total_effect *)
Lemma opt_mem_iff : forall x l, opt_mem (Some x) l = true <-> In (Some x) l.
Proof.
  intros x l. unfold opt_mem. rewrite existsb_exists. split.
  - intros ([y|] & I & E); [|discriminate]. apply Nat.eqb_eq in E. subst y. exact I.
  - intro I. exists (Some x). split; [exact I|]. apply Nat.eqb_refl.
Qed.
Lemma NoDup_map_on : forall {A B} (f : A -> B) l, (forall a b, In a l -> In b l -> f a = f b -> a = b) -> NoDup l -> NoDup (map f l).
Proof.
  intros A B f l. induction l as [|x l IH]; intros H ND; [constructor|]. cbn [map]. inversion ND as [|? ? N1 N2]; subst. constructor.
  - intro I. apply in_map_iff in I. destruct I as (y & E & I). apply N1. rewrite <- (H y x (or_intror I) (or_introl eq_refl) E). exact I.
  - apply IH; [|exact N2]. intros a b Ia Ib. apply H; right; assumption.
Qed.
(** The regression of the target on the source and on the columns X(from_t - tau)_j for exactly the
    stored non-zero coefficients (tau, j) of the source; its first coefficient is returned. *)
Theorem C124_regression_partial : forall lr p L T (X : panel) adj orders from_t from to_t to_,
  from < p -> to_ < p -> L <= from_t ->
  (to_t = from_t -> In (Some from) (orders from_t) /\ In (Some to_) (orders from_t)) ->
  exists parents cols y,
    long_estimate_total_effect lr p L T X adj orders from_t from to_t to_ = Ok (lr cols y 0) /\
    (forall s, y s = X to_t s to_) /\
    NoDup parents /\
    (forall tau j, In (tau, j) parents <-> tau <= L /\ j < p /\ exists w, adj from_t tau from j = Some w /\ w <> 0%Qc) /\
    Forall2 (fun col c => forall s, col s = X (from_t - fst c) s (snd c)) cols ((0, from) :: parents).
Proof.
  intros lr p L T X adj orders from_t from to_t to_ Hf Hg HL HO. assert (Hp : 0 < p) by lia.
  set (cs := filter (fun c => match adj from_t (c / p) from (c mod p) with Some w => qltb 0 (qabs w) | None => false end) (seq 0 (p * (L + 1)))).
  exists (map (fun c => (c / p, c mod p)) cs), (map (joined_col p T X from_t to_t) (long_predictors p L (adj from_t) from)), (joined_col p T X from_t to_t to_).
  assert (CJ : forall tau j s, tau <= L -> j < p -> joined_col p T X from_t to_t (tau * p + j + p) s = X (from_t - tau) s j).
  { intros tau j s Ht Hj. unfold joined_col. destruct (Nat.ltb_spec (tau * p + j + p) p); [lia|]. rewrite Nat.add_sub.
    replace (tau * p + j) with (p * tau + j) by lia. destruct (div_mod_unique p tau j Hj) as [-> ->].
    destruct (Nat.leb_spec tau from_t); [reflexivity|lia]. }
  assert (CB : forall c, In c cs -> c / p <= L /\ c mod p < p).
  { intros c I. unfold cs in I. apply filter_In in I. destruct I as [I _]. apply in_seq in I. split; [|apply Nat.mod_upper_bound; lia].
    assert (c / p < L + 1) by (apply Nat.div_lt_upper_bound; lia). lia. }
  split; [|split; [|split; [|split]]].
  - unfold long_estimate_total_effect. destruct (Nat.eqb_spec to_t from_t) as [->|]; [|reflexivity].
    destruct (HO eq_refl) as [H1 H2]. rewrite (proj2 (opt_mem_iff _ _) H1), (proj2 (opt_mem_iff _ _) H2). reflexivity.
  - intro s. unfold joined_col. destruct (Nat.ltb_spec to_ p); [reflexivity|lia].
  - apply NoDup_map_on.
    + intros a b Ia Ib E. injection E as E1 E2. rewrite (Nat.div_mod a p), (Nat.div_mod b p) by lia. congruence.
    + apply NoDup_filter, seq_NoDup.
  - intros tau j. rewrite in_map_iff. split.
    + intros (c & [= <- <-] & I). destruct (CB c I) as [B1 B2]. split; [exact B1|]. split; [exact B2|].
      unfold cs in I. apply filter_In in I. destruct I as [_ I]. destruct (adj from_t (c / p) from (c mod p)) as [w|]; [|discriminate].
      exists w. split; [reflexivity|]. intros ->. vm_compute in I. discriminate.
    + intros (Ht & Hj & w & E & N). exists (p * tau + j). destruct (div_mod_unique p tau j Hj) as [D M]. rewrite D, M. split; [reflexivity|].
      unfold cs. apply filter_In. split; [apply in_seq; nia|]. rewrite D, M, E. apply qltb_lt. apply qabs_pos. exact N.
  - unfold long_predictors. fold cs. cbn [map]. constructor.
    + intro s. cbn [fst snd]. rewrite <- (CJ 0 from s ltac:(lia) Hf). reflexivity.
    + rewrite map_map. clearbody cs. induction cs as [|c cs IH]; [constructor|]. cbn [map]. constructor; [|apply IH; intros; apply CB; right; assumption].
      destruct (CB c (or_introl eq_refl)) as [B1 B2]. intro s. cbn [fst snd]. rewrite <- (CJ _ _ s B1 B2). f_equal.
      rewrite (Nat.div_mod c p) at 1 by lia. lia.
Qed.
Print Assumptions C124_regression_partial.
(** With two lags these are not the parents: the panel below has X_2 = 2 X_0, stored at lag 1, and
    the regression adjusts for X_1 instead of X_0. *)
Definition ex_panel2 : panel := panel_of [[[1]; [0]; [0]]; [[0]; [1]; [5]]; [[2]; [0]; [0]]; [[4]; [0]; [0]]]%Z.
Definition ex_reg2 : mat Qc -> mat Qc -> mat Qc := fun _ _ _ c => qz (nth c [2; 0]%Z 0%Z).
Theorem C124_adjusts_for_parents_refuted :
  let adj := long_adj ex_reg2 one_lingam 1 2 ex_panel2 in
  let orders := long_orders ex_reg2 one_lingam 1 2 ex_panel2 in
  (forall s, s < 3 -> N_t ex_reg2 1 2 ex_panel2 2 0 s = 0%Qc) /\ (forall s, s < 3 -> ex_panel2 2 s 0 = (qz 2 * ex_panel2 0%nat s 0%nat)%Qc) /\
  (exists v, long_estimate_total_effect (fun cols _ _ => nth 1 cols (fun _ => 0%Qc) 2) 1 2 4 ex_panel2 adj orders 2 0 3 0 = Ok v /\ v = ex_panel2 1 2 0 /\ v <> ex_panel2 0 2 0) /\
  (exists v, long_estimate_total_effect (fun cols _ _ => qn (length cols)) 1 2 4 ex_panel2 adj orders 2 0 3 0 = Ok v /\ v = qn 2).
Proof.
  intros adj orders. split; [|split; [|split]].
  - intros s Hs. apply Qc_is_canon. destruct s as [|[|[|s]]]; [vm_compute; reflexivity..|lia].
  - intros s Hs. apply Qc_is_canon. destruct s as [|[|[|s]]]; [vm_compute; reflexivity..|lia].
  - eexists. split; [unfold long_estimate_total_effect; cbn [Nat.eqb andb]; reflexivity|]. split; [apply Qc_is_canon; vm_compute; reflexivity|].
    intro H. apply (f_equal this) in H. vm_compute in H. discriminate.
  - eexists. split; [unfold long_estimate_total_effect; cbn [Nat.eqb andb]; reflexivity|]. apply Qc_is_canon. vm_compute. reflexivity.
Qed.
Print Assumptions C124_adjusts_for_parents_refuted.
(** Before the first lags are available the causal order consists of NaN: ValueError at one time. *)
Theorem C124_no_order : forall lr reg lingam p L T X adj from_t from to_, from_t < L ->
  long_estimate_total_effect lr p L T X adj (long_orders reg lingam p L X) from_t from from_t to_ = Err ValueError.
Proof.
  intros lr reg lingam p L T X adj from_t from to_ H. unfold long_estimate_total_effect. rewrite Nat.eqb_refl.
  replace (opt_mem (Some from) (long_orders reg lingam p L X from_t)) with false; [reflexivity|].
  symmetry. destruct (opt_mem _ _) eqn:E; [|reflexivity]. apply opt_mem_iff in E. unfold long_orders in E.
  destruct (Nat.ltb_spec from_t L); [|lia]. apply repeat_spec in E. discriminate.
Qed.
Print Assumptions C124_no_order.
Example C124_example : (* one lag, two variables: parents of x_1 at time 1 are x_0 at time 1 and x_1 at time 0 *)
  match long_estimate_total_effect (fun cols y _ => fold_left (fun a c => a * qz 10 + c 0%nat)%Qc cols (y 0)) 2 1 3
    (fun t s i => qn (3 * t + i)) (fun t tau i j => Some (if (tau =? 0) && (i =? 1) && (j =? 0) || (tau =? 1) && (i =? 1) && (j =? 1) then 1%Qc else 0%Qc))
    (fun _ => [Some 0; Some 1]) 1 1 2 0 with Ok v => this v | Err _ => 0%Q end = 6431%Q.
Proof. vm_compute. reflexivity. Qed.

(** ** C125: p-values of the errors *)
Theorem C125_p_values_partial : forall pv p adj old new t i j, i < p -> j < p ->
  exists P, long_p_values pv p adj (long_fit_residuals false old new) = Ok P /\
    P 0 i j = None /\
    (0 < t -> P t i i = Some 0%Qc /\ P t i j = P t j i /\
      (i < j -> exists u v, P t i j = pv u v /\
         (forall s, u s = nsum (map (fun k => nmul (nsub (Some (if i =? k then 1 else 0)%Qc) (adj t 0 i k)) (new t s k)) (seq 0 p))) /\
         (forall s, v s = nsum (map (fun k => nmul (nsub (Some (if j =? k then 1 else 0)%Qc) (adj t 0 j k)) (new t s k)) (seq 0 p))))).
Proof.
  intros pv p adj old new t i j Hi Hj. cbn [long_fit_residuals long_p_values]. eexists. split; [reflexivity|]. split; [reflexivity|].
  intro Ht. destruct (Nat.eqb_spec t 0); [lia|]. rewrite !p_values_spec by assumption. rewrite Nat.ltb_irrefl. split; [reflexivity|]. split.
  - destruct (Nat.ltb_spec i j), (Nat.ltb_spec j i); try lia; reflexivity.
  - intro L. apply Nat.ltb_lt in L. rewrite L. do 2 eexists. split; [reflexivity|]. split; reflexivity.
Qed.
Print Assumptions C125_p_values_partial.
(** A model fitted with prior knowledge has no residuals. *)
Theorem C125_prior_knowledge_refuted : forall pv p adj new,
  long_p_values pv p adj (long_fit_residuals true None new) = Err AttributeError.
Proof. reflexivity. Qed.
Print Assumptions C125_prior_knowledge_refuted.
Example C125_example :
  match long_p_values (fun u v => nmul (u 0) (v 0)) 2 (fun t tau i j => Some (if (i =? 1) && (j =? 0) then qz 2 else 0%Qc))
    (long_fit_residuals false None (fun t s k => Some (qn (3 + 7 * k)))) with
  | Ok P => match P 1 0 1 with Some v => this v | None => 0%Q end | Err _ => 0%Q end = 12%Q.
Proof. vm_compute. reflexivity. Qed.
