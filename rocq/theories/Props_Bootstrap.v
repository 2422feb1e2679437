(** * Property theorems: bootstrap summaries and the bootstrap loop.

    Vocabulary: SpecBootstrap.v ([number_of], [median_over], [exceeds], [describes], [argsort_ok]).
    A row [((i, j, s), c)] of the direction table means: to i, from j, sign s (0 when signs are not
    requested), count c. *)
From Coq Require Import List Arith Lia Bool ZArith QArith Qcanon Permutation Sorted.
From Verif Require Import Prelude Spec SpecPaths SpecBootstrap Lib LibMat Loop ModelDirect ModelPaths
  ModelBootstrap ProofPaths ProofTotal ProofBootstrap ProofBootstrap2 ProofBootstrap3 Props_Paths.
Import ListNotations.
Open Scope nat_scope.

(** ** C20 *)
Theorem C20_direction_counts :
  forall argsort nr nc ams min_ce, argsort_ok argsort -> valid_threshold min_ce ->
  exists rows,
    get_causal_direction_counts argsort nr nc ams None min_ce false = Ok rows /\
    NoDup (map fst rows) /\
    StronglySorted (fun a b => snd b <= snd a) rows /\
    (forall i j s c, In ((i, j, s), c) rows <->
       s = 0%Z /\ i < nr /\ j < nc /\ 0 < c /\
       number_of (exceeds (threshold min_ce) ams i j) (length ams) c).
Proof. exact direction_counts_unsplit. Qed.
Print Assumptions C20_direction_counts.
Theorem C20_direction_counts_by_sign :
  forall argsort nr nc ams min_ce, argsort_ok argsort -> valid_threshold min_ce ->
  exists rows,
    get_causal_direction_counts argsort nr nc ams None min_ce true = Ok rows /\
    NoDup (map fst rows) /\
    StronglySorted (fun a b => snd b <= snd a) rows /\
    (forall i j s c, In ((i, j, s), c) rows <->
       i < nr /\ j < nc /\ 0 < c /\
       ((s = 1%Z /\ number_of (exceeds_pos (threshold min_ce) ams i j) (length ams) c) \/
        (s = (-1)%Z /\ number_of (exceeds_neg (threshold min_ce) ams i j) (length ams) c))).
Proof. exact direction_counts_split. Qed.
Print Assumptions C20_direction_counts_by_sign.
Theorem C20_signs_partition_counts :
  forall m ams i j c p q, (0 <= m)%Qc ->
  number_of (exceeds m ams i j) (length ams) c ->
  number_of (exceeds_pos m ams i j) (length ams) p ->
  number_of (exceeds_neg m ams i j) (length ams) q -> c = p + q.
Proof. exact exceeds_split_counts. Qed.
Print Assumptions C20_signs_partition_counts.
Theorem C20_truncation_keeps_the_top :
  forall argsort nr nc ams z min_ce split rows, (0 < z)%Z ->
  get_causal_direction_counts argsort nr nc ams None min_ce split = Ok rows ->
  get_causal_direction_counts argsort nr nc ams (Some z) min_ce split = Ok (firstn (Z.to_nat z) rows).
Proof. exact direction_counts_top. Qed.
Print Assumptions C20_truncation_keeps_the_top.
Theorem C20_invalid_arguments_rejected :
  forall argsort nr nc ams k min_ce split,
  (exists z, k = Some z /\ (z <= 0)%Z) \/ ~ valid_threshold min_ce ->
  get_causal_direction_counts argsort nr nc ams k min_ce split = Err ValueError.
Proof. exact direction_counts_invalid. Qed.
Print Assumptions C20_invalid_arguments_rejected.

(** Three resamples: x0 -> x1 with weights 2, -3, 2 and x1 -> x2 in the last, with a NaN. *)
(** Numbers of a table as plain fractions (for examples). *)
Definition show {A} (r : result (list (A * num * Qc))) : result (list (A * option Q * Q)) :=
  match r with
  | Ok l => Ok (map (fun x => (fst (fst x), option_map this (snd (fst x)), this (snd x))) l)
  | Err e => Err e
  end.
Definition boot_ams : list (mat num) :=
  [mk_dag [((0, 1), 2%Z)];
   upd2 (mk_dag [((0, 1), (-3)%Z)]) 2 0 None;
   mk_dag [((0, 1), 2%Z); ((1, 2), 1%Z)]].
Example C20_example :
  argsort_ok ins_argsort /\
  get_causal_direction_counts ins_argsort 3 3 boot_ams None None false
    = Ok [((1, 0, 0%Z), 3); ((2, 1, 0%Z), 1)] /\
  get_causal_direction_counts ins_argsort 3 3 boot_ams (Some 1%Z) None true
    = Ok [((1, 0, 1%Z), 2)] /\
  get_causal_direction_counts ins_argsort 3 3 boot_ams None (Some (qz 2)) true
    = Ok [((1, 0, (-1)%Z), 1)].
Proof. split; [exact ins_argsort_ok|]. vm_compute. repeat split; reflexivity. Qed.

(** ** C21 *)
Theorem C21_graph_counts :
  forall argsort nr nc ams min_ce split, argsort_ok argsort -> valid_threshold min_ce ->
  exists rows,
    get_directed_acyclic_graph_counts argsort nr nc ams None min_ce split = Ok rows /\
    list_sum (map snd rows) = length ams /\
    StronglySorted (fun a b => snd b <= snd a) rows /\
    (forall E c, In (E, c) rows ->
       NoDup (map fst E) /\ 0 < c /\
       number_of (describes nr nc (threshold min_ce) split ams E) (length ams) c) /\
    (forall k, k < length ams ->
       exists E c, In (E, c) rows /\ describes nr nc (threshold min_ce) split ams E k) /\
    (forall p q E c E' c', nth_error rows p = Some (E, c) -> nth_error rows q = Some (E', c') ->
       (forall e, In e E <-> In e E') -> p = q).
Proof. exact dag_counts_spec. Qed.
Print Assumptions C21_graph_counts.
Example C21_example :
  get_directed_acyclic_graph_counts ins_argsort 3 3 boot_ams None None false
    = Ok [([(1, 0, 1%Z)], 2); ([(1, 0, 1%Z); (2, 1, 1%Z)], 1)] /\
  get_directed_acyclic_graph_counts ins_argsort 3 3 boot_ams None (Some (qf 3 2)) true
    = Ok [([(1, 0, 1%Z)], 2); ([(1, 0, (-1)%Z)], 1)].
Proof. vm_compute. repeat split; reflexivity. Qed.

(** ** C22 *)
Theorem C22_probabilities_are_frequencies :
  forall n q ams min_ce, 0 < n -> 0 < q -> ams <> [] -> valid_threshold min_ce ->
  let freq i j p := (0 <= p /\ p <= 1)%Qc /\
    exists c, number_of (exceeds (threshold min_ce) ams i j) (length ams) c /\
              p = (qn c / qn (length ams))%Qc in
  match get_probabilities n (q * n) ams min_ce with
  | Ok (PMatrix b) => q = 1 /\ forall i j, i < n -> j < n -> freq i j (b i j)
  | Ok (PBlocks bs) => q <> 1 /\ length bs = q /\
      forall k b, nth_error bs k = Some b ->
        forall i j, i < n -> j < n -> freq i (k * n + j) (b i j)
  | Err _ => False
  end.
Proof. exact get_probabilities_spec. Qed.
Print Assumptions C22_probabilities_are_frequencies.
Theorem C22_antitone_in_the_threshold :
  forall n ams m m' b b', 0 < n -> ams <> [] -> valid_threshold m -> valid_threshold m' ->
  (threshold m <= threshold m')%Qc ->
  get_probabilities n n ams m = Ok (PMatrix b) -> get_probabilities n n ams m' = Ok (PMatrix b') ->
  forall i j, (b' i j <= b i j)%Qc.
Proof.
  intros n ams m m' b b' Hn Ha V V' L E E' i j.
  rewrite get_probabilities_square in E, E' by assumption. inversion E; inversion E'.
  apply prob_matrix_antitone; [apply threshold_nonneg; exact V|exact L|exact Ha].
Qed.
Print Assumptions C22_antitone_in_the_threshold.
Theorem C22_agrees_with_direction_counts :
  forall argsort n ams min_ce rows b,
  argsort_ok argsort -> 0 < n -> ams <> [] -> valid_threshold min_ce ->
  get_causal_direction_counts argsort n n ams None min_ce false = Ok rows ->
  get_probabilities n n ams min_ce = Ok (PMatrix b) ->
  forall i j, i < n -> j < n ->
  (forall c, In ((i, j, 0%Z), c) rows -> b i j = (qn c / qn (length ams))%Qc) /\
  ((forall c, ~ In ((i, j, 0%Z), c) rows) -> b i j = 0%Qc).
Proof. exact probabilities_match_counts. Qed.
Print Assumptions C22_agrees_with_direction_counts.
Example C22_example :
  match get_probabilities 3 3 boot_ams None with
  | Ok (PMatrix b) => this (b 1 0) = 1%Q /\ this (b 2 1) = (1 # 3)%Q /\ this (b 2 0) = 0%Q
  | _ => False
  end /\
  match get_probabilities 2 4 [fun i j => Some (qn (i * j))] None with
  | Ok (PBlocks [b0; b1]) => this (b0 1 0) = 0%Q /\ this (b1 1 0) = 1%Q
  | _ => False
  end.
Proof. vm_compute. repeat split; reflexivity. Qed.

(** ** C23: the effect column ignores the threshold. *)
Theorem C23_effect_uses_threshold_refuted :
  forall argsort, argsort_ok argsort ->
  exists tes m rows i j v p, (0 < m)%Qc /\
    get_total_causal_effects argsort 2 2 tes (Some m) = Ok rows /\
    In (i, j, Some v, p) rows /\
    forall w, median_over (fun k => (m < qabs (te_at tes i j k))%Qc) (length tes) (te_at tes i j) w ->
              w <> v.
Proof.
  intros argsort OK.
  set (tes := [upd2 (fun _ _ => 0%Qc) 1 0 1%Qc; upd2 (fun _ _ => 0%Qc) 1 0 (qz 10)] : list (mat Qc)).
  destruct (total_causal_effects_spec argsort 2 2 tes (Some (qz 5)) OK) as [rows [E [_ [_ H]]]];
    [discriminate|reflexivity|].
  exists tes, (qz 5), rows, 1, 0, (qf 11 2), (qf 1 2).
  split; [reflexivity|]. split; [exact E|]. split.
  - apply H. split; [lia|]. split; [lia|]. exists 1, (qf 11 2). split; [lia|]. split; [|split; [apply Qc_is_canon; reflexivity|split; [reflexivity|]]].
    + exists [1]. split; [|reflexivity]. split; [repeat constructor; auto|].
      intro k. split.
      * intros [<-|[]]. split; [cbn; lia|]. reflexivity.
      * intros [L X]. cbn in L. destruct k as [|[|k]]; [|left; reflexivity|lia].
        exfalso. vm_compute in X. discriminate.
    + exists [0; 1]. split.
      * split; [repeat constructor; cbn; intuition discriminate|]. intro k. split.
        { intros [<-|[<-|[]]]; (split; [cbn; lia|]); discriminate. }
        { intros [L _]. cbn in L. destruct k as [|[|k]]; [left|right; left|lia]; reflexivity. }
      * exists [1%Qc; qz 10]. split; [discriminate|]. split; [reflexivity|]. split.
        { repeat constructor. discriminate. }
        { apply Qc_is_canon. reflexivity. }
  - intros w W. assert (w = qz 10) as ->; [|discriminate].
    eapply median_over_unique; [exact W|]. exists [1]. split.
    + split; [repeat constructor; auto|]. intro k. split.
      * intros [<-|[]]. split; [cbn; lia|]. reflexivity.
      * intros [L X]. cbn in L. destruct k as [|[|k]]; [|left; reflexivity|lia].
        exfalso. vm_compute in X. discriminate.
    + exists [qz 10]. split; [discriminate|]. split; [reflexivity|]. split; [repeat constructor|].
      apply Qc_is_canon. reflexivity.
Qed.
Print Assumptions C23_effect_uses_threshold_refuted.
(** What the table does contain: probabilities above the threshold, medians of the non-zero
    effects. *)
Theorem C23_total_effect_table_partial :
  forall argsort nr nc tes min_ce, argsort_ok argsort -> tes <> [] -> valid_threshold min_ce ->
  exists rows, get_total_causal_effects argsort nr nc tes min_ce = Ok rows /\
    NoDup (map (fun r => fst (fst r)) rows) /\
    StronglySorted (fun a b => (snd b <= snd a)%Qc) rows /\
    (forall i j e p, In (i, j, e, p) rows <->
       i < nr /\ j < nc /\
       exists c v, 0 < c /\
         number_of (fun k => (threshold min_ce < qabs (te_at tes i j k))%Qc) (length tes) c /\
         p = (qn c / qn (length tes))%Qc /\ e = Some v /\
         median_over (fun k => te_at tes i j k <> 0%Qc) (length tes) (te_at tes i j) v).
Proof. exact total_causal_effects_spec. Qed.
Print Assumptions C23_total_effect_table_partial.
(** Hence the claim holds when no non-zero effect is at or below the threshold. *)
Theorem C23_median_of_counted_effects_partial :
  forall m tes i j v, (0 <= m)%Qc ->
  (forall k, k < length tes -> te_at tes i j k <> 0%Qc -> (m < qabs (te_at tes i j k))%Qc) ->
  median_over (fun k => te_at tes i j k <> 0%Qc) (length tes) (te_at tes i j) v ->
  median_over (fun k => (m < qabs (te_at tes i j k))%Qc) (length tes) (te_at tes i j) v.
Proof. exact total_effect_median_exact. Qed.
Print Assumptions C23_median_of_counted_effects_partial.
Example C23_example :
  show (get_total_causal_effects ins_argsort 2 2
    [upd2 (fun _ _ => 0%Qc) 1 0 1%Qc; upd2 (fun _ _ => 0%Qc) 1 0 (qz 10)] (Some (qz 5)))
  = Ok [((1, 0), Some (11 # 2)%Q, (1 # 2)%Q)].
Proof. vm_compute. reflexivity. Qed.

(** ** C24 *)
Theorem C24_bootstrap_paths :
  forall argsort n ams from to_ min_ce,
  argsort_ok argsort -> ams <> [] -> valid_threshold min_ce -> from < n -> from <> to_ ->
  (forall am, In am ams -> acyclic (thr_edge n am (threshold min_ce))) ->
  let has p k := dpath (thr_edge n (nth k ams (fun _ _ => None)) (threshold min_ce)) from to_ p in
  exists rows, get_paths argsort n ams from to_ min_ce = Ok rows /\
    NoDup (map (fun r => fst (fst r)) rows) /\
    StronglySorted (fun a b => (snd b <= snd a)%Qc) rows /\
    (forall p e pr, In (p, e, pr) rows <->
      exists c v, 0 < c /\ number_of (has p) (length ams) c /\
        pr = (qn c / qn (length ams))%Qc /\ e = Some v /\
        median_over (has p) (length ams)
          (fun k => walk_weight (denan (nth k ams (fun _ _ => None))) p) v).
Proof.
  exact (fun argsort n ams from to_ min_ce OK Ha V Hf D A =>
    get_paths_core n from to_ (threshold min_ce) Hf D (threshold_nonneg _ V) argsort ams min_ce OK Ha
      (check_min_ok _ V) A).
Qed.
Print Assumptions C24_bootstrap_paths.
(** The textual key loses nothing. *)
Theorem C24_path_key_decodes :
  forall p, p <> [] -> path_of_key (path_key p) = Some p.
Proof. exact path_key_decode. Qed.
Print Assumptions C24_path_key_decodes.
Example C24_example :
  path_of_key (path_key [1; 12; 0]) = Some [1; 12; 0] /\
  show (get_paths ins_argsort 3 [mk_dag [((0, 1), 2%Z); ((1, 2), 3%Z)];
                                 mk_dag [((0, 1), 4%Z); ((1, 2), 5%Z); ((0, 2), 7%Z)]] 0 2 None)
    = Ok [([0; 1; 2], Some 13%Q, 1%Q); ([0; 2], Some 7%Q, (1 # 2)%Q)].
Proof. vm_compute. split; reflexivity. Qed.

(** ** C25 *)
(** For any estimator whose fitted matrix is triangular in its fitted order. *)
Theorem C25_bootstrap_effects_agree :
  forall (Obj Data : Type) (fit : Data -> Obj -> Obj * option exn)
    (order_of : Obj -> list nat) (adj_of : Obj -> mat num) n z resample o o' l,
  (forall X o o', fit X o = (o', None) ->
     is_order n (order_of o') /\ topological (edge_of n (denan (adj_of o'))) (order_of o')) ->
  bootstrap Obj Data fit order_of adj_of n z resample o = (o', Ok l) ->
  Z.of_nat (length l) = z /\
  forall B te, In (B, te) l ->
    (forall i, te i i = Some 0%Qc) /\
    exists T, meq n (mmul n (msub midn (denan B)) T) midn /\
      forall i j, i < n -> j < n -> i <> j -> te i j = Some (T i j).
Proof.
  intros Obj Data fit order_of adj_of n z resample o o' l G H. unfold bootstrap in H.
  destruct (Z.ltb_spec 0 z); [|discriminate].
  destruct (bootstrap_loop_agree Obj Data fit order_of adj_of n G _ _ _ _ H) as [L A].
  split; [rewrite L, map_length, seq_length; lia|]. intros B te I. exact (A (B, te) I).
Qed.
Print Assumptions C25_bootstrap_effects_agree.
(** DirectLiNGAM is such an estimator; without prior knowledge its bootstrap always succeeds. *)
Theorem C25_direct_lingam_bootstrap :
  forall Col (residual : Col -> Col -> Col) score ms n ok z (resample : nat -> direct_data Col) o,
  (0 < z)%Z -> d_mode o = NoPK ->
  exists o' l, direct_bootstrap residual score ms n ok z resample o = (o', Ok l) /\
  Z.of_nat (length l) = z /\
  forall B te, In (B, te) l ->
    (forall i, te i i = Some 0%Qc) /\
    exists T, meq n (mmul n (msub midn (denan B)) T) midn /\
      forall i j, i < n -> j < n -> i <> j -> te i j = Some (T i j).
Proof.
  intros Col residual score ms n ok z resample o Hz M.
  destruct (direct_bootstrap_succeeds Col residual score ms n ok z resample o Hz M) as [o' [l E]].
  exists o', l. split; [exact E|]. destruct (direct_bootstrap_agree _ _ _ _ _ _ _ _ _ _ _ E) as [L A].
  split; [exact L|]. intros B te I. exact (A (B, te) I).
Qed.
Print Assumptions C25_direct_lingam_bootstrap.

Definition bs_score (X : nat -> Z) (U Uc Vj : list nat) (i : nat) : num := Some (qz (X i)).
Definition bs_resample (k : nat) : direct_data Z :=
  (fun i => match k with 0 => Z.of_nat i | _ => (- Z.of_nat i)%Z end, fun _ _ _ => Some (qn (k + 2))).
Definition bs_fresh : direct_obj := {| d_mode := NoPK; d_po := []; d_order := None; d_adj := None |}.
Example C25_example :
  match snd (direct_bootstrap (fun a _ => a) bs_score Pwling 3 true 2 bs_resample bs_fresh) with
  | Ok [(B0, te0); (B1, te1)] =>
      option_map this (te0 0 2) = Some 6%Q /\ option_map this (te0 2 0) = Some 0%Q /\
      option_map this (te1 2 0) = Some 12%Q /\ option_map this (te1 0 2) = Some 0%Q
  | _ => False
  end.
Proof. vm_compute. repeat split; reflexivity. Qed.

(** ** C26: bootstrap overwrites the fitted model. *)
Theorem C26_bootstrap_preserves_fit_refuted :
  exists Col (residual : Col -> Col -> Col) score n X (resample : nat -> direct_data Col) o,
    d_mode o = NoPK /\
    let fitted := fst (direct_boot_fit residual score Pwling n true X o) in
    let after := fst (direct_bootstrap residual score Pwling n true 1 resample fitted) in
    d_order fitted = Some [2; 1; 0] /\ d_order after = Some [0; 1; 2].
Proof.
  exists Z, (fun a _ => a), bs_score, 3, (bs_resample 0), (fun k => bs_resample 1), bs_fresh.
  split; [reflexivity|]. vm_compute. split; reflexivity.
Qed.
Print Assumptions C26_bootstrap_preserves_fit_refuted.
(** What remains afterwards is the fit to the last resample. *)
Theorem C26_bootstrap_leaves_last_fit_partial :
  forall Col (residual : Col -> Col -> Col) score ms n ok z (resample : nat -> direct_data Col) o,
  (0 < z)%Z -> d_mode o = NoPK ->
  let o' := fst (direct_bootstrap residual score ms n ok z resample o) in
  let f := fst (direct_boot_fit residual score ms n ok (resample (Z.to_nat z - 1)) o) in
  d_order o' = d_order f /\ d_adj o' = d_adj f.
Proof. exact direct_bootstrap_last. Qed.
Print Assumptions C26_bootstrap_leaves_last_fit_partial.
Example C26_example : (0 < 2)%Z /\ d_mode bs_fresh = NoPK /\
  d_order (fst (direct_bootstrap (fun a _ => a) bs_score Pwling 3 true 2 bs_resample bs_fresh)) = Some [0; 1; 2] /\
  d_order (fst (direct_boot_fit (fun a _ => a) bs_score Pwling 3 true (bs_resample 0) bs_fresh)) = Some [2; 1; 0].
Proof. split; [lia|]. split; [reflexivity|]. vm_compute. split; reflexivity. Qed.
(** A rejected call changes nothing. *)
Theorem C26_rejected_call_changes_nothing_partial :
  forall Col (residual : Col -> Col -> Col) score ms n ok z (resample : nat -> direct_data Col) o,
  (z <= 0)%Z -> direct_bootstrap residual score ms n ok z resample o = (o, Err ValueError).
Proof.
  intros. unfold direct_bootstrap, bootstrap. destruct (Z.ltb_spec 0 z); [lia|reflexivity].
Qed.
Print Assumptions C26_rejected_call_changes_nothing_partial.
