(** * Property theorems: invalid arguments are rejected with the documented exceptions (C118). *)
From Coq Require Import List Arith Bool ZArith QArith Qcanon Lia Permutation.
From Verif Require Import Prelude Spec Lib ModelPaths ModelBootstrap ModelTools ProofTools Props_Tools.
From Verif Require ModelRoot ModelExper ModelEffect ModelVAR ModelLong ModelSim ModelOrder.
Import ListNotations.
Open Scope nat_scope.

(** ** calculate_distance_from_root_nodes *)
Theorem C118_root_distances : forall n A m e,
  ModelRoot.root_distances n A m = Err e <->
  e = ValueError /\
  (n < 2 \/ m = Some 0 \/ forall i, i < n -> (qf 1 100000000 < qabs (sumn n (fun j => nan_to_num (A i j))))%Qc).
Proof.
  intros n A m e. unfold ModelRoot.root_distances. destruct (Nat.ltb_spec n 2) as [L|L].
  { split; [intros [= <-]; auto|intros [-> _]; reflexivity]. }
  destruct m as [[|m]|]; [split; [intros [= <-]; auto|intros [-> _]; reflexivity]| |];
    (destruct (ModelRoot.root_list n (fun i j => nan_to_num (A i j))) as [|r l] eqn:R; cbn;
     [split; [intros [= <-]; split; [reflexivity|]; right; right; intros i Hi|intros [-> _]; reflexivity]
     |split; [discriminate|intros [_ [K|[K|K]]]; [lia|discriminate|]]]).
  all: try (assert (N : ~ In i (ModelRoot.root_list n (fun i j => nan_to_num (A i j)))) by (rewrite R; intros []);
    unfold ModelRoot.root_list in N; rewrite filter_In, in_seq, qleb_le in N; apply Qcnot_le_lt; intro; apply N; split; [lia|assumption]).
  all: assert (I : In r (ModelRoot.root_list n (fun i j => nan_to_num (A i j)))) by (rewrite R; left; reflexivity);
    unfold ModelRoot.root_list in I; rewrite filter_In, in_seq, qleb_le in I; destruct I as [I1 I2];
    exfalso; exact (Qclt_not_le _ _ (K r ltac:(lia)) I2).
Qed.
Print Assumptions C118_root_distances.
Example C118_root_distances_example :
  ModelRoot.root_distances 2 (fun i j => Some (if i =? j then 0%Qc else 1%Qc)) None = Err ValueError.
Proof. reflexivity. Qed.

(** ** calculate_total_effect and find_all_paths *)
Theorem C118_total_effect_arguments : forall n dag from to_ cont,
  n < 2 \/ n <= from \/ n <= to_ \/ from = to_ \/ (exists l, cont = Some l /\ length l < n) ->
  calculate_total_effect n dag from to_ cont = Err ValueError.
Proof.
  intros n dag from to_ cont H. unfold calculate_total_effect.
  destruct (Nat.ltb_spec n 2); [reflexivity|]. destruct (Nat.leb_spec n from); [reflexivity|].
  destruct (Nat.leb_spec n to_); [reflexivity|]. destruct (Nat.eqb_spec from to_); [reflexivity|].
  destruct H as [H|[H|[H|[H|(l & -> & H)]]]]; try lia. apply Nat.ltb_lt in H. rewrite H. reflexivity.
Qed.
Print Assumptions C118_total_effect_arguments.
Theorem C118_paths_source : forall n dag from to_ m, n <= from -> find_all_paths n dag from to_ m = Err IndexError.
Proof. intros n dag from to_ m H. unfold find_all_paths. apply Nat.leb_le in H. rewrite H. reflexivity. Qed.
Print Assumptions C118_paths_source.
Example C118_total_effect_example :
  calculate_total_effect 2 (fun i j => Some (if (i =? 1) && (j =? 0) then 1%Qc else 0%Qc)) 0 1 (Some [true]) = Err ValueError /\
  exists q, calculate_total_effect 2 (fun i j => Some (if (i =? 1) && (j =? 0) then 1%Qc else 0%Qc)) 0 1 (Some [true; true]) = Ok q.
Proof. split; [reflexivity|eexists; reflexivity]. Qed.

(** ** BootstrapResult.get_probabilities, for matrices of [nr] rows and [nc] columns *)
Theorem C118_probabilities : forall nr nc ams m e,
  get_probabilities nr nc ams m = Err e <->
  (exists v, m = Some v /\ (v <= 0)%Qc /\ e = ValueError) \/
  ((forall v, m = Some v -> (0 < v)%Qc) /\
   (ams = [] /\ e = IndexError \/
    ams <> [] /\ (nc / nr = 0 /\ e = ZeroDivisionError \/ nc / nr <> 0 /\ nc mod (nc / nr) <> 0 /\ e = ValueError))).
Proof.
  intros nr nc ams m e. unfold get_probabilities, check_min, bind.
  assert (B : forall v, (forall w, m = Some w -> (0 < w)%Qc) ->
    (match ams with
     | [] => Err IndexError
     | _ :: _ => if nc / nr =? 1 then Ok (PMatrix (prob_matrix v ams)) else if nc / nr =? 0 then Err ZeroDivisionError
       else if nc mod (nc / nr) =? 0 then Ok (PBlocks (map (fun k i j => prob_matrix v ams i (k * (nc / (nc / nr)) + j)) (seq 0 (nc / nr)))) else Err ValueError
     end) = Err e <->
    (exists v, m = Some v /\ (v <= 0)%Qc /\ e = ValueError) \/
    ((forall v, m = Some v -> (0 < v)%Qc) /\
     (ams = [] /\ e = IndexError \/
      ams <> [] /\ (nc / nr = 0 /\ e = ZeroDivisionError \/ nc / nr <> 0 /\ nc mod (nc / nr) <> 0 /\ e = ValueError)))).
  { intros v P. set (q := nc / nr). assert (NN : ~ exists v, m = Some v /\ (v <= 0)%Qc /\ e = ValueError).
    { intros (w & W1 & W2 & _). exact (Qclt_not_le _ _ (P w W1) W2). }
    destruct ams as [|a ams].
    - split; [intros [= <-]; right; split; [exact P|]; left; auto|]. intros [K|[_ [[_ ->]|[K _]]]]; [contradiction|reflexivity|congruence].
    - destruct (Nat.eqb_spec q 1) as [Q1|Q1].
      + split; [discriminate|]. intros [K|[_ [[K _]|[_ [[K _]|[_ [K _]]]]]]]; [contradiction|discriminate|lia|]. rewrite Q1, Nat.mod_1_r in K. lia.
      + destruct (Nat.eqb_spec q 0) as [Q0|Q0].
        * split; [intros [= <-]; right; split; [exact P|]; right; split; [discriminate|left; auto]|].
          intros [K|[_ [[K _]|[_ [[_ ->]|[K _]]]]]]; [contradiction|discriminate|reflexivity|contradiction].
        * destruct (Nat.eqb_spec (nc mod q) 0) as [M|M].
          -- split; [discriminate|]. intros [K|[_ [[K _]|[_ [[K _]|[_ [K _]]]]]]]; [contradiction|discriminate|contradiction|contradiction].
          -- split; [intros [= <-]; right; split; [exact P|]; right; split; [discriminate|right; auto]|].
             intros [K|[_ [[K _]|[_ [[K _]|[_ [_ ->]]]]]]]; [contradiction|discriminate|contradiction|reflexivity]. }
  destruct m as [v|]; [|apply B; discriminate]. destruct (qltb 0 v) eqn:Q; [apply qltb_lt in Q; apply B; intros w [= <-]; exact Q|].
  assert (Q' : (v <= 0)%Qc) by (apply Qcnot_lt_le; intro K; apply qltb_lt in K; congruence). clear Q. rename Q' into Q. split; [intros [= <-]; left; exists v; auto|].
  intros [(w & _ & _ & ->)|[K _]]; [reflexivity|]. exfalso. exact (Qclt_not_le _ _ (K v eq_refl) Q).
Qed.
Print Assumptions C118_probabilities.
Example C118_probabilities_example : get_probabilities 2 5 [fun _ _ => None] None = Err ValueError /\
  get_probabilities 2 1 [fun _ _ => None] None = Err ZeroDivisionError.
Proof. split; reflexivity. Qed.

(** ** visualize_nonlinear_causal_effect: the row positions exist *)
Theorem C118_visualisation_rows : forall n rows labels r cause effect e,
  ModelExper.viz_regressions n rows labels r cause effect = Err e <->
  e = IndexError /\ exists run k, In run (ModelExper.viz_runs labels r) /\ In k (snd run) /\ rows <= k.
Proof.
  intros n rows labels r cause effect e. unfold ModelExper.viz_regressions. induction (ModelExper.viz_runs labels r) as [|x l IH].
  - cbn. split; [discriminate|]. intros [_ (run & k & [] & _)].
  - cbn [fold_right]. unfold ModelExper.iloc at 1. destruct (forallb (fun i => i <? rows) (snd x)) eqn:F; cbn [bind].
    + rewrite forallb_forall in F. destruct (fold_right _ _ l) as [a|e0] eqn:Q; cbn [bind].
      * split; [discriminate|]. intros [-> (run & k & [<-|I1] & I2 & I3)].
        -- specialize (F k I2). apply Nat.ltb_lt in F. lia.
        -- destruct IH as [_ IH]. discriminate IH. split; [reflexivity|]. exists run, k. auto.
      * split.
        -- intros [= <-]. destruct IH as [IH _]. destruct (IH eq_refl) as [-> (run & k & I1 & I2)]. split; [reflexivity|]. exists run, k. split; [right; exact I1|exact I2].
        -- intros [-> (run & k & [<-|I1] & I2 & I3)].
           ++ specialize (F k I2). apply Nat.ltb_lt in F. lia.
           ++ destruct IH as [_ IH]. rewrite IH; [reflexivity|]. split; [reflexivity|]. exists run, k. auto.
    + split.
      * intros [= <-]. split; [reflexivity|].
        assert (E : existsb (fun i => negb (i <? rows)) (snd x) = true).
        { clear - F. induction (snd x) as [|a l IH]; [discriminate|]. cbn [forallb existsb] in *. destruct (a <? rows); cbn [andb negb orb] in *; [apply IH; exact F|reflexivity]. }
        apply existsb_exists in E. destruct E as (k & K1 & K2). rewrite negb_true_iff, Nat.ltb_ge in K2. exists x, k. split; [left; reflexivity|]. auto.
      * intros [-> _]. reflexivity.
Qed.
Print Assumptions C118_visualisation_rows.
Example C118_visualisation_example : ModelExper.viz_regressions 2 2 [1; 2] (ModelExper.Matrix (fun _ _ => 0%Qc)) 0 1 = Err IndexError.
Proof. reflexivity. Qed.

(** ** CausalDataGenerator *)
Theorem C118_generator_fit : forall mc me X cause effect adj e,
  ModelExper.cdg_fit mc me X cause effect adj = Err e <->
  (e = ValueError /\ (~ In cause (ModelExper.fr_cols X) \/ ~ In effect (ModelExper.fr_cols X))) \/
  (e = KeyError /\ In cause (ModelExper.fr_cols X) /\ In effect (ModelExper.fr_cols X) /\ exists a, In a adj /\ ~ In a (ModelExper.fr_cols X)).
Proof.
  intros mc me X cause effect adj e. unfold ModelExper.cdg_fit. set (cols := ModelExper.fr_cols X).
  destruct (memb cause cols) eqn:M1; cbn [negb].
  2: { apply memb_notIn in M1. split; [intros [= <-]; auto|]. intros [[-> _]|(_ & K & _)]; [reflexivity|contradiction]. }
  apply memb_In in M1. destruct (memb effect cols) eqn:M2; cbn [negb].
  2: { apply memb_notIn in M2. split; [intros [= <-]; auto|]. intros [[-> _]|(_ & _ & K & _)]; [reflexivity|contradiction]. }
  apply memb_In in M2. destruct (forallb (fun a => memb a cols) adj) eqn:F; cbn [negb].
  - rewrite forallb_forall in F. split; [discriminate|]. intros [[_ [K|K]]|(_ & _ & _ & a & K1 & K2)]; try contradiction. specialize (F a K1). apply memb_In in F. contradiction.
  - split; [intros [= <-]; right; repeat (split; [assumption||reflexivity|])|intros [[_ [K|K]]|(-> & _)]; [contradiction|contradiction|reflexivity]].
    clear - F. induction adj as [|a l IH]; [discriminate|]. cbn in F. destruct (memb a cols) eqn:M.
    + destruct (IH F) as (b & I1 & I2). exists b. split; [right; exact I1|exact I2].
    + exists a. split; [left; reflexivity|]. apply memb_notIn. exact M.
Qed.
Print Assumptions C118_generator_fit.
(** The keys of the given dictionaries must be among the cause, the effect and the adjustments, and
    the columns must have as many values as the data has rows. *)
Definition usable (f : ModelExper.fitted) (d : list (nat * list Qc)) : Prop :=
  forall k v, In (k, v) d -> In k (ModelExper.ft_cause f :: ModelExper.ft_effect f :: ModelExper.ft_adj f) /\
                             length v = length (ModelExper.fr_index (ModelExper.ft_X f)).
Theorem C118_generator_dictionaries : forall f endog exog,
  (~ (usable f endog /\ usable f exog) -> ModelExper.cdg_generate f endog exog = Err ValueError) /\
  (usable f endog /\ usable f exog -> ModelExper.cdg_generate f endog exog <> Err ValueError).
Proof.
  intros f endog exog.
  assert (U : forall d, ModelExper.check_dict f d = true <-> usable f d).
  { intro d. unfold ModelExper.check_dict, usable. rewrite forallb_forall. split.
    - intros H k v I. specialize (H (k, v) I). apply andb_true_iff in H. destruct H as [H1 H2]. apply memb_In in H1. apply Nat.eqb_eq in H2. auto.
    - intros H [k v] I. destruct (H k v I) as [H1 H2]. apply andb_true_iff. split; [apply memb_In; exact H1|apply Nat.eqb_eq; exact H2]. }
  unfold ModelExper.cdg_generate. destruct (ModelExper.check_dict f endog) eqn:C1; [destruct (ModelExper.check_dict f exog) eqn:C2|]; cbn [andb negb].
  - apply U in C1, C2. split; [tauto|]. intros _. destruct (ModelExper.lookup _ endog); [|destruct (ModelExper.ft_model_cause f)]; cbn [bind];
      try destruct (negb (forallb _ _)); discriminate.
  - split; [reflexivity|]. intros [_ K]. apply U in K. congruence.
  - split; [reflexivity|]. intros [K _]. apply U in K. congruence.
Qed.
Print Assumptions C118_generator_dictionaries.
Definition ex_frame : ModelExper.frame := {| ModelExper.fr_index := [0; 1]; ModelExper.fr_cols := [0; 1; 2]; ModelExper.fr_val := fun c => [qn c; qn c] |}.
Example C118_generator_example : exists f,
  ModelExper.cdg_fit (fun _ => [0; 0]%Qc) (fun _ => [0; 0]%Qc) ex_frame 0 1 [2] = Ok f /\
  is_ok (ModelExper.cdg_generate f [] [(0, [0; 0]%Qc)]) /\ ModelExper.cdg_generate f [] [(0, [0]%Qc)] = Err ValueError /\
  ModelExper.cdg_generate f [] [(3, [0; 0]%Qc)] = Err ValueError /\
  ModelExper.cdg_fit (fun _ => [0; 0]%Qc) (fun _ => [0; 0]%Qc) ex_frame 0 3 [2] = Err ValueError /\
  ModelExper.cdg_fit (fun _ => [0; 0]%Qc) (fun _ => [0; 0]%Qc) ex_frame 0 1 [3] = Err KeyError.
Proof. eexists. split; [reflexivity|]. split; [eexists; reflexivity|]. repeat split; reflexivity. Qed.

(** ** CausalEffect.estimate_optimal_intervention: only linear predictors, of the right size *)
Theorem C118_intervention_predictor : forall n B Ex target p iv desired draws,
  let oi := ModelEffect.optimal_intervention n B Ex target p iv desired draws in
  (ModelEffect.p_coef p = None -> ModelEffect.p_intercept p = None -> oi = Err ValueError) /\
  (ModelEffect.p_proba p = true -> oi = Err ValueError) /\
  (forall coef b, ModelEffect.p_coef p = Some coef -> ModelEffect.p_intercept p = Some b -> ModelEffect.p_proba p = false ->
     oi = Ok None \/
     (S (length coef) = n /\ target < n -> exists v, oi = Ok (Some v)) /\
     (S (length coef) <> n -> target <= length coef -> oi = Err ValueError) /\
     (length coef < target -> oi = Err IndexError)).
Proof.
  intros n B Ex target p iv desired draws oi. unfold oi, ModelEffect.optimal_intervention. destruct p as [co ic pr]. cbn [ModelEffect.p_coef ModelEffect.p_intercept ModelEffect.p_proba].
  split; [|split].
  - intros -> ->. reflexivity.
  - intros ->. destruct co, ic; reflexivity.
  - intros coef b -> -> ->. destruct (ModelEffect.oi_loop _ _ _ _ _ _) as [[Ex' al]|]; [|left; reflexivity]. right.
    destruct (Nat.leb_spec target (length coef)) as [L|L]; destruct (Nat.eqb_spec (S (length coef)) n) as [E|E]; cbn [andb].
    + split; [intros _; eexists; reflexivity|]. split; [intros; contradiction|lia].
    + split; [intros [K _]; contradiction|]. split; [reflexivity|lia].
    + split; [lia|]. split; [lia|reflexivity].
    + split; [lia|]. split; [lia|reflexivity].
Qed.
Print Assumptions C118_intervention_predictor.
Example C118_intervention_example :
  ModelEffect.optimal_intervention 2 (fun i j => if (i =? 1) && (j =? 0) then 1%Qc else 0%Qc) (fun _ => 0%Qc) 1
    {| ModelEffect.p_coef := Some [1%Qc; 1%Qc]; ModelEffect.p_intercept := Some 0%Qc; ModelEffect.p_proba := false |} 0 1%Qc [0; 0; 0] = Err ValueError.
Proof. vm_compute. reflexivity. Qed.

(** ** The time-series estimators *)
Theorem C118_var_paths : forall n k am from to_ from_lag to_lag m,
  (from_lag < to_lag \/ from_lag = to_lag /\ from = to_ -> ModelVAR.var_paths n k am from to_ from_lag to_lag m = Err ValueError) /\
  (to_lag <= from_lag -> from < n -> k < from_lag -> ModelVAR.var_paths n k am from to_ from_lag to_lag m =
     if (from_lag =? to_lag) && (from =? to_) then Err ValueError else Err IndexError).
Proof.
  intros. unfold ModelVAR.var_paths. split.
  - intros [H|[-> ->]]; [apply Nat.ltb_lt in H; rewrite H; reflexivity|]. rewrite Nat.ltb_irrefl, !Nat.eqb_refl. reflexivity.
  - intros L F K. destruct (Nat.ltb_spec from_lag to_lag); [lia|]. rewrite (Nat.eqb_sym to_lag), (Nat.eqb_sym to_). destruct ((from_lag =? to_lag) && (from =? to_)); [reflexivity|].
    apply C118_paths_source. nia.
Qed.
Print Assumptions C118_var_paths.
(** VARMALiNGAM.fit with both coefficient arrays given: exactly when it fails, and how.  [p], [q]: number
    of given matrices; the orders are those passed to the constructor. *)
Theorem C118_varma_given : forall N p q order_p order_q prune e,
  ModelVAR.varma_fit_given N p q order_p order_q prune = Err e <->
  (e = IndexError /\ (p < order_p \/ q < order_q)) \/
  (e = ValueError /\ order_p <= p /\ order_q <= q /\ prune = true /\ order_q <> 0 /\ N - Nat.max p q <> N /\ N - Nat.max p q <> 1).
Proof.
  intros. unfold ModelVAR.varma_fit_given, ModelVAR.join_rows_ok, ModelVAR.fits_rows.
  destruct (Nat.ltb_spec p order_p); [cbn [orb]; split; [intros [= <-]; auto|intros [[-> _]|(_ & K & _)]; [reflexivity|lia]]|].
  destruct (Nat.ltb_spec q order_q); [cbn [orb]; split; [intros [= <-]; auto|intros [[-> _]|(_ & _ & K & _)]; [reflexivity|lia]]|].
  cbn [orb]. destruct prune; [|split; [discriminate|intros [[_ K]|(_ & _ & _ & K & _)]; [lia|discriminate]]].
  destruct (Nat.eqb_spec order_q 0); cbn [orb]; [split; [discriminate|intros [[_ K]|(_ & _ & _ & _ & K & _)]; [lia|contradiction]]|].
  destruct (Nat.eqb_spec (N - Nat.max p q) N); cbn [orb]; [split; [discriminate|intros [[_ K]|(_ & _ & _ & _ & _ & K & _)]; [lia|contradiction]]|].
  destruct (Nat.eqb_spec (N - Nat.max p q) 1); cbn [orb]; [split; [discriminate|intros [[_ K]|(_ & _ & _ & _ & _ & _ & K)]; [lia|contradiction]]|].
  split; [intros [= <-]; right; repeat split; auto|intros [[_ K]|(-> & _)]; [lia|reflexivity]].
Qed.
Print Assumptions C118_varma_given.
Example C118_varma_example : ModelVAR.varma_fit_given 10 1 1 1 1 true = Err ValueError /\ ModelVAR.varma_fit_given 10 1 1 2 1 true = Err IndexError.
Proof. split; reflexivity. Qed.
(** LongitudinalLiNGAM.estimate_total_effect2 *)
Theorem C118_longitudinal_effect : forall p L adj orders from_t f to_t g,
  let eff := ModelLong.long_effect2 p L adj orders from_t (Some f) to_t (Some g) in
  (from_t = to_t -> ~ In (Some f) (orders from_t) \/ ~ In (Some g) (orders from_t) -> eff = Err ValueError) /\
  (p * (to_t - from_t + 1) < 2 -> eff = Err ValueError) /\
  (p * (to_t - from_t + 1) <= f -> eff = Err ValueError) /\
  (p <= g -> eff = Err ValueError) /\
  (from_t = to_t -> f = g -> eff = Err ValueError).
Proof.
  intros p L adj orders from_t f to_t g eff. unfold eff, ModelLong.long_effect2.
  assert (M : forall x l, ModelLong.opt_mem (Some x) l = true -> In (Some x) l).
  { intros x l H. unfold ModelLong.opt_mem in H. apply existsb_exists in H. destruct H as ([y|] & H1 & H2); [|discriminate]. apply Nat.eqb_eq in H2. subst. exact H1. }
  split.
  { intros <- H. rewrite Nat.eqb_refl. cbn [andb]. destruct (ModelLong.opt_mem (Some f) (orders from_t)) eqn:E1; [|reflexivity].
    destruct (ModelLong.opt_mem (Some g) (orders from_t)) eqn:E2; [|reflexivity]. apply M in E1, E2. destruct H; contradiction. }
  destruct ((to_t =? from_t) && negb (ModelLong.opt_mem (Some f) (orders to_t) && ModelLong.opt_mem (Some g) (orders from_t))); [repeat split; reflexivity|].
  destruct (Nat.ltb_spec (p * (to_t - from_t + 1)) 2) as [Q|Q]; [repeat split; reflexivity|].
  split; [lia|]. split; [intro H; apply C118_total_effect_arguments; auto|]. split.
  - intro H. apply C118_total_effect_arguments. right. right. left. nia.
  - intros <- <-. rewrite Nat.sub_diag, Nat.mul_0_r. apply C118_total_effect_arguments. auto.
Qed.
Print Assumptions C118_longitudinal_effect.
(** An undefined index (the orders of the first time points are NaN) is a TypeError, whenever the
    two variables are found in the orders. *)
Theorem C118_longitudinal_nan : forall p L adj orders from_t from to_t to_, from = None \/ to_ = None ->
  2 <= p -> (from_t <> to_t \/ In from (orders from_t) /\ In to_ (orders from_t)) ->
  ModelLong.long_effect2 p L adj orders from_t from to_t to_ = Err TypeError.
Proof.
  intros p L adj orders from_t from to_t to_ N P H. unfold ModelLong.long_effect2.
  assert (M : forall x l, In x l -> ModelLong.opt_mem x l = true).
  { intros x l I. apply existsb_exists. exists x. split; [exact I|]. destruct x; [apply Nat.eqb_refl|reflexivity]. }
  assert (Q : p * (to_t - from_t + 1) <? 2 = false) by (apply Nat.ltb_ge; nia).
  destruct (Nat.eqb_spec to_t from_t) as [->|Z].
  - destruct H as [H|[H1 H2]]; [lia|]. rewrite (M _ _ H1), (M _ _ H2). cbn [andb negb]. rewrite Q. destruct N as [-> | ->]; [reflexivity|]. destruct from; reflexivity.
  - cbn [andb]. rewrite Q. destruct N as [-> | ->]; [reflexivity|]. destruct from; reflexivity.
Qed.
Print Assumptions C118_longitudinal_nan.
Example C118_longitudinal_example :
  ModelLong.long_effect2 2 1 (fun _ _ _ _ => None) (fun _ => [Some 0; Some 1]) 1 (Some 2) 1 (Some 0) = Err ValueError /\
  ModelLong.long_effect2 2 1 (fun _ _ _ _ => None) (fun _ => [None; None]) 1 None 1 None = Err TypeError.
Proof. split; reflexivity. Qed.

(** ** CausalBasedSimulator *)
(** Keys and lengths of the exogenous variables, targets, parents and models of the changes. *)
Definition exog_valid (im : ModelSim.impl) (exog : list (nat * (bool * ModelSim.column))) : Prop :=
  forall v b col, In (v, (b, col)) exog -> v < ModelSim.im_n im /\ ModelSim.im_discrete im v = false /\ length col = ModelSim.im_N im.
Definition changes_valid (im : ModelSim.impl) (changes : list (nat * ModelSim.change)) : Prop :=
  forall v c, In (v, c) changes -> v < ModelSim.im_n im /\ (forall q, In q (ModelSim.ch_parents c) -> q < ModelSim.im_n im) /\
    (ModelSim.ch_parents c <> [] -> ModelSim.ch_model c <> None).
Theorem C118_simulator_arguments : forall fit im changes exog shuffle,
  (ModelSim.run fit (Some im) changes exog shuffle = Err RuntimeError <-> ~ (exog_valid im exog /\ changes_valid im changes)).
Proof.
  intros fit im changes exog shuffle.
  assert (A : ModelSim.check_exog im exog = true <-> exog_valid im exog).
  { unfold ModelSim.check_exog, exog_valid. rewrite forallb_forall. split.
    - intros H v b col I. specialize (H _ I). cbn [fst snd] in H. rewrite !andb_true_iff, Nat.ltb_lt, negb_true_iff, Nat.eqb_eq in H. tauto.
    - intros H [v [b col]] I. cbn [fst snd]. rewrite !andb_true_iff, Nat.ltb_lt, negb_true_iff, Nat.eqb_eq. specialize (H v b col I). tauto. }
  assert (B : ModelSim.check_changes im changes = true <-> changes_valid im changes).
  { unfold ModelSim.check_changes, changes_valid. rewrite forallb_forall. split.
    - intros H v c I. specialize (H _ I). cbn [fst snd] in H. rewrite !andb_true_iff, Nat.ltb_lt, forallb_forall in H. destruct H as [[H1 H2] H3].
      split; [exact H1|]. split; [intros q Q; apply Nat.ltb_lt, H2, Q|]. destruct (ModelSim.ch_parents c); [congruence|]. destruct (ModelSim.ch_model c); discriminate.
    - intros H [v c] I. cbn [fst snd]. destruct (H v c I) as (H1 & H2 & H3). rewrite !andb_true_iff, Nat.ltb_lt, forallb_forall. split; [split; [exact H1|]|].
      + intros q Q. apply Nat.ltb_lt, H2, Q.
      + destruct (ModelSim.ch_parents c); [reflexivity|]. destruct (ModelSim.ch_model c); [reflexivity|]. exfalso. apply H3; [discriminate|reflexivity]. }
  assert (C : forall tr, ModelSim.simulate im tr changes exog shuffle <> Err RuntimeError).
  { intro tr. unfold ModelSim.simulate, ModelSim.get_causal_order. destruct (ModelOrder.ica_search _ _) as [o|]; cbn [bind]; [|discriminate].
    generalize (fun _ : nat => @None ModelSim.column). induction o as [|v o IH]; intro sim; cbn [ModelSim.sim_loop]; [discriminate|].
    destruct (ModelSim.sim_step im tr changes exog shuffle sim v) as [s'|e] eqn:S; cbn [bind]; [apply IH|]. intros [= ->].
    unfold ModelSim.sim_step in S. cbn [bind] in S.
    set (pa := match ModelSim.lookup v changes with Some c => _ | None => _ end) in S. set (mo := match ModelSim.lookup v changes with Some c => _ | None => _ end) in S.
    destruct (ModelSim.lookup v exog) as [[[|] col]|]; cbn [bind] in S; try discriminate;
      (destruct pa; [discriminate|]; destruct mo; [|discriminate]; destruct (ModelSim.all_some _); [|discriminate];
       destruct (ModelSim.im_discrete im v); [discriminate|]; destruct shuffle; [|]; try discriminate; destruct (ModelSim.tr_resid (tr v)); discriminate). }
  cbn [ModelSim.run]. destruct (ModelSim.check_exog im exog) eqn:E1; cbn [negb].
  - destruct (ModelSim.check_changes im changes) eqn:E2; cbn [negb].
    + split; [intro K; exfalso; exact (C _ K)|]. intro K. exfalso. apply K. split; [apply A; reflexivity|apply B; reflexivity].
    + split; [|reflexivity]. intros _ [_ K]. apply B in K. discriminate.
  - split; [|reflexivity]. intros _ [K _]. apply A in K. discriminate.
Qed.
Print Assumptions C118_simulator_arguments.
Example C118_simulator_example : exists im, exog_valid im [(0, (true, [0; 0]%Qc))] /\ ~ exog_valid im [(0, (true, [0]%Qc))] /\ ~ exog_valid im [(2, (true, [0; 0]%Qc))].
Proof.
  exists {| ModelSim.im_n := 2; ModelSim.im_N := 2; ModelSim.im_data := fun _ => [0; 0]%Qc; ModelSim.im_graph := fun _ _ => 0%Qc; ModelSim.im_discrete := fun _ => false |}.
  split; [|split].
  - intros v b col [[= <- <- <-]|[]]. cbn. auto.
  - intro H. destruct (H 0 true [0]%Qc (or_introl eq_refl)) as (_ & _ & K). discriminate.
  - intro H. destruct (H 2 true [0; 0]%Qc (or_introl eq_refl)) as (K & _). cbn in K. lia.
Qed.
(** A simulation graph with a cycle is a ValueError, both when training and after a change. *)
Theorem C118_simulator_cyclic : forall N n X G discrete,
  (forall e, ModelSim.plain_impl N n X G discrete = Err e -> e = ValueError) /\
  (forall p L B e, ModelSim.ts_impl N p L X B discrete = Err e -> e = ValueError) /\
  (forall im changes e, ModelSim.get_causal_order im changes = Err e -> e = ValueError).
Proof.
  intros. unfold ModelSim.plain_impl, ModelSim.ts_impl, ModelSim.get_causal_order. repeat split; intros *; destruct (ModelOrder.ica_search _ _); congruence.
Qed.
Print Assumptions C118_simulator_cyclic.

(** ** C95, the values given to the discovery model *)
(** With the default imputer, repetition [k] of bootstrap sample [s] is the sample completed by the
    imputer's values for that sample and repetition. *)
Theorem C95_imputed_values_partial : forall draw fill cd n p reps X N r,
  boot_imp draw (default_imp fill n p reps) cd n p X N = Ok r ->
  forall s, s < N -> exists it, nth_error r s = Some it /\ it_reps it = reps /\
    forall k i c, k < reps -> i < n -> c < p ->
      it_data it k i c = match X (draw s i) c with Some q => q | None => fill s k (fun r c => X (draw s r) c) i c end.
Proof.
  intros draw fill cd n p reps X N r H s Hs. destruct (boot_spec _ _ _ _ _ _ _ _ H) as (_ & _ & S & _).
  destruct (S s Hs) as (it & A & B). destruct (iterate_spec _ _ _ _ _ _ _ _ B) as (v & I1 & _ & I3 & _).
  unfold default_imp in I1. injection I1 as E1 E2 E3. exists it. split; [exact A|]. split; [symmetry; exact E1|].
  set (cols := kept n p (fun r0 c => X (draw s r0) c)) in *.
  assert (K : forall c, c < p -> nth c cols 0 = c).
  { assert (F : cols = seq 0 p).
    { unfold cols, kept in *. clear - E2. set (f := fun c => existsb (fun r => is_num (X (draw s r) c)) (seq 0 n)) in *.
      assert (G : forall l, length (filter f l) = length l -> filter f l = l).
      { induction l as [|x l IH]; [reflexivity|]. cbn [filter length]. destruct (f x); cbn [length]; intro Q; [f_equal; apply IH; lia|].
        assert (Y : length (filter f l) <= length l) by (clear; induction l as [|y l IH]; [cbn; lia|]; cbn [filter]; destruct (f y); cbn [length]; lia). lia. }
      apply G. rewrite seq_length. exact E2. }
    intros c Hc. rewrite F, seq_nth; lia. }
  intros k i c Hk Hi Hc. rewrite <- E1 in I3. specialize (I3 k i c Hk Hi Hc). rewrite <- E3 in I3. cbv beta zeta in I3.
  rewrite (K c Hc) in I3. cbv beta in I3. injection I3 as I3. symmetry. exact I3.
Qed.
Print Assumptions C95_imputed_values_partial.
