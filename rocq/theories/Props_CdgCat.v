(** * C225-C228: CausalDataGenerator with categorical variables, interventions and given estimators *)
From Coq Require Import List Arith Lia Bool ZArith QArith Qcanon.
From Verif Require Import Prelude Lib ModelCdgCat.
Import ListNotations.
Open Scope nat_scope.

(** random_state.choice returns a class of positive probability. *)
Definition fair (draw : nat -> list (nat * Qc) -> nat) : Prop := forall pos row, (exists k p, In (k, p) row /\ (0 < p)%Qc) -> exists p, In (draw pos row, p) row /\ (0 < p)%Qc.
(** Every value of the column is a class of positive probability of its row. *)
Definition possible (v : column) (rows : list (list (nat * Qc))) : Prop := Forall2 (fun c row => exists k p, c = Cat k /\ In (k, p) row /\ (0 < p)%Qc) v rows.
(** Every value is the error of its row plus the prediction; NaN where the error is NaN. *)
Definition shifted (v err : column) (p : list Qc) : Prop := length v = length p /\ length err = length p /\
  forall i, i < length p -> match nth i err Missing with Num q => nth i v Missing = Num (q + nth i p 0%Qc)%Qc | Missing => nth i v (Num 0%Qc) = Missing | Cat _ => False end.
Definition numeric (v : column) : Prop := forall c, In c v -> exists q, c = Num q.

Lemma op_shifted : forall err p v, col_op Qcplus err p = Ok v -> shifted v err p.
Proof.
  induction err as [|c err IH]; intros [|q p] v E; cbn in E; try discriminate; [injection E as <-; split; [reflexivity|split; [reflexivity|intros i Hi; cbn in Hi; lia]]|].
  destruct (cell_op Qcplus c q) as [c'|] eqn:EC; [|discriminate]. cbn [bind] in E. destruct (col_op Qcplus err p) as [r|] eqn:ER; [|discriminate]. cbn [bind] in E. injection E as <-. destruct (IH p r ER) as (L1 & L2 & H).
  split; [cbn; lia|]. split; [cbn; lia|]. intros [|i] Hi; [|apply H; cbn in Hi; lia]. cbn [nth]. destruct c; cbn in EC; [injection EC as <-; reflexivity|discriminate|injection EC as <-; reflexivity].
Qed.
Lemma op_inverse : forall y p r, col_op Qcminus y p = Ok r -> col_op Qcplus r p = Ok y.
Proof.
  induction y as [|c y IH]; intros [|q p] r E; cbn in E; try discriminate; [injection E as <-; reflexivity|].
  destruct (cell_op Qcminus c q) as [c'|] eqn:EC; [|discriminate]. cbn [bind] in E. destruct (col_op Qcminus y p) as [r'|] eqn:ER; [|discriminate]. cbn [bind] in E. injection E as <-. cbn [col_op]. rewrite (IH p r' ER).
  destruct c; cbn in EC; try discriminate; injection EC as <-; cbn; [|reflexivity]. repeat f_equal. ring.
Qed.
Lemma draws_possible : forall draw rows pos, fair draw -> (forall row, In row rows -> exists k p, In (k, p) row /\ (0 < p)%Qc) -> possible (draw_rows draw pos rows) rows.
Proof.
  intros draw rows. induction rows as [|r rows IH]; intros pos F H; [constructor|]. cbn [draw_rows]. constructor; [|apply IH; [exact F|intros row Hr; apply H; right; exact Hr]].
  destruct (F pos r (H r (or_introl eq_refl))) as (p & H1 & H2). exists (draw pos r), p. split; [reflexivity|split; assumption].
Qed.
Lemma draws_length : forall draw rows pos, length (draw_rows draw pos rows) = length rows.
Proof. intros draw rows. induction rows as [|r rows IH]; intro pos; cbn; [reflexivity|rewrite IH; reflexivity]. Qed.

(** ** C225 *)
(** What one call generates: the value of an intervention, or by the model at the generated explanatory columns - a class of positive
    probability for a categorical variable, error plus prediction for a continuous one. *)
Definition by_model (categorical : bool) (m : model) (cols : list column) (err v : column) : Prop :=
  if categorical then exists rows, m_proba m cols = Ok rows /\ ((forall row, In row rows -> exists k p, In (k, p) row /\ (0 < p)%Qc) -> possible v rows)
  else exists p, m_predict m cols = Ok p /\ shifted v err p.
Lemma target_by_model : forall draw pos cat endog m cols err pos' v, fair draw -> gen_target draw pos cat endog None m cols err = Ok (pos', v) ->
  match endog with Some w => v = w | None => exists mm, m = Some mm /\ by_model cat mm cols err v end.
Proof.
  intros draw pos cat endog m cols err pos' v F E. unfold gen_target in E. destruct endog as [w|]; [congruence|]. destruct m as [mm|]; [|discriminate]. exists mm. split; [reflexivity|]. unfold by_model. destruct cat.
  - destruct (m_proba mm cols) as [rows|]; [|discriminate]. cbn [bind] in E. injection E as _ <-. exists rows. split; [reflexivity|]. intro H. apply draws_possible; assumption.
  - destruct (m_predict mm cols) as [p|]; [|discriminate]. cbn [bind] in E. destruct (col_op Qcplus err p) as [v'|] eqn:EO; [|discriminate]. cbn [bind] in E. injection E as _ <-. exists p. split; [reflexivity|]. apply op_shifted. exact EO.
Qed.
Theorem C225_generated_values : forall draw f pos endog exog pos' c e adj, fair draw -> cat_generate draw f pos endog exog None None = Ok (pos', (c, e, adj)) ->
  adj = adjusted f exog /\
  match lookup (Target Cause) endog with Some w => c = w | None => exists m, f_model_cause f = Some m /\ by_model (f_cat f Cause) m adj (error_of f exog Cause) c end /\
  match lookup (Target Effect) endog with Some w => e = w | None => by_model (f_cat f Effect) (f_model_effect f) (c :: adj) (error_of f exog Effect) e end.
Proof.
  intros draw f pos endog exog pos' c e adj F E. unfold cat_generate in E. destruct (negb _); [discriminate|].
  destruct (gen_target draw pos _ _ None _ _ _) as [[p1 c']|] eqn:E1; [|discriminate]. cbn [bind] in E. destruct (gen_target draw p1 _ _ None _ _ _) as [[p2 e']|] eqn:E2; [|discriminate]. cbn [bind] in E. injection E as <- <- <- <-.
  split; [reflexivity|]. pose proof (target_by_model _ _ _ _ _ _ _ _ _ F E1) as H1. pose proof (target_by_model _ _ _ _ _ _ _ _ _ F E2) as H2. split; [exact H1|].
  destruct (lookup (Target Effect) endog); [exact H2|]. destruct H2 as (mm & Q & H2). injection Q as <-. exact H2.
Qed.
Print Assumptions C225_generated_values.
Lemma fit_parts : forall train mc me d f, cat_fit train mc me d = Ok f -> f_cat f = d_cat d /\ f_adj f = d_adj d /\ f_rows f = length (d_val d Cause) /\
  (d_adj d = [] -> f_model_cause f = None /\ f_err f Cause = d_val d Cause) /\
  (d_adj d <> [] -> exists m, f_model_cause f = Some m /\ (d_cat d Cause = true -> f_err f Cause = repeat Missing (length (d_val d Cause))) /\
     (d_cat d Cause = false -> exists p, m_predict m (d_adj d) = Ok p /\ col_op Qcminus (d_val d Cause) p = Ok (f_err f Cause))) /\
  (d_cat d Effect = true -> f_err f Effect = repeat Missing (length (d_val d Effect))) /\
  (d_cat d Effect = false -> exists p, m_predict (f_model_effect f) (d_val d Cause :: d_adj d) = Ok p /\ col_op Qcminus (d_val d Effect) p = Ok (f_err f Effect)).
Proof.
  intros train mc me d f E. unfold cat_fit in E. destruct (check_given (d_cat d Cause) mc); [|discriminate]. cbn [bind] in E. destruct (check_given (d_cat d Effect) me); [|discriminate]. cbn [bind] in E.
  assert (MM : forall t cat est cols y m r, make_model train t cat est cols y = Ok (m, r) -> (cat = true -> r = repeat Missing (length y)) /\ (cat = false -> exists p, m_predict m cols = Ok p /\ col_op Qcminus y p = Ok r)).
  { intros t cat est cols y m r H. unfold make_model in H. destruct (match train t est cols y with Ok _ => _ | Err _ => _ end) as [m'|]; [|discriminate]. cbn [bind] in H. destruct cat; [injection H as <- <-; split; [reflexivity|discriminate]|].
    destruct (m_predict m' cols) as [p|] eqn:EP; [|discriminate]. cbn [bind] in H. destruct (col_op Qcminus y p) as [r'|] eqn:EO; [|discriminate]. cbn [bind] in H. injection H as <- <-. split; [discriminate|]. intros _. exists p. split; [exact EP|exact EO]. }
  destruct (match d_adj d with [] => _ | _ :: _ => _ end) as [[mcause ec]|] eqn:EC; [|discriminate]. cbn [bind] in E.
  destruct (make_model train Effect (d_cat d Effect) me (d_val d Cause :: d_adj d) (d_val d Effect)) as [[meff ee]|] eqn:EE; [|discriminate]. cbn [bind] in E. injection E as <-. cbn [f_cat f_adj f_rows f_model_cause f_model_effect f_err].
  destruct (MM _ _ _ _ _ _ _ EE) as [HE1 HE2]. split; [reflexivity|]. split; [reflexivity|]. split; [reflexivity|]. split; [|split; [|split; assumption]].
  - intro H. rewrite H in EC. injection EC as <- <-. split; reflexivity.
  - intro H. destruct (d_adj d) as [|a l] eqn:EA; [congruence|]. destruct (make_model train Cause (d_cat d Cause) mc (a :: l) (d_val d Cause)) as [[m r]|] eqn:EM; [|discriminate]. cbn [bind] in EC. injection EC as <- <-.
    exists m. split; [reflexivity|]. exact (MM _ _ _ _ _ _ _ EM).
Qed.
Lemma adjusted_nil : forall f, adjusted f [] = f_adj f.
Proof. intro f. unfold adjusted. cbn [lookup find option_map]. generalize (f_adj f). intro l. induction l as [|a l IH]; [reflexivity|]. cbn [length seq map nth]. f_equal. rewrite <- seq_shift, map_map. exact IH. Qed.
(** A continuous effect is replayed exactly whenever the cause is (here by an intervention with its data), whatever the types of the others. *)
Theorem C225_continuous_effect : forall train draw mc me d f pos pos' c e adj, cat_fit train mc me d = Ok f -> d_cat d Effect = false ->
  cat_generate draw f pos [(Target Cause, d_val d Cause)] [] None None = Ok (pos', (c, e, adj)) -> c = d_val d Cause /\ e = d_val d Effect /\ adj = d_adj d.
Proof.
  intros train draw mc me d f pos pos' c e adj EF HE EG. destruct (fit_parts _ _ _ _ _ EF) as (F1 & F2 & F3 & _ & _ & _ & FE). destruct (FE HE) as (p & EP & EO). unfold cat_generate in EG. destruct (negb _); [discriminate|].
  cbn [lookup find fst snd name_eqb target_eqb option_map gen_target bind] in EG. rewrite F1, HE, adjusted_nil, F2, EP in EG. cbn [bind error_of lookup find option_map] in EG. rewrite (op_inverse _ _ _ EO) in EG. cbn [bind] in EG. injection EG as _ <- <- <-. repeat split.
Qed.
(** A continuous cause with adjustments of any type is replayed. *)
Theorem C225_continuous_cause : forall train draw mc me d f pos pos' c e adj, cat_fit train mc me d = Ok f -> d_cat d Cause = false -> d_adj d <> [] ->
  cat_generate draw f pos [] [] None None = Ok (pos', (c, e, adj)) -> c = d_val d Cause /\ (d_cat d Effect = false -> e = d_val d Effect).
Proof.
  intros train draw mc me d f pos pos' c e adj EF HC HA EG. destruct (fit_parts _ _ _ _ _ EF) as (F1 & F2 & F3 & _ & FC & _ & FE). destruct (FC HA) as (m & EM & _ & FC'). destruct (FC' HC) as (p & EP & EO). unfold cat_generate in EG. destruct (negb _); [discriminate|].
  cbn [lookup find option_map] in EG. unfold gen_target at 1 in EG. rewrite F1, HC, EM, adjusted_nil, F2, EP in EG. cbn [bind error_of lookup find option_map] in EG. rewrite (op_inverse _ _ _ EO) in EG. cbn [bind] in EG.
  destruct (gen_target draw pos (d_cat d Effect) None None (Some (f_model_effect f)) (d_val d Cause :: d_adj d) (f_err f Effect)) as [[p2 e']|] eqn:E2; [|discriminate]. cbn [bind] in EG. injection EG as _ <- <- _. split; [reflexivity|].
  intro HE. destruct (FE HE) as (pe & EPE & EOE). unfold gen_target in E2. rewrite HE, EPE in E2. cbn [bind] in E2. rewrite (op_inverse _ _ _ EOE) in E2. cbn [bind] in E2. injection E2 as _ <-. reflexivity.
Qed.
Print Assumptions C225_continuous_effect.
Print Assumptions C225_continuous_cause.

(** ** C226 *)
(** Continuous: the value given in interv_exog replaces the error. *)
Theorem C226_continuous : forall draw f pos exog v pos' c e adj, f_cat f Effect = false -> lookup (Target Effect) exog = Some v ->
  cat_generate draw f pos [] exog None None = Ok (pos', (c, e, adj)) -> exists p, m_predict (f_model_effect f) (c :: adj) = Ok p /\ shifted e v p.
Proof.
  intros draw f pos exog v pos' c e adj HE HL EG. unfold cat_generate in EG. destruct (negb _); [discriminate|]. cbn [lookup find option_map] in EG. destruct (gen_target draw pos _ None None _ _ _) as [[p1 c']|]; [|discriminate]. cbn [bind] in EG.
  destruct (gen_target draw p1 (f_cat f Effect) None None _ _ _) as [[p2 e']|] eqn:E2; [|discriminate]. cbn [bind] in EG. injection EG as _ <- <- <-. unfold gen_target in E2. rewrite HE in E2. unfold error_of in E2. rewrite HL in E2.
  destruct (m_predict (f_model_effect f) (c' :: adjusted f exog)) as [p|]; [|discriminate]. cbn [bind] in E2. destruct (col_op Qcplus v p) as [w|] eqn:EO; [|discriminate]. cbn [bind] in E2. injection E2 as _ <-. exists p. split; [reflexivity|]. apply op_shifted. exact EO.
Qed.
Print Assumptions C226_continuous.
(** Categorical: any two values give the same data. *)
Theorem C226_categorical_refuted : forall draw f pos endog exog t v w, f_cat f t = true -> length v = f_rows f -> length w = f_rows f ->
  cat_generate draw f pos endog ((Target t, v) :: exog) None None = cat_generate draw f pos endog ((Target t, w) :: exog) None None.
Proof.
  intros draw f pos endog exog t v w HC LV LW. unfold cat_generate. cbn [check_dict forallb fst snd known andb]. rewrite LV, LW, !Nat.eqb_refl. cbn [andb].
  assert (EA : adjusted f ((Target t, v) :: exog) = adjusted f ((Target t, w) :: exog)) by reflexivity. rewrite EA.
  assert (ER : forall u, u <> t -> error_of f ((Target t, v) :: exog) u = error_of f ((Target t, w) :: exog) u) by (intros u H; unfold error_of; cbn [lookup find fst name_eqb]; destruct t, u; try congruence; reflexivity).
  assert (GT : forall p0 en m cols e1 e2, gen_target draw p0 true en None m cols e1 = gen_target draw p0 true en None m cols e2) by (intros p0 [x|] [m|] cols e1 e2; reflexivity).
  destruct (negb _); [reflexivity|]. destruct t.
  - rewrite HC, (GT pos _ _ _ _ (error_of f ((Target Cause, w) :: exog) Cause)), (ER Effect) by discriminate. reflexivity.
  - rewrite (ER Cause) by discriminate. destruct (gen_target draw pos _ _ None _ _ _) as [[p1 c]|]; [|reflexivity]. cbn [bind]. rewrite HC, (GT p1 _ _ _ _ (error_of f ((Target Effect, w) :: exog) Effect)). reflexivity.
Qed.
Print Assumptions C226_categorical_refuted.
(** The error handed to a replaced model of a categorical effect is NaN in every row: only its answer to that matters. *)
Theorem C226_replaced_model_refuted : forall train draw mc me d f pos endog uc g h, cat_fit train mc me d = Ok f -> d_cat d Effect = true ->
  (forall cols, g cols (repeat Missing (length (d_val d Effect))) = h cols (repeat Missing (length (d_val d Effect)))) ->
  cat_generate draw f pos endog [] uc (Some g) = cat_generate draw f pos endog [] uc (Some h).
Proof.
  intros train draw mc me d f pos endog uc g h EF HE H. destruct (fit_parts _ _ _ _ _ EF) as (_ & _ & _ & _ & _ & FE & _). unfold cat_generate. destruct (negb _); [reflexivity|].
  destruct (gen_target draw pos _ _ uc _ _ _) as [[p1 c]|]; [|reflexivity]. cbn [bind]. unfold error_of. cbn [lookup find option_map]. rewrite (FE HE). unfold gen_target. destruct (lookup (Target Effect) endog); [reflexivity|]. rewrite H. reflexivity.
Qed.
Print Assumptions C226_replaced_model_refuted.

(** ** C227 *)
Lemma lookup_target : forall v, lookup (Target Cause) [(Target Cause, v)] = Some v.
Proof. reflexivity. Qed.
(** Setting a continuous cause to the values it has anyway changes nothing. *)
Theorem C227_continuous : forall draw f pos pos' c e adj, f_cat f Cause = false -> length c = f_rows f ->
  cat_generate draw f pos [] [] None None = Ok (pos', (c, e, adj)) -> cat_generate draw f pos [(Target Cause, c)] [] None None = Ok (pos', (c, e, adj)).
Proof.
  intros draw f pos pos' c e adj HC LC EG. unfold cat_generate in *. cbn [check_dict forallb fst snd known andb negb]. rewrite LC, Nat.eqb_refl. cbn [andb negb check_dict forallb] in *. cbn [lookup find option_map fst snd name_eqb target_eqb] in *.
  destruct (gen_target draw pos (f_cat f Cause) None None _ _ _) as [[p1 c']|] eqn:E1; [|discriminate]. cbn [bind] in EG. destruct (gen_target draw p1 (f_cat f Effect) None None _ _ _) as [[p2 e']|] eqn:E2; [|discriminate]. cbn [bind] in EG. injection EG as <- <- <- <-.
  unfold gen_target at 1. cbn [bind]. assert (P : p1 = pos). { unfold gen_target in E1. destruct (f_model_cause f) as [m|]; [|discriminate]. rewrite HC in E1. destruct (m_predict m _); [|discriminate]. cbn [bind] in E1. destruct (col_op _ _ _); [|discriminate]. cbn [bind] in E1. congruence. }
  subst p1. rewrite E2. reflexivity.
Qed.
Print Assumptions C227_continuous.

(** ** C228 *)
(** A given estimator is accepted exactly if it is no regressor and has predict_proba (categorical), or is no classifier (continuous). *)
Theorem C228_accepted : forall cat k, check_kind cat k = Ok tt <-> (cat = true /\ k_regressor k = false /\ k_proba k = true) \/ (cat = false /\ k_classifier k = false).
Proof. intros [] [[] [] []]; cbn; intuition congruence. Qed.
(** One of the wrong type raises before anything is trained; which exception is decided by the type first. *)
Theorem C228_rejected : forall train train' mc me d e, cat_fit train mc me d = Err e -> (exists k, (mc = Some k /\ check_kind (d_cat d Cause) k <> Ok tt) \/ (me = Some k /\ check_kind (d_cat d Effect) k <> Ok tt)) ->
  cat_fit train' mc me d = Err e /\ (e = TypeError \/ e = RuntimeError).
Proof.
  intros train train' mc me d e E (k & H). assert (K : forall c kk x, check_kind c kk = Err x -> x = TypeError \/ x = RuntimeError) by (intros [] [[] [] []] x Q; cbn in Q; try discriminate; injection Q as <-; tauto).
  unfold cat_fit in *. destruct (check_given (d_cat d Cause) mc) as [u|x] eqn:E1; cbn [bind] in *.
  - destruct (check_given (d_cat d Effect) me) as [u'|x] eqn:E2; cbn [bind] in *.
    + exfalso. destruct H as [[-> H]|[-> H]]; cbn in E1, E2; destruct u, u'; congruence.
    + injection E as <-. split; [reflexivity|]. destruct me as [k'|]; [|discriminate]. exact (K _ _ _ E2).
  - injection E as <-. split; [reflexivity|]. destruct mc as [k'|]; [|discriminate]. exact (K _ _ _ E1).
Qed.
(** Without adjustments, an accepted estimator for the cause is neither trained nor kept, and the cause cannot be generated. *)
Theorem C228_cause_model_dropped_refuted : forall train draw mc me d f pos ue, d_adj d = [] -> cat_fit train (Some mc) me d = Ok f ->
  cat_fit train None me d = Ok f /\ cat_generate draw f pos [] [] None ue = Err AttributeError.
Proof.
  intros train draw mc me d f pos ue HA E. destruct (fit_parts _ _ _ _ _ E) as (_ & _ & _ & F & _). destruct (F HA) as [FM _]. split.
  - unfold cat_fit in *. rewrite HA in *. destruct (check_given (d_cat d Cause) (Some mc)); [|discriminate]. cbn [check_given bind] in *. exact E.
  - unfold cat_generate. cbn [check_dict forallb andb negb lookup find option_map]. unfold gen_target at 1. rewrite FM. reflexivity.
Qed.
Print Assumptions C228_accepted.
Print Assumptions C228_rejected.
Print Assumptions C228_cause_model_dropped_refuted.

(** ** A concrete generator: a categorical cause (classes 0, 1) with one adjustment; the draws alternate *)
Definition half : list (nat * Qc) := [(0, qf 1 2); (1, qf 1 2)].
Definition coin : model := {| m_predict := fun _ => Err AttributeError; m_proba := fun cols => Ok (repeat half (length (nth 0 cols []))) |}.
Definition level : model := {| m_predict := fun cols => Ok (map (fun c => match c with Cat k => qn k | _ => 0%Qc end) (nth 0 cols [])); m_proba := fun _ => Err AttributeError |}.
Definition ex_train (t : target) (est : option kind) (cols : list column) (y : column) : result model := Ok (match y with Cat _ :: _ => coin | _ => level end).
Definition ex_draw (pos : nat) (row : list (nat * Qc)) : nat :=
  match filter (fun kp => qltb 0 (snd kp)) row with [] => 0 | (k, _) :: rest => if Nat.even (Nat.div pos 3) then k else match rest with (k', _) :: _ => k' | [] => k end end.
Definition ex_data (cat : bool) : data := {| d_cat := fun t => match t with Cause => true | Effect => cat end;
  d_val := fun t => match t with Cause => [Cat 0; Cat 1; Cat 1] | Effect => if cat then [Cat 1; Cat 0; Cat 0] else [Num 0%Qc; Num (qz 3); Num 1%Qc] end; d_adj := [[Num 1%Qc; Num 0%Qc; Num 0%Qc]] |}.
Lemma ex_draw_fair : fair ex_draw.
Proof.
  intros pos row (k & p & HI & HP). unfold ex_draw. assert (F : In (k, p) (filter (fun kp => qltb 0 (snd kp)) row)) by (apply filter_In; split; [exact HI|apply qltb_lt; exact HP]).
  assert (G : forall x, In x (filter (fun kp => qltb 0 (snd kp)) row) -> In (fst x, snd x) row /\ (0 < snd x)%Qc) by (intros [a b] H; apply filter_In in H; cbn in *; split; [apply H|apply qltb_lt; apply H]).
  destruct (filter _ row) as [|[a b] rest]; [destruct F|]. destruct (Nat.even _); [exists b; apply (G (a, b)); left; reflexivity|]. destruct rest as [|[a' b'] rest]; [exists b; apply (G (a, b)); left; reflexivity|exists b'; apply (G (a', b')); right; left; reflexivity].
Qed.
(** Without any intervention the categorical cause is drawn anew, so the data are not returned, although they are possible. *)
Theorem C225_categorical_replay_refuted : exists d f c e adj, cat_fit ex_train None None d = Ok f /\ fair ex_draw /\ cat_generate ex_draw f 0 [] [] None None = Ok (3, (c, e, adj)) /\ c <> d_val d Cause /\ e <> d_val d Effect.
Proof. exists (ex_data false). do 4 eexists. split; [reflexivity|]. split; [exact ex_draw_fair|]. split; [reflexivity|]. split; [discriminate|]. intro H. vm_compute in H. discriminate. Qed.
Print Assumptions C225_categorical_replay_refuted.
(** Setting a categorical cause to the values it would have had anyway changes a categorical effect. *)
Theorem C227_categorical_refuted : exists f pos c e e' adj pos1 pos2, cat_fit ex_train None None (ex_data true) = Ok f /\ fair ex_draw /\ cat_generate ex_draw f pos [] [] None None = Ok (pos1, (c, e, adj)) /\
  cat_generate ex_draw f pos [(Target Cause, c)] [] None None = Ok (pos2, (c, e', adj)) /\ e <> e'.
Proof. eexists. exists 0. do 6 eexists. split; [reflexivity|]. split; [exact ex_draw_fair|]. split; [reflexivity|]. split; [reflexivity|]. discriminate. Qed.
Print Assumptions C227_categorical_refuted.
Example C225_example : exists f, cat_fit ex_train None None (ex_data false) = Ok f /\ d_adj (ex_data false) <> [] /\
  (exists pos' adj, cat_generate ex_draw f 5 [(Target Cause, [Cat 0; Cat 1; Cat 1])] [] None None = Ok (pos', ([Cat 0; Cat 1; Cat 1], d_val (ex_data false) Effect, adj))) /\
  possible [Cat 0; Cat 1; Cat 1] (repeat half 3).
Proof.
  eexists. split; [reflexivity|]. split; [discriminate|]. split.
  - destruct (cat_generate ex_draw _ 5 [(Target Cause, [Cat 0; Cat 1; Cat 1])] [] None None) as [[p [[c e] a]]|] eqn:E; [|vm_compute in E; discriminate].
    pose proof (C225_continuous_effect ex_train ex_draw None None (ex_data false) _ 5 p c e a eq_refl eq_refl E) as (-> & -> & _). exists p, a. reflexivity.
  - repeat constructor; [exists 0, (qf 1 2)|exists 1, (qf 1 2)|exists 1, (qf 1 2)]; (split; [reflexivity|]); (split; [cbn; tauto|reflexivity]).
Qed.
Definition ex_cont : data := {| d_cat := fun _ => false; d_val := fun t => match t with Cause => [Num 1%Qc; Num (qz 2)] | Effect => [Num (qz 5); Num (qz 7)] end; d_adj := [[Cat 0; Cat 1]] |}.
Example C225_example_cause : exists f, cat_fit ex_train None None ex_cont = Ok f /\ d_adj ex_cont <> [] /\ d_cat ex_cont Cause = false /\
  exists pos' adj, cat_generate ex_draw f 0 [] [] None None = Ok (pos', (d_val ex_cont Cause, d_val ex_cont Effect, adj)).
Proof.
  eexists. split; [reflexivity|]. split; [discriminate|]. split; [reflexivity|].
  match goal with |- exists _ _, ?l = _ => destruct l as [[p [[c e] a]]|] eqn:E; [|vm_compute in E; discriminate] end.
  pose proof (C225_continuous_cause ex_train ex_draw None None ex_cont _ 0 p c e a eq_refl eq_refl ltac:(discriminate) E) as (-> & He). rewrite (He eq_refl). exists p, a. reflexivity.
Qed.
Example C226_example : exists f, cat_fit ex_train None None (ex_data true) = Ok f /\ f_cat f Cause = true /\
  length [Cat 1; Cat 1; Cat 1] = f_rows f /\ check_dict f [(Target Cause, [Cat 1; Cat 1; Cat 1])] = true /\
  exists p, cat_generate ex_draw f 0 [] [(Target Cause, [Cat 1; Cat 1; Cat 1])] None None = Ok p /\ fst (fst (snd p)) = [Cat 0; Cat 0; Cat 0].
Proof. eexists. split; [reflexivity|]. repeat split. eexists. split; reflexivity. Qed.
Example C228_example : check_kind true {| k_regressor := true; k_classifier := false; k_proba := true |} = Err TypeError /\ check_kind true {| k_regressor := false; k_classifier := true; k_proba := false |} = Err RuntimeError /\
  check_kind false {| k_regressor := false; k_classifier := false; k_proba := false |} = Ok tt /\
  exists f, cat_fit ex_train (Some {| k_regressor := false; k_classifier := true; k_proba := true |}) None {| d_cat := d_cat (ex_data true); d_val := d_val (ex_data true); d_adj := [] |} = Ok f.
Proof. repeat split. eexists. reflexivity. Qed.

(** ** C225, the dictionaries *)
(** Each adjustment is the one of the data unless interv_exog names it. *)
Theorem C225_adjustments : forall draw f pos endog exog uc ue pos' c e adj, NoDup (map fst exog) -> cat_generate draw f pos endog exog uc ue = Ok (pos', (c, e, adj)) ->
  length adj = length (f_adj f) /\
  forall i, i < length (f_adj f) ->
    (forall v, In (Adjustment i, v) exog -> nth_error adj i = Some v) /\
    (~ In (Adjustment i) (map fst exog) -> nth_error adj i = nth_error (f_adj f) i).
Proof.
  intros draw f pos endog exog uc ue pos' c e adj ND E. unfold cat_generate in E. destruct (negb _); [discriminate|].
  destruct (gen_target draw pos _ _ uc _ _ _) as [[p1 c']|]; [|discriminate]. cbn [bind] in E. destruct (gen_target draw p1 _ _ ue _ _ _) as [[p2 e']|]; [|discriminate]. cbn [bind] in E. injection E as _ _ _ <-.
  unfold adjusted. rewrite map_length, seq_length. split; [reflexivity|]. intros i Hi.
  assert (NM : forall a b, name_eqb a b = true <-> a = b).
  { intros [[]|x] [[]|y]; cbn; try (split; congruence). rewrite Nat.eqb_eq. split; congruence. }
  rewrite nth_error_map. rewrite (nth_error_nth' _ 0) by (rewrite seq_length; exact Hi). rewrite seq_nth by exact Hi. cbn [option_map plus]. split.
  - intros v I. assert (L : lookup (Adjustment i) exog = Some v).
    { clear - ND NM I. induction exog as [|[k w] exog IH]; [destruct I|]. cbn [map fst] in ND. inversion ND as [|? ? N1 N2]; subst. unfold lookup. cbn [find fst].
      destruct (name_eqb k (Adjustment i)) eqn:Q.
      - apply NM in Q. subst k. destruct I as [I|I]; [injection I as ->; reflexivity|]. exfalso. apply N1. apply in_map_iff. exists (Adjustment i, v). split; [reflexivity|exact I].
      - destruct I as [I|I]; [injection I as -> ->; rewrite (proj2 (NM _ _) eq_refl) in Q; discriminate|]. apply (IH N2 I). }
    rewrite L. reflexivity.
  - intro N. assert (L : lookup (Adjustment i) exog = None).
    { unfold lookup. destruct (find _ exog) as [[k w]|] eqn:Q; [|reflexivity]. apply find_some in Q. destruct Q as [I Q]. cbn [fst] in Q. apply NM in Q. subst k.
      exfalso. apply N. apply in_map_iff. exists (Adjustment i, w). split; [reflexivity|exact I]. }
    rewrite L. symmetry. apply nth_error_nth'. exact Hi.
Qed.
Print Assumptions C225_adjustments.
(** A dictionary with an unknown name or a wrong number of values, endogenous or exogenous, raises ValueError. *)
Theorem C225_bad_dictionaries : forall draw f pos endog exog uc ue k v, In (k, v) endog \/ In (k, v) exog ->
  length v <> f_rows f \/ (exists i, k = Adjustment i /\ length (f_adj f) <= i) -> cat_generate draw f pos endog exog uc ue = Err ValueError.
Proof.
  intros draw f pos endog exog uc ue k v I B. unfold cat_generate.
  assert (K : forall d, In (k, v) d -> check_dict f d = false).
  { intros d J. unfold check_dict. destruct (forallb _ d) eqn:Q; [|reflexivity]. rewrite forallb_forall in Q. specialize (Q _ J). cbn [fst snd] in Q. apply andb_true_iff in Q. destruct Q as [Q1 Q2]. apply Nat.eqb_eq in Q2.
    destruct B as [B|(i & -> & B)]; [contradiction|]. cbn [known] in Q1. apply Nat.ltb_lt in Q1. lia. }
  destruct I as [I|I]; rewrite (K _ I); [reflexivity|]. rewrite andb_false_r. reflexivity.
Qed.
Print Assumptions C225_bad_dictionaries.
Example C225_dictionaries_example : exists f, cat_fit ex_train None None ex_cont = Ok f /\
  cat_generate ex_draw f 0 [] [(Adjustment 0, [Cat 1])] None None = Err ValueError /\ cat_generate ex_draw f 0 [] [(Adjustment 1, [Cat 1; Cat 0])] None None = Err ValueError /\
  exists p, cat_generate ex_draw f 0 [] [(Adjustment 0, [Cat 1; Cat 0])] None None = Ok p /\ snd (snd p) = [[Cat 1; Cat 0]].
Proof. eexists. split; [reflexivity|]. split; [reflexivity|]. split; [reflexivity|]. eexists. split; reflexivity. Qed.
