(** * CausalDataGenerator with categorical variables, given estimators and replaced models (lingam/experimental/cdg.py 76-329)

    ModelExper.v has the columns and the index of the frame for continuous variables; here the frame consists of cause, effect and
    adjustments, and a column may be categorical.  Every generated categorical value is drawn from the class probabilities. *)
From Coq Require Import List Arith Bool ZArith QArith Qcanon.
From Verif Require Import Prelude.
Import ListNotations.
Open Scope nat_scope.

(** A value: a number, a category, or NaN. *)
Inductive cell := Num (q : Qc) | Cat (k : nat) | Missing.
Definition column := list cell.
(** What [_is_sklearn_estimator] asks of an estimator: is_regressor, is_classifier, a callable predict_proba. *)
Record kind := { k_regressor : bool; k_classifier : bool; k_proba : bool }.
(** 277-295 [_is_sklearn_estimator] *)
Definition check_kind (categorical : bool) (k : kind) : result unit :=
  if categorical && k_regressor k then Err TypeError
  else if negb categorical && k_classifier k then Err TypeError
  else if categorical && negb (k_proba k) then Err RuntimeError
  else Ok tt.
(** A trained estimator: predict (numbers) and predict_proba (per row the classes with their probabilities). *)
Record model := { m_predict : list column -> result (list Qc); m_proba : list column -> result (list (list (nat * Qc))) }.
(** elementwise arithmetic of a column with predictions (326, 219, 257); NaN stays NaN, categories raise *)
Definition cell_op (f : Qc -> Qc -> Qc) (c : cell) (p : Qc) : result cell :=
  match c with Num q => Ok (Num (f q p)) | Cat _ => Err TypeError | Missing => Ok Missing end.
Fixpoint col_op (f : Qc -> Qc -> Qc) (y : column) (p : list Qc) : result column :=
  match y, p with
  | c :: y, q :: p => let* c' := cell_op f c q in let* r := col_op f y p in Ok (c' :: r)
  | [], [] => Ok []
  | _, _ => Err ValueError
  end.
(** The two targets of the generator. *)
Inductive target := Cause | Effect.
Definition target_eqb (a b : target) : bool := match a, b with Cause, Cause | Effect, Effect => true | _, _ => false end.

Record data := { d_cat : target -> bool; d_val : target -> column; d_adj : list column }.
Record fitted := { f_cat : target -> bool; f_rows : nat; f_adj : list column; f_model_cause : option model; f_model_effect : model; f_err : target -> column }.

Section Generator.
  (** estimator.fit(X, y) of the given estimator (None: the default one for the type of y, 303-321) for a target; its exception becomes
      RuntimeError if the estimator was given (299-302) and stays as it is otherwise. *)
  Variable train : target -> option kind -> list column -> column -> result model.
  (** 297-329 [_make_model] *)
  Definition make_model (t : target) (categorical : bool) (est : option kind) (cols : list column) (y : column) : result (model * column) :=
    let* m := match train t est cols y, est with Err _, Some _ => Err RuntimeError | r, _ => r end in
    if categorical then Ok (m, repeat Missing (length y))                                                    (* 323-324 *)
    else let* p := m_predict m cols in let* r := col_op Qcminus y p in Ok (m, r).                            (* 326 *)
  Definition check_given (categorical : bool) (est : option kind) : result unit := match est with None => Ok tt | Some k => check_kind categorical k end.
  (** 95-131 [fit], after the checks of names *)
  Definition cat_fit (mc me : option kind) (d : data) : result fitted :=
    let* _ := check_given (d_cat d Cause) mc in                                                              (* 95-97 *)
    let* _ := check_given (d_cat d Effect) me in                                                             (* 99-101 *)
    let* (model_cause, err_cause) := match d_adj d with
                                     | [] => Ok (None, d_val d Cause)                                        (* 104-105 *)
                                     | _ => let* (m, e) := make_model Cause (d_cat d Cause) mc (d_adj d) (d_val d Cause) in Ok (Some m, e)
                                     end in
    let* (model_effect, err_effect) := make_model Effect (d_cat d Effect) me (d_val d Cause :: d_adj d) (d_val d Effect) in
    Ok {| f_cat := d_cat d; f_rows := length (d_val d Cause); f_adj := d_adj d; f_model_cause := model_cause; f_model_effect := model_effect;
          f_err := fun t => match t with Cause => err_cause | Effect => err_effect end |}.

  (** [draw k row]: what random_state.choice(classes, p=...) returns at the k-th call; the generator is in state [pos] (number of calls). *)
  Variable draw : nat -> list (nat * Qc) -> nat.
  Fixpoint draw_rows (pos : nat) (rows : list (list (nat * Qc))) : column :=
    match rows with [] => [] | r :: rows => Cat (draw pos r) :: draw_rows (S pos) rows end.
  (** A replaced model (cause_model, effect_model) with its arguments: explanatory columns and error to values. *)
  Definition replaced := list column -> column -> result column.
  (** 200-234 and 236-271: one target.  [endog]: the value of interv_endog, [err]: the current column, which holds the error. *)
  Definition gen_target (pos : nat) (categorical : bool) (endog : option column) (user : option replaced) (m : option model) (cols : list column) (err : column) : result (nat * column) :=
    match endog with
    | Some v => Ok (pos, v)                                                                                  (* 200-201, 236-237 *)
    | None =>
        match user with
        | Some g => match g cols err with Ok v => Ok (pos, v) | Err _ => Err RuntimeError end                (* 203-215, 239-252 *)
        | None =>
            match m with
            | None => Err AttributeError                                                                     (* 218, 221: None.predict *)
            | Some m =>
                if categorical then let* rows := m_proba m cols in Ok (pos + length rows, draw_rows pos rows) (* 221-234, 259-271 *)
                else let* p := m_predict m cols in let* v := col_op Qcplus err p in Ok (pos, v)              (* 217-219, 255-257 *)
            end
        end
    end.
  (** An intervention of a dictionary: for a target or for the i-th adjustment; 331-351 checks the number of values. *)
  Inductive name := Target (t : target) | Adjustment (i : nat).
  Definition name_eqb (a b : name) : bool := match a, b with Target s, Target t => target_eqb s t | Adjustment i, Adjustment j => i =? j | _, _ => false end.
  Definition lookup (k : name) (d : list (name * column)) : option column := option_map snd (find (fun e => name_eqb (fst e) k) d).
  Definition known (f : fitted) (k : name) : bool := match k with Target _ => true | Adjustment i => i <? length (f_adj f) end.
  Definition check_dict (f : fitted) (d : list (name * column)) : bool := forallb (fun e => known f (fst e) && (length (snd e) =? f_rows f)) d.
  (** 189-197: the adjustments and errors after interv_exog *)
  Definition adjusted (f : fitted) (exog : list (name * column)) : list column :=
    map (fun i => match lookup (Adjustment i) exog with Some v => v | None => nth i (f_adj f) [] end) (seq 0 (length (f_adj f))).
  Definition error_of (f : fitted) (exog : list (name * column)) (t : target) : column := match lookup (Target t) exog with Some v => v | None => f_err f t end.
  (** 133-275 [generate]: the state of the random generator afterwards, cause, effect and adjustments *)
  Definition cat_generate (f : fitted) (pos : nat) (endog exog : list (name * column)) (uc ue : option replaced) : result (nat * (column * column * list column)) :=
    if negb (check_dict f endog && check_dict f exog) then Err ValueError
    else
      let adj := adjusted f exog in
      let* (pos1, c) := gen_target pos (f_cat f Cause) (lookup (Target Cause) endog) uc (f_model_cause f) adj (error_of f exog Cause) in
      let* (pos2, e) := gen_target pos1 (f_cat f Effect) (lookup (Target Effect) endog) ue (Some (f_model_effect f)) (c :: adj) (error_of f exog Effect) in
      Ok (pos2, (c, e, adj)).
End Generator.
