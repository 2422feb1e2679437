(** * Model of the argument checks of lingam/causal_based_simulator.py and of the object's state.
    Arguments of the wrong type are values here, so that it can be said which exception each one causes. *)
From Coq Require Import List Arith Bool ZArith QArith Qcanon String.
From Verif Require Import Prelude Spec ModelOrder ModelSim ModelSimNames.
Import ListNotations.
Open Scope nat_scope.

(** 760-774: the model made from coefficients, [coef @ X.T] (it has no intercept). *)
Definition dot (c x : list Qc) : Qc := qsum (map (fun ab => (fst ab * snd ab)%Qc) (combine c x)).
Definition coef_predictor (c : list Qc) : predictor := fun R r => dot c (nth r R []).
(** 777-791: [expit(coef @ X.T) >= 0.5]; expit increases and expit(0) = 0.5, so the comparison is that of
    the linear combination with 0. *)
Definition coef_classifier (c : list Qc) : predictor := fun R r => if qleb 0 (dot c (nth r R [])) then 1%Qc else 0%Qc.
(** The LinearRegression of scikit-learn: coef_ and intercept_. *)
Definition linear_predictor (c : list Qc) (b : Qc) : predictor := fun R r => (dot c (nth r R []) + b)%Qc.

(** Keys of a dictionary: text or something else. *)
Inductive pykey := KStr (s : string) | KOther.
(** What is_regressor and is_classifier say of an object. *)
Record tag := { tg_regressor : bool; tg_classifier : bool }.
(** An estimator as the check sees it: a pipeline with its steps, a search with its inner estimator, or
    another object; whether it has a callable predict_proba; fitting it to data; and itself, if already
    trained. *)
Inductive shape := Simple (t : tag) | Pipeline (steps : list tag) | Search (inner : tag).
Record estimator := { es_shape : shape; es_proba : bool; es_fit : list (list Qc) -> column -> predictor; es_model : model }.
(** 156-186 [_check_model_instance] *)
Definition check_model_instance (discrete : bool) (e : estimator) : result unit :=
  let right t := if discrete then tg_classifier t else tg_regressor t in                    (* 157-160 *)
  let* ok := match es_shape e with
             | Pipeline steps => match rev steps with [] => Err IndexError | t :: _ => Ok (right t) end  (* 162-166 *)
             | Search t => Ok (right t)                                                     (* 167-171 *)
             | Simple t => Ok (right t)                                                     (* 172-176 *)
             end in
  if negb ok then Err RuntimeError
  else if discrete && negb (es_proba e) then Err RuntimeError                               (* 178-186 *)
  else Ok tt.

(** An optional dictionary argument: None, an object that is not a dictionary, or its items in order. *)
Inductive dict_arg (A : Type) := DNone | DNotDict | DItems (items : list (pykey * A)).
Arguments DNone {A}. Arguments DNotDict {A}. Arguments DItems {A} items.

(** The loop over the items: the first exception ends it. *)
Fixpoint each {A B} (f : pykey -> A -> result B) (items : list (pykey * A)) : result (list B) :=
  match items with
  | [] => Ok []
  | (k, a) :: r => let* b := f k a in let* bs := each f r in Ok (b :: bs)
  end.
Definition check_dict {A B} (f : pykey -> A -> result B) (d : dict_arg A) : result (list B) :=
  match d with DNone => Ok [] | DNotDict => Err RuntimeError | DItems items => each f items end.

(** [x in names] for any object [x]. *)
Definition known_key (k : pykey) (names : list string) : option string :=
  match k with KStr x => if known x names then Some x else None | KOther => None end.

(** 188-201 [_check_models] *)
Definition check_model_item (s : simulator) (k : pykey) (e : estimator) : result (string * estimator) :=
  match known_key k (si_names s) with
  | None => Err RuntimeError
  | Some x => let* _ := check_model_instance (known x (si_discrete s)) e in Ok (x, e)
  end.
Definition check_models (s : simulator) (d : dict_arg estimator) : result (list (string * estimator)) :=
  check_dict (check_model_item s) d.

(** 203-226 [_check_changing_exog]; the value is what check_array makes of it (or the exception it raises),
    and whether the object itself is an array. *)
Definition check_exog_item (s : simulator) (k : pykey) (v : result (bool * column)) : result (string * (bool * column)) :=
  match known_key k (si_names s) with
  | None => Err RuntimeError                                                                (* 212-213 *)
  | Some x =>
      if known x (si_discrete s) then Err RuntimeError                                      (* 215-218 *)
      else let* ac := v in                                                                  (* 220 *)
           if negb (List.length (snd ac) =? im_N (si_im s)) then Err RuntimeError           (* 221-222 *)
           else Ok (x, ac)
  end.
Definition check_changing_exog (s : simulator) (d : dict_arg (result (bool * column))) : result (list (string * (bool * column))) :=
  check_dict (check_exog_item s) d.

(** The description of a changed model.  [in_parents]: absent, not a list, or a list (a member that is not
    text is an unknown name like any other); [in_coef]: absent, or what check_array makes of it;
    [in_model]: absent, None or an estimator. *)
Record info := { in_parents : option (option (list string)); in_coef : option (result (list Qc)); in_model : option (option estimator) }.
(** 228-289 [_check_changing_models], one item; [None]: the value is not a dictionary *)
Definition check_change_item (s : simulator) (k : pykey) (v : option info) : result (string * nchange) :=
  match v with
  | None => Err RuntimeError                                                                (* 237-238 *)
  | Some i =>
  match k with
  | KOther => Err TypeError                                                                 (* 241-242 *)
  | KStr x =>
  if negb (known x (si_names s)) then Err RuntimeError                                      (* 243-244 *)
  else match in_parents i with
  | None => Err KeyError                                                                    (* 247-248 *)
  | Some None => Err KeyError                                                               (* 251-252 *)
  | Some (Some parents) =>
  if negb (forallb (fun q => known q (si_names s)) parents) then Err RuntimeError           (* 254-256 *)
  else match parents with
  | [] => Ok (x, {| nc_parents := []; nc_model := None |})                                  (* 258-260 *)
  | _ =>
  match in_coef i, in_model i with
  | None, None => Err KeyError                                                              (* 263-264 *)
  | Some c, _ =>
      let* coef := c in                                                                     (* 268 *)
      if negb (List.length coef =? List.length parents) then Err ValueError                 (* 269-270 *)
      else Ok (x, {| nc_parents := parents;
                     nc_model := Some {| md_width := List.length coef;
                                         md_predict := if known x (si_discrete s) then coef_classifier coef else coef_predictor coef |} |})
  | None, Some None => Err KeyError                                                         (* 281-282 *)
  | None, Some (Some e) =>
      let* _ := check_model_instance (known x (si_discrete s)) e in                          (* 285 *)
      Ok (x, {| nc_parents := parents; nc_model := Some (es_model e) |})                    (* 287 *)
  end end end end end.
Definition check_changing_models (s : simulator) (d : dict_arg (option info)) : result (list (string * nchange)) :=
  check_dict (check_change_item s) d.

(** ** The object *)
(** 60-66, 291-303 *)
Inductive algo_arg := AlgoNone | AlgoNotText | AlgoName (s : string).
Inductive handler := PlainHandler | UnobservedHandler | SeriesHandler.
Definition dispatch (a : algo_arg) : result handler :=
  match a with
  | AlgoNotText => Err TypeError
  | AlgoNone => Ok PlainHandler
  | AlgoName x =>
      if String.eqb x "DirectLiNGAM" then Ok PlainHandler
      else if String.eqb x "ICALiNGAM" then Ok PlainHandler
      else if String.eqb x "BottomUpParceLiNGAM" then Ok UnobservedHandler
      else if String.eqb x "VARLiNGAM" then Ok SeriesHandler
      else Err ValueError
  end.
(** The causal graph: a square table or one table per lag, with NaN for unknown entries. *)
Inductive graph_arg := Flat (n : nat) (G : mat num) | Lagged (L p : nat) (B : nat -> mat num).
Definition no_nan (n : nat) (G : mat num) : bool :=
  forallb (fun i => forallb (fun j => match G i j with Some _ => true | None => false end) (seq 0 n)) (seq 0 n).
Definition fill (G : mat num) : mat Qc := fun i j => match G i j with Some q => q | None => 0%Qc end.
Definition width (f : frame) : nat := match f with Frame ls => List.length ls | Array p => p end.
(** 513-534, 597-608, 666-681, 709-731: the constructors of the three data handlers, with the check of the
    graph; the data are finite. *)
Definition make_handler (h : handler) (f : frame) (N : nat) (X : nat -> nat -> Qc) (g : graph_arg) (fl : flags) : result simulator :=
  match h, g with
  | PlainHandler, Flat n G =>
      if (n =? width f) && no_nan n G then plain_simulator f N n X (fill G) fl else Err ValueError
  | UnobservedHandler, Flat n G =>
      if n =? width f then plain_simulator f N n X (fill G) fl else Err ValueError
  | SeriesHandler, Lagged L p B =>
      if (p =? width f) && forallb (fun l => no_nan p (B l)) (seq 0 (S L)) then ts_simulator f N p L X (fun l => fill (B l)) fl
      else Err ValueError
  | _, _ => Err ValueError
  end.
(** 326-335: the model of a variable: a clone of the given one, or the default for its kind. *)
Definition choose (default : bool -> list (list Qc) -> column -> predictor) (s : simulator) (models : list (string * estimator))
    (x : string) : list (list Qc) -> column -> predictor :=
  match nlookup x models with Some e => es_fit e | None => default (known x (si_discrete s)) end.
(** What [train] stores (71-72). *)
Record stored := { st_sim : simulator; st_models : list (string * estimator) }.
(** 33-74: the object after the call, and the outcome of the call. *)
Definition train_call (self : option stored) (a : algo_arg) (f : frame) (N : nat) (X : nat -> nat -> Qc) (g : graph_arg)
    (fl : flags) (models : dict_arg estimator) : option stored * result unit :=
  match (let* h := dispatch a in
         let* s := make_handler h f N X g fl in
         let* ms := check_models s models in
         Ok {| st_sim := s; st_models := ms |}) with
  | Ok t => (Some t, Ok tt)
  | Err e => (self, Err e)
  end.
(** 76-150; without an earlier training the attribute read in 122 is missing. *)
Definition run_call (default : bool -> list (list Qc) -> column -> predictor) (self : option stored)
    (exog : dict_arg (result (bool * column))) (changes : dict_arg (option info)) (shuffle : option (list nat))
  : option stored * result (nat -> option column) :=
  (self,
   match self with
   | None => Err AttributeError
   | Some t =>
       let s := st_sim t in
       let* ex := check_changing_exog s exog in
       let* ch := check_changing_models s changes in
       let* order := nget_causal_order s ch in
       nsim_loop (choose default s (st_models t)) s ch ex shuffle order (fun _ => None)
   end).
