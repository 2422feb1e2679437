(** * OutOfSampleCausalTuning: the configurations it accepts and the object over time (lingam/experimental/oct.py 51-220) *)
From Coq Require Import List Arith Bool String.
From Verif Require Import Prelude.
Import ListNotations.
Open Scope nat_scope.

(** What the code looks at in a Python value: whether it is a bool (and which), callable, a dict; [o_id] tells values apart. *)
Record obj := { o_id : nat; o_bool : option bool; o_callable : bool; o_dict : bool }.
(** One element of [configs]: a dict (its items in order of insertion) or something else; [configs]: a list or something else. *)
Inductive entry := IsDict (items : list (string * obj)) | NotDict.
Inductive configs := IsList (l : list entry) | NotList.
(** [config_]: all_others, model (None before one is given), init_kwargs and fit_kwargs (None: the empty dict of the defaults) *)
Record config := { c_all : bool; c_model : option obj; c_init : option obj; c_fit : option obj }.
(** 185-190 *)
Definition defaults : config := {| c_all := false; c_model := None; c_init := None; c_fit := None |}.
(** 193-208: one item *)
Definition parse_item (c : config) (kv : string * obj) : result config :=
  let '(key, v) := kv in
  if String.eqb key "all_others" then match o_bool v with
                                      | None => Err TypeError                                                     (* check_scalar *)
                                      | Some b => Ok {| c_all := b; c_model := c_model c; c_init := c_init c; c_fit := c_fit c |}
                                      end
  else if String.eqb key "model" then if o_callable v then Ok {| c_all := c_all c; c_model := Some v; c_init := c_init c; c_fit := c_fit c |} else Err TypeError
  else if String.eqb key "init_kwargs" then if o_dict v then Ok {| c_all := c_all c; c_model := c_model c; c_init := Some v; c_fit := c_fit c |} else Err TypeError
  else if String.eqb key "fit_kwargs" then if o_dict v then Ok {| c_all := c_all c; c_model := c_model c; c_init := c_init c; c_fit := Some v |} else Err TypeError
  else Err ValueError.
Fixpoint parse_items (c : config) (items : list (string * obj)) : result config :=
  match items with [] => Ok c | kv :: items => let* c' := parse_item c kv in parse_items c' items end.
(** 211-216.  [has_model]: "model" in config_.keys(); the defaults put the key there, so it is always true. *)
Definition has_model (c : config) : bool := true.
Definition check_config (e : entry) : result config :=
  match e with
  | NotDict => Err TypeError                                                                                      (* 182-183 *)
  | IsDict items =>
      let* c := parse_items defaults items in
      if negb (c_all c) && negb (has_model c) then Err ValueError                                                 (* 211-212 *)
      else if c_all c then Ok {| c_all := true; c_model := None; c_init := None; c_fit := None |}                 (* 213-216 *)
      else Ok c
  end.
Fixpoint check_each (l : list entry) : result (list config) :=
  match l with [] => Ok [] | e :: l => let* c := check_config e in let* cs := check_each l in Ok (c :: cs) end.
(** 172-220 [_check_configs] *)
Definition check_configs (cs : configs) : result (list config) :=
  match cs with
  | NotList => Err TypeError
  | IsList [] => Err ValueError
  | IsList l => check_each l
  end.

Section Fit.
  Variables (data score : Type).
  (** [evaluate k d c m]: graphs by the model [m] (None: all other variables), forests, predictions and score of configuration k (107-146), or
      the exception raised there; [best]: np.argmax and the sparsity penalty (152-160); [others]: the checks of the data (89) and of cv, thr,
      sparsity_penalty and random_state (93-105). *)
  Variable evaluate : nat -> data -> config -> option obj -> result score.
  Variable best : data -> list score -> result nat.
  Variables (data_ok : data -> result unit) (others : result unit).
  (** 111-150: one configuration; without a model, None is called in the first fold (222-223) *)
  Definition run_config (k : nat) (d : data) (c : config) : result score :=
    if c_all c then evaluate k d c None
    else match c_model c with None => Err TypeError | Some m => evaluate k d c (Some m) end.
  (** The loop; the first component lists the scores of the configurations evaluated before the end or the exception. *)
  Fixpoint run_all (k : nat) (d : data) (cs : list config) : list score * result unit :=
    match cs with
    | [] => ([], Ok tt)
    | c :: cs => match run_config k d c with
                 | Err e => ([], Err e)
                 | Ok s => let '(l, r) := run_all (S k) d cs in (s :: l, r)
                 end
    end.
  (** What the object holds: best_idx_ and the scores of fit_info_, None before a fit. *)
  Definition tuner := option (nat * list score).
  (** 63-170 [fit]: the new object, the scores computed in this call, and the exception *)
  Definition tune (st : tuner) (d : data) (cs : configs) : tuner * list score * result unit :=
    match (let* _ := data_ok d in let* l := check_configs cs in let* _ := others in Ok l) with
    | Err e => (st, [], Err e)
    | Ok l => let '(scores, r) := run_all 0 d l in
              match r with
              | Err e => (st, scores, Err e)
              | Ok _ => match best d scores with
                        | Err e => (st, scores, Err e)
                        | Ok b => (Some (b, scores), scores, Ok tt)                                               (* 162-168 *)
                        end
              end
    end.
  (** 53-61: check_is_fitted raises NotFittedError, which is a ValueError (and an AttributeError). *)
  Definition best_index (st : tuner) : result nat := match st with None => Err ValueError | Some (b, _) => Ok b end.
  Definition all_scores (st : tuner) : result (list score) := match st with None => Err ValueError | Some (_, l) => Ok l end.
End Fit.
