(** * Model of lingam/causal_based_simulator.py.
    Variables are indices 0..n-1 (the code uses their names and looks them up with list.index;
    names are assumed distinct).  A column is the list of its values. *)
From Coq Require Import List Arith Bool ZArith QArith Qcanon.
From Verif Require Import Prelude Spec ModelOrder.
Import ListNotations.
Open Scope nat_scope.

Definition column := list Qc.
(** A fitted regression/classification model: one predicted value for every row of its input. *)
Definition predictor := list (list Qc) -> nat -> Qc.
(** The rows of a table of [N] rows given by its columns ([X[:, indices]], [simulated[names].values]). *)
Definition rows (N : nat) (cols : list column) : list (list Qc) :=
  map (fun r => map (fun c : column => nth r c 0%Qc) cols) (seq 0 N).
(** [model.predict(X).ravel()] *)
Definition predict (N : nat) (m : predictor) (cols : list column) : column :=
  map (m (rows N cols)) (seq 0 N).
Definition vadd (a b : column) : column := map (fun xy => (fst xy + snd xy)%Qc) (combine a b).
Definition vsub (a b : column) : column := map (fun xy => (fst xy - snd xy)%Qc) (combine a b).

(** 555: ~np.isclose(graph, 0): |x| > 1e-8 *)
Definition near_zero (q : Qc) : bool := qleb (qabs q) (Q2Qc (1 # 100000000)).
(** 551-561 *)
Definition parents_of (n : nat) (G : mat Qc) (v : nat) : list nat :=
  filter (fun j => negb (near_zero (G v j))) (seq 0 n).

(** The trained simulator: the data handler (number of variables, rows, columns, graph, discrete
    variables) and the training result. *)
Record trained := { tr_model : option predictor; tr_resid : option column }.
Record impl := { im_n : nat; im_N : nat; im_data : nat -> column; im_graph : mat Qc; im_discrete : nat -> bool }.
(** 305-352 [_train]; [fit v rows y]: the (default or user supplied) model of [v] fitted to the data. *)
Definition train (fit : nat -> list (list Qc) -> column -> predictor) (im : impl) (v : nat) : trained :=
  let parents := parents_of (im_n im) (im_graph im) v in
  let y := im_data im v in
  match parents with
  | [] => {| tr_model := None; tr_resid := Some y |}                                       (* 313-320 *)
  | _ =>
      let X := map (im_data im) parents in
      let model := fit v (rows (im_N im) X) y in                                             (* 326-335 *)
      let predicted := predict (im_N im) model X in                                          (* 336-337 *)
      {| tr_model := Some model;
         tr_resid := if im_discrete im v then None else Some (vsub y predicted) |}           (* 340-343 *)
  end.

(** Changes: an assignment of a variable to its new parents and model; the model is absent only
    when the list of parents is empty (258-260). *)
Record change := { ch_parents : list nat; ch_model : option predictor }.
Definition lookup {A} (k : nat) (d : list (nat * A)) : option A := option_map snd (find (fun kv => fst kv =? k) d).

(** 581-586: the changed graph. *)
Definition changed_graph (G : mat Qc) (changes : list (nat * change)) : mat Qc :=
  fold_left (fun G kv => fun i j => if i =? fst kv then (if memb j (ch_parents (snd kv)) then 1%Qc else 0%Qc) else G i j)
    changes G.
(** 575-595 *)
Definition get_causal_order (im : impl) (changes : list (nat * change)) : result (list nat) :=
  match ica_search (im_n im) (fun i j => Some (changed_graph (im_graph im) changes i j)) with
  | None => Err ValueError
  | Some o => Ok o
  end.

(** 379-419: one variable.  [sim v] = None while the column is still empty (NaN). *)
Definition all_some {A} (l : list (option A)) : option (list A) :=
  fold_right (fun x r => match x, r with Some a, Some b => Some (a :: b) | _, _ => None end) (Some []) l.
Definition sim_step (im : impl) (tr : nat -> trained) (changes : list (nat * change))
    (exog : list (nat * (bool * column))) (shuffle : option (list nat))
    (sim : nat -> option column) (v : nat) : result (nat -> option column) :=
  let parents := match lookup v changes with Some c => ch_parents c | None => parents_of (im_n im) (im_graph im) v end in
  let* error := match lookup v exog with
                | None => Ok (tr_resid (tr v))                                              (* 390-391 *)
                | Some (true, e) => Ok (Some e)                                             (* 393: an array has .ravel() *)
                | Some (false, _) => Err AttributeError                                     (* 393: a list has not *)
                end in
  let error := match shuffle, error with
               | Some idx, Some e => Some (map (fun k => nth k e 0%Qc) idx)                 (* 395-396 *)
               | _, _ => error
               end in
  match parents with
  | [] => Ok (upd sim v (if im_discrete im v then Some (im_data im v) else error))            (* 399-404 *)
  | _ =>
      let model := match lookup v changes with None => tr_model (tr v) | Some c => ch_model c end in (* 407-410 *)
      match model with
      | None => Err AttributeError
      | Some m =>
          match all_some (map sim parents) with
          | None => Err ValueError                                                          (* NaN given to predict *)
          | Some cols =>
              let predicted := predict (im_N im) m cols in                                   (* 413-415 *)
              if im_discrete im v then Ok (upd sim v (Some predicted))
              else match error with
                   | Some e => Ok (upd sim v (Some (vadd predicted e)))                     (* 416-417 *)
                   | None => Err TypeError
                   end
          end
      end
  end.
Fixpoint sim_loop im tr changes exog shuffle (order : list nat) (sim : nat -> option column) : result (nat -> option column) :=
  match order with
  | [] => Ok sim
  | v :: r => let* sim := sim_step im tr changes exog shuffle sim v in sim_loop im tr changes exog shuffle r sim
  end.
(** 354-421 *)
Definition simulate im tr changes exog shuffle : result (nat -> option column) :=
  let* order := get_causal_order im changes in
  sim_loop im tr changes exog shuffle order (fun _ => None).

(** 203-226: discrete keys and wrong lengths are rejected (unknown names too). *)
Definition check_exog (im : impl) (exog : list (nat * (bool * column))) : bool :=
  forallb (fun kv => (fst kv <? im_n im) && negb (im_discrete im (fst kv)) && (length (snd (snd kv)) =? im_N im)) exog.
(** 228-289: unknown targets and parents are rejected (RuntimeError), parents without a model or
    coefficients too (KeyError, which here counts as the same failure). *)
Definition check_changes (im : impl) (changes : list (nat * change)) : bool :=
  forallb (fun kv => (fst kv <? im_n im) && forallb (fun q => q <? im_n im) (ch_parents (snd kv)) &&
     match ch_parents (snd kv), ch_model (snd kv) with _ :: _, None => false | _, _ => true end) changes.
(** 76-150; the object has no constructor, so before [train] the attribute read in 122 is missing. *)
Definition run (fit : nat -> list (list Qc) -> column -> predictor) (self : option impl)
    (changes : list (nat * change)) (exog : list (nat * (bool * column))) (shuffle : option (list nat))
  : result (nat -> option column) :=
  match self with
  | None => Err AttributeError
  | Some im =>
      if negb (check_exog im exog) then Err RuntimeError
      else if negb (check_changes im changes) then Err RuntimeError
      else simulate im (train fit im) changes exog shuffle
  end.

(** ** Data handlers *)
(** 513-534: CBSILiNGAM: columns of X (N rows, n columns).  (CBSIUnobsCommonCauseLiNGAM replaces NaN by 0 first.)
    A cyclic graph is rejected when training. *)
Definition plain_impl (N n : nat) (X : nat -> nat -> Qc) (G : mat Qc) (discrete : nat -> bool) : result impl :=
  match ica_search n (fun i j => Some (G i j)) with
  | None => Err ValueError
  | Some _ => Ok {| im_n := n; im_N := N; im_data := fun v => map (fun r => X r v) (seq 0 N); im_graph := G; im_discrete := discrete |}
  end.
(** Python slice x[start:stop] of a sequence with [N] elements, 0 <= start, [stop] None or negative -k. *)
Definition py_slice {A} (start : nat) (neg_stop : option nat) (N : nat) (x : nat -> A) : list A :=
  let stop := match neg_stop with None => N | Some k => N - k end in
  map (fun r => x (start + r)) (seq 0 (stop - start)).
(** 684-731: time series; [L] = n_lags, variable index = lag * p + v.  724-727: rows below the first
    block are zero. *)
Definition ts_column (L N p : nat) (X : nat -> nat -> Qc) (index : nat) : column :=
  let v := index mod p in
  let lag := index / p in
  py_slice (L - lag) (if lag =? 0 then None else Some lag) N (fun r => X r v).
Definition ts_graph (p : nat) (B : nat -> mat Qc) : mat Qc :=
  fun i j => if i <? p then B (j / p) i (j mod p) else 0%Qc.
Definition ts_impl (N p L : nat) (X : nat -> nat -> Qc) (B : nat -> mat Qc) (discrete : nat -> bool) : result impl :=
  let n := p * (L + 1) in
  match ica_search n (fun i j => Some (ts_graph p B i j)) with
  | None => Err ValueError
  | Some _ => Ok {| im_n := n; im_N := N - L; im_data := ts_column L N p X; im_graph := ts_graph p B;
                    im_discrete := fun i => discrete (i mod p) |}
  end.
