(** * Model of the names in lingam/causal_based_simulator.py: the simulator addresses variables by
    name, looks positions up with list.index and keeps the results in dictionaries and a table with
    named columns.  ModelSim.v is the same program on positions. *)
From Coq Require Import List Arith Bool ZArith QArith Qcanon String Decimal DecimalString.
From Verif Require Import Prelude Spec ModelOrder ModelSim.
Import ListNotations.
Open Scope nat_scope.

(** ** Names *)
(** A column label of a DataFrame. *)
Inductive label := LInt (k : nat) | LStr (s : string).
(** [f"{i:d}"], [str(i)] *)
Definition decimal (i : nat) : string := NilEmpty.string_of_uint (Nat.to_uint i).
Definition str (l : label) : string := match l with LInt k => decimal k | LStr s => s end.
(** The data: a DataFrame with its labels, or an array with a number of columns. *)
Inductive frame := Frame (labels : list label) | Array (p : nat).
(** 609-616 *)
Definition plain_names (f : frame) : list string :=
  match f with Frame ls => map str ls | Array p => map decimal (seq 0 p) end.
(** 741-745 *)
Definition lag_suffix (i : nat) : string :=
  if i =? 0 then "[t]"%string else (String.append "[t-" (String.append (decimal i) "]"))%string.
(** 733-746: [name + index_format]; adding a string to an integer label is a TypeError. *)
Definition add_suffix (suffix : string) (l : label) : result string :=
  match l with LStr s => Ok (String.append s suffix) | LInt _ => Err TypeError end.
Fixpoint add_suffixes (suffix : string) (ls : list label) : result (list string) :=
  match ls with
  | [] => Ok []
  | l :: r => let* s := add_suffix suffix l in let* rest := add_suffixes suffix r in Ok (s :: rest)
  end.
Fixpoint lagged_names (ls : list label) (lags : list nat) : result (list string) :=
  match lags with
  | [] => Ok []
  | i :: r => let* a := add_suffixes (lag_suffix i) ls in let* b := lagged_names ls r in Ok (a ++ b)
  end.
Definition ts_names (f : frame) (n_lags : nat) : result (list string) :=
  let ls := match f with Frame ls => ls | Array p => map (fun i => LStr (decimal i)) (seq 0 p) end in
  lagged_names ls (seq 0 (S n_lags)).

(** ** Which variables are discrete *)
(** The argument [is_discrete]: nothing, a list of bools, or a numpy array of bools. *)
Inductive flags := NoFlags | FList (l : list bool) | FArray (l : list bool).
(** numpy indexing: a mask must be as long as the array, positions must exist. *)
Definition by_mask (names : list string) (m : list bool) : result (list string) :=
  if List.length m =? List.length names
  then Ok (map fst (filter snd (combine names m))) else Err IndexError.
Fixpoint by_positions (names : list string) (ps : list nat) : result (list string) :=
  match ps with
  | [] => Ok []
  | q :: r => match nth_error names q with
              | None => Err IndexError
              | Some s => let* rest := by_positions names r in Ok (s :: rest)
              end
  end.
(** 618-621 *)
Definition plain_discrete (names : list string) (fl : flags) : result (list string) :=
  match fl with
  | NoFlags => by_mask names (map (fun _ => false) names)
  | FList l | FArray l => by_mask names l
  end.
(** 748-754: [is_discrete * (n_lags + 1)] repeats a list, but multiplies the entries of an array, which
    become the integers 0 and n_lags + 1, and integers select positions. *)
Fixpoint repeat_list {A} (k : nat) (l : list A) : list A := match k with 0 => [] | S k => l ++ repeat_list k l end.
Definition ts_discrete (p : nat) (names : list string) (n_lags : nat) (fl : flags) : result (list string) :=
  match fl with
  | NoFlags => by_mask names (repeat_list (S n_lags) (repeat false p))
  | FList l => by_mask names (repeat_list (S n_lags) l)
  | FArray l => by_positions names (map (fun b : bool => if b then S n_lags else 0) l)
  end.

(** ** The simulation by names *)
(** [names.index(x)]; the length of the list if absent (the checks have excluded that). *)
Fixpoint index_of (x : string) (names : list string) : nat :=
  match names with [] => 0 | y :: r => if String.eqb y x then 0 else S (index_of x r) end.
Definition known (x : string) (names : list string) : bool := existsb (String.eqb x) names.
(** The positions of a column label in a table. *)
Definition positions (names : list string) (x : string) : list nat :=
  filter (fun q => String.eqb (nth q names EmptyString) x) (seq 0 (List.length names)).
(** A fitted model with the number of columns it expects; another number is a ValueError. *)
Record model := { md_width : nat; md_predict : predictor }.
Record nchange := { nc_parents : list string; nc_model : option model }.
Definition nlookup {A} (k : string) (d : list (string * A)) : option A := option_map snd (find (fun kv => String.eqb (fst kv) k) d).
Record simulator := { si_names : list string; si_discrete : list string; si_im : impl }.
(** 551-561 *)
Definition get_parent_names (s : simulator) (x : string) : list string :=
  map (fun j => nth j (si_names s) EmptyString) (parents_of (im_n (si_im s)) (im_graph (si_im s)) (index_of x (si_names s))).
(** 563-573 *)
Definition get_data (s : simulator) (x : string) : column := im_data (si_im s) (index_of x (si_names s)).
(** 305-352: the entry of the training result under a name. *)
Definition ntrain (fit : string -> list (list Qc) -> column -> predictor) (s : simulator) (x : string)
  : option model * option column :=
  let parents := get_parent_names s x in
  let y := get_data s x in
  match parents with
  | [] => (None, Some y)
  | _ =>
      let X := map (get_data s) parents in
      let m := fit x (rows (im_N (si_im s)) X) y in
      (Some {| md_width := List.length parents; md_predict := m |},
       if known x (si_discrete s) then None else Some (vsub y (predict (im_N (si_im s)) m X)))
  end.
(** [simulated[x] = c] sets every column with that label; [simulated[xs]] collects all of them. *)
Definition set_columns (names : list string) (sim : nat -> option column) (x : string) (c : option column) : nat -> option column :=
  fun q => if String.eqb (nth q names EmptyString) x then c else sim q.
Definition select (names : list string) (sim : nat -> option column) (xs : list string) : list (option column) :=
  flat_map (fun x => map sim (positions names x)) xs.
(** 379-419 *)
Definition nsim_step (fit : string -> list (list Qc) -> column -> predictor) (s : simulator) (changes : list (string * nchange))
    (exog : list (string * (bool * column))) (shuffle : option (list nat))
    (sim : nat -> option column) (x : string) : result (nat -> option column) :=
  let parents := match nlookup x changes with Some c => nc_parents c | None => get_parent_names s x end in
  let* error := match nlookup x exog with
                | None => Ok (snd (ntrain fit s x))
                | Some (true, e) => Ok (Some e)
                | Some (false, _) => Err AttributeError
                end in
  let error := match shuffle, error with
               | Some idx, Some e => Some (map (fun k => nth k e 0%Qc) idx)
               | _, _ => error
               end in
  match parents with
  | [] => Ok (set_columns (si_names s) sim x (if known x (si_discrete s) then Some (get_data s x) else error))
  | _ =>
      let md := match nlookup x changes with None => fst (ntrain fit s x) | Some c => nc_model c end in
      match md with
      | None => Err AttributeError
      | Some m =>
          match all_some (select (si_names s) sim parents) with
          | None => Err ValueError
          | Some cols =>
              if negb (List.length cols =? md_width m) then Err ValueError else
              let predicted := predict (im_N (si_im s)) (md_predict m) cols in
              if known x (si_discrete s) then Ok (set_columns (si_names s) sim x (Some predicted))
              else match error with
                   | Some e => Ok (set_columns (si_names s) sim x (Some (vadd predicted e)))
                   | None => Err TypeError
                   end
          end
      end
  end.
Fixpoint nsim_loop fit s changes exog shuffle (order : list string) (sim : nat -> option column) : result (nat -> option column) :=
  match order with
  | [] => Ok sim
  | x :: r => let* sim := nsim_step fit s changes exog shuffle sim x in nsim_loop fit s changes exog shuffle r sim
  end.
(** 575-595: the order of positions, and their names *)
Definition change_at (names : list string) (kv : string * nchange) : nat * change :=
  (index_of (fst kv) names,
   {| ch_parents := map (fun x => index_of x names) (nc_parents (snd kv)); ch_model := option_map md_predict (nc_model (snd kv)) |}).
Definition nget_causal_order (s : simulator) (changes : list (string * nchange)) : result (list string) :=
  let* o := get_causal_order (si_im s) (map (change_at (si_names s)) changes) in
  Ok (map (fun v => nth v (si_names s) EmptyString) o).
(** 203-226 *)
Definition ncheck_exog (s : simulator) (exog : list (string * (bool * column))) : bool :=
  forallb (fun kv => known (fst kv) (si_names s) && negb (known (fst kv) (si_discrete s)) &&
                     (List.length (snd (snd kv)) =? im_N (si_im s))) exog.
(** 228-289 (see check_changes of ModelSim.v) *)
Definition ncheck_changes (s : simulator) (changes : list (string * nchange)) : bool :=
  forallb (fun kv => known (fst kv) (si_names s) && forallb (fun q => known q (si_names s)) (nc_parents (snd kv)) &&
     match nc_parents (snd kv), nc_model (snd kv) with _ :: _, None => false | _, _ => true end) changes.
(** 120-150 *)
Definition nrun fit (s : simulator) changes exog shuffle : result (nat -> option column) :=
  if negb (ncheck_exog s exog) then Err RuntimeError
  else if negb (ncheck_changes s changes) then Err RuntimeError
  else let* order := nget_causal_order s changes in
       nsim_loop fit s changes exog shuffle order (fun _ => None).

(** Constructors 513-534 and 684-694; a variable is treated as discrete if its name is in the list of
    discrete names ([im_discrete] only records that). *)
Definition with_discrete (im : impl) (names d : list string) : impl :=
  {| im_n := im_n im; im_N := im_N im; im_data := im_data im; im_graph := im_graph im;
     im_discrete := fun v => known (nth v names EmptyString) d |}.
Definition plain_simulator (f : frame) (N n : nat) (X : nat -> nat -> Qc) (G : mat Qc) (fl : flags) : result simulator :=
  let names := plain_names f in
  let* d := plain_discrete names fl in
  let* im := plain_impl N n X G (fun _ => false) in
  Ok {| si_names := names; si_discrete := d; si_im := with_discrete im names d |}.
Definition ts_simulator (f : frame) (N p L : nat) (X : nat -> nat -> Qc) (B : nat -> mat Qc) (fl : flags) : result simulator :=
  let* names := ts_names f L in
  let* d := ts_discrete p names L fl in
  let* im := ts_impl N p L X B (fun _ => false) in
  Ok {| si_names := names; si_discrete := d; si_im := with_discrete im names d |}.
