(** * Model of lingam/bootstrap.py.

    Adjacency matrices have shape (nr, nc); NaN entries are [None].
    [np.unique(.., axis=0)] followed by [np.argsort(-counts)] is modelled by the distinct rows
    with their multiplicities and an oracle [argsort] that may break ties in any way, so the
    lexicographic order produced by np.unique carries no information. *)
From Coq Require Import Ascii String.
From Coq Require Import List Arith Lia Bool ZArith QArith Qcanon Permutation Sorted.
From Coq Require Import Decimal DecimalString DecimalNat.
From Verif Require Import Prelude Loop ModelPaths.
Import ListNotations.
Open Scope nat_scope.
Open Scope list_scope.

(** [np.argsort]: any function returning index lists; see [argsort_ok] in SpecBootstrap. *)
Definition take_order {A} (d : A) (order : list nat) (l : list A) : list A :=
  map (fun k => nth k l d) order.

(** min_causal_effect: None -> 0.0, otherwise must be positive (bootstrap.py:157-161,
    235-239, 292-297, 331-336, 391-396). *)
Definition check_min (m : option Qc) : result Qc :=
  match m with
  | None => Ok 0%Qc
  | Some v => if qltb 0%Qc v then Ok v else Err ValueError
  end.
(** n_directions / n_dags: None or a positive integer (147-155, 225-233). *)
Definition check_top (k : option Z) : result (option nat) :=
  match k with
  | None => Ok None
  | Some z => if (0 <? z)%Z then Ok (Some (Z.to_nat z)) else Err ValueError
  end.
Definition truncate {A} (k : option nat) (l : list A) : list A :=
  match k with None => l | Some k => firstn k l end.

(** [|nan_to_num(am)[i][j]| > min] *)
Definition above (m : Qc) (am : mat num) (i j : nat) : bool := qltb m (qabs (nan_to_num (am i j))).
(** [np.sign] as an integer *)
Definition sgn (v : Qc) : Z := if qltb 0%Qc v then 1%Z else if qltb v 0%Qc then (-1)%Z else 0%Z.

Definition unique_counts {A} (eq_dec : forall x y : A, {x = y} + {x <> y}) (l : list A)
  : list (A * nat) := map (fun x => (x, count_occ eq_dec l x)) (nodup eq_dec l).

(** ** get_causal_direction_counts (120-200) *)
(** 164-175 for one matrix: (to, from, sign); the sign column is present only when splitting,
    it is 0 otherwise here. *)
Definition direction := (nat * nat * Z)%type.
Definition direction_dec : forall x y : direction, {x = y} + {x <> y}.
Proof. decide equality; [apply Z.eq_dec|decide equality; apply Nat.eq_dec]. Defined.
Definition directions_of (nr nc : nat) (m : Qc) (split : bool) (am : mat num) : list direction :=
  map (fun ij => (ij, if split then sgn (nan_to_num (am (fst ij) (snd ij))) else 0%Z))
      (filter (fun ij => above m am (fst ij) (snd ij)) (list_prod (seq 0 nr) (seq 0 nc))).
(** Result rows: (direction, count). *)
Definition get_causal_direction_counts (argsort : list Qc -> list nat) (nr nc : nat)
    (ams : list (mat num)) (n_directions : option Z) (min_ce : option Qc) (split : bool)
  : result (list (direction * nat)) :=
  let* k := check_top n_directions in
  let* m := check_min min_ce in
  let dirs := flat_map (directions_of nr nc m split) ams in
  match dirs with
  | [] => Ok []                                                            (* 178-182 *)
  | _ =>
      let u := unique_counts direction_dec dirs in                         (* 184 *)
      let order := truncate k (argsort (map (fun p => - qn (snd p))%Qc u)) in  (* 185-188 *)
      Ok (take_order ((0, 0, 0%Z), 0) order u)
  end.

(** ** get_directed_acyclic_graph_counts (202-276) *)
(** A graph as the row-major list of its entries: 0/1, or -1/0/1 with signs (242-252). *)
Definition dag_code (nr nc : nat) (m : Qc) (split : bool) (am : mat num) : list Z :=
  map (fun ij => if above m am (fst ij) (snd ij)
                 then (if split then sgn (nan_to_num (am (fst ij) (snd ij))) else 1%Z)
                 else 0%Z)
      (list_prod (seq 0 nr) (seq 0 nc)).
(** [np.where(dag)] with the entries (260-274): (to, from, value). *)
Definition dag_edges (nr nc : nat) (code : list Z) : list direction :=
  filter (fun e => negb (snd e =? 0)%Z) (combine (list_prod (seq 0 nr) (seq 0 nc)) code).
Definition get_directed_acyclic_graph_counts (argsort : list Qc -> list nat) (nr nc : nat)
    (ams : list (mat num)) (n_dags : option Z) (min_ce : option Qc) (split : bool)
  : result (list (list direction * nat)) :=
  let* k := check_top n_dags in
  let* m := check_min min_ce in
  let u := unique_counts (list_eq_dec Z.eq_dec) (map (dag_code nr nc m split) ams) in  (* 254 *)
  let order := truncate k (argsort (map (fun p => - qn (snd p))%Qc u)) in              (* 255-256 *)
  Ok (map (fun p => (dag_edges nr nc (fst p), snd p)) (take_order ([], 0) order u)).

(** ** get_probabilities (278-310) *)
Definition count_above (m : Qc) (ams : list (mat num)) (i j : nat) : nat :=
  length (filter (fun am => above m am i j) ams).
Definition prob_matrix (m : Qc) (ams : list (mat num)) : mat Qc :=
  fun i j => (qn (count_above m ams i j) / qn (length ams))%Qc.             (* 301-304 *)
(** Either one matrix or the list of its column blocks (306-310); [int(nc/nr)] is [nc / nr].
    Empty list: [adjacency_matrices[0]] is an IndexError.  nr = 0 is not modelled (division
    by zero error). *)
Inductive probs := PMatrix (b : mat Qc) | PBlocks (bs : list (mat Qc)).
Definition get_probabilities (nr nc : nat) (ams : list (mat num)) (min_ce : option Qc)
  : result probs :=
  let* m := check_min min_ce in
  match ams with
  | [] => Err IndexError
  | _ =>
      let bp := prob_matrix m ams in
      let q := nc / nr in
      if q =? 1 then Ok (PMatrix bp)
      else if q =? 0 then Err ZeroDivisionError
      else if nc mod q =? 0 then                                           (* np.hsplit *)
        let w := nc / q in
        Ok (PBlocks (map (fun k => fun i j => bp i (k * w + j)) (seq 0 q)))
      else Err ValueError
  end.

(** ** get_total_causal_effects (312-370) *)
Fixpoint insert_q (x : Qc) (l : list Qc) : list Qc :=
  match l with
  | [] => [x]
  | y :: r => if qleb x y then x :: l else y :: insert_q x r
  end.
Definition sort_q (l : list Qc) : list Qc := fold_right insert_q [] l.
(** [np.median]; NaN for an empty array *)
Definition np_median (l : list Qc) : num :=
  let s := sort_q l in
  let k := length s in
  match k with
  | 0 => None
  | _ => if Nat.odd k then Some (nth (k / 2) s 0%Qc)
         else Some ((nth (k / 2 - 1) s 0%Qc + nth (k / 2) s 0%Qc) / qz 2)%Qc
  end.
(** Rows: (to, from), effect, probability.  Total effects are finite numbers here. *)
Definition te_prob (m : Qc) (tes : list (mat Qc)) (i j : nat) : Qc :=
  (qn (length (filter (fun te => qltb m (qabs (te i j))) tes)) / qn (length tes))%Qc. (* 339-344 *)
Definition te_effect (tes : list (mat Qc)) (i j : nat) : num :=
  np_median (filter (fun v => qltb 0%Qc (qabs v)) (map (fun te => te i j) tes)).     (* 351-354 *)
Definition get_total_causal_effects (argsort : list Qc -> list nat) (nr nc : nat)
    (tes : list (mat Qc)) (min_ce : option Qc) : result (list (nat * nat * num * Qc)) :=
  let* m := check_min min_ce in
  let rows := map (fun ij => (ij, te_effect tes (fst ij) (snd ij), te_prob m tes (fst ij) (snd ij)))
                (filter (fun ij => qltb 0%Qc (qabs (te_prob m tes (fst ij) (snd ij))))
                   (list_prod (seq 0 nr) (seq 0 nc))) in                    (* 347-348 *)
  let order := argsort (map (fun r => - snd r)%Qc rows) in                  (* 357 *)
  Ok (take_order (0, 0, None, 0%Qc) order rows).

(** ** get_paths (372-432) *)
(** [str(i)] for a natural number *)
Definition str_nat (i : nat) : string := NilZero.string_of_uint (Nat.to_uint i).
(** ["_".join(map(str, p))] *)
Definition underscore : ascii := "_"%char.
Fixpoint join (l : list string) : string :=
  match l with
  | [] => EmptyString
  | [s] => s
  | s :: r => String.append s (String underscore (join r))
  end.
Definition path_key (p : list nat) : string := join (map str_nat p).
(** [s.split("_")] *)
Fixpoint split (s : string) : list string :=
  match s with
  | EmptyString => [EmptyString]
  | String c r =>
      if Ascii.eqb c underscore then EmptyString :: split r
      else match split r with
           | [] => [String c EmptyString]
           | w :: ws => String c w :: ws
           end
  end.
(** [int(w)] on a word; words that are not decimal numerals (ValueError) become None *)
Definition int_of (w : string) : option nat := option_map Nat.of_uint (NilZero.uint_of_string w).
Fixpoint all_some {A} (l : list (option A)) : option (list A) :=
  match l with
  | [] => Some []
  | Some x :: r => option_map (cons x) (all_some r)
  | None :: _ => None
  end.
Definition path_of_key (s : string) : option (list nat) := all_some (map int_of (split s)).

(** 399-406: all (key, effect) pairs, matrix by matrix. *)
Fixpoint collect_paths (n : nat) (ams : list (mat num)) (from to_ : nat) (m : Qc)
  : result (list (string * num)) :=
  match ams with
  | [] => Ok []
  | am :: r =>
      let* pe := find_all_paths n am from to_ m in
      let* rest := collect_paths n r from to_ m in
      Ok (combine (map path_key (fst pe)) (snd pe) ++ rest)
  end.
Definition effects_of (pes : list (string * num)) (key : string) : list num :=
  map snd (filter (fun pe => String.eqb (fst pe) key) pes).
(** [np.median] of floats: NaN if any is NaN *)
Definition np_median_num (l : list num) : num :=
  match all_some l with Some q => np_median q | None => None end.
Definition get_paths (argsort : list Qc -> list nat) (n : nat) (ams : list (mat num))
    (from to_ : nat) (min_ce : option Qc) : result (list (list nat * num * Qc)) :=
  let* m := check_min min_ce in
  let* pes := collect_paths n ams from to_ m in
  let u := unique_counts string_dec (map fst pes) in                        (* 412 *)
  let order := argsort (map (fun p => - qn (snd p))%Qc u) in                (* 415 *)
  let sorted := take_order (EmptyString, 0) order u in
  match all_some (map (fun p => option_map (fun path =>
           (path, np_median_num (effects_of pes (fst p)), (qn (snd p) / qn (length ams))%Qc))
           (path_of_key (fst p))) sorted) with
  | Some rows => Ok rows
  | None => Err ValueError
  end.

(** ** BootstrapMixin.bootstrap (17-61) *)
(** 50-55: total effects of one fitted model; calculate_total_effect may raise.  A NaN effect
    cannot be stored in the model's Qc matrix and is kept as [num]. *)
Fixpoint te_row (n : nat) (B : mat num) (from : nat) (tos : list nat) (te : mat num) : result (mat num) :=
  match tos with
  | [] => Ok te
  | t :: r =>
      let* e := calculate_total_effect n B from t None in
      te_row n B from r (upd2 te t from e)
  end.
Fixpoint te_loop (n : nat) (B : mat num) (order : list nat) (te : mat num) : result (mat num) :=
  match order with
  | [] => Ok te
  | from :: r => let* te' := te_row n B from r te in te_loop n B r te'
  end.
Definition total_effects_of (n : nat) (K : list nat) (B : mat num) : result (mat num) :=
  te_loop n B K (fun _ _ => Some 0%Qc).

(** The estimator is an abstract state with a fit method; order and matrix are read back from it.
    [Xs] are the resampled data sets in turn. *)
Section Mixin.
  Variables (Obj Data : Type) (fit : Data -> Obj -> Obj * option exn)
    (order_of : Obj -> list nat) (adj_of : Obj -> mat num).
  Fixpoint bootstrap_loop (n : nat) (Xs : list Data) (o : Obj)
    : Obj * result (list (mat num * mat num)) :=
    match Xs with
    | [] => (o, Ok [])
    | X :: r =>
        match fit X o with
        | (o', Some e) => (o', Err e)
        | (o', None) =>
            match total_effects_of n (order_of o') (adj_of o') with
            | Err e => (o', Err e)
            | Ok te =>
                let '(o2, rest) := bootstrap_loop n r o' in
                (o2, match rest with Err e => Err e | Ok l => Ok ((adj_of o', te) :: l) end)
            end
        end
    end.
  (** 33-39: n_sampling must be positive; [resample] is an oracle giving one data set per turn. *)
  Definition bootstrap (n : nat) (n_sampling : Z) (resample : nat -> Data) (o : Obj)
    : Obj * result (list (mat num * mat num)) :=
    if (0 <? n_sampling)%Z
    then bootstrap_loop n (map resample (seq 0 (Z.to_nat n_sampling))) o
    else (o, Err ValueError).
End Mixin.
