(** * Model of lingam/utils/__init__.py: find_all_paths (791-857) and
    calculate_total_effect (1078-1147).

    Indices are naturals: negative Python indices are outside the model.  Infinite entries are
    outside the model; NaN entries are [None]. *)
From Coq Require Import List Arith Lia Bool ZArith QArith Qcanon.
From Verif Require Import Prelude Loop.
Import ListNotations.
Open Scope nat_scope.

(** 815: [np.abs(np.nan_to_num(dag)) > min_causal_effect] at row [i], column [j]. *)
Definition has_edge (dag : mat num) (min_ce : Qc) (i j : nat) : bool :=
  qltb min_ce (qabs (nan_to_num (dag i j))).

(** 815-824: [to_indices[i]]; np.where is row-major, so the rows come in increasing order. *)
Definition to_indices (n : nat) (dag : mat num) (min_ce : Qc) (i : nat) : list nat :=
  filter (fun r => has_edge dag min_ce r i) (seq 0 n).

(** Loop state (827-851): [stack] and [stack_to_indice] with the top first, [paths] found so far.
    The bottom element of [stack_to_indice] *is* the list object [to_indices[from_index]]
    (829: no copy), so [to_indices[from_index]] read at 847 is its current content. *)
Record fap_state := { fap_stack : list nat; fap_tos : list (list nat); fap_paths : list (list nat) }.

Definition to_lookup (n : nat) (dag : mat num) (min_ce : Qc) (from : nat)
    (tos : list (list nat)) (x : nat) : list nat :=
  if x =? from then last tos [] else to_indices n dag min_ce x.

(** One turn of the while loop (830-851). *)
Definition fap_step (n : nat) (dag : mat num) (min_ce : Qc) (from to_ : nat) (s : fap_state)
  : fap_state + result (list (list nat)) :=
  match fap_stack s with
  | [] => inr (Ok (fap_paths s))                                           (* 830 *)
  | cur :: stack' =>
      if n <? length (fap_stack s) then inr (Err ValueError)               (* 831-834 *)
      else if cur =? to_ then                                              (* 839-842 *)
        inl {| fap_stack := stack'; fap_tos := tl (fap_tos s);
               fap_paths := fap_paths s ++ [rev (fap_stack s)] |}
      else
        match hd [] (fap_tos s) with
        | next :: rest =>                                                  (* 844-847 *)
            let tos1 := rest :: tl (fap_tos s) in
            inl {| fap_stack := next :: fap_stack s;
                   fap_tos := to_lookup n dag min_ce from tos1 next :: tos1;
                   fap_paths := fap_paths s |}
        | [] =>                                                            (* 848-850 *)
            inl {| fap_stack := stack'; fap_tos := tl (fap_tos s); fap_paths := fap_paths s |}
        end
  end.

Definition fap_init (n : nat) (dag : mat num) (min_ce : Qc) (from : nat) : fap_state :=
  {| fap_stack := [from]; fap_tos := [to_indices n dag min_ce from]; fap_paths := [] |}.

(** Bound on the loop: 2^(n*n+2) turns (proved sufficient for every graph). *)
Definition fap_loop (n : nat) (dag : mat num) (min_ce : Qc) (from to_ : nat)
  : result (list (list nat)) :=
  match loop (fap_step n dag min_ce from to_) (n * n + 2) (fap_init n dag min_ce from) with
  | inr r => r
  | inl _ => Err OutOfFuel
  end.

(** 854-857: product of the coefficients; [np.cumprod([])[-1]] is an IndexError. *)
Fixpoint path_coefs (dag : mat num) (p : list nat) : list num :=
  match p with
  | a :: ((b :: _) as r) => dag b a :: path_coefs dag r
  | _ => []
  end.
Definition nprod (l : list num) : num := fold_left nmul l (Some 1%Qc).
Definition path_effect (dag : mat num) (p : list nat) : result num :=
  match path_coefs dag p with
  | [] => Err IndexError
  | l => Ok (nprod l)
  end.
Fixpoint path_effects (dag : mat num) (ps : list (list nat)) : result (list num) :=
  match ps with
  | [] => Ok []
  | p :: r => let* e := path_effect dag p in let* es := path_effects dag r in Ok (e :: es)
  end.

(** 791-857.  829: [to_indices[from_index]] is an IndexError when out of range. *)
Definition find_all_paths (n : nat) (dag : mat num) (from to_ : nat) (min_ce : Qc)
  : result (list (list nat) * list num) :=
  if n <=? from then Err IndexError else
  let* ps := fap_loop n dag min_ce from to_ in
  let* es := path_effects dag ps in
  Ok (ps, es).

(** 1078-1147.  [cont]: [None] for is_continuous=None, otherwise the list of booleans
    (shorter than n: rejected by check_array(ensure_min_samples)). *)
Definition nodes_continuous (cont : option (list bool)) (p : list nat) : bool :=
  match cont with
  | None => true
  | Some l => forallb (fun v => nth v l true) (tl p)
  end.
Definition calculate_total_effect (n : nat) (dag : mat num) (from to_ : nat)
    (cont : option (list bool)) : result num :=
  if n <? 2 then Err ValueError                                            (* 1100-1105 *)
  else if n <=? from then Err ValueError                                   (* 1111-1117 *)
  else if n <=? to_ then Err ValueError                                    (* 1119-1125 *)
  else if from =? to_ then Err ValueError                                  (* 1127-1128 *)
  else if match cont with Some l => length l <? n | None => false end then Err ValueError
  else
    let* r := find_all_paths n dag from to_ 0%Qc in                        (* 1137 *)
    if forallb (nodes_continuous cont) (fst r)                             (* 1140-1143 *)
    then Ok (nsum (snd r))                                                 (* 1145 *)
    else Err ValueError.
