(** * Model of lingam/multi_group_direct_lingam.py on data, over the real numbers

    The measures, columns and the regression of a column on another are those of ModelDirectR. *)
From Coq Require Import Reals Arith Bool List QArith Qcanon.
From Verif Require Import Prelude LibR ModelDirectR.
From Verif Require ModelDirect.
Import ListNotations.
Open Scope R_scope.

(** A data set: its number of rows and its columns. *)
Definition dataset := (nat * (nat -> col))%type.
(** 301-313: the value [M] of candidate [i] in one data set *)
Definition group_M (U Uc Vj : list nat) (i : nat) (d : dataset) : option R :=
  let '(n, X) := d in
  fold_left
    (fun M j =>
       if (i =? j)%nat then M
       else
         let xi := standardize n (X i) in                                              (* 306 *)
         let xj := standardize n (X j) in                                              (* 307 *)
         let ri_j := if memb i Vj && memb j Uc then xi else residual n xi xj in        (* 308 *)
         let rj_i := if memb j Vj && memb i Uc then xj else residual n xj xi in        (* 309 *)
         oadd M (min0_sq (diff_mutual_info n xi xj ri_j rj_i)))                        (* 310-312 *)
    U (Some 0).
(** 296-298 *)
Definition total_size (ds : list dataset) : nat := fold_left (fun t d => (t + fst d)%nat) ds 0%nat.
(** 301-315: the entry of MG_list of candidate [i] *)
Definition group_score (ds : list dataset) (U Uc Vj : list nat) (i : nat) : option R :=
  let MG := fold_left
    (fun MG d => oadd MG (option_map (fun M => M * (INR (fst d) / INR (total_size ds))) (group_M U Uc Vj i d)))   (* 313 *)
    ds (Some 0) in
  option_map (fun m => -1 * m) MG.                                                     (* 314 *)
(** 290-316 [_search_causal_order] *)
Definition group_search (mode : ModelDirect.pk_mode) (po : list (nat * nat)) (ds : list dataset) (U : list nat) : result nat :=
  let '(Uc, Vj) := ModelDirect.search_candidate mode po U in
  match Uc with
  | [x] => Ok x                                                                        (* 293-294 *)
  | _ =>
      match argmax (map (group_score ds U Uc Vj) Uc) with                              (* 315 *)
      | None => Err ValueError
      | Some k => match nth_error Uc k with Some x => Ok x | None => Err IndexError end
      end
  end.
(** 84-90 *)
Definition group_regress_out (ds : list dataset) (U : list nat) (m : nat) : list dataset :=
  map (fun d => (fst d, regress_out (fst d) (snd d) U m)) ds.
(** 80-97 *)
Fixpoint group_loop (steps : nat) (mode : ModelDirect.pk_mode) (po : list (nat * nat)) (ds : list dataset) (U K : list nat) : result (list nat) :=
  match steps with
  | O => Ok K
  | S steps =>
      let* m := group_search mode po ds U in
      let ds' := group_regress_out ds U m in
      let po' := match mode with ModelDirect.Strong _ => filter (fun p => negb (fst p =? m)%nat) po | _ => po end in
      group_loop steps mode po' ds' (remove_nat m U) (K ++ [m])
  end.
(** 51-99, 268-288 [fit] up to the causal order: data sets with their numbers of rows, all with [p] columns; the shape check of the prior
    knowledge (70-74) is an argument *)
Definition group_fit_order (p : nat) (pk_shape_ok : bool) (mode : ModelDirect.pk_mode) (Xs : list (nat * (nat -> nat -> R))) : result (list nat) :=
  if (length Xs <? 2)%nat then Err ValueError                                          (* 273-274 *)
  else if existsb (fun d => fst d =? 0)%nat Xs || (p =? 0)%nat then Err ValueError     (* 276-279: check_array *)
  else
    let run po := group_loop p mode po (map (fun d => (fst d, fun j => Some (snd d j))) Xs) (seq 0 p) [] in
    match mode with
    | ModelDirect.NoPK => run []
    | ModelDirect.Strong pk =>
        if pk_shape_ok then let* po := ModelDirect.extract_partial_orders p pk in run po else Err ValueError
    | ModelDirect.Soft pk => if pk_shape_ok then run [] else Err ValueError
    end.
(** 101-104: one adjacency matrix for each data set; the regressions get the number of rows *)
Definition group_fit (lr : nat -> list (nat -> R) -> (nat -> R) -> list R) (lars : nat -> list (nat -> R) -> (nat -> R) -> result (list R))
    (p : nat) (pk_shape_ok : bool) (mode : ModelDirect.pk_mode) (Xs : list (nat * (nat -> nat -> R))) : result (list nat * list rmat) :=
  let* K := group_fit_order p pk_shape_ok mode Xs in
  let* Bs := traverse (fun d => adjacency_loop (lr (fst d)) (lars (fst d)) (fst d) (snd d) (ModelDirect.pk_of_mode mode) [] K (fun _ _ => 0)) Xs in
  Ok (K, Bs).
