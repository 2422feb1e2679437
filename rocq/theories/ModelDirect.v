(** * Model of lingam/base.py, lingam/direct_lingam.py,
      lingam/multi_group_direct_lingam.py (causal order and adjacency matrix)
      and of make_prior_knowledge / get_exo_variables / get_sink_variables
      in lingam/utils/__init__.py. *)
From Coq Require Import List Arith Bool ZArith QArith Qcanon.
From Verif Require Import Prelude.
Import ListNotations.
Open Scope nat_scope.

(** ** Prior knowledge matrices *)

(** Pair equality, used for [np.unique(..., axis=0)]. *)
Definition pair_dec (p q : nat * nat) : {p = q} + {p <> q}.
Proof. decide equality; apply Nat.eq_dec. Defined.
Definition pair_eqb (p q : nat * nat) : bool :=
  (fst p =? fst q) && (snd p =? snd q).

(** lingam/utils/__init__.py:128-142 [make_prior_knowledge].
    Indices outside 0..n-1 raise IndexError (numpy's negative indices are not
    modelled: indices are natural numbers).  [None] and empty lists both skip a block. *)
Definition set_entries (v : Z) (ps : list (nat * nat)) (m : mat Z) : mat Z :=
  (* for p in ps: prior_knowledge[p[1], p[0]] = v   (lines 130-131, 133-134) *)
  fold_left (fun m p => upd2 m (snd p) (fst p) v) ps m.
Definition set_cols (vs : list nat) (m : mat Z) : mat Z :=
  (* prior_knowledge[:, var] = 0   (lines 136-137) *)
  fold_left (fun (m : mat Z) var => fun i j => if j =? var then 0%Z else m i j) vs m.
Definition set_rows (vs : list nat) (m : mat Z) : mat Z :=
  (* prior_knowledge[var, :] = 0   (lines 139-140) *)
  fold_left (fun (m : mat Z) var => fun i j => if i =? var then 0%Z else m i j) vs m.
Definition fill_diagonal {A} (v : A) (m : mat A) : mat A :=
  fun i j => if i =? j then v else m i j.

Definition make_prior_knowledge (n : nat) (exo sink : list nat)
    (paths no_paths : list (nat * nat)) : result (mat Z) :=
  let ok1 := forallb (fun p => (fst p <? n) && (snd p <? n)) (no_paths ++ paths) in
  let ok2 := forallb (fun v => v <? n) (sink ++ exo) in
  if ok1 && ok2 then
    let m := fun _ _ => (-1)%Z in                      (* 128 *)
    let m := set_entries 0 no_paths m in               (* 129-131 *)
    let m := set_entries 1 paths m in                  (* 132-134 *)
    let m := set_cols sink m in                        (* 135-137 *)
    let m := set_rows exo m in                         (* 138-140 *)
    Ok (fill_diagonal (-1)%Z m)                        (* 141-142 *)
  else Err IndexError.

(** lingam/direct_lingam.py:57-58: [self._Aknw = np.where(Aknw < 0, nan, Aknw)]. *)
Definition pk_of_raw (raw : mat Qc) : mat num :=
  fun i j => if qltb (raw i j) 0 then None else Some (raw i j).
(** An integer matrix used as constructor argument. *)
Definition raw_of_Z (m : mat Z) : mat Qc := fun i j => qz (m i j).

(** [np.array(np.where(pk == v)).transpose()]: row-major list of index pairs. *)
Definition where_eq (n : nat) (pk : mat num) (v : Qc) : list (nat * nat) :=
  filter (fun p => neqb (pk (fst p) (snd p)) (Some v)) (list_prod (seq 0 n) (seq 0 n)).
Definition swap_pairs (l : list (nat * nat)) : list (nat * nat) :=
  map (fun p => (snd p, fst p)) l.
(** [np.unique(l, axis=0, return_counts=True)] restricted to the rows whose count
    satisfies [c]; the sorting of the rows is omitted, because only membership,
    emptiness and filtering of the result are used. *)
Definition unique_with (c : nat -> bool) (l : list (nat * nat)) : list (nat * nat) :=
  filter (fun p => c (count_occ pair_dec l p)) (nodup pair_dec l).

(** lingam/direct_lingam.py:118-147 [_extract_partial_orders]
    (identical code: lingam/bottom_up_parce_lingam.py:144-173 and
    lingam/multi_group_direct_lingam.py via inheritance).
    Result rows are pairs (from, to). *)
Definition extract_partial_orders (n : nat) (pk : mat num) : result (list (nat * nat)) :=
  let path_pairs := where_eq n pk 1%Qc in                                   (* 120 *)
  let no_path_pairs := where_eq n pk 0%Qc in                                (* 121 *)
  let check_pairs := path_pairs ++ swap_pairs path_pairs in                 (* 124 *)
  match unique_with (fun c => 1 <? c) check_pairs with
  | _ :: _ => Err ValueError                                                (* 126-130 *)
  | [] =>
      let check_pairs := no_path_pairs ++ swap_pairs no_path_pairs in       (* 134 *)
      let dup := unique_with (fun c => 1 <? c) check_pairs in               (* 136 *)
      let no_path_pairs := unique_with (fun c => c <? 2) (no_path_pairs ++ dup) in (* 137-139 *)
      let check_pairs := path_pairs ++ swap_pairs no_path_pairs in          (* 141 *)
      Ok (swap_pairs (nodup pair_dec check_pairs))                          (* 142-147 *)
  end.

(** ** Causal order search *)

(** Prior knowledge configuration of the estimator: none, strong or soft
    (direct_lingam.py:25-58). *)
Inductive pk_mode : Type :=
| NoPK
| Strong (pk : mat num)
| Soft (pk : mat num).

(** [self._Aknw[j][index].sum() == 0] with [index = U[U != j]]
    (direct_lingam.py:184-185); a NaN sum compares false. *)
Definition row_sum_zero (pk : mat num) (j : nat) (idx : list nat) : bool :=
  neqb (nsum (map (pk j) idx)) (Some 0%Qc).
Definition col_sum_zero (pk : mat num) (i : nat) (idx : list nat) : bool :=
  neqb (nsum (map (fun k => pk k i) idx)) (Some 0%Qc).

(** direct_lingam.py:167-210 [_search_candidate]: returns (Uc, Vj). *)
Definition search_candidate (mode : pk_mode) (po : list (nat * nat)) (U : list nat)
  : list nat * list nat :=
  match mode with
  | NoPK => (U, [])                                                        (* 170-171 *)
  | Strong _ =>
      match po with
      | [] => (U, [])                                                      (* 178-179 *)
      | _ => (filter (fun i => negb (memb i (map snd po))) U, [])          (* 175-177 *)
      end
  | Soft pk =>
      let Uc0 := filter (fun j => row_sum_zero pk j (remove_nat j U)) U in (* 182-186 *)
      let Uc :=
        match Uc0 with
        | [] =>
            let U_end :=
              filter (fun j => qltb 0 (nansum (map (pk j) (remove_nat j U)))) U  (* 190-194 *)
              ++ filter (fun i => col_sum_zero pk i (remove_nat i U)) U in       (* 197-200 *)
            filter (fun i => negb (memb i U_end)) U                              (* 201 *)
        | _ => Uc0
        end in
      let Vj := filter (fun i => negb (memb i Uc) && row_sum_zero pk i Uc) U in  (* 204-209 *)
      (Uc, Vj)
  end.

Section Search.
  (** Data: one column per variable; [X] maps a variable to its current column. *)
  Variable Col : Type.
  (** [_residual(xi, xj)] (direct_lingam.py:149-151). *)
  Variable residual : Col -> Col -> Col.
  (** Score of candidate [i] given the current data, U, Uc and Vj, together with
      the comparison rule: the entry of [M_list] (pwling, lines 218-237, argmax) or of
      [Tkernels] (kernel, lines 294-308, argmin).  A parameter: every theorem holds
      for all scores, NaN included. *)
  Variable score : (nat -> Col) -> list nat -> list nat -> list nat -> nat -> num.
  (** [argsel] is [np_argmax] for pwling and [np_argmin] for kernel. *)
  Variable argsel : list num -> option nat.

  (** direct_lingam.py:212-237 [_search_causal_order] and 284-308
      [_search_causal_order_kernel]: same control flow.  [np.argmax([])] raises
      ValueError. *)
  Definition search_causal_order (mode : pk_mode) (po : list (nat * nat))
      (X : nat -> Col) (U : list nat) : result nat :=
    let '(Uc, Vj) := search_candidate mode po U in
    match Uc with
    | [x] => Ok x                                                          (* 215-216 *)
    | _ =>
        match argsel (map (score X U Uc Vj) Uc) with
        | None => Err ValueError
        | Some k => match nth_error Uc k with Some x => Ok x | None => Err IndexError end
        end
    end.

  (** direct_lingam.py:104-106: regress [m] out of the other members of U. *)
  Definition regress_out (X : nat -> Col) (U : list nat) (m : nat) : nat -> Col :=
    fold_left (fun X i => if i =? m then X else upd X i (residual (X i) (X m))) U X.

  (** direct_lingam.py:97-113: one pass of the main loop per remaining step. *)
  Fixpoint fit_loop (steps : nat) (mode : pk_mode) (po : list (nat * nat))
      (X : nat -> Col) (U K : list nat) : result (list nat) :=
    match steps with
    | 0 => Ok K
    | S s =>
        let* m := search_causal_order mode po X U in
        let X' := regress_out X U m in
        let po' := match mode with
                   | Strong _ => filter (fun p => negb (fst p =? m)) po    (* 110-113 *)
                   | _ => po
                   end in
        fit_loop s mode po' X' (remove_nat m U) (K ++ [m])
    end.

  (** direct_lingam.py:61-115 [fit] up to the causal order.  The shape check
      (lines 80-84) is the argument [pk_shape_ok]. *)
  Definition fit_order (n : nat) (pk_shape_ok : bool) (mode : pk_mode) (X : nat -> Col)
    : result (list nat) :=
    match mode with
    | NoPK => fit_loop n mode [] X (seq 0 n) []
    | Strong pk =>
        if pk_shape_ok then
          let* po := extract_partial_orders n pk in
          fit_loop n mode po X (seq 0 n) []
        else Err ValueError
    | Soft pk =>
        if pk_shape_ok then fit_loop n mode [] X (seq 0 n) [] else Err ValueError
    end.
End Search.

(** Constructor argument [measure] (direct_lingam.py:30, 98-103); 'pwling_fast' runs GPU
    code and is not modelled. *)
Inductive measure : Type := Pwling | Kernel.
Definition argsel_of (ms : measure) : list num -> option nat :=
  match ms with Pwling => np_argmax | Kernel => np_argmin end.   (* 237, 308 *)

(** ** The pairwise measure, concretely *)
Section Pwling.
  Variable Col : Type.
  Variable residual : Col -> Col -> Col.
  (** Column standardisation (lines 223-224) and [_diff_mutual_info] (161-165):
      they use sqrt, log, cosh, exp and stay parameters. *)
  Variable standardize : Col -> Col.
  Variable diff_mutual_info : Col -> Col -> Col -> Col -> num.

  (** [np.min([0, x]) ** 2]; NaN propagates. *)
  Definition min0_sq (x : num) : num :=
    match x with
    | None => None
    | Some v => let w := if qltb v 0 then v else 0%Qc in Some (w * w)%Qc
    end.

  (** direct_lingam.py:219-236: the score [-1.0 * M] of candidate [i]. *)
  Definition pwling_score (X : nat -> Col) (U Uc Vj : list nat) (i : nat) : num :=
    let M := fold_left
      (fun M j =>
         if i =? j then M
         else
           let xi := standardize (X i) in
           let xj := standardize (X j) in
           let ri_j := if memb i Vj && memb j Uc then xi else residual xi xj in
           let rj_i := if memb j Vj && memb i Uc then xj else residual xj xi in
           nadd M (min0_sq (diff_mutual_info xi xj ri_j rj_i)))
      U (Some 0%Qc) in
    nopp M.
End Pwling.

(** ** Adjacency matrix *)

(** lingam/base.py:123-159 [_estimate_adjacency_matrix].  [lasso predictors target p]
    is the coefficient of predictor [p] returned by [predict_adaptive_lasso]
    (lingam/utils/__init__.py:750-788), any value or NaN.
    [pk = None] means no prior knowledge. *)
Definition pk_diag0 (pk : mat num) : mat num := fill_diagonal (Some 0%Qc) pk.   (* 140-141 *)
Definition predictors_of (pk : option (mat num)) (target : nat) (before : list nat) : list nat :=
  match pk with
  | None => before
  | Some pk => filter (fun p => negb (neqb (pk_diag0 pk target p) (Some 0%Qc))) before (* 149-150 *)
  end.
Definition write_row (lasso : list nat -> nat -> nat -> num)
    (target : nat) (preds : list nat) (B : mat num) : mat num :=
  match preds with
  | [] => B                                                                (* 153-154 *)
  | _ => fun i j => if (i =? target) && memb j preds then lasso preds target j else B i j (* 156 *)
  end.
(** [before] = order[:i], the rest of the order still to be processed. *)
Fixpoint adj_loop (lasso : list nat -> nat -> nat -> num) (pk : option (mat num))
    (before rest : list nat) (B : mat num) : mat num :=
  match rest with
  | [] => B
  | target :: rest' =>
      let B' := match before with
                | [] => B                       (* range starts at 1: line 144 *)
                | _ => write_row lasso target (predictors_of pk target before) B
                end in
      adj_loop lasso pk (before ++ [target]) rest' B'
  end.
Definition estimate_adjacency_matrix (lasso : list nat -> nat -> nat -> num)
    (pk : option (mat num)) (order : list nat) : mat num :=
  adj_loop lasso pk [] order (fun _ _ => Some 0%Qc).

(** Prior knowledge seen by [_estimate_adjacency_matrix] (direct_lingam.py:116). *)
Definition pk_of_mode (mode : pk_mode) : option (mat num) :=
  match mode with NoPK => None | Strong pk => Some pk | Soft pk => Some pk end.

(** direct_lingam.py:61-116: causal order and adjacency matrix. *)
Definition direct_fit {Col} (residual : Col -> Col -> Col) score (ms : measure) lasso
    (n : nat) (pk_shape_ok : bool) (mode : pk_mode) (X : nat -> Col)
  : result (list nat * mat num) :=
  let* K := fit_order Col residual score (argsel_of ms) n pk_shape_ok mode X in
  Ok (K, estimate_adjacency_matrix lasso (pk_of_mode mode) K).

(** ** The estimator object: history of calls *)

(** Attributes of a DirectLiNGAM object that [fit] reads or writes:
    constructor settings plus [_partial_orders], [_causal_order],
    [_adjacency_matrix] (direct_lingam.py:52-58, 88, 110-115; base.py:158). *)
Record direct_obj : Type := {
  d_mode : pk_mode;
  d_po : list (nat * nat);
  d_order : option (list nat);
  d_adj : option (mat num)
}.

(** The loop of [fit] with the final value of [_partial_orders], also on failure. *)
Fixpoint fit_loop_st {Col} (residual : Col -> Col -> Col) score argsel (steps : nat)
    (mode : pk_mode) (po : list (nat * nat)) (X : nat -> Col) (U K : list nat)
  : list (nat * nat) * result (list nat) :=
  match steps with
  | 0 => (po, Ok K)
  | S s =>
      match search_causal_order Col score argsel mode po X U with
      | Err e => (po, Err e)
      | Ok m =>
          let po' := match mode with
                     | Strong _ => filter (fun p => negb (fst p =? m)) po
                     | _ => po
                     end in
          fit_loop_st residual score argsel s mode po' (regress_out Col residual X U m)
                      (remove_nat m U) (K ++ [m])
      end
  end.

(** [obj.fit(X)]: new object and raised exception, if any.  The adjacency
    estimation is assumed not to raise. *)
Definition direct_fit_obj {Col} (residual : Col -> Col -> Col) score (ms : measure) lasso
    (n : nat) (pk_shape_ok : bool) (X : nat -> Col) (o : direct_obj)
  : direct_obj * option exn :=
  let shape_ok := match d_mode o with NoPK => true | _ => pk_shape_ok end in
  if negb shape_ok then (o, Some ValueError) else
  match (match d_mode o with Strong pk => extract_partial_orders n pk | _ => Ok (d_po o) end) with
  | Err e => (o, Some e)
  | Ok po =>
      match fit_loop_st residual score (argsel_of ms) n (d_mode o) po X (seq 0 n) [] with
      | (po', Err e) =>
          ({| d_mode := d_mode o; d_po := po'; d_order := d_order o; d_adj := d_adj o |}, Some e)
      | (po', Ok K) =>
          ({| d_mode := d_mode o; d_po := po'; d_order := Some K;
              d_adj := Some (estimate_adjacency_matrix lasso (pk_of_mode (d_mode o)) K) |}, None)
      end
  end.

(** ** MultiGroupDirectLiNGAM *)

(* A data set is a pair: number of rows, columns. *)
(** lingam/multi_group_direct_lingam.py:292-316 [_search_causal_order]: [gM X U Uc Vj i] is
    the accumulated value [M] of one data set (lines 305-312); the score is
    [-1.0 * sum_X M * (len(X) / total_size)] (lines 298-300, 303-304, 313-314). *)
Definition mg_score {Col} (gM : (nat -> Col) -> list nat -> list nat -> list nat -> nat -> num)
    (ds : list (nat * (nat -> Col))) (U Uc Vj : list nat) (i : nat) : num :=
  let total_size := qsum (map (fun d => qn (fst d)) ds) in
  nopp (fold_left (fun MG d => nadd MG (nmul (gM (snd d) U Uc Vj i)
                                             (Some (qn (fst d) / total_size)%Qc)))
                  ds (Some 0%Qc)).

(** lingam/multi_group_direct_lingam.py:80-97: the loop carries all data sets;
    every data set is regressed on the chosen variable (lines 86-91). *)
Fixpoint mg_loop {Col} (residual : Col -> Col -> Col)
    (gM : (nat -> Col) -> list nat -> list nat -> list nat -> nat -> num)
    (steps : nat) (mode : pk_mode) (po : list (nat * nat))
    (ds : list (nat * (nat -> Col))) (U K : list nat) : result (list nat) :=
  match steps with
  | 0 => Ok K
  | S s =>
      let '(Uc, Vj) := search_candidate mode po U in
      let* m := match Uc with
                | [x] => Ok x                                              (* 295-296 *)
                | _ => match np_argmax (map (mg_score gM ds U Uc Vj) Uc) with
                       | None => Err ValueError
                       | Some k => match nth_error Uc k with
                                   | Some x => Ok x | None => Err IndexError end
                       end
                end in
      let ds' := map (fun d => (fst d, regress_out Col residual (snd d) U m)) ds in
      let po' := match mode with
                 | Strong _ => filter (fun p => negb (fst p =? m)) po
                 | _ => po
                 end in
      mg_loop residual gM s mode po' ds' (remove_nat m U) (K ++ [m])
  end.
(** lingam/multi_group_direct_lingam.py:68-99. *)
Definition mg_fit_order {Col} (residual : Col -> Col -> Col) gM
    (n : nat) (pk_shape_ok : bool) (mode : pk_mode) (ds : list (nat * (nat -> Col)))
  : result (list nat) :=
  match mode with
  | NoPK => mg_loop residual gM n mode [] ds (seq 0 n) []
  | Strong pk =>
      if pk_shape_ok then
        let* po := extract_partial_orders n pk in
        mg_loop residual gM n mode po ds (seq 0 n) []
      else Err ValueError
  | Soft pk =>
      if pk_shape_ok then mg_loop residual gM n mode [] ds (seq 0 n) []
      else Err ValueError
  end.
(** Lines 101-104: one adjacency matrix per data set with the shared order. *)
Definition mg_adjacency (lasso : nat -> list nat -> nat -> nat -> num) (pk : option (mat num))
    (order : list nat) (g : nat) : mat num :=
  estimate_adjacency_matrix (lasso g) pk order.

(** ** Exogenous / sink queries *)

(** lingam/utils/__init__.py:158-162 [get_sink_variables], 178-182 [get_exo_variables]
    for finite matrices. *)
Definition am_abs0 (B : mat Qc) : mat Qc := fun i j => if i =? j then 0%Qc else qabs (B i j).
Definition get_sink_variables (n : nat) (B : mat Qc) : list nat :=
  filter (fun i => qeqb (sumn n (fun k => am_abs0 B k i)) 0) (seq 0 n).
Definition get_exo_variables (n : nat) (B : mat Qc) : list nat :=
  filter (fun i => qeqb (sumn n (fun k => am_abs0 B i k)) 0) (seq 0 n).

(** ** Error independence p-values *)

(** lingam/base.py:113-121: [pval i j] is the p-value computed for the pair i < j.
    itertools.combinations(range(n), 2) in lexicographic order. *)
Definition combinations2 (n : nat) : list (nat * nat) :=
  filter (fun p => fst p <? snd p) (list_prod (seq 0 n) (seq 0 n)).
Definition error_independence_p_values (pval : nat -> nat -> num) (n : nat) : mat num :=
  fold_left (fun m p => upd2 (upd2 m (fst p) (snd p) (pval (fst p) (snd p)))
                             (snd p) (fst p) (pval (fst p) (snd p)))
            (combinations2 n) (fun _ _ => Some 0%Qc).
