(** * Model of lingam/rcd.py (RCD), lingam/utils/_rcd.py (extract_ancestors) and
    lingam/multi_group_rcd.py (MultiGroupRCD).

    The statistical tests are oracles: their answers may be anything, but each answer is a
    function of what the code passes to the test (the conditioning set, the variables).  The
    three copies of the ancestor search (rcd.py 254-316, utils/_rcd.py 51-117,
    multi_group_rcd.py 491-550) differ only in how the tests are computed, so one model covers
    them.  Python sets of variables are boolean functions, [list(set)] is the increasing list. *)
From Coq Require Import List Arith Lia Bool ZArith QArith Qcanon.
From Verif Require Import Prelude Loop.
Import ListNotations.
Open Scope nat_scope.

(** itertools.combinations(l, k), in its order *)
Fixpoint combs (k : nat) (l : list nat) : list (list nat) :=
  match k with
  | 0 => [[]]
  | S k' =>
      (fix go (l : list nat) : list (list nat) :=
         match l with
         | [] => []
         | x :: r => map (cons x) (combs k' r) ++ go r
         end) l
  end.
(** itertools.combinations(l, 2) as pairs *)
Fixpoint pairs (l : list nat) : list (nat * nat) :=
  match l with [] => [] | x :: r => map (pair x) r ++ pairs r end.

Definition sets := nat -> nat -> bool.                   (* M[i] contains j *)
Definition elems (n : nat) (p : nat -> bool) : list nat := filter p (seq 0 n).
Definition list_eqb (a b : list nat) : bool := if list_eq_dec Nat.eq_dec a b then true else false.

Section RCD.
  Variables (n maxl : nat) (mlhsicr : bool).
  (** Tests on the residuals Y of the variables of U regressed on H_U. *)
  Variable nongauss : list nat -> nat -> bool.                          (* H_U, xj *)
  Variable correlated : list nat -> nat -> nat -> bool.                 (* H_U, xi, xj *)
  Variables indep_ols indep_ml : list nat -> nat -> list nat -> nat -> bool. (* H_U, xi, xj_list, xj *)

  (** _get_common_ancestors (rcd.py 129-132) *)
  Definition common_ancestors (M : sets) (U : list nat) : list nat :=
    elems n (fun v => forallb (fun u => M u v) U).
  (** _exists_ancestor_in_U (165-174) *)
  Definition exists_ancestor (M : sets) (xi : nat) (xjs : list nat) : bool :=
    existsb (fun xj => M xj xi) xjs || forallb (fun xj => M xi xj) xjs.
  (** _is_independent_of_resid (227-252) *)
  Definition indep_of_resid (H : list nat) (xi : nat) (xjs : list nat) : bool :=
    if forallb (indep_ols H xi xjs) xjs then true
    else if (length xjs =? 1) || negb mlhsicr then false
    else forallb (indep_ml H xi xjs) xjs.
  (** 291-299 *)
  Definition sinks (M : sets) (H : list nat) (U : list nat) : list nat :=
    filter (fun xi => negb (exists_ancestor M xi (remove_nat xi U)) &&
                      indep_of_resid H xi (remove_nat xi U)) U.
  (** 305-307 *)
  Definition absorb (M : sets) (xi : nat) (xjs : list nat) : sets :=
    fun i j => M i j || ((i =? xi) && memb j xjs).
  (** hu_history, newest entry first *)
  Fixpoint hist_get (h : list (list nat * list nat)) (U : list nat) : option (list nat) :=
    match h with
    | [] => None
    | (U', H) :: r => if list_eqb U U' then Some H else hist_get r U
    end.
  (** Body of the [for U in U_list] loop (265-309) *)
  Definition visit (st : sets * list (list nat * list nat) * bool) (U : list nat) :=
    let '(M, hist, changed) := st in
    let H := common_ancestors M U in
    if match hist_get hist U with Some H' => list_eqb H H' | None => false end then st   (* 273 *)
    else if negb (forallb (nongauss H) U) then st                                        (* 279 *)
    else if negb (forallb (fun p => correlated H (fst p) (snd p)) (pairs U)) then st     (* 283-289 *)
    else
      let '(M', changed') :=
        match sinks M H U with
        | [xi] => if forallb (M xi) (remove_nat xi U) then (M, changed)                  (* 305 *)
                  else (absorb M xi (remove_nat xi U), true)
        | _ => (M, changed)
        end in
      (M', (U, H) :: hist, changed').
  Definition pass (M : sets) (hist : list (list nat * list nat)) (l : nat) :=
    fold_left visit (combs (S l) (seq 0 n)) (M, hist, false).
  (** One iteration of [while True] (261-315) *)
  Definition rcd_step (st : sets * list (list nat * list nat) * nat) :
    (sets * list (list nat * list nat) * nat) + sets :=
    let '(M, hist, l) := st in
    let '(M', hist', changed) := pass M hist l in
    if changed then inl (M', hist', 1)
    else if l <? maxl then inl (M', hist', S l)
    else inr M'.
  Definition no_sets : sets := fun _ _ => false.
  (** _extract_ancestors (254-316), at most 2^k iterations *)
  Definition rcd_ancestors (k : nat) := loop rcd_step k (no_sets, [], 1).

  (** _is_parent (318-330): are x_j given M_i∩M_j and x_i given M_i\{x_j} correlated? *)
  Variable cor_parent : nat -> list nat -> nat -> list nat -> bool.
  (** _extract_parents (332-343) *)
  Definition rcd_parents (M : sets) : sets :=
    fun i j => M i j && cor_parent j (elems n (fun v => M i v && M j v))
                                   i (elems n (fun v => M i v && negb (v =? j))).
  (** _extract_vars_sharing_confounders (352-366); test on the residuals to the parents *)
  Variable cor_resid : nat -> list nat -> nat -> list nat -> bool.
  Definition add_pair (C : sets) (i j : nat) : sets :=
    fun a b => C a b || ((a =? i) && (b =? j)) || ((a =? j) && (b =? i)).
  Definition rcd_confounded (P : sets) : sets :=
    fold_left (fun C p => let '(i, j) := p in
                 if P j i || P i j then C
                 else if cor_resid i (elems n (P i)) j (elems n (P j)) then add_pair C i j else C)
              (pairs (seq 0 n)) no_sets.
  (** _estimate_adjacency_matrix (368-408); [coef i ps j] is the OLS coefficient of x_j when
      x_i is regressed on [ps].  The two writing loops touch each cell at most once each, NaN last. *)
  Variable coef : nat -> list nat -> nat -> Qc.
  Definition rcd_adjacency (P C : sets) : mat num :=
    fun i j => if C i j then None
               else if P i j then Some (coef i (elems n (P i)) j)
               else Some 0%Qc.

  (** fit (104-127).  The constructor rejects max_explanatory_num <= 0 (71-72). *)
  Definition rcd_fuel : nat := S (Nat.log2 (n * n * S maxl + maxl)).
  Definition rcd_fit : result (sets * mat num) :=
    if maxl =? 0 then Err ValueError
    else match rcd_ancestors rcd_fuel with
         | inl _ => Err OutOfFuel
         | inr M => let P := rcd_parents M in
                    Ok (M, rcd_adjacency P (rcd_confounded P))
         end.
End RCD.

(** ** MultiGroupRCD decisions *)
(** _is_independent, 'fcorr' branch (407-414): [fs] the F-correlation of each group in turn.
    Without any group [f_corr] is unbound; fit needs at least two. *)
Definition mg_fcorr_independent (fs : list Qc) (thr : Qc) : result bool :=
  let '(_, last_f) :=
    fold_left (fun st f => let '(mx, _) := st in (if qltb mx f then f else mx, Some f)) fs (0%Qc, None) in
  match last_f with
  | None => Err RuntimeError
  | Some f => Ok (qltb f thr)                                               (* 414 *)
  end.
(** 'hsic' branch (393-404) and the other Fisher tests: infinity as None; [m2log p] = -2 log p,
    [sf] the chi-square survival function at a (possibly infinite) statistic. *)
Definition ext_add (a b : option Qc) : option Qc :=
  match a, b with Some x, Some y => Some (x + y)%Qc | _, _ => None end.
Definition fisher_stat (m2log : Qc -> Qc) (ps : list Qc) : option Qc :=
  fold_left (fun s p => ext_add s (if qeqb p 0 then None else Some (m2log p))) ps (Some 0%Qc).
Definition mg_hsic_independent (m2log : Qc -> Qc) (sf : option Qc -> nat -> Qc) (alpha : Qc) (ps : list Qc) : bool :=
  qltb alpha (sf (fisher_stat m2log ps) (2 * length ps)).

(** estimate_total_effect2 (179-213) of MultiGroupRCD; [te] the effect on one matrix *)
Fixpoint mg_total_effects (n : nat) (te : mat num -> nat -> nat -> num) (ams : list (mat num))
    (from to : nat) : list num :=
  match ams with
  | [] => []
  | am :: r => if existsb (fun j => match am from j with None => true | _ => false end) (seq 0 n)
               then []                                                       (* 203-208 *)
               else te am from to :: mg_total_effects n te r from to
  end.
(** RCD.estimate_total_effect2 (440-460) *)
Definition rcd_total_effect (n : nat) (te : mat num -> nat -> nat -> num) (am : mat num) (from to : nat) : num :=
  if existsb (fun j => match am from j with None => true | _ => false end) (seq 0 n) then None
  else te am from to.
(** Total effects stored by one bootstrap round: RCD (rcd.py 553-559), MultiGroupRCD
    (multi_group_rcd.py 289-295, group [g]); the array starts as zeros. *)
Definition rcd_boot_te (n : nat) (te : mat num -> nat -> nat -> num) (M : sets) (am : mat num) : mat num :=
  fun to from => if M to from then rcd_total_effect n te am from to else Some 0%Qc.
Definition mg_boot_te (n : nat) (te : mat num -> nat -> nat -> num) (M : sets) (ams : list (mat num)) (g : nat) : mat num :=
  fun to from => if M to from then nth g (mg_total_effects n te ams from to) (Some 0%Qc) else Some 0%Qc.
