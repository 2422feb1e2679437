(** * Model of lingam/camuv.py (CAMUV).

    Oracles: [ind i A j B] answers the independence test between the residual of x_i on A and
    the residual of x_j on B (the residual on the empty set is the variable itself, 129-139);
    [value c A qs] is the HSIC p-value or F-correlation between the residual of x_c on A and the
    columns of [qs], each given with the set its residual was taken on (the F-correlation with several columns
    raises: see ModelCamFcorr.v).  The columns of Y are
    always the residuals on the current parent sets (198-200, 230-233).  [iter] is the order in
    which Python iterates over a small set. *)
From Coq Require Import List Arith Lia Bool ZArith QArith Qcanon.
From Verif Require Import Prelude Loop ModelRCD.
Import ListNotations.
Open Scope nat_scope.

Section CAMUV.
  Variables (d maxnum : nat) (hsic : bool) (thr : Qc).     (* thr: alpha or ind_corr *)
  Variable pk : option (list (nat * nat)).
  Variable ind : nat -> list nat -> nat -> list nat -> bool.
  Variable value : nat -> list nat -> list (nat * list nat) -> num.
  Variable iter : list nat -> list nat.

  (** _get_neighborhoods (157-168) *)
  Definition neighborhoods : sets :=
    fold_left (fun N p => let '(i, j) := p in if ind i [] j [] then N else add_pair N i j)
              (pairs (seq 0 d)) no_sets.
  (** _make_pk_dict and _check_prior_knowledge (117-127, 223-228) *)
  Definition check_pk (xjs : list nat) (xi : nat) : bool :=
    match pk with
    | None => false
    | Some l => existsb (fun xj => existsb (fun p => (snd p =? xi) && (fst p =? xj)) l) xjs
    end.
  (** _check_correlation (280-284) *)
  Definition check_correlation (N : sets) (child : nat) (ps : list nat) : bool := forallb (N child) ps.
  (** _get_child (235-263) *)
  Definition better (v prev : num) : bool := if hsic then nltb prev v else nltb v prev.
  Definition get_child (N P : sets) (vs : list nat) : option nat * bool :=
    let init := if hsic then 0%Qc else 1%Qc in
    let '(best, child) :=
      fold_left (fun st c =>
        let '(prev, best) := st in
        let ps := remove_nat c vs in
        if check_pk ps c then st
        else if negb (check_correlation N c ps) then st
        else let v := value c (elems d (fun x => memb x ps || P c x))
                            (map (fun q => (q, elems d (P q))) ps) in
             if better v prev then (v, Some c) else st)
        (iter vs) (Some init, None) in
    (child, if hsic then nltb (Some thr) best else nltb best (Some thr)).
  (** _check_independence_withou_K (265-272): false as soon as one pair is independent *)
  Definition dependent_without (P : sets) (ps : list nat) (child : nat) : bool :=
    forallb (fun q => negb (ind child (elems d (P child)) q (elems d (P q)))) ps.
  (** _check_identified_causality (274-278) *)
  Definition not_identified (P : sets) (vs : list nat) : bool :=
    forallb (fun p => negb (P (fst p) (snd p) || P (snd p) (fst p))) (pairs vs).
  (** Body of the loop over variable sets (180-200) *)
  Definition cam_visit (N : sets) (st : sets * bool) (vs : list nat) : sets * bool :=
    let '(P, changed) := st in
    if negb (not_identified P vs) then st
    else match get_child N P vs with
         | (Some c, true) =>
             let ps := remove_nat c vs in
             if negb (dependent_without P ps c) then st
             else (absorb P c ps, match ps with [] => changed | _ => true end)
         | _ => st
         end.
  (** One iteration of [while True] (176-207) *)
  Definition cam_step (N : sets) (st : sets * nat) : (sets * nat) + sets :=
    let '(P, t) := st in
    let '(P', changed) := fold_left (cam_visit N) (combs t (seq 0 d)) (P, false) in
    if changed then inl (P', 2)
    else if maxnum <? S t then inr P' else inl (P', S t).
  (** Pruning of parents (209-219); [P] changes row by row *)
  Definition prune_row (P : sets) (i : nat) : sets :=
    fun a b => P a b && negb ((a =? i) && ind i (elems d (fun x => P i x && negb (x =? b))) b (elems d (P b))).
  Definition prune (P : sets) : sets := fold_left prune_row (seq 0 d) P.
  Definition find_parents (k : nat) : option sets :=
    match loop (cam_step neighborhoods) k (no_sets, 2) with
    | inl _ => None
    | inr P => Some (prune P)
    end.
  (** fit (92-110): confounded pairs *)
  Definition cam_confounded (N P : sets) : sets :=
    fold_left (fun U p => let '(i, j) := p in
                 if P j i || P i j then U
                 else if negb (N j i) || negb (N i j) then U
                 else if ind i (elems d (P i)) j (elems d (P j)) then U else add_pair U i j)
              (pairs (seq 0 d)) no_sets.
  (** _estimate_adjacency_matrix (288-298) *)
  Definition cam_adjacency (P U : sets) : mat num :=
    fun i j => if U i j then None else if P i j then Some 1%Qc else Some 0%Qc.
  Definition cam_top : nat := d * d * S (Nat.max 2 maxnum) + Nat.max 2 maxnum.
  Definition cam_fit : result (sets * mat num) :=
    if maxnum =? 0 then Err ValueError                                    (* 56-57 *)
    else match find_parents (S (Nat.log2 cam_top)) with
         | None => Err OutOfFuel
         | Some P => Ok (P, cam_adjacency P (cam_confounded neighborhoods P))
         end.
End CAMUV.
