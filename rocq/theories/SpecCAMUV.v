(** * Vocabulary for the CAMUV search: what one discovery and the final pruning mean.

    [ind i A j B]: the residuals of x_i on A and of x_j on B are independent; [value c A qs]:
    the dependence measure (p-value or F-correlation, NaN = [None]) between the residual of x_c
    on A and the residuals listed in [qs]; [iter]: iteration order of a set. *)
From Coq Require Import List Arith Bool QArith Qcanon Sorted.
From Verif Require Import Prelude.
Import ListNotations.
Open Scope nat_scope.

Section Rules.
  Variables (d : nat) (hsic : bool) (thr : Qc) (forbidden : nat -> nat -> Prop).
  Variable ind : nat -> list nat -> nat -> list nat -> bool.
  Variable value : nat -> list nat -> list (nat * list nat) -> num.
  Variable iter : list nat -> list nat.

  (** A larger p-value or a smaller F-correlation is better; a NaN is never better or worse. *)
  Definition beats (a b : num) : Prop :=
    match a, b with Some x, Some y => if hsic then (y < x)%Qc else (x < y)%Qc | _, _ => False end.
  Definition worst : num := Some (if hsic then 0%Qc else 1%Qc).
  (** The two variables themselves are dependent. *)
  Definition neighbours (a b : nat) : Prop :=
    (a < b < d /\ ind a [] b [] = false) \/ (b < a < d /\ ind b [] a [] = false).
  (** Every other member of [K] may be a parent of [c]. *)
  Definition eligible (K : list nat) (c : nat) : Prop :=
    forall p, In p K -> p <> c -> ~ forbidden p c /\ neighbours c p.
  Definition but (c : nat) (K : list nat) : list nat := filter (fun v => negb (v =? c)) K.
  Definition parents_of (P : nat -> nat -> bool) (i : nat) : list nat := filter (P i) (seq 0 d).
  (** Residual of x_c on the rest of [K] and its present parents, against the present residuals
      of the rest of [K]. *)
  Definition score (P : nat -> nat -> bool) (K : list nat) (c : nat) : num :=
    value c (filter (fun x => existsb (Nat.eqb x) (but c K) || P c x) (seq 0 d))
          (map (fun q => (q, parents_of P q)) (but c K)).
  (** [c] has the best score of the eligible members of [K], the first one in case of a tie. *)
  Definition best_child (P : nat -> nat -> bool) (K : list nat) (c : nat) : Prop :=
    eligible K c /\ beats (score P K c) worst /\
    exists before after, iter K = before ++ c :: after /\
      (forall a w, In a before -> eligible K a -> score P K a = Some w -> beats (score P K c) (Some w)) /\
      (forall a w, In a after -> eligible K a -> score P K a = Some w -> ~ beats (Some w) (score P K c)).
  (** The set [K] establishes that its other members are parents of [c]. *)
  Definition establishes (P : nat -> nat -> bool) (K : list nat) (c : nat) : Prop :=
    (forall a b, In a K -> In b K -> a <> b -> P a b = false) /\
    best_child P K c /\
    beats (score P K c) (Some thr) /\
    (forall q, In q K -> q <> c -> ind c (parents_of P c) q (parents_of P q) = false).
  (** Sets of [t] different variables. *)
  Definition var_set (t : nat) (K : list nat) : Prop :=
    length K = t /\ StronglySorted lt K /\ forall v, In v K -> v < d.
  Inductive discovered (top : nat) : (nat -> nat -> bool) -> Prop :=
  | disc_start : forall P, (forall i j, P i j = false) -> discovered top P
  | disc_step : forall P P' K t c, discovered top P -> 2 <= t <= top -> var_set t K -> establishes P K c ->
      (forall i j, P' i j = true <-> P i j = true \/ (i = c /\ In j K /\ j <> c)) -> discovered top P'.
  (** The same with the order of the search: sets of [t] variables are used only in a pass that began with parents [P0] to which no smaller
      set could add anything. *)
  Inductive found_in_order (top : nat) : (nat -> nat -> bool) -> Prop :=
  | order_start : forall P, (forall i j, P i j = false) -> found_in_order top P
  | order_step : forall P0 P P' K t c, found_in_order top P0 -> (forall i j, P0 i j = true -> P i j = true) -> found_in_order top P ->
      2 <= t <= top -> (forall s L b, 2 <= s < t -> var_set s L -> ~ establishes P0 L b) -> var_set t K -> establishes P K c ->
      (forall i j, P' i j = true <-> P i j = true \/ (i = c /\ In j K /\ j <> c)) -> found_in_order top P'.
  (** Row [i] of the answer [P] keeps those parents found in [Q] whose residual depends on the
      residual of x_i on its other parents; rows before [i] have been pruned already. *)
  Definition pruned (Q P : nat -> nat -> bool) : Prop :=
    forall i j, P i j = true <-> Q i j = true /\
      (i < d -> ind i (filter (fun x => Q i x && negb (x =? j)) (seq 0 d)) j
                    (parents_of (if j <? i then P else Q) j) = false).
End Rules.
