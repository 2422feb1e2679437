(** * Vocabulary for the RCD properties. *)
From Coq Require Import List Arith Bool QArith Qcanon Sorted.
From Verif Require Import Prelude Spec.

(** Ancestor sets as a graph: an edge from each ancestor to its descendant. *)
Definition anc_graph (M : nat -> nat -> bool) : graph := fun j i => M i j = true.
(** Directed part of a matrix with NaN entries. *)
Definition directed_part (B : mat num) : graph := fun j i => exists v, B i j = Some v /\ v <> 0%Qc.

(** The rule of the search applies to the set [U] and would add ancestors to [xi]: all tests of
    the set accept, [xi] is the only member that is not an ancestor of another member, does not
    have all of them as ancestors already, and whose residual is independent ([ind]). *)
Definition may_be_sink (M : nat -> nat -> bool) (U : list nat) (ind : nat -> bool) (xi : nat) : Prop :=
  In xi U /\ (forall xj, In xj U -> xj <> xi -> M xj xi = false) /\
  (exists xj, In xj U /\ xj <> xi /\ M xi xj = false) /\ ind xi = true.
Definition rule_applies (M : nat -> nat -> bool) (U : list nat) (tests : bool) (ind : nat -> bool) (xi : nat) : Prop :=
  tests = true /\ may_be_sink M U ind xi /\ forall y, may_be_sink M U ind y -> y = xi.

(** ** One discovery of the ancestor search
    [nongauss H j], [correlated H i j]: tests on the residuals given the variables [H];
    [ols H i js j], [mlh H i js j]: independence of x_j from the residual of x_i on [js] by least squares and
    by minimising HSIC, all given [H]. *)
Section Search.
  Variables (n : nat) (mlhsicr : bool).
  Variable nongauss : list nat -> nat -> bool.
  Variable correlated : list nat -> nat -> nat -> bool.
  Variables ols mlh : list nat -> nat -> list nat -> nat -> bool.

  Definition others (i : nat) (U : list nat) : list nat := filter (fun v => negb (v =? i)) U.
  (** [H] lists the common ancestors of [U]. *)
  Definition common (M : nat -> nat -> bool) (U H : list nat) : Prop :=
    StronglySorted lt H /\ forall v, In v H <-> v < n /\ forall u, In u U -> M u v = true.
  Definition suitable (H U : list nat) : Prop :=
    (forall j, In j U -> nongauss H j = true) /\ (forall a b, In a U -> In b U -> a < b -> correlated H a b = true).
  Definition residual_independent (H : list nat) (i : nat) (js : list nat) : Prop :=
    (forall j, In j js -> ols H i js j = true) \/
    (mlhsicr = true /\ length js <> 1 /\ forall j, In j js -> mlh H i js j = true).
  Definition sink (M : nat -> nat -> bool) (H U : list nat) (i : nat) : Prop :=
    In i U /\ (forall j, In j U -> j <> i -> M j i = false) /\ (exists j, In j U /\ j <> i /\ M i j = false) /\
    residual_independent H i (others i U).
  (** [i] is the only sink of [U]. *)
  Definition finds (M : nat -> nat -> bool) (U : list nat) (i : nat) : Prop :=
    exists H, common M U H /\ suitable H U /\ sink M H U i /\ forall y, sink M H U y -> y = i.
  Definition subset_of_size (t : nat) (U : list nat) : Prop :=
    length U = t /\ StronglySorted lt U /\ forall v, In v U -> v < n.
  Inductive learned (top : nat) : (nat -> nat -> bool) -> Prop :=
  | learned_start : forall M, (forall i j, M i j = false) -> learned top M
  | learned_step : forall M M' U t i, learned top M -> 2 <= t <= top -> subset_of_size t U -> finds M U i ->
      (forall a b, M' a b = true <-> M a b = true \/ (a = i /\ In b U /\ b <> i)) -> learned top M'.
  (** [U] has been examined: in some earlier state with the same common ancestors of [U], and what was
      found then is in [M]. *)
  Definition examined (top : nat) (M : nat -> nat -> bool) (U : list nat) : Prop :=
    exists M0, learned top M0 /\ (forall a b, M0 a b = true -> M a b = true) /\
      (forall H, common M0 U H <-> common M U H) /\
      forall i, finds M0 U i -> forall j, In j U -> j <> i -> M i j = true.
End Search.
