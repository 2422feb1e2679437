(** * Specification vocabulary for drawings (independent of the model) *)
From Coq Require Import List Arith Bool ZArith QArith Qcanon Relations.
From Verif Require Import Prelude Spec.
Import ListNotations.
Open Scope nat_scope.

(** Positions of a matrix, row by row. *)
Definition row_major (a b : nat * nat) : Prop := fst a < fst b \/ (fst a = fst b /\ snd a < snd b).
(** The path [p] takes the step u -> v. *)
Definition takes (p : list nat) (u v : nat) : Prop := exists l1 l2, p = l1 ++ u :: v :: l2.
(** The edge u -> v is part of a directed cycle. *)
Definition on_cycle (E : graph) (u v : nat) : Prop := E u v /\ clos_refl_trans nat E v u.
(** [c] lists the nodes of a cycle without repetition. *)
Definition closed (c : list nat) : list nat := c ++ [hd 0 c].
Definition cycle_of (E : graph) (c : list nat) : Prop := c <> [] /\ NoDup c /\ walk E (closed c).
(** Length of a shortest walk from [s] to [v]. *)
Definition distance (E : graph) (s v d : nat) : Prop :=
  (exists p, walk_from_to E s v p /\ length p = S d) /\ forall p, walk_from_to E s v p -> d < length p.

(** The graph of a boolean relation on 0..n-1. *)
Definition bgraph (n : nat) (G : nat -> nat -> bool) : graph := fun a b => a < n /\ b < n /\ G a b = true.
(** What networkx promises: all simple paths between two nodes (the path of a single node may be
    missing), all simple cycles, each from some starting point. *)
Definition lists_simple_paths (f : nat -> (nat -> nat -> bool) -> nat -> nat -> list (list nat)) : Prop :=
  forall n G s t, s < n -> t < n ->
    (forall p, In p (f n G s t) -> dpath (bgraph n G) s t p) /\
    (forall p, dpath (bgraph n G) s t p -> 2 <= length p -> In p (f n G s t)).
Definition lists_simple_cycles (f : nat -> (nat -> nat -> bool) -> list (list nat)) : Prop :=
  forall n G,
    (forall c, In c (f n G) -> cycle_of (bgraph n G) c) /\
    (forall c, cycle_of (bgraph n G) c -> exists c', In c' (f n G) /\ forall u v, takes (closed c) u v -> takes (closed c') u v).
