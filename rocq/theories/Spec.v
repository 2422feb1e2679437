(** * Specification vocabulary used by the property statements.

    Nothing here refers to the model of the code. *)
From Coq Require Import List Arith Lia Bool QArith Qcanon Permutation Relations.
From Verif Require Import Prelude.
Import ListNotations.

(** [l] lists the variables 0..n-1, each exactly once. *)
Definition is_order (n : nat) (l : list nat) : Prop := Permutation l (seq 0 n).

(** [a] stands strictly before [b] in [l]. *)
Definition precedes (l : list nat) (a b : nat) : Prop :=
  exists l1 l2 l3, l = l1 ++ a :: l2 ++ b :: l3.

(** A directed graph is a relation [E from to]. *)
Definition graph := nat -> nat -> Prop.

(** No directed cycle (self loops included). *)
Definition acyclic (E : graph) : Prop := forall v, ~ clos_trans nat E v v.

(** Every edge goes from an earlier to a later element of the order. *)
Definition topological (E : graph) (l : list nat) : Prop :=
  forall a b, E a b -> precedes l a b.

(** The graph of a weight matrix: [B i j] is the weight of the edge j -> i.
    Only variables below [n] exist. *)
Definition edge_of (n : nat) (B : mat Qc) : graph :=
  fun j i => i < n /\ j < n /\ B i j <> 0%Qc.
(** The same for matrices with NaN: an entry other than 0 is an edge. *)
Definition edge_of_num (n : nat) (B : mat num) : graph :=
  fun j i => i < n /\ j < n /\ B i j <> Some 0%Qc.

(** [p] is a directed walk: consecutive nodes are joined by edges. *)
Fixpoint walk (E : graph) (p : list nat) : Prop :=
  match p with
  | a :: ((b :: _) as r) => E a b /\ walk E r
  | _ => True
  end.

(** A walk from [a] to [b] (at least one node). *)
Definition walk_from_to (E : graph) (a b : nat) (p : list nat) : Prop :=
  hd_error p = Some a /\ last p a = b /\ p <> [] /\ walk E p.

(** A directed path: a walk without repeated node. *)
Definition dpath (E : graph) (a b : nat) (p : list nat) : Prop :=
  walk_from_to E a b p /\ NoDup p.

(** Product of the weights along a walk. *)
Fixpoint walk_weight (B : mat Qc) (p : list nat) : Qc :=
  match p with
  | a :: ((b :: _) as r) => (B b a * walk_weight B r)%Qc
  | _ => 1%Qc
  end.

(** Matrix algebra on n x n matrices. *)
Definition midn : mat Qc := fun i j => if i =? j then 1%Qc else 0%Qc.
Definition mmul (n : nat) (A B : mat Qc) : mat Qc :=
  fun i j => sumn n (fun k => A i k * B k j)%Qc.
Definition madd (A B : mat Qc) : mat Qc := fun i j => (A i j + B i j)%Qc.
Definition msub (A B : mat Qc) : mat Qc := fun i j => (A i j - B i j)%Qc.
Fixpoint mpow (n : nat) (A : mat Qc) (k : nat) : mat Qc :=
  match k with 0 => midn | S k' => mmul n A (mpow n A k') end.
Definition mvec (n : nat) (A : mat Qc) (x : nat -> Qc) : nat -> Qc :=
  fun i => sumn n (fun k => A i k * x k)%Qc.
Definition trace (n : nat) (A : mat Qc) : Qc := sumn n (fun i => A i i).
Definition meq (n : nat) (A B : mat Qc) : Prop := forall i j, i < n -> j < n -> A i j = B i j.
