(** * Prelude: results, exact numbers, NaN, small numpy primitives.

    This file models no lingam function by itself; it fixes the Python/numpy
    vocabulary shared by the model files. *)
From Coq Require Import List Arith Lia Bool ZArith QArith Qcanon Permutation Sorted.
Import ListNotations.
Open Scope nat_scope.

(** ** Exceptions as values *)

(** Python exception classes raised (or let through) by the modelled code. *)
Inductive exn : Type :=
| ValueError | IndexError | TypeError | AttributeError | KeyError
| ZeroDivisionError | RuntimeError | OutOfFuel.

Inductive result (A : Type) : Type :=
| Ok : A -> result A
| Err : exn -> result A.
Arguments Ok {A} _.
Arguments Err {A} _.

Definition bind {A B : Type} (x : result A) (f : A -> result B) : result B :=
  match x with Ok a => f a | Err e => Err e end.

Notation "'let*' x ':=' e 'in' f" := (bind e (fun x => f))
  (at level 200, x pattern, e at level 100, f at level 200).

Definition is_ok {A} (r : result A) : Prop := exists a, r = Ok a.

(** ** Exact numbers *)

Definition qltb (x y : Qc) : bool :=
  match (x ?= y)%Qc with Lt => true | _ => false end.
Definition qleb (x y : Qc) : bool := negb (qltb y x).
Definition qeqb (x y : Qc) : bool := Qc_eq_bool x y.
Definition qabs (x : Qc) : Qc := if qltb x 0 then (- x)%Qc else x.

(** Small rational literals. *)
Definition qz (z : Z) : Qc := Q2Qc (inject_Z z).
Definition qf (z : Z) (d : positive) : Qc := Q2Qc (Qmake z d).
Definition qn (n : nat) : Qc := qz (Z.of_nat n).

(** [num]: a float64 value; [None] is NaN.  Rounding and infinities are not
    modelled here (infinities are modelled locally where a branch needs them). *)
Definition num := option Qc.
Definition nadd (x y : num) : num :=
  match x, y with Some a, Some b => Some (a + b)%Qc | _, _ => None end.
Definition nmul (x y : num) : num :=
  match x, y with Some a, Some b => Some (a * b)%Qc | _, _ => None end.
Definition nopp (x : num) : num := option_map Qcopp x.
Definition nsub (x y : num) : num := nadd x (nopp y).
(** Comparisons with NaN are false ([x == y], [x < y], [x > y]). *)
Definition neqb (x y : num) : bool :=
  match x, y with Some a, Some b => qeqb a b | _, _ => false end.
Definition nltb (x y : num) : bool :=
  match x, y with Some a, Some b => qltb a b | _, _ => false end.
(** [np.nan_to_num] on finite-or-NaN values. *)
Definition nan_to_num (x : num) : Qc := match x with Some a => a | None => 0%Qc end.
(** [np.sum] propagates NaN; [np.nansum] skips it. *)
Definition nsum (l : list num) : num := fold_right nadd (Some 0%Qc) l.
Definition nansum (l : list num) : Qc := fold_right (fun x s => nan_to_num x + s)%Qc 0%Qc l.

(** Finite sums. *)
Definition qsum (l : list Qc) : Qc := fold_right Qcplus 0%Qc l.
Definition qprod (l : list Qc) : Qc := fold_right Qcmult 1%Qc l.
Definition sumf {A} (l : list A) (f : A -> Qc) : Qc := qsum (map f l).
(** Sum over indices 0..n-1. *)
Definition sumn (n : nat) (f : nat -> Qc) : Qc := sumf (seq 0 n) f.

(** Matrices are index functions; their shapes are explicit arguments. *)
Definition mat (A : Type) := nat -> nat -> A.
Definition upd2 {A} (m : mat A) (i j : nat) (v : A) : mat A :=
  fun a b => if (a =? i) && (b =? j) then v else m a b.
Definition upd {A} (f : nat -> A) (i : nat) (v : A) : nat -> A :=
  fun a => if a =? i then v else f a.

(** ** numpy.argmax / numpy.argmin: first extremal position, the first NaN wins.
    [None] for an empty sequence, where numpy raises ValueError. *)
Fixpoint argbest (better : Qc -> Qc -> bool) (best : num) (bi i : nat) (l : list num) : nat :=
  match l with
  | [] => bi
  | x :: r =>
      match best with
      | None => bi
      | Some b =>
          match x with
          | None => i
          | Some v => if better v b then argbest better (Some v) i (S i) r
                      else argbest better best bi (S i) r
          end
      end
  end.
Definition np_argmax (l : list num) : option nat :=
  match l with [] => None | x :: r => Some (argbest (fun v b => qltb b v) x 0 1 r) end.
Definition np_argmin (l : list num) : option nat :=
  match l with [] => None | x :: r => Some (argbest qltb x 0 1 r) end.

(** ** List helpers mirroring Python *)
Definition memb (x : nat) (l : list nat) : bool := existsb (Nat.eqb x) l.
(** [U[U != m]] *)
Definition remove_nat (m : nat) (l : list nat) : list nat :=
  filter (fun i => negb (i =? m)) l.
(** [l.index(x)] *)
Fixpoint index_of (x : nat) (l : list nat) : option nat :=
  match l with
  | [] => None
  | y :: r => if y =? x then Some 0 else option_map S (index_of x r)
  end.
