(** * Model of lingam/utils/__init__.py: remove_effect (185-219) for a table of whole numbers

    [X = np.copy(check_array(X))] (208) keeps an integer dtype, so the assignment [X[:, feature] = ...] (214) converts the
    residuals to integers: the decimals are cut off. *)
From Coq Require Import List Arith Bool ZArith QArith Qcanon.
From Verif Require Import Prelude SpecPop SpecUtil ModelUtil.
Import ListNotations.
Open Scope nat_scope.

(** numpy's conversion of a float to an integer: towards zero *)
Definition qtrunc (q : Qc) : Qc := qz (Z.quot (Qnum q) (Zpos (Qden q))).
(** 211-216 *)
Definition remove_step_int (lr : list sample -> sample -> list Qc * Qc) (rem : list nat)
    (st : (nat -> sample) * list (nat * list Qc)) (f : nat) : (nat -> sample) * list (nat * list Qc) :=
  let '(X, coefs) := st in
  let cols := map X rem in
  let m := lr cols (X f) in
  let resid : sample := fun r => qtrunc (X f r - predicted m cols r)%Qc in
  (fun v => if v =? f then resid else X v, coefs ++ [(f, fst m)]).
(** 208-219; both results are returned here *)
Definition remove_effect_int (lr : list sample -> sample -> list Qc * Qc) (N p : nat) (X : nat -> sample) (rem : list Z)
    : result ((nat -> sample) * list (nat * list Qc)) :=
  if (N =? 0) || (p =? 0) then Err ValueError                                              (* 208 *)
  else
    let features := filter (fun i => negb (existsb (Z.eqb (Z.of_nat i)) rem)) (seq 0 p) in (* 210 *)
    match features with
    | [] => Ok (X, [])
    | _ :: _ =>
        let* cols := py_columns p rem in                                                   (* 213: X[:, remove_features] *)
        match cols with
        | [] => Err ValueError                                                             (* 213: no features to fit *)
        | _ :: _ => Ok (fold_left (remove_step_int lr cols) features (X, []))
        end
    end.
