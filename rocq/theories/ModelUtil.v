(** * Model of lingam/utils/__init__.py: remove_effect (185-219), predict_adaptive_lasso (750-788) and its
    copy in high_dim_direct_lingam.py (204-243), evaluate_model_fit (936-1012)

    A data set is its columns; [N] is the number of rows.  scikit-learn and semopy are parameters. *)
From Coq Require Import List Arith Bool ZArith QArith Qcanon Ascii String DecimalString.
From Verif Require Import Prelude SpecPop SpecUtil.
Import ListNotations.
Open Scope nat_scope.
Notation length := List.length.

(** ** remove_effect *)
(** X[:, z] for an integer index: negative indices count from the end *)
Definition py_column (p : nat) (z : Z) : result nat :=
  if (0 <=? z)%Z && (z <? Z.of_nat p)%Z then Ok (Z.to_nat z)
  else if (z <? 0)%Z && (0 <=? z + Z.of_nat p)%Z then Ok (Z.to_nat (z + Z.of_nat p))
  else Err IndexError.
Fixpoint py_columns (p : nat) (l : list Z) : result (list nat) :=
  match l with
  | [] => Ok []
  | z :: l => let* i := py_column p z in let* is := py_columns p l in Ok (i :: is)
  end.
(** LinearRegression().fit(cols, y).predict(cols): coefficients and intercept [lr cols y] *)
Definition predicted (m : list Qc * Qc) (cols : list sample) : sample := fun r => (combination (fst m) cols r + snd m)%Qc.
(** 211-216: one pass of the loop; the columns are replaced in place *)
Definition remove_step (lr : list sample -> sample -> list Qc * Qc) (rem : list nat)
    (st : (nat -> sample) * list (nat * list Qc)) (f : nat) : (nat -> sample) * list (nat * list Qc) :=
  let '(X, coefs) := st in
  let cols := map X rem in
  let m := lr cols (X f) in
  let resid : sample := fun r => (X f r - predicted m cols r)%Qc in
  (fun v => if v =? f then resid else X v, coefs ++ [(f, fst m)]).
(** 208-219; both results are returned here *)
Definition remove_effect (lr : list sample -> sample -> list Qc * Qc) (N p : nat) (X : nat -> sample) (rem : list Z)
    : result ((nat -> sample) * list (nat * list Qc)) :=
  if (N =? 0) || (p =? 0) then Err ValueError                                              (* 208 *)
  else
    let features := filter (fun i => negb (existsb (Z.eqb (Z.of_nat i)) rem)) (seq 0 p) in (* 210 *)
    match features with
    | [] => Ok (X, [])
    | _ :: _ =>
        let* cols := py_columns p rem in                                                   (* 213: X[:, remove_features] *)
        match cols with
        | [] => Err ValueError                                                             (* 213: no features to fit *)
        | _ :: _ => Ok (fold_left (remove_step lr cols) features (X, []))
        end
    end.

(** ** predict_adaptive_lasso *)
(** l[mask] *)
Fixpoint select {A} (mask : list bool) (l : list A) : list A :=
  match mask, l with
  | b :: mask, x :: l => if b then x :: select mask l else select mask l
  | _, _ => []
  end.
(** zeros with [vals] written to the places of the mask, in order *)
Fixpoint scatter (mask : list bool) (vals : list Qc) : list Qc :=
  match mask with
  | [] => []
  | false :: mask => 0%Qc :: scatter mask vals
  | true :: mask => match vals with v :: vals => v :: scatter mask vals | [] => 0%Qc :: scatter mask [] end
  end.
(** 768-778 (high_dim: 222-232 with LassoLarsCV): which predictors are kept.  [std]: a standardised column;
    [pow]: a |-> a^gamma; [lars]: the coefficients of LassoLarsIC or its exception.  The indices are valid. *)
Definition lasso_selection (lr : list sample -> sample -> list Qc * Qc) (lars : list sample -> sample -> result (list Qc))
    (std : sample -> sample) (pow : Qc -> Qc) (X : nat -> sample) (predictors : list nat) (target : nat) : result (list bool) :=
  match predictors with
  | [] => Err ValueError                                                                   (* 774: no features to fit *)
  | _ :: _ =>
      let Z := map (fun p => std (X p)) predictors in                                      (* 769-770 *)
      let weight := map (fun c => pow (qabs c)) (fst (lr Z (std (X target)))) in           (* 773-775 *)
      let weighted := map (fun wz => fun r => (snd wz r * fst wz)%Qc) (combine weight Z) in
      let* c := lars weighted (std (X target)) in                                          (* 776-777 *)
      Ok (map (fun cw => qltb 0 (qabs (fst cw * snd cw))) (combine c weight))              (* 778 *)
  end.
(** 780-788 (high_dim: 234-243) *)
Definition predict_adaptive_lasso (lr : list sample -> sample -> list Qc * Qc) (lars : list sample -> sample -> result (list Qc))
    (std : sample -> sample) (pow : Qc -> Qc) (X : nat -> sample) (predictors : list nat) (target : nat) : result (list Qc) :=
  let* mask := lasso_selection lr lars std pow X predictors target in
  if existsb (fun b => b) mask                                                             (* 782 *)
  then Ok (scatter mask (fst (lr (map X (select mask predictors)) (X target))))            (* 783-786 *)
  else Ok (repeat 0%Qc (length mask)).                                                     (* 781 *)

(** ** evaluate_model_fit *)
Section Fit.
  Variable fmt : Qc -> string.                         (* f"{elem:f}" *)
  Local Open Scope string_scope.
  (** f"{i:d}" *)
  Definition decimal (i : nat) : string := NilEmpty.string_of_uint (Nat.to_uint i).
  (** s[:-k] for k > 0 *)
  Definition drop_last (k : nat) (s : string) : string := substring 0 (String.length s - k) s.
  (** np.isclose(q, 0) *)
  Definition close_to_zero (q : Qc) : bool := negb (qltb (qf 1 100000000) (qabs q)).
  Definition str_in (s : string) (l : list string) : bool := existsb (String.eqb s) l.
  (** 985-992: one element of a row *)
  Definition element_step (i : nat) (A : mat num) (st : string * list string) (j : nat) : string * list string :=
    let '(desc, etas) := st in
    match A i j with
    | None => let eta := if (i <? j)%nat then "eta_" ++ decimal i ++ "_" ++ decimal j else "eta_" ++ decimal j ++ "_" ++ decimal i in
              (desc ++ eta ++ " + ", if str_in eta etas then etas else (etas ++ [eta])%list)
    | Some q => if close_to_zero q then st else (desc ++ fmt q ++ " * x" ++ decimal j ++ " + ", etas)
    end.
  (** 978-993: one row *)
  Definition row_step (n : nat) (A : mat num) (st : string * list string) (i : nat) : string * list string :=
    if forallb (fun j => match A i j with Some q => close_to_zero q | None => false end) (seq 0 n) then st  (* 980-981 *)
    else
      let '(desc, etas) := st in
      let '(desc, etas) := fold_left (element_step i A) (seq 0 n) (desc ++ "x" ++ decimal i ++ " ~ ", etas) in
      (drop_last 3 desc ++ newline, etas).                                                 (* 993 *)
  (** 974-1004 *)
  Definition describe (n : nat) (A : mat num) (ordinal : list Qc) : string :=
    let '(desc, etas) := fold_left (row_step n A) (seq 0 n) ("", []) in
    let desc := match etas with [] => desc | _ :: _ => desc ++ "DEFINE(latent) " ++ String.concat " " etas ++ newline end in
    if qltb 0 (qsum ordinal)                                                               (* 998 *)
    then fold_left (fun d i => d ++ " x" ++ decimal i)
           (filter (fun i => negb (qeqb (nth i ordinal 0%Qc) 0)) (seq 0 (length ordinal))) (desc ++ "DEFINE(ordinal)") ++ newline
    else desc.
  Local Open Scope nat_scope.
  (** 956-1012; r x c matrix, data with [xc] columns and [xr] rows; [x_ok]: check_array accepts the values;
      [semopy desc]: Model(desc), fit and calc_stats *)
  Definition evaluate_model_fit {R} (semopy : string -> result R) (r c : nat) (A : mat num) (xr xc : nat) (x_ok : bool)
      (is_ordinal : option (list Qc)) : result R :=
    if (r =? 0) || (c =? 0) || negb (r =? c) then Err ValueError                           (* 957-959 *)
    else if (xr =? 0) || (xc =? 0) || negb x_ok then Err ValueError                        (* 961 *)
    else if negb (xc =? c) then Err ValueError                                             (* 962-963 *)
    else
      let ordinal := match is_ordinal with Some l => l | None => repeat 0%Qc xc end in     (* 965-968 *)
      if negb (length ordinal =? c) then Err ValueError                                    (* 969-970 *)
      else semopy (describe c A ordinal).
End Fit.
