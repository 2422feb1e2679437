(** * Model of the score of LiM's local search over the real numbers

    lingam/lim.py 147-242 ([_bic_scoring]) with lingam/utils/__init__.py 860-933 ([likelihood_i], [log_p_super_gaussian],
    [variance_i]).  Rounding is not modelled; [None] stands for a score that is not a finite number (variance zero: 1/0 and
    log 0).  Data X s i: sample s below n, variable i below d.  The regressions of scikit-learn are parameters. *)
From Coq Require Import Reals ZArith Arith Bool List.
From Verif Require Import Prelude LibR.
Import ListNotations.
Open Scope R_scope.

(** nx.DiGraph(W): an edge j -> i for every non-zero W j i, entered row by row, so predecessors are listed in increasing order. *)
Definition nonzero (v : R) : bool := if Req_EM_T v 0 then false else true.
Definition parents (d : nat) (W : rmat) (i : nat) : list nat := filter (fun j => nonzero (W j i)) (seq 0 d).         (* 157 *)
Definition number_of_edges (d : nat) (W : rmat) : nat := length (filter (fun p => nonzero (W (fst p) (snd p))) (list_prod (seq 0 d) (seq 0 d))).

(** utils 923-933: [variance_i]; the disturbance of variable i under the coefficients b *)
Definition disturbance (d : nat) (X : rmat) (i : nat) (b : nat -> R) (s : nat) : R := X s i - rsum d (fun j => b j * X s j).
Definition variance_i (n d : nat) (X : rmat) (i : nat) (b : nat -> R) : R :=
  let e := disturbance d X i b in let m := rsum n e / INR n in rsum n (fun s => (e s - m) ^ 2) / INR n.
(** utils 890-905: [log_p_super_gaussian] *)
Definition log_p_super_gaussian (s : R) : R := - sqrt 2 * Rabs s + - (35 / 100).
(** utils 860-887: [likelihood_i] *)
Definition likelihood_i (n d : nat) (X : rmat) (i : nat) (b : nat -> R) (b0 : R) : option R :=
  let var := variance_i n d X i b in
  if Req_EM_T var 0 then None else
  Some (rsum n (fun s => log_p_super_gaussian ((disturbance d X i b s - b0) / sqrt var)) - INR n * ln (sqrt var)).

(** lim.py 271-278: [_factorial]; Python's round to the nearest integer, halves to the even one *)
Definition round_half_even (y : R) : Z :=
  let f := Int_part y in
  if Rlt_dec (frac_part y) (1 / 2) then f else if Rlt_dec (1 / 2) (frac_part y) then (f + 1)%Z else if Z.even f then f else (f + 1)%Z.
Fixpoint factorial_loop (fuel : nat) (y : Z) : Z :=
  match fuel with O => 1%Z | S f => if ((y =? 0) || (y =? 1) || (y <? 0))%Z then 1%Z else (y * factorial_loop f (y - 1))%Z end.
Definition factorial (y : R) : Z := let z := round_half_even y in factorial_loop (Z.to_nat z) z.

Section Bic.
(** LogisticRegression on the parents: for every sample the probability given to the class observed there *)
Context (logistic : list nat -> nat -> nat -> R).
(** PoissonRegressor on one parent: its coefficient *)
Context (poisson_coef : nat -> nat -> R).
(** LinearRegression on the parents: coefficients and intercept *)
Context (linear : list nat -> nat -> (nat -> R) * R).
Context (n d : nat) (X : rmat).

(** 163-170, 191-198: value_counts gives one count per value that occurs *)
Definition occurring (i : nat) : list R := nodup Req_EM_T (map (fun s => X s i) (seq 0 n)).
Definition count (i : nat) (v : R) : nat := length (filter (fun s => if Req_EM_T (X s i) v then true else false) (seq 0 n)).
Definition bernoulli (i : nat) : R :=
  fold_left (fun acc v => acc + INR (count i v) * (ln (INR (count i v)) - ln (INR (fold_right plus 0%nat (map (count i) (occurring i)))))) (occurring i) 0.
(** 172-186 *)
Definition logistic_term (ps : list nat) (i : nat) : R := - - rsum n (fun s => ln (logistic ps i s)).
(** 200-214: one round of the loop over the parents; every round overwrites the variable *)
Definition poisson_round (i j : nat) : R :=
  let beta := poisson_coef j i in
  - rsum n (fun s => X s i * X s j * beta) + rsum n (fun s => exp (X s j * beta)) + rsum n (fun s => ln (IZR (factorial (X s i)))).
Definition poisson_term (ps : list nat) (i : nat) : R := fold_left (fun _ j => poisson_round i j) ps 0.
(** 224-240 *)
Definition continuous_term (ps : list nat) (i : nat) : option R :=
  match ps with
  | [] => likelihood_i n d X i (fun _ => 0) (rsum n (fun s => X s i) / INR n)
  | _ :: _ => let '(coef, b0) := linear ps i in
      likelihood_i n d X i (fun j => match find (fun p => (snd p =? j)%nat) (combine (seq 0 (length ps)) ps) with Some (k, _) => coef k | None => 0 end) b0
  end.
(** 156-240: what one node adds *)
Definition node_term (is_discrete : nat -> bool) (is_poisson : bool) (W : rmat) (i : nat) : option R :=
  let ps := parents d W i in
  if is_discrete i && negb is_poisson then (match ps with [] => Some (bernoulli i) | _ => Some (logistic_term ps i) end)
  else if is_discrete i && is_poisson then (match ps with [] => Some (bernoulli i) | _ => Some (poisson_term ps i) end)
  else continuous_term ps i.
Definition add_opt (a b : option R) : option R := match a, b with Some a, Some b => Some (a + b) | _, _ => None end.
(** 147-242: [_bic_scoring] *)
Definition bic_scoring (is_discrete : nat -> bool) (is_poisson : bool) (W : rmat) : option R :=
  let K := (number_of_edges d W + d)%nat in                                                                (* 150 *)
  fold_left (fun acc i => add_opt acc (node_term is_discrete is_poisson W i)) (seq 0 d) (Some (0 - ln (INR n) / 2 * INR K)).
End Bic.
