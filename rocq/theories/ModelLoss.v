(** * Model of the objective functions of lingam/lim.py and lingam/lina.py over the real numbers

    Values are real numbers (rounding, overflow and NaN are not modelled); a data matrix has [n] rows and [d] columns.
    Without samples Python divides by zero and raises; the theorems hold whatever the quotient is taken to be. *)
From Coq Require Import Reals Arith Bool.
From Verif Require Import Prelude LibR.
Open Scope R_scope.

(** np.logaddexp(0, x) and scipy.special.expit (imported as [sigmoid]; lim.py 10, lina.py 8). *)
Definition logaddexp0 (x : R) : R := ln (exp 0 + exp x).
Definition sigmoid (x : R) : R := / (1 + exp (- x)).
(** [X @ W], [X.T @ A], and the sum of all entries of an n x d matrix. *)
Definition predict (d : nat) (X W : rmat) : rmat := fun s j => rsum d (fun k => X s k * W k j).
Definition tmul (n : nat) (X A : rmat) : rmat := fun k j => rsum n (fun s => X s k * A s j).
Definition total (n d : nat) (A : rmat) : R := rsum n (fun s => rsum d (fun j => A s j)).

(** ** lina.py 109-129, and the same lines at 504-524: [_loss] *)
Inductive lina_loss := L2 | Logistic | PoissonL | Laplace | Other.
Definition lina_value_grad (lt : lina_loss) (n d : nat) (f W : rmat) : result (R * rmat) :=
  let N := INR n in
  let M := predict d f W in                                                                    (* 111 *)
  match lt with
  | L2 => Ok (0.5 / N * total n d (fun s j => (f s j - M s j) ^ 2),                            (* 113-114 *)
              fun k j => - 1 / N * tmul n f (fun s j => f s j - M s j) k j)                    (* 115 *)
  | Logistic => Ok (1 / N * total n d (fun s j => logaddexp0 (M s j) - f s j * M s j),         (* 117 *)
              fun k j => 1 / N * tmul n f (fun s j => sigmoid (M s j) - f s j) k j)            (* 118 *)
  | PoissonL => Ok (1 / N * total n d (fun s j => exp (M s j) - f s j * M s j),                (* 120-121 *)
              fun k j => 1 / N * tmul n f (fun s j => exp (M s j) - f s j) k j)                (* 122 *)
  | Laplace => Ok (- total n d (fun s j => - ln (cosh (f s j - M s j))),                       (* 124-125 *)
              fun k j => - tmul n f (fun s j => tanh (f s j - M s j)) k j)                     (* 126 *)
  | Other => Err ValueError                                                                    (* 128 *)
  end.

(** ** lim.py 96-145: [_loss] *)
Inductive lim_loss := LogisticM | PoissonM | LaplaceM | MixedM | MixedDag | OtherM.
Definition is_zero (x : R) : bool := if Req_EM_T x 0 then true else false.
Definition is_one (x : R) : bool := if Req_EM_T x 1 then true else false.
(** [fac]: the factorial of the rounded entry (275-281); [dc j] is [dis_con[0, j]]; [bic W]: [_bic_scoring] of the graph
    of [W] (135-142). *)
Definition lim_value_grad (fac : R -> R) (bic : rmat -> R) (dc : nat -> R) (lt : lim_loss) (n d : nat) (X W : rmat)
  : result (R * rmat) :=
  let N := INR n in
  let M := predict d X W in                                                                    (* 98 *)
  match lt with
  | LogisticM => Ok (1 / N * total n d (fun s j => logaddexp0 (M s j) - X s j * M s j),        (* 100 *)
              fun k j => 1 / N * tmul n X (fun s j => sigmoid (M s j) - X s j) k j)            (* 101 *)
  | PoissonM => Ok (1 / N * (- total d d (tmul n X M) + total n d (fun s j => exp (M s j))     (* 103 *)
                             + total n d (fun s j => ln (fac (X s j)))),                       (* 104-107 *)
              fun k j => 1 / N * (- tmul n X X k j + tmul n X (fun s j => exp (M s j)) k j))   (* 108 *)
  | LaplaceM => Ok (- 1 / N * total n d (fun s j => - ln (cosh (X s j - M s j))),              (* 110-111 *)
              fun k j => 1 / N * tmul n X (fun s j => tanh (X s j - M s j)) k j)               (* 112 *)
  | MixedM =>
      let loss_dis := total n d (fun s j => (logaddexp0 (M s j) - X s j * M s j) * Rabs (dc j - 1)) in   (* 116-118 *)
      let loss_con := total n d (fun s j => - ln (cosh (X s j - M s j)) * dc j) in             (* 119 *)
      let W_dis := fun k j => if is_zero (dc k) || is_zero (dc j) then 1 else 0 in             (* 121, 123-125 *)
      let W_con := fun k j => if is_one (dc k) || is_one (dc j) then 1 else 0 in               (* 122, 126-128 *)
      Ok (- 1 / N * (1 * loss_dis + 1 * loss_con),                                             (* 120 *)
          fun k j => 1 / N * (tmul n X (fun s j => sigmoid (M s j) - X s j) k j * W_dis k j    (* 129 *)
                              + - tmul n X (fun s j => tanh (X s j - M s j)) k j * W_con k j)) (* 130-131 *)
  | MixedDag => Ok (- bic W,                                                                   (* 138-140 *)
          fun k j => 1 / N * (tmul n X (fun s j => sigmoid (M s j) - X s j) k j
                              - tmul n X (fun s j => tanh (X s j - M s j)) k j))               (* 141-142 *)
  | OtherM => Err ValueError                                                                   (* 144 *)
  end.

(** ** lim.py 244-252, lina.py 131-138, 526-531: [_h], the value and the power it returns with it *)
Definition h_base (d : nat) (W : rmat) : rmat := fun i j => rid i j + W i j * W i j / INR d.
Definition h_power (d : nat) (W : rmat) : rmat := rpow d (h_base d W) (d - 1).
Definition h_value (d : nat) (W : rmat) : R := total d d (fun i j => h_power d W j i * h_base d W i j) - INR d.

(** ** lim.py 254-256, lina.py 140-142, 533-535: [_adj] *)
Definition adj_of (d : nat) (w : nat -> R) : rmat := fun i j => w (i * d + j)%nat - w (d * d + (i * d + j))%nat.

(** ** lim.py 258-269, lina.py 144-156, 537-545: [_func]; [loss] is the [_loss] in use *)
Definition concat2 (d : nat) (A B : rmat) : nat -> R := fun k =>
  if (k <? d * d)%nat then A (k / d)%nat (k mod d)%nat else B ((k - d * d) / d)%nat ((k - d * d) mod d)%nat.
Definition func (loss : rmat -> result (R * rmat)) (rho alpha lambda1 : R) (d : nat) (w : nat -> R)
  : result (R * (nat -> R)) :=
  let W := adj_of d w in
  let* (l, D) := loss W in
  let h := h_value d W in
  let E := h_power d W in
  let obj := l + 0.5 * rho * h * h + alpha * h + lambda1 * rsum (2 * (d * d)) w in
  let G := fun i j => D i j + (rho * h + alpha) * E j i * W i j * 2 in
  Ok (obj, concat2 d (fun i j => G i j + lambda1) (fun i j => - G i j + lambda1)).

(** ** lina.py 417-450: [_loss] of [_estimate_MDLiNA_H]
    [f] is n x q, [H] is q x hq, [W] is hq x hq; [inv] is np.linalg.inv, None where it raises LinAlgError (a RuntimeError
    here).  Division by a zero standard deviation (NaN in numpy) is not modelled: the theorems assume it away. *)
Definition mm (k : nat) (A B : rmat) : rmat := fun i j => rsum k (fun l => A i l * B l j).
Definition tr (A : rmat) : rmat := fun i j => A j i.
Definition rmean (n : nat) (v : nat -> R) : R := rsum n v / INR n.
Definition rstd (n : nat) (v : nat -> R) : R := sqrt (rmean n (fun s => (v s - rmean n v) ^ 2)).
Definition standardise (n : nat) (A : rmat) : rmat :=                                          (* 429-431 *)
  fun s j => (A s j - rmean n (fun s => A s j)) / rstd n (fun s => A s j).
Definition residual_H (n q hq : nat) (f W H K : rmat) : rmat :=
  let fHK := mm hq (mm q f H) K in fun s j => fHK s j - mm hq fHK W s j.                       (* 420-421, 427 *)
Definition mdh_value_grad (inv : rmat -> option rmat) (lt : lina_loss) (n q hq : nat) (f W H : rmat)
  : result (R * rmat) :=
  match inv (mm q (tr H) H) with                                                               (* 419 *)
  | None => Err RuntimeError
  | Some K =>
    let fH := mm q f H in                                                                      (* 420 *)
    let M := mm hq (mm hq fH K) W in                                                           (* 421 *)
    match lt with
    | L2 =>                                                                                    (* 422-425 *)
      (* the shapes (n, q) and (n, hq) agree only if q = hq; if one of them is 1 the difference is broadcast, the
         gradient has the wrong length and the optimiser raises ValueError *)
      if (q =? hq)%nat
      then Ok (0.5 / INR n * total n q (fun s j => (f s j - M s j) ^ 2),
               fun k j => - 1 / INR n * tmul n f (fun s j => f s j - M s j) k j)
      else Err ValueError
    | Laplace =>
      let R := standardise n (residual_H n q hq f W H K) in                                    (* 427-431 *)
      let T := fun s j => tanh (R s j) in
      let Q := fun i j => rid i j - W i j in
      let t := rtrace hq (mm q (tr H) H) in
      let small := if Rlt_dec t 10000 then true else false in                                  (* 432 *)
      let aa := if small then t else 0 in                                                      (* 433, 439 *)
      let D := fun i j =>                                                                      (* 434-437, 440-443 *)
        - mm hq (mm hq (mm n (tr f) T) Q) K i j
        + mm hq (mm n (mm hq (mm hq (mm hq H K) K) (tr fH)) T) Q i j
        + mm n (mm hq (mm hq (mm hq (mm hq H K) K) (tr Q)) (tr T)) fH i j
        - 2 * mm hq (mm n (tr f) fH) K i j
        + 2 * mm hq (mm n (mm hq (mm hq H K) (tr fH)) fH) K i j
        + (if small then 0 else 2 * H i j) in
      let E := fun s j => f s j - mm hq (mm hq fH K) (tr H) s j in
      Ok (total n hq (fun s j => ln (cosh (R s j))) + rtrace q (mm n (tr E) E) + (t - aa), D)  (* 444-446 *)
    | _ => Err ValueError                                                                      (* 448 *)
    end
  end.
