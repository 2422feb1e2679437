(** * Model of lingam/utils/_f_correlation.py over the real numbers

    Rounding is not modelled.  A sample is a function from positions below [n]; a matrix is a function of two positions.
    numpy.argsort, scipy.linalg.eigh and scipy.sparse.linalg.eigsh are parameters (their specifications are in SpecFcorr.v). *)
From Coq Require Import Reals Arith Bool List.
From Verif Require Import Prelude LibR.
Import ListNotations.
Open Scope R_scope.

(** 81-88: [_squared_dist], one entry *)
Definition squared_dist (a b : R) : R := Rabs (a * a + b * b - 2 * (a * b)).
(** numpy.argmax of the first [k] values: the first position of the largest *)
Fixpoint argmax (f : nat -> R) (k : nat) : nat :=
  match k with O => O | S j => let m := argmax f j in if Rlt_dec (f m) (f j) then j else m end.
(** [A[[i, j]] = A[[j, i]]] *)
Definition swap {A : Type} (f : nat -> A) (i j : nat) : nat -> A := fun r => if (r =? i)%nat then f j else if (r =? j)%nat then f i else f r.

Section Fcorr.
Context (argsort : nat -> (nat -> R) -> nat -> nat).
Context (eigh : nat -> rmat -> (nat -> R) * rmat).
Context (eigsh_SM : nat -> rmat -> result R).

(** 91-128: [_incomplete_cholesky]; the variables of the loop *)
Record chol := { ci : nat; cGjj : nat -> R; cG : rmat; cP : nat -> nat }.
Definition chol_init : chol := {| ci := 0; cGjj := fun _ => 1; cG := fun _ _ => 0; cP := fun r => r |}.   (* 94-97 *)
Definition chol_step (n : nat) (x : nat -> R) (sigma : R) (s : chol) : chol :=
  let i := ci s in
  let jast := if (0 <? i)%nat then (argmax (fun k => cGjj s (i + k)%nat) (n - i) + i)%nat else 0%nat in    (* 101-107 *)
  let P := if (0 <? i)%nat then swap (cP s) i jast else cP s in                                             (* 104 *)
  let G0 := if (0 <? i)%nat then (fun r c => swap (fun r => cG s r c) i jast r) else cG s in                (* 105 *)
  let gii := sqrt (cGjj s jast) in                                                                          (* 109-110 *)
  let K := fun r => exp (- (1 / 2) / sigma ^ 2 * squared_dist (x (P r)) (x (P i))) in                       (* 113-114 *)
  let col := fun r => if (0 <? i)%nat then 1 / gii * (K r - rsum i (fun k => G0 r k * G0 i k))              (* 115-117 *)
                      else 1 / gii * K r in                                                                 (* 119 *)
  let G := fun r c => if (c <? i)%nat then G0 r c
                      else if (c =? i)%nat then (if (r =? i)%nat then gii else if (i <? r)%nat then col r else 0)   (* 100: zeros *)
                      else 0 in
  let Gjj := fun r => if (i <? r)%nat then 1 - rsum (i + 1) (fun k => G r k ^ 2) else cGjj s r in            (* 121-124 *)
  {| ci := i + 1; cGjj := Gjj; cG := G; cP := P |}.                                                         (* 126 *)
Fixpoint chol_loop (fuel n : nat) (x : nat -> R) (sigma tol : R) (s : chol) : option chol :=
  match fuel with
  | O => None
  | S f => if Rlt_dec tol (rsum (n - ci s) (fun k => cGjj s (ci s + k)%nat))                                 (* 99 *)
           then chol_loop f n x sigma tol (chol_step n x sigma s) else Some s
  end.
(** The number of columns, G and P; [None] would mean more than n rounds. *)
Definition incomplete_cholesky (n : nat) (x : nat -> R) (sigma tol : R) : option (nat * rmat * (nat -> nat)) :=
  match chol_loop (S n) n x sigma tol chol_init with Some s => Some (ci s, cG s, cP s) | None => None end.

(** 131-145: [_svd]: the number of columns kept, R and U *)
Definition svd (n r : nat) (G : rmat) (kappa : R) : nat * (nat -> R) * rmat :=
  let eta := kappa * (1 / 100) in                                                                           (* 133 *)
  let '(D, A) := eigh r (fun k l => rsum n (fun i => G i k * G i l)) in                                     (* 134 *)
  let indexes := filter (fun j => if Rle_dec (INR n * eta) (D j) then true else false) (seq 0 r) in         (* 135 *)
  let m := length indexes in
  let order := argsort m (fun k => D (nth k indexes 0%nat)) in                                              (* 136 *)
  let kept := fun k => nth (order (m - 1 - k)%nat) indexes 0%nat in                                         (* 137-138 *)
  let U := fun i k => rsum r (fun l => G i l * (A l (kept k) * sqrt (1 / D (kept k)))) in                   (* 139-140 *)
  (m, fun k => D (kept k) / (INR n * kappa / 2 + D (kept k)), U).                                           (* 141-144 *)

(** 38-40: standardisation; the population standard deviation *)
Definition mean (n : nat) (x : nat -> R) : R := rsum n x / INR n.
Definition std (n : nat) (x : nat -> R) : R := sqrt (mean n (fun i => (x i - mean n x) ^ 2)).
Definition standardised (n : nat) (x : nat -> R) : nat -> R := fun i => (x i - mean n x) / std n x.
(** 45-48 *)
Definition kappa_of (n : nat) : R := if (1000 <? n)%nat then 2 / 1000 else 2 / 100.
Definition sigma_of (n : nat) : R := if (1000 <? n)%nat then 1 / 2 else 1.
(** 53-63: one round of the loop over the two samples; G[np.argsort(P), :] undoes the pivoting, then the columns are centred *)
Definition factor (n : nat) (x : nat -> R) : option (nat * (nat -> R) * rmat) :=
  match incomplete_cholesky n x (sigma_of n) (INR n * kappa_of n * (1 / 100)) with
  | Some (r, G, P) =>
      let G1 := fun i k => G (argsort n (fun i => INR (P i)) i) k in
      let G2 := fun i k => G1 i k - mean n (fun i => G1 i k) in
      Some (svd n r G2 (kappa_of n))
  | None => None
  end.
(** 66-73: R_kappa; [s1], [s2] are the sizes, [B] the s2 x s1 block RUUR *)
Definition R_kappa (s1 : nat) (B : rmat) : rmat := fun p q =>
  if (p <? s1)%nat then (if (q <? s1)%nat then rid p q else B (q - s1)%nat p)
  else (if (q <? s1)%nat then B (p - s1)%nat q else rid p q).
(** 12-78: [f_correlation].  A constant sample has standard deviation zero: its standardised values are NaN, and [eigh] rejects
    NaN with ValueError (with one sample nothing is kept and eigsh fails on an empty matrix: also given as ValueError here). *)
Definition f_correlation (nx ny : nat) (x y : nat -> R) : result R :=
  if negb (ny =? nx)%nat then Err ValueError                                                                (* 35-36 *)
  else if Req_EM_T (std nx x) 0 then Err ValueError
  else if Req_EM_T (std nx y) 0 then Err ValueError
  else match factor nx (standardised nx x), factor nx (standardised nx y) with
  | Some (s1, R1, U1), Some (s2, R2, U2) =>
      let B := fun p q => R2 p * rsum nx (fun i => U2 i p * U1 i q) * R1 q in                               (* 71 *)
      match eigsh_SM (s1 + s2) (R_kappa s1 B) with Ok w => Ok (1 - w) | Err e => Err e end                  (* 76-78 *)
  | _, _ => Err OutOfFuel
  end.
End Fcorr.
