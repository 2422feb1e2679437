(** * Model of lingam/hsic.py with the true exponential, over the real numbers *)
From Coq Require Import Reals.
From Verif Require Import LibR.
Open Scope R_scope.

(** 47-51: [_rbf_dot] *)
Definition rbf_dot (m : nat) (X : rmat) (width : R) : rmat :=
  let G := fun i => rsum m (fun k => X i k * X i k) in
  fun i j => exp (- (G j + G i - 2 * rsum m (fun k => X i k * X j k)) / 2 / (width ^ 2)).
(** 54-78: [get_gram_matrix] *)
Definition gram_centre (n : nat) (K : rmat) : rmat :=
  let colsums := fun j => rsum n (fun i => K i j) in
  let rowsums := fun i => rsum n (fun j => K i j) in
  let allsum := rsum n rowsums in
  fun i j => K i j - (colsums j + rowsums i) / INR n + allsum / (INR n ^ 2).
Definition get_gram_matrix (n m : nat) (X : rmat) (width : R) : rmat * rmat :=
  let K := rbf_dot m X width in (K, gram_centre n K).
(** 81-98: [hsic_teststat] *)
Definition hsic_teststat (Kc Lc : rmat) (n : nat) : R :=
  1 / INR n * rsum n (fun i => rsum n (fun j => Kc j i * Lc i j)).
(** 153-158: the mean under the null hypothesis; the diagonals are set to zero *)
Definition off_mean (n : nat) (K : rmat) : R :=
  1 / INR n / (INR n - 1) * rsum n (fun i => rsum n (fun j => if Nat.eqb i j then 0 else K i j)).
Definition null_mean (n : nat) (K L : rmat) : R :=
  1 / INR n * (1 + off_mean n K * off_mean n L - off_mean n K - off_mean n L).
(** 147-151: the variance under the null hypothesis *)
Definition null_var (n : nat) (Kc Lc : rmat) : R :=
  let var := fun i j => (1 / 6 * Kc i j * Lc i j) ^ 2 in
  let v := 1 / INR n / (INR n - 1) * (rsum n (fun i => rsum n (fun j => var i j)) - rsum n (fun i => var i i)) in
  72 * (INR n - 4) * (INR n - 5) / INR n / (INR n - 1) / (INR n - 2) / (INR n - 3) * v.
