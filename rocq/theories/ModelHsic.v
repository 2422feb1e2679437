(** * Model of lingam/hsic.py.  A sample of [n] rows and [m] columns is a function of row and column.
    The exponential, the gamma survival function and the bandwidth rules of statsmodels are
    arbitrary functions; NaN is [None].  Both samples have the same number of rows. *)
From Coq Require Import List Arith Bool ZArith QArith Qcanon.
From Verif Require Import Prelude Spec ModelBootstrap.
Import ListNotations.
Open Scope nat_scope.

(** 41-42 / 51-52: G_i + G_j - 2 x_i . x_j *)
Definition sq_dist (m : nat) (X : mat Qc) (i j : nat) : Qc :=
  (sumn m (fun k => X i k * X i k) + sumn m (fun k => X j k * X j k) - qz 2 * sumn m (fun k => X i k * X j k))%Qc.
(** 43-44, 46: the entries above the diagonal (the others are set to 0), flattened, positive ones. *)
Definition positive_dists (n m : nat) (X : mat Qc) : list Qc :=
  filter (fun q => qltb 0 q)
    (flat_map (fun i => map (fun j => if j <=? i then 0%Qc else sq_dist m X i j) (seq 0 n)) (seq 0 n)).
(** 34-46: the square of the width, as only the square is used (53); at most 100 rows. *)
Definition kernel_width2 (n m : nat) (X : mat Qc) : num :=
  option_map (fun q => qf 1 2 * q)%Qc (np_median (positive_dists (if 100 <? n then 100 else n) m X)).

Section Hsic.
  Variable rexp : Qc -> Qc.
  (** 53; for a zero width the diagonal is 0/0, so that every sum below is NaN: see [gram_width]. *)
  Definition rbf (m : nat) (X : mat Qc) (w2 : Qc) : mat Qc := fun i j => rexp (- sq_dist m X i j / qz 2 / w2)%Qc.
  (** 72-78 *)
  Definition centre (n : nat) (K : mat Qc) : mat Qc :=
    let colsum := fun j => sumn n (fun i => K i j) in
    let rowsum := fun i => sumn n (fun j => K i j) in
    let allsum := sumn n rowsum in
    fun i j => (K i j - (colsum j + rowsum i) / qn n + allsum / (qn n * qn n))%Qc.
  (** 98 *)
  Definition hsic_stat (n : nat) (Kc Lc : mat Qc) : Qc :=
    (1 / qn n * sumn n (fun i => sumn n (fun j => Kc j i * Lc i j)))%Qc.

  (** gamma.sf(x, a, scale); 128-140: bandwidth method ([None] is the median rule). *)
  Variable sf : Qc -> Qc -> Qc -> num.
  Variable bw : option (nat -> nat -> mat Qc -> Qc).
  Definition width2 (n m : nat) (X : mat Qc) : num :=
    match bw with
    | None => kernel_width2 n m X
    | Some f => let w := f n m X in if qeqb w 0 then None else Some (w * w)%Qc
    end.

  (** 150-153: the variance under H0 *)
  Definition h0_var (n : nat) (Kc Lc : mat Qc) : Qc :=
    let var := fun i j => (qf 1 6 * Kc i j * Lc i j * (qf 1 6 * Kc i j * Lc i j))%Qc in
    let v := (1 / qn n / (qn n - 1) * (sumn n (fun i => sumn n (fun j => var i j)) - sumn n (fun i => var i i)))%Qc in
    (qz 72 * (qn n - qz 4) * (qn n - qz 5) / qn n / (qn n - 1) / (qn n - qz 2) / (qn n - qz 3) * v)%Qc.
  (** 155-158: diagonal set to zero, mean of the rest *)
  Definition off_mean (n : nat) (K : mat Qc) : Qc :=
    (1 / qn n / (qn n - 1) * sumn n (fun i => sumn n (fun j => if i =? j then 0 else K i j)))%Qc.
  (** 160 *)
  Definition h0_mean (n : nat) (K L : mat Qc) : Qc :=
    let a := off_mean n K in let b := off_mean n L in (1 / qn n * (1 + a * b - a - b))%Qc.

  (** 101-165.  For n <= 3 one of the scalar divisions 98, 151, 153 raises ZeroDivisionError.
      A NaN width makes the statistic and the p-value NaN; so does, for the p-value, a zero variance
      (scale 0) or a zero mean (shape 0) in [gamma.sf]. *)
  Definition hsic_gamma (n m1 m2 : nat) (X Y : mat Qc) : result (num * num) :=
    if n <=? 3 then Err ZeroDivisionError
    else match width2 n m1 X, width2 n m2 Y with
         | Some wx, Some wy =>
             let K := rbf m1 X wx in
             let L := rbf m2 Y wy in
             let Kc := centre n K in
             let Lc := centre n L in
             let stat := hsic_stat n Kc Lc in
             let var := h0_var n Kc Lc in
             let mean := h0_mean n K L in
             Ok (Some stat, if qeqb var 0 || qeqb mean 0 then None
                            else sf stat (mean * mean / var)%Qc (var * qn n / mean)%Qc)
         | _, _ => Ok (None, None)
         end.
End Hsic.
