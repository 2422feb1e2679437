(** * Model of lingam/direct_lingam.py on data, over the real numbers

    Unlike in ModelDirect.v the measures are not parameters.  Rounding is not modelled.  [n] is the number of rows; a column
    is a function of the row, or [None] when it has become NaN (a division by zero variance; then all its entries are
    NaN).  The adaptive lasso (utils/__init__.py:750-788) is modelled over scikit-learn's LinearRegression and
    LassoLarsIC, which stay parameters. *)
From Coq Require Import Reals Arith Bool List QArith Qcanon.
From Verif Require Import Prelude LibR.
From Verif Require ModelDirect.
Import ListNotations.
Open Scope R_scope.

Definition col := option (nat -> R).

(** np.mean, np.var, np.std, np.cov(x, y, bias=True)[0, 1] *)
Definition mean (n : nat) (x : nat -> R) : R := rsum n x / INR n.
Definition cov (n : nat) (x y : nat -> R) : R := mean n (fun s => (x s - mean n x) * (y s - mean n y)).
Definition var (n : nat) (x : nat -> R) : R := mean n (fun s => (x s - mean n x) ^ 2).
Definition std (n : nat) (x : nat -> R) : R := sqrt (var n x).

(** 149-151 [_residual] *)
Definition residual (n : nat) (xi xj : col) : col :=
  match xi, xj with
  | Some xi, Some xj => if Req_EM_T (var n xj) 0 then None else Some (fun s => xi s - cov n xi xj / var n xj * xj s)
  | _, _ => None
  end.
(** 223-224 *)
Definition standardize (n : nat) (x : col) : col :=
  match x with
  | Some x => if Req_EM_T (std n x) 0 then None else Some (fun s => (x s - mean n x) / std n x)
  | None => None
  end.
(** 163-164: r / np.std(r) *)
Definition unit_std (n : nat) (r : col) : col :=
  match r with
  | Some r => if Req_EM_T (std n r) 0 then None else Some (fun s => r s / std n r)
  | None => None
  end.
(** 153-159 [_entropy] *)
Definition k1 : R := 79047 / 1000.
Definition k2 : R := 74129 / 10000.
Definition gamma : R := 37457 / 100000.
Definition entropy_of (n : nat) (u : nat -> R) : R :=
  (1 + ln (2 * PI)) / 2 - k1 * (mean n (fun s => ln (cosh (u s))) - gamma) ^ 2
  - k2 * (mean n (fun s => u s * exp (- u s ^ 2 / 2))) ^ 2.
Definition entropy (n : nat) (u : col) : option R := option_map (entropy_of n) u.
Definition oadd (a b : option R) : option R := match a, b with Some a, Some b => Some (a + b) | _, _ => None end.
Definition osub (a b : option R) : option R := match a, b with Some a, Some b => Some (a - b) | _, _ => None end.
(** 161-165 [_diff_mutual_info] *)
Definition diff_mutual_info (n : nat) (xi_std xj_std ri_j rj_i : col) : option R :=
  osub (oadd (entropy n xj_std) (entropy n (unit_std n ri_j))) (oadd (entropy n xi_std) (entropy n (unit_std n rj_i))).

(** 235: np.min([0, d]) ** 2 *)
Definition min0_sq (d : option R) : option R := option_map (fun d => Rmin 0 d ^ 2) d.
(** 219-236: the entry of M_list of candidate [i] *)
Definition pwling_score (n : nat) (X : nat -> col) (U Uc Vj : list nat) (i : nat) : result (option R) :=
  let M := fold_left
    (fun M j =>
       if (i =? j)%nat then M
       else
         let xi := standardize n (X i) in                                              (* 223 *)
         let xj := standardize n (X j) in                                              (* 224 *)
         let ri_j := if memb i Vj && memb j Uc then xi else residual n xi xj in        (* 225-229 *)
         let rj_i := if memb j Vj && memb i Uc then xj else residual n xj xi in        (* 230-234 *)
         oadd M (min0_sq (diff_mutual_info n xi xj ri_j rj_i)))                        (* 235 *)
    U (Some 0) in
  Ok (option_map (fun m => -1 * m) M).                                                 (* 236 *)

(** 264-282 [_mutual_information]; [logsv m A]: the sum of the logarithms of the singular values of an m x m matrix.
    numpy raises LinAlgError, a ValueError, for matrices with NaN. *)
Definition kernel_entry (sigma a b : R) : R := exp (-1 / (2 * sigma ^ 2) * (b ^ 2 + a ^ 2 - 2 * b * a)).
Definition kernel_matrix (sigma : R) (x : nat -> R) : rmat := fun s t => kernel_entry sigma (x s) (x t).
Definition ridge (n : nat) (kappa : R) (K : rmat) : rmat := fun s t => K s t + INR n * kappa * rid s t / 2.
(** np.r_[np.c_[A, B], np.c_[C, D]] *)
Definition blocks (n : nat) (A B C D : rmat) : rmat := fun s t =>
  if (s <? n)%nat then (if (t <? n)%nat then A s t else B s (t - n)%nat)
  else (if (t <? n)%nat then C (s - n)%nat t else D (s - n)%nat (t - n)%nat).
Definition mutual_information (logsv : nat -> rmat -> R) (n : nat) (x1 x2 : col) (kappa sigma : R) : result R :=
  match x1, x2 with
  | Some x1, Some x2 =>
      let K1 := kernel_matrix sigma x1 in                                              (* 268-269 *)
      let K2 := kernel_matrix sigma x2 in                                              (* 270-271 *)
      let tmp1 := ridge n kappa K1 in                                                  (* 273 *)
      let tmp2 := ridge n kappa K2 in                                                  (* 274 *)
      let K_kappa := blocks n (rmul n tmp1 tmp1) (rmul n K1 K2) (rmul n K2 K1) (rmul n tmp2 tmp2) in            (* 275 *)
      let D_kappa := blocks n (rmul n tmp1 tmp1) (fun _ _ => 0) (fun _ _ => 0) (rmul n tmp2 tmp2) in            (* 276-278 *)
      Ok (-1 / 2 * (logsv (n + n)%nat K_kappa - logsv (n + n)%nat D_kappa))            (* 280-283 *)
  | _, _ => Err ValueError
  end.
(** 290-293 *)
Definition kernel_params (n : nat) : R * R := if (1000 <? n)%nat then (2 / 1000, 1 / 2) else (2 / 100, 1).
(** 297-306: the entry of Tkernels of candidate [j] *)
Definition kernel_score (logsv : nat -> rmat -> R) (n : nat) (X : nat -> col) (U Uc Vj : list nat) (j : nat) : result (option R) :=
  let '(kappa, sigma) := kernel_params n in
  let* T := fold_left
    (fun T i =>
       let* T := T in
       if (i =? j)%nat then Ok T
       else
         let ri_j := if memb j Vj && memb i Uc then X i else residual n (X i) (X j) in (* 300-304 *)
         let* mi := mutual_information logsv n (X j) ri_j kappa sigma in
         Ok (T + mi))                                                                  (* 305 *)
    U (Ok 0) in
  Ok (Some T).
(** 96: sklearn's scale; a column without variance is only centred *)
Definition scale (n : nat) (x : nat -> R) : nat -> R :=
  fun s => (x s - mean n x) / (if Req_EM_T (std n x) 0 then 1 else std n x).

(** np.argmax and np.argmin of a list with NaN: the first NaN, else the first best *)
Fixpoint argbest (better : R -> R -> bool) (best : option R) (bi i : nat) (l : list (option R)) : nat :=
  match l with
  | [] => bi
  | x :: r =>
      match best with
      | None => bi
      | Some b =>
          match x with
          | None => i
          | Some v => if better v b then argbest better (Some v) i (S i) r else argbest better best bi (S i) r
          end
      end
  end.
Definition Rltb (a b : R) : bool := if Rlt_dec a b then true else false.
Definition argmax (l : list (option R)) : option nat :=
  match l with [] => None | x :: r => Some (argbest (fun v b => Rltb b v) x 0 1 r) end.
Definition argmin (l : list (option R)) : option nat :=
  match l with [] => None | x :: r => Some (argbest Rltb x 0 1 r) end.

Fixpoint traverse {A B} (f : A -> result B) (l : list A) : result (list B) :=
  match l with [] => Ok [] | x :: l => let* y := f x in let* ys := traverse f l in Ok (y :: ys) end.

Section Loop.
  Context (score : (nat -> col) -> list nat -> list nat -> list nat -> nat -> result (option R)).
  Context (argsel : list (option R) -> option nat).
  (** 212-237, 284-308 *)
  Definition search (mode : ModelDirect.pk_mode) (po : list (nat * nat)) (X : nat -> col) (U : list nat) : result nat :=
    let '(Uc, Vj) := ModelDirect.search_candidate mode po U in
    match Uc with
    | [x] => Ok x                                                                      (* 215-216, 287-288 *)
    | _ =>
        let* scores := traverse (score X U Uc Vj) Uc in
        match argsel scores with
        | None => Err ValueError
        | Some k => match nth_error Uc k with Some x => Ok x | None => Err IndexError end
        end
    end.
  (** 104-106 *)
  Definition regress_out (n : nat) (X : nat -> col) (U : list nat) (m : nat) : nat -> col :=
    fold_left (fun X i => if (i =? m)%nat then X else upd X i (residual n (X i) (X m))) U X.
  (** 97-113 *)
  Fixpoint loop (steps n : nat) (mode : ModelDirect.pk_mode) (po : list (nat * nat)) (X : nat -> col) (U K : list nat) : result (list nat) :=
    match steps with
    | O => Ok K
    | S steps =>
        let* m := search mode po X U in
        let X' := regress_out n X U m in
        let po' := match mode with ModelDirect.Strong _ => filter (fun p => negb (fst p =? m)%nat) po | _ => po end in
        loop steps n mode po' X' (remove_nat m U) (K ++ [m])
    end.
End Loop.

(** 61-115 [fit] up to the causal order, [p] variables; the shape check of the prior knowledge (80-84) is an argument *)
Definition fit_order (logsv : nat -> rmat -> R) (ms : ModelDirect.measure) (n p : nat) (pk_shape_ok : bool)
    (mode : ModelDirect.pk_mode) (X : nat -> nat -> R) : result (list nat) :=
  if (n =? 0)%nat || (p =? 0)%nat then Err ValueError                                  (* 77: check_array *)
  else
    let run po :=
      match ms with
      | ModelDirect.Pwling => loop (pwling_score n) argmax p n mode po (fun j => Some (X j)) (seq 0 p) []
      | ModelDirect.Kernel => loop (kernel_score logsv n) argmin p n mode po (fun j => Some (scale n (X j))) (seq 0 p) []   (* 95-96 *)
      end in
    match mode with
    | ModelDirect.NoPK => run []
    | ModelDirect.Strong pk =>
        if pk_shape_ok then let* po := ModelDirect.extract_partial_orders p pk in run po else Err ValueError
    | ModelDirect.Soft pk => if pk_shape_ok then run [] else Err ValueError
    end.

(** ** The adjacency matrix *)
Section Adjacency.
  (** LinearRegression().fit(cols, y).coef_ and LassoLarsIC(criterion="bic").fit(cols, y).coef_ *)
  Context (lr : list (nat -> R) -> (nat -> R) -> list R) (lars : list (nat -> R) -> (nat -> R) -> result (list R)).
  (** utils/__init__.py:780-785: X[:, pred[pruned_idx]], and the coefficients back in their places *)
  Fixpoint select {A} (mask : list bool) (l : list A) : list A :=
    match mask, l with b :: mask, x :: l => if b then x :: select mask l else select mask l | _, _ => [] end.
  Fixpoint scatter (mask : list bool) (vals : list R) : list R :=
    match mask with
    | [] => []
    | false :: mask => 0 :: scatter mask vals
    | true :: mask => match vals with v :: vals => v :: scatter mask vals | [] => 0 :: scatter mask [] end
    end.
  (** utils/__init__.py:768-778, gamma = 1; StandardScaler treats columns without variance as [scale] does *)
  Definition lasso_mask (n : nat) (X : nat -> nat -> R) (predictors : list nat) (target : nat) : result (list bool) :=
    match predictors with
    | [] => Err ValueError
    | _ :: _ =>
        let Z := map (fun p => scale n (X p)) predictors in
        let weight := map Rabs (lr Z (scale n (X target))) in
        let weighted := map (fun wz => fun s => snd wz s * fst wz) (combine weight Z) in
        let* c := lars weighted (scale n (X target)) in
        Ok (map (fun cw => Rltb 0 (Rabs (fst cw * snd cw))) (combine c weight))
    end.
  (** utils/__init__.py:780-788 *)
  Definition adaptive_lasso (n : nat) (X : nat -> nat -> R) (predictors : list nat) (target : nat) : result (list R) :=
    let* mask := lasso_mask n X predictors target in
    if existsb (fun b => b) mask
    then Ok (scatter mask (lr (map X (select mask predictors)) (X target)))
    else Ok (repeat 0 (length mask)).
  (** base.py:155: B[target, predictors] = coef *)
  Fixpoint write_coefs (target : nat) (preds : list nat) (coef : list R) (B : rmat) : rmat :=
    match preds, coef with
    | p :: preds, c :: coef =>
        write_coefs target preds coef (fun i j => if (i =? target)%nat && (j =? p)%nat then c else B i j)
    | _, _ => B
    end.
  (** base.py:143-155; [before] = order[:i] *)
  Fixpoint adjacency_loop (n : nat) (X : nat -> nat -> R) (pk : option (mat num)) (before rest : list nat) (B : rmat) : result rmat :=
    match rest with
    | [] => Ok B
    | target :: rest' =>
        let preds := ModelDirect.predictors_of pk target before in                     (* 149 *)
        match preds with
        | [] => adjacency_loop n X pk (before ++ [target]) rest' B                     (* 144, 152-153 *)
        | _ :: _ =>
            let* coef := adaptive_lasso n X preds target in
            adjacency_loop n X pk (before ++ [target]) rest' (write_coefs target preds coef B)
        end
    end.
  (** direct_lingam.py:61-116: causal order and adjacency matrix *)
  Definition fit (logsv : nat -> rmat -> R) (ms : ModelDirect.measure) (n p : nat) (pk_shape_ok : bool) (mode : ModelDirect.pk_mode)
      (X : nat -> nat -> R) : result (list nat * rmat) :=
    let* K := fit_order logsv ms n p pk_shape_ok mode X in
    let* B := adjacency_loop n X (ModelDirect.pk_of_mode mode) [] K (fun _ _ => 0) in
    Ok (K, B).
End Adjacency.
