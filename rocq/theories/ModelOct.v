(** * Model of the scores of lingam/experimental/oct.py (OutOfSampleCausalTuning), over the reals.

    Markov blankets are those of ModelExper. *)
From Coq Require Import Reals Arith List Lia Bool QArith Qcanon.
From Verif Require Import Prelude ModelExper.
Import ListNotations.
Open Scope R_scope.

(** A float that may be NaN or +inf. *)
Inductive score := Nan | Inf | Fin (r : R).
Definition lsum (l : list R) : R := fold_right Rplus 0 l.
Definition lmean (l : list R) : R := lsum l / INR (length l).
(** np.cov of two vectors of the same length *)
Definition lcov (x y : list R) : R :=
  lsum (map (fun p => (fst p - lmean x) * (snd p - lmean y)) (combine x y)) / (INR (length x) - 1).
(** np.corrcoef(x, y)[0, 1]; NaN when a variance is 0 *)
Definition corrcoef (x y : list R) : option R :=
  if Req_EM_T (lcov x x) 0 then None else if Req_EM_T (lcov y y) 0 then None
  else Some (lcov x y / sqrt (lcov x x) / sqrt (lcov y y)).
(** oct.py 287-288 [_calc_mutual_info]: log(0) is -inf *)
Definition mutual_info (x x2 : list R) : score :=
  match corrcoef x x2 with
  | None => Nan
  | Some c => if Req_EM_T (1 - c ^ 2) 0 then Inf else Fin (- (1 / 2) * ln (1 - c ^ 2))
  end.
(** np.mean *)
Definition is_nan (s : score) : bool := match s with Nan => true | _ => false end.
Definition is_inf (s : score) : bool := match s with Inf => true | _ => false end.
Definition finite_part (s : score) : R := match s with Fin r => r | _ => 0 end.
Definition score_mean (l : list score) : score :=
  if existsb is_nan l then Nan else if existsb is_inf l then Inf else Fin (lmean (map finite_part l)).
(** np.argmax: the first NaN, otherwise the first maximum; [b] is larger than [a] *)
Definition larger (a b : score) : bool :=
  match a, b with
  | Nan, _ => false
  | _, Nan => true
  | Inf, _ => false
  | _, Inf => true
  | Fin x, Fin y => if Rlt_dec x y then true else false
  end.
Fixpoint argmax_from (best : score) (bi i : nat) (l : list score) : nat :=
  match l with
  | [] => bi
  | x :: r => if larger best x then argmax_from x i (S i) r else argmax_from best bi (S i) r
  end.
Definition score_argmax (l : list score) : result nat :=
  match l with [] => Err ValueError | x :: r => Ok (argmax_from x 0 1 r) end.

(** sklearn KFold(K).split on n rows (check_cv of an integer): contiguous test sets, the first [n mod K] one row longer; the training rows
    are the others, in order. *)
Definition fold_size (n K f : nat) : nat := (n / K + (if f <? n mod K then 1 else 0))%nat.
Definition fold_start (n K f : nat) : nat := (f * (n / K) + Nat.min f (n mod K))%nat.
Definition in_fold (n K f s : nat) : bool := ((fold_start n K f <=? s) && (s <? fold_start n K f + fold_size n K f))%nat.
Definition kfold (n K : nat) : result (list (list nat * list nat)) :=
  if (K <? 2)%nat then Err ValueError else if (n <? K)%nat then Err ValueError
  else Ok (map (fun f => (filter (fun s => negb (in_fold n K f s)) (seq 0 n), seq (fold_start n K f) (fold_size n K f))) (seq 0 K)).

Section Config.
  (** d columns; [X j s] is the value of column j in row s *)
  Variable d : nat.
  Variable X : nat -> nat -> R.
  (** The random forest fitted in fold [f] for variable [j]: its prediction from the values of the explanatory variables (oct.py 261-271). *)
  Variable forest : nat -> nat -> list R -> R.
  (** oct.py 254-285: the forest, or the mean of the training rows when there is nothing to predict from (DummyRegressor). *)
  Definition predict (f : nat) (train : list nat) (graph : option (mat num)) (j s : nat) : R :=
    match oct_explanatory d graph j with
    | [] => lmean (map (X j) train)
    | e => forest f j (map (fun i => X i s) e)
    end.
  (** the folds with their numbers and graphs *)
  Definition numbered (folds : list (list nat * list nat)) (graphs : list (option (mat num))) := combine (seq 0 (length folds)) (combine folds graphs).
  (** oct.py 290-308 [_evaluate_config] *)
  Definition truths (folds : list (list nat * list nat)) (graphs : list (option (mat num))) (j : nat) : list R :=
    flat_map (fun q => map (X j) (snd (fst (snd q)))) (numbered folds graphs).
  Definition preds (folds : list (list nat * list nat)) (graphs : list (option (mat num))) (j : nat) : list R :=
    flat_map (fun q => map (predict (fst q) (fst (fst (snd q))) (snd (snd q)) j) (snd (fst (snd q)))) (numbered folds graphs).
  Definition evaluate_config (folds : list (list nat * list nat)) (graphs : list (option (mat num))) : score :=
    score_mean (map (fun j => mutual_info (truths folds graphs j) (preds folds graphs j)) (seq 0 d)).
End Config.
(** oct.py 65-170 [fit] with sparsity_penalty=False: [graphs c] are the graphs estimated by configuration c in the folds. *)
Definition oct_fit (d n K : nat) (X : nat -> nat -> R) (forest : nat -> nat -> nat -> list R -> R) (configs : list (list (option (mat num)))) : result nat :=
  let* folds := kfold n K in
  score_argmax (map (fun c => evaluate_config d X (forest (fst c)) folds (snd c)) (combine (seq 0 (length configs)) configs)).
