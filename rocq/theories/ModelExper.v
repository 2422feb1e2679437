(** * Models of lingam/utils/_visualize_nonlinear_causal_effect.py (115-125, _calculate 202-217),
    lingam/experimental/cdg.py (fit 40-131, generate 133-275) and lingam/experimental/oct.py
    (choice of the configuration 152-160, 172-252, 310-317, 367-376) *)
From Coq Require Import List Arith Bool ZArith QArith Qcanon.
From Verif Require Import Prelude Spec ModelRoot.
Import ListNotations.
Open Scope nat_scope.

(** np.sort of a list of indices: some sorted arrangement; insertion sort here. *)
Fixpoint insert_nat (x : nat) (l : list nat) : list nat :=
  match l with [] => [x] | y :: r => if x <=? y then x :: l else y :: insert_nat x r end.
Definition sort_nat (l : list nat) : list nat := fold_right insert_nat [] l.

(** ** visualize_nonlinear_causal_effect *)
(** _visualize_nonlinear_causal_effect.py 204: where(m[cause, :] == 1); 205 compares a list with a
    number and deletes nothing. *)
Definition viz_covariates (n : nat) (m : mat Qc) (cause : nat) : list nat := filter (fun j => qeqb (m cause j) 1) (seq 0 n).
(** _visualize_nonlinear_causal_effect.py 208-209 *)
Definition viz_explanatory (n : nat) (m : mat Qc) (cause effect : nat) : list nat :=
  filter (fun j => negb (j =? effect)) (sort_nat (cause :: viz_covariates n m cause)).
(** _visualize_nonlinear_causal_effect.py 116-125: the pairs of matrix and row positions the loop 202
    runs over; [labels] is X.index, used as positions in X.iloc (210-211, 217). *)
Inductive cd_result := Matrix (m : mat Qc) | Boot (ms : list (mat Qc)) (idx : option (list (list nat))).
Definition viz_runs (labels : list nat) (r : cd_result) : list (mat Qc * list nat) :=
  match r with
  | Matrix m => [(m, labels)]
  | Boot ms (Some idx) => combine ms idx
  | Boot ms None => combine ms [labels]
  end.
(** X.iloc[positions] (210) on a frame with [n] rows; labels are natural numbers here *)
Definition iloc (n : nat) (positions : list nat) : result (list nat) :=
  if forallb (fun i => i <? n) positions then Ok positions else Err IndexError.

(** _visualize_nonlinear_causal_effect.py 202-212: the rows and columns of every regression, in order; [rows] is the
    number of rows of X *)
Definition viz_regressions (n rows : nat) (labels : list nat) (r : cd_result) (cause effect : nat)
  : result (list (list nat * list nat)) :=
  fold_right (fun e acc => let* is := iloc rows (snd e) in let* l := acc in
                           Ok ((is, viz_explanatory n (fst e) cause effect) :: l))
             (Ok []) (viz_runs labels r).

(** ** CausalDataGenerator.  Columns are named by numbers; a column is the list of its values; all
    variables are continuous; the two models are arbitrary functions of the explanatory columns. *)
Record frame := { fr_index : list nat; fr_cols : list nat; fr_val : nat -> list Qc }.
(** elementwise - and + of columns (326, 219, 257) *)
Fixpoint qsub (a b : list Qc) : list Qc := match a, b with x :: a, y :: b => (x - y)%Qc :: qsub a b | _, _ => [] end.
Fixpoint qadd (a b : list Qc) : list Qc := match a, b with x :: a, y :: b => (x + y)%Qc :: qadd a b | _, _ => [] end.
Record fitted := { ft_X : frame; ft_cause : nat; ft_effect : nat; ft_adj : list nat;
                   ft_model_cause : option (list (list Qc) -> list Qc); ft_model_effect : list (list Qc) -> list Qc;
                   ft_err_cause : list Qc; ft_err_effect : list Qc }.
(** cdg.py 76-131; [mc], [me]: predictions of the fitted models (300, 321, 326).  The membership of the
    adjustments is checked by X[...] (108, 113). *)
Definition cdg_fit (mc me : list (list Qc) -> list Qc) (X : frame) (cause effect : nat) (adj : list nat) : result fitted :=
  if negb (memb cause (fr_cols X)) then Err ValueError                                       (* 82-83 *)
  else if negb (memb effect (fr_cols X)) then Err ValueError                                 (* 85-86 *)
  else if negb (forallb (fun a => memb a (fr_cols X)) adj) then Err KeyError
  else Ok {| ft_X := X; ft_cause := cause; ft_effect := effect; ft_adj := adj;
             ft_model_cause := match adj with [] => None | _ => Some mc end;                  (* 104-109 *)
             ft_model_effect := me;
             ft_err_cause := match adj with [] => fr_val X cause | _ => qsub (fr_val X cause) (mc (map (fr_val X) adj)) end;
             ft_err_effect := qsub (fr_val X effect) (me (map (fr_val X) (cause :: adj))) |}.  (* 112-117 *)
(** membership in and value of a dictionary (200-201) *)
Definition lookup (k : nat) (d : list (nat * list Qc)) : option (list Qc) := option_map snd (find (fun e => fst e =? k) d).
(** the rows a label selects in .loc (273) *)
Definition positions_of (l : nat) (index : list nat) : list nat := filter (fun r => nth r index 0 =? l) (seq 0 (length index)).
(** cdg.py 331-351: the checks of the dictionaries *)
Definition check_dict (f : fitted) (d : list (nat * list Qc)) : bool :=
  forallb (fun e => memb (fst e) (ft_cause f :: ft_effect f :: ft_adj f) && (length (snd e) =? length (fr_index (ft_X f)))) d.
(** cdg.py 177-275, without user-supplied models: the columns of the result with their values. *)
Definition cdg_generate (f : fitted) (endog exog : list (nat * list Qc)) : result (list (nat * list Qc)) :=
  if negb (check_dict f endog && check_dict f exog) then Err ValueError
  else
    let g0 := upd (upd (fr_val (ft_X f)) (ft_cause f) (ft_err_cause f)) (ft_effect f) (ft_err_effect f) in  (* 189-193 *)
    let g1 := fold_left (fun g e => upd g (fst e) (snd e)) exog g0 in                         (* 196-197 *)
    let* g2 := match lookup (ft_cause f) endog with
               | Some v => Ok (upd g1 (ft_cause f) v)                                         (* 200-201 *)
               | None => match ft_model_cause f with
                         | None => Err AttributeError                                         (* 218 *)
                         | Some mc => Ok (upd g1 (ft_cause f) (qadd (g1 (ft_cause f)) (mc (map g1 (ft_adj f)))))  (* 218-219 *)
                         end
               end in
    let g3 := match lookup (ft_effect f) endog with
              | Some v => upd g2 (ft_effect f) v                                              (* 236-237 *)
              | None => upd g2 (ft_effect f) (qadd (g2 (ft_effect f)) (ft_model_effect f (map g2 (ft_cause f :: ft_adj f))))  (* 254-257 *)
              end in
    if negb (forallb (fun c => memb c (ft_cause f :: ft_effect f :: ft_adj f)) (fr_cols (ft_X f))) then Err KeyError  (* 273 *)
    else let rows := flat_map (fun l => positions_of l (fr_index (ft_X f))) (fr_index (ft_X f)) in
         Ok (map (fun c => (c, map (fun r => nth r (g3 c) 0%Qc) rows)) (fr_cols (ft_X f))).

(** ** OutOfSampleCausalTuning *)
(** oct.py 229: ~np.isclose(x, 0); NaN is not close to 0 *)
Definition oct_edge (x : num) : bool := match x with None => true | Some q => qltb (qf 1 100000000) (qabs q) end.
(** oct.py 228-240 *)
Definition oct_mb (n : nat) (g : mat num) (i : nat) : list nat :=
  let pa := filter (fun j => oct_edge (g i j)) (seq 0 n) in
  let ch := filter (fun j => oct_edge (g j i)) (seq 0 n) in
  let co_pa := filter (fun j => negb (j =? i)) (flat_map (fun c => filter (fun j => oct_edge (g c j)) (seq 0 n)) ch) in
  uniq (sort_nat (pa ++ ch ++ co_pa)).
(** oct.py 242-252; [None] for the configuration "all_others" *)
Definition oct_explanatory (n : nat) (g : option (mat num)) (i : nat) : list nat :=
  match g with
  | Some g => oct_mb n g i
  | None => filter (fun j => negb (j =? i)) (seq 0 n)
  end.
(** oct.py 310-317: the mean number of explanatory variables over the folds *)
Definition oct_mb_size (n : nat) (gs : list (option (mat num))) : Qc :=
  (qsum (flat_map (fun g => map (fun i => qn (length (oct_explanatory n g i))) (seq 0 n)) gs) / qn (length gs * n))%Qc.

(** oct.py 153: the temporary best; 367-376: the choice given the p-values of the permutation tests *)
Definition oct_best (scores : list num) : option nat := np_argmax scores.
Definition oct_select (thr : Qc) (pv : nat -> Qc) (mb : nat -> Qc) (K best : nat) : nat :=
  let matches := filter (fun k => negb (k =? best) && qltb thr (pv k)) (seq 0 K) in
  match matches with
  | [] => best
  | _ => let matches := best :: matches in
         match np_argmin (map (fun k => Some (mb k)) matches) with
         | Some i => nth i matches best
         | None => best
         end
  end.

(** oct.py 172-220: one configuration; the keys present in it *)
Record config := { cf_all_others : option bool; cf_model : option nat }.
Record config_ := { cg_all_others : bool; cg_model : option nat }.
(** The default entry "model": None is always present (186-191), so that 211 never holds. *)
Definition check_config (c : config) : result config_ :=
  let all := match cf_all_others c with Some b => b | None => false end in
  Ok {| cg_all_others := all; cg_model := if all then None else cf_model c |}.
(** oct.py 120-123, 222-226: calling None is a TypeError *)
Definition config_graph (fit : nat -> mat num) (c : config_) : result (option (mat num)) :=
  if cg_all_others c then Ok None
  else match cg_model c with Some m => Ok (Some (fit m)) | None => Err TypeError end.
