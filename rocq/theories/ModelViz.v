(** * visualize_nonlinear_causal_effect: argument checks, the collected effects and the lines drawn
    (lingam/utils/_visualize_nonlinear_causal_effect.py 58-290)

    The covariates and rows of each regression are in ModelExper.v; here each run (one matrix with its rows) is what its trained
    estimator predicts.  Positions are rational numbers, so equal positions are the same key of a dictionary. *)
From Coq Require Import List Arith Bool ZArith QArith Qcanon.
From Verif Require Import Prelude.
Import ListNotations.
Open Scope nat_scope.

(** The class of a discrete effect; None for a continuous effect. *)
Definition cls := option nat.
Definition cls_eqb (a b : cls) : bool := match a, b with None, None => true | Some i, Some j => i =? j | _, _ => false end.
(** One run (202-231): estimator.classes_ ([None] for a continuous effect) and the mean prediction (or probability of the class) when the
    cause is set to a position. *)
Record run := { r_classes : list cls; r_value : Qc -> cls -> Qc }.
(** The keys of a dictionary made from a list (198-200, 260): first occurrences. *)
Fixpoint firsts (seen l : list Qc) : list Qc :=
  match l with [] => [] | x :: l => if existsb (qeqb x) seen then firsts seen l else x :: firsts (x :: seen) l end.
Definition keys (l : list Qc) : list Qc := firsts [] l.
(** effect_info[c][p]: the values collected *)
Definition info := cls -> Qc -> list Qc.
Definition append (i : info) (c : cls) (p v : Qc) : info := fun c' p' => if cls_eqb c c' && qeqb p p' then i c' p' ++ [v] else i c' p'.

Section Calculate.
  Variable classes : list cls.                            (* 110: [None] or the classes in the data *)
  Variable positions : list Qc.
  (** 223, 229-231: all classes of the estimator at one position; another class raises KeyError *)
  Fixpoint add_classes (r : run) (p : Qc) (cs : list cls) (i : info) : result info :=
    match cs with
    | [] => Ok i
    | c :: cs => if existsb (cls_eqb c) classes then add_classes r p cs (append i c p (r_value r p c)) else Err KeyError
    end.
  (** 215-231: all positions of one run *)
  Fixpoint add_positions (r : run) (ps : list Qc) (i : info) : result info :=
    match ps with [] => Ok i | p :: ps => let* i' := add_classes r p (r_classes r) i in add_positions r ps i' end.
  (** 186-233 [_calculate] *)
  Fixpoint add_runs (rs : list run) (i : info) : result info :=
    match rs with [] => Ok i | r :: rs => let* i' := add_positions r positions i in add_runs rs i' end.
  Definition calculate (rs : list run) : result info := add_runs rs (fun _ _ => []).

  (** np.percentile(values, q) *)
  Variable percentile_of : list Qc -> Qc -> Qc.
  (** 262-276: the points of the line of percentile [per] *)
  Definition line (qs : list Qc) (i : info) (c : cls) (per : Qc) : list Qc :=
    flat_map (fun p => flat_map (fun q => if qeqb q per then [percentile_of (i c p) q] else []) qs) (keys positions).
  (** 286-288: ax.plot raises ValueError unless there are as many points as positions *)
  Fixpoint plot_lines (qs : list Qc) (i : info) (c : cls) (ps : list Qc) : result (list (Qc * list (Qc * Qc))) :=
    match ps with
    | [] => Ok []
    | per :: ps => let l := line qs i c per in
                   if length l =? length positions then let* r := plot_lines qs i c ps in Ok ((per, combine positions l) :: r) else Err ValueError
    end.
  Fixpoint plot_classes (qs : list Qc) (i : info) (cs : list cls) : result (list (cls * list (Qc * list (Qc * Qc)))) :=
    match cs with [] => Ok [] | c :: cs => let* l := plot_lines qs i c (keys qs) in let* r := plot_classes qs i cs in Ok ((c, l) :: r) end.
  (** 236-290 [_draw] after [_calculate]; [qs]: the percentiles, [50] for a single matrix (249-252) *)
  Definition visualize (qs : list Qc) (rs : list run) : result (list (cls * list (Qc * list (Qc * Qc)))) :=
    let* i := calculate rs in plot_classes qs i classes.
End Calculate.

(** 101-102: ten positions from the smallest to the largest value of the cause *)
Definition default_positions (lo hi : Qc) : list Qc := map (fun k => (lo + qn k * ((hi - lo) / qn 9))%Qc) (seq 0 10).

(** ** The checks of cd_result and percentile.  A value given as cd_result: a BootstrapResult, a numpy array or another array-like (nested
    lists) accepted by check_array with its shape, or something check_array rejects. *)
Inductive given := GBoot | GArray (rows cols : nat) | GNested (rows cols : nat) | GInvalid.
(** 62-67, 154-168: the attribute shape of a nested list does not exist *)
Definition check_result (features : nat) (g : given) : result unit :=
  match g with
  | GBoot => Ok tt
  | GArray r c => if (r =? features) && (c =? features) then Ok tt else Err TypeError
  | GNested _ _ => Err AttributeError
  | GInvalid => Err ValueError
  end.
(** 87-93, 112-113 *)
Inductive percentiles := PDefault | PList (l : list Qc) | POther.
Definition check_percentiles (p : percentiles) : result (list Qc) :=
  match p with
  | PDefault => Ok [qz 95; qz 50; qz 5]
  | PList l => if negb (length l =? 3) then Err TypeError else if forallb (fun x => qleb 0 x && qleb x (qz 100)) l then Ok l else Err TypeError
  | POther => Err TypeError
  end.
