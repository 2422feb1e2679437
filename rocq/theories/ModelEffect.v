(** * Model of lingam/causal_effect.py (intervention effects).  The order check
    [_check_init_params] is modelled by [ce_order] in ModelOrder.v.  Coefficients are finite. *)
From Coq Require Import List Arith Lia Bool ZArith QArith Qcanon.
From Verif Require Import Prelude.
Import ListNotations.
Open Scope nat_scope.

Definition dot (n : nat) (a b : nat -> Qc) : Qc := sumn n (fun k => a k * b k)%Qc.

(** _get_propagated_effects (81-105) *)
Definition prop_step (n : nat) (B : mat Qc) (En : nat -> Qc) (iv : nat) (v : Qc)
    (effects : nat -> Qc) (i : nat) : nat -> Qc :=
  upd effects i (if i =? iv then v else (dot n (B i) effects + En i)%Qc).
Definition propagated (n : nat) (B : mat Qc) (order : list nat) (En : nat -> Qc) (iv : nat) (v : Qc)
  : nat -> Qc :=
  fold_left (prop_step n B En iv v) order (fun _ => 0%Qc).

(** 162, 223: En = Ex - B Ex *)
Definition noise_means (n : nat) (B : mat Qc) (Ex : nat -> Qc) : nat -> Qc :=
  fun i => (Ex i - dot n (B i) Ex)%Qc.

(** estimate_effects_on_prediction (133-181).  [Ex] column means, [sd] column standard
    deviations, [pred] the predictor applied to the list of the remaining variables. *)
Definition others (n target : nat) (x : nat -> Qc) : list Qc :=
  map x (filter (fun i => negb (i =? target)) (seq 0 n)).
Definition effects_on_prediction (n : nat) (B : mat Qc) (order : list nat) (Ex sd : nat -> Qc)
    (target : nat) (pred : list Qc -> Qc) : list (Qc * Qc) :=
  let En := noise_means n B Ex in
  let ey i v := pred (others n target (propagated n B order En i v)) in
  map (fun i => (qabs (ey i (Ex i) - ey i (Ex i + sd i))%Qc,
                 qabs (ey i (Ex i) - ey i (Ex i - sd i))%Qc)) (seq 0 n).

(** estimate_optimal_intervention (183-252) *)
Definition parents_of (n : nat) (B : mat Qc) (k : nat) : list nat :=
  filter (fun q => qltb 0%Qc (qabs (B k q))) (seq 0 n).                        (* 236 *)
(** 226: [np.sum(B, axis=1) == 0], without absolute values *)
Definition root_vars (n : nat) (B : mat Qc) : list nat :=
  filter (fun i => qeqb (sumn n (B i)) 0%Qc) (seq 0 n).
Definition oi_state := (list nat * (nat -> Qc) * (nat -> Qc))%type.             (* s, Ex, alpha *)
Definition oi_step (n : nat) (B : mat Qc) (En : nat -> Qc) (iv : nat) (k : nat) (st : oi_state)
  : oi_state :=
  let '(s, Ex, alpha) := st in
  let ps := parents_of n B k in
  if existsb (fun q => memb q s) ps then st                                     (* 237 *)
  else
    let a := fold_left (fun a q => a + B k q * alpha q)%Qc ps 0%Qc in
    let u := fold_left (fun u q => if q =? iv then u else u + B k q * Ex q)%Qc ps 0%Qc in
    (remove_nat k s, upd Ex k (u + En k)%Qc, upd alpha k a).
(** The while loop under a schedule of random draws; draw [c] picks position [c mod |s|] of
    [s] ([np.random.choice(s)]).  None: the schedule ended before the loop did. *)
Fixpoint oi_loop (n : nat) (B : mat Qc) (En : nat -> Qc) (iv : nat) (draws : list nat) (st : oi_state)
  : option ((nat -> Qc) * (nat -> Qc)) :=
  let '(s, Ex, alpha) := st in
  match s with
  | [] => Some (Ex, alpha)
  | _ =>
      match draws with
      | [] => None
      | c :: r => oi_loop n B En iv r (oi_step n B En iv (nth (c mod length s) s 0) st)
      end
  end.
Definition oi_init (n : nat) (B : mat Qc) (Ex : nat -> Qc) (iv : nat) : oi_state :=
  (filter (fun i => negb (memb i (root_vars n B))) (filter (fun i => negb (i =? iv)) (seq 0 n)),
   upd Ex iv 0%Qc, upd (fun _ => 0%Qc) iv 1%Qc).
(** [np.insert(coef, target, 0)] *)
Definition insert_zero (target : nat) (coef : list Qc) : nat -> Qc :=
  fun k => nth k (firstn target coef ++ 0%Qc :: skipn target coef) 0%Qc.
(** The predictor as an object: attributes may be missing. *)
Record predictor : Type := { p_coef : option (list Qc); p_intercept : option Qc; p_proba : bool }.
(** Outer [option]: schedule too short.  Inner [num]: division by zero gives no number. *)
Definition optimal_intervention (n : nat) (B : mat Qc) (Ex : nat -> Qc) (target : nat) (p : predictor)
    (iv : nat) (desired : Qc) (draws : list nat) : result (option num) :=
  match p_coef p, p_intercept p with
  | None, None => Err ValueError                                               (* 215-218 *)
  | co, ic =>
      if p_proba p then Err ValueError else                                     (* 219-220 *)
      let En := upd (noise_means n B Ex) iv 0%Qc in
      match oi_loop n B En iv draws (oi_init n B Ex iv) with
      | None => Ok None
      | Some (Ex', alpha) =>
          match co, ic with
          | Some coef, Some b =>
              if (target <=? length coef) && (S (length coef) =? n) then
                let coefs := insert_zero target coef in
                let den := dot n coefs alpha in
                Ok (Some (if qeqb den 0%Qc then None
                          else Some ((desired - dot n coefs Ex' - b) / den)%Qc))
              else if target <=? length coef then Err ValueError else Err IndexError
          | _, _ => Err AttributeError
          end
      end
  end.

(** Life cycle (22-46): the object keeps a reference to the causal model and copies its matrix
    and order the first time an estimate is requested ([_B is not None] afterwards).
    Events: the causal model is (re)fitted, or an estimate is requested from the object; the
    answer to a request is the (matrix, order) pair the estimate is computed from. *)
Inductive ce_event (M : Type) : Type := Refit (m : M) | Request.
Arguments Refit {M} m. Arguments Request {M}.
Fixpoint ce_run {M : Type} (model : M) (cached : option M) (evs : list (ce_event M)) : list M :=
  match evs with
  | [] => []
  | Refit m :: r => ce_run m cached r
  | Request :: r =>
      let used := match cached with Some c => c | None => model end in
      used :: ce_run model (Some used) r
  end.
