(** * Model of CausalEffect._predict and of its use (lingam/causal_effect.py 107-181) *)
From Coq Require Import List Arith Lia Bool ZArith QArith Qcanon.
From Verif Require Import Prelude ModelEffect.
Import ListNotations.
Open Scope nat_scope.

(** A prediction model: the methods it has.  [m_proba x]: the row predict_proba returns for x, one probability for each class. *)
Record pred_model := { m_proba : option (list Qc -> list Qc); m_predict : option (list Qc -> Qc) }.
(** 107-131 [_predict]; unpacking a row that has not two entries raises ValueError *)
Definition ce_predict (pm : pred_model) (x : list Qc) : result Qc :=
  match m_proba pm with
  | Some f => match f x with
              | [p0; p1] => Ok (p0 - p1)%Qc                                      (* 124-125 *)
              | _ => Err ValueError
              end
  | None => match m_predict pm with
            | Some g => Ok (g x)                                                 (* 127 *)
            | None => Err ValueError                                             (* 129 *)
            end
  end.
Fixpoint collect {A B : Type} (f : A -> result B) (l : list A) : result (list B) :=
  match l with
  | [] => Ok []
  | a :: l => let* b := f a in let* r := collect f l in Ok (b :: r)
  end.
(** 133-181 [estimate_effects_on_prediction] *)
Definition ce_effects (n : nat) (B : mat Qc) (order : list nat) (Ex sd : nat -> Qc) (target : nat) (pm : pred_model) : result (list (Qc * Qc)) :=
  let En := noise_means n B Ex in
  let at_ i v := ce_predict pm (others n target (propagated n B order En i v)) in
  collect (fun i =>
    let* y := at_ i (Ex i) in                                                    (* 168-169 *)
    let* y1 := at_ i (Ex i + sd i)%Qc in                                         (* 172-173 *)
    let* y2 := at_ i (Ex i - sd i)%Qc in                                         (* 176-177 *)
    Ok (qabs (y - y1)%Qc, qabs (y - y2)%Qc)) (seq 0 n).
