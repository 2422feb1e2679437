(** * CausalEffect with classifiers and other prediction models (C196) *)
From Coq Require Import List Arith Lia Bool ZArith QArith Qcanon.
From Verif Require Import Prelude Lib ModelEffect ModelPredict ProofEffect ProofIcaUnits.
Import ListNotations.
Open Scope nat_scope.

Lemma collect_ok : forall A B (f : A -> result B) (g : A -> B) l, (forall a, In a l -> f a = Ok (g a)) -> collect f l = Ok (map g l).
Proof. intros A B f g l. induction l as [|a l IH]; intro H; [reflexivity|]. cbn [collect map]. rewrite (H a (or_introl eq_refl)). cbn [bind]. rewrite IH by (intros b Hb; apply H; right; exact Hb). reflexivity. Qed.
Lemma collect_err : forall A B (f : A -> result B) l, l <> [] -> (forall a, In a l -> f a = Err ValueError) -> collect f l = Err ValueError.
Proof. intros A B f [|a l] N H; [congruence|]. cbn [collect]. rewrite (H a (or_introl eq_refl)). reflexivity. Qed.

(** A regression model: the reported numbers are the changes of its prediction, as in the model of C28. *)
Theorem C196_regression : forall n B order Ex sd target g,
  ce_effects n B order Ex sd target {| m_proba := None; m_predict := Some g |} = Ok (effects_on_prediction n B order Ex sd target g).
Proof. intros. unfold ce_effects, effects_on_prediction. apply collect_ok. reflexivity. Qed.
Print Assumptions C196_regression.

(** A classifier with two classes: [p x] is the probability of the second one.  The labels a and b of the classes give the expected label
    (1 - p) a + p b; its change is reported multiplied by 2 / |b - a|. *)
Theorem C196_two_classes : forall n B order Ex sd target p a b m_pred, a <> b ->
  exists effects, ce_effects n B order Ex sd target {| m_proba := Some (fun x => [(1 - p x)%Qc; p x]); m_predict := m_pred |} = Ok effects /\
    map (fun e => (qabs (b - a) * fst e, qabs (b - a) * snd e)%Qc) effects =
    map (fun e => (qz 2 * fst e, qz 2 * snd e)%Qc) (effects_on_prediction n B order Ex sd target (fun x => (1 - p x) * a + p x * b)%Qc).
Proof.
  intros n B order Ex sd target p a b m_pred Nab. eexists. split.
  - unfold ce_effects. apply collect_ok. intros i _. reflexivity.
  - unfold effects_on_prediction. rewrite !map_map. apply map_ext. intro i. cbv beta zeta. cbn [fst snd].
    assert (G : forall u v : Qc, (qabs (b - a) * qabs ((1 - u - u) - (1 - v - v)) = qz 2 * qabs (((1 - u) * a + u * b) - ((1 - v) * a + v * b)))%Qc).
    { intros u v. assert (Q2 : qz 2 = qabs (qz 2)) by (apply Qc_is_canon; vm_compute; reflexivity). rewrite Q2. rewrite <- !qabs_mult. rewrite <- qabs_opp. f_equal.
      replace (qz 2) with (1 + 1)%Qc by (apply Qc_is_canon; vm_compute; reflexivity). ring. }
    rewrite !G. reflexivity.
Qed.
Print Assumptions C196_two_classes.
(** Labels -1 and 1: the reported numbers are the changes of the expected label. *)
Theorem C196_labels_minus_one_one : forall n B order Ex sd target p m_pred,
  ce_effects n B order Ex sd target {| m_proba := Some (fun x => [(1 - p x)%Qc; p x]); m_predict := m_pred |} =
  Ok (effects_on_prediction n B order Ex sd target (fun x => (1 - p x) * qz (-1) + p x * 1)%Qc).
Proof.
  intros n B order Ex sd target p m_pred. unfold ce_effects, effects_on_prediction. apply collect_ok. intros i _. cbv beta zeta. cbn [ce_predict m_proba bind].
  assert (G : forall u v : Qc, (qabs ((1 - u - u) - (1 - v - v)) = qabs (((1 - u) * qz (-1) + u * 1) - ((1 - v) * qz (-1) + v * 1)))%Qc).
  { intros u v. rewrite <- qabs_opp. f_equal. replace (qz (-1)) with (- (1))%Qc by (apply Qc_is_canon; vm_compute; reflexivity). ring. }
  rewrite !G. reflexivity.
Qed.
Print Assumptions C196_labels_minus_one_one.
(** Refuted for labels 0 and 1: twice the change of the expected label (the probability of class 1) is reported. *)
Theorem C196_labels_zero_one_refuted : forall n B order Ex sd target p m_pred,
  exists effects, ce_effects n B order Ex sd target {| m_proba := Some (fun x => [(1 - p x)%Qc; p x]); m_predict := m_pred |} = Ok effects /\
    effects = map (fun e => (qz 2 * fst e, qz 2 * snd e)%Qc) (effects_on_prediction n B order Ex sd target p).
Proof.
  intros n B order Ex sd target p m_pred. eexists. split.
  - unfold ce_effects. apply collect_ok. intros i _. reflexivity.
  - unfold effects_on_prediction. rewrite !map_map. apply map_ext. intro i. cbv beta zeta. cbn [fst snd].
    assert (G : forall u v : Qc, (qabs ((1 - u - u) - (1 - v - v)) = qz 2 * qabs (u - v))%Qc).
    { intros u v. assert (Q2 : qz 2 = qabs (qz 2)) by (apply Qc_is_canon; vm_compute; reflexivity). rewrite Q2. rewrite <- qabs_mult. rewrite <- qabs_opp. f_equal.
      replace (qz 2) with (1 + 1)%Qc by (apply Qc_is_canon; vm_compute; reflexivity). ring. }
    rewrite !G. reflexivity.
Qed.
Print Assumptions C196_labels_zero_one_refuted.
(** Refuted for another number of classes, and an error for models without a prediction method: ValueError. *)
Theorem C196_more_classes_refuted : forall n B order Ex sd target f m_pred, 0 < n -> (forall x, length (f x) <> 2) ->
  ce_effects n B order Ex sd target {| m_proba := Some f; m_predict := m_pred |} = Err ValueError.
Proof.
  intros n B order Ex sd target f m_pred Hn Hf. unfold ce_effects. apply collect_err; [destruct n; [lia|discriminate]|]. intros i _. cbv beta zeta.
  assert (E : forall x, ce_predict {| m_proba := Some f; m_predict := m_pred |} x = Err ValueError).
  { intro x. unfold ce_predict. cbn [m_proba]. specialize (Hf x). destruct (f x) as [|p0 [|p1 [|p2 l]]]; cbn in Hf; try reflexivity; lia. }
  rewrite E. reflexivity.
Qed.
Print Assumptions C196_more_classes_refuted.
Theorem C196_no_method : forall n B order Ex sd target, 0 < n -> ce_effects n B order Ex sd target {| m_proba := None; m_predict := None |} = Err ValueError.
Proof. intros n B order Ex sd target Hn. unfold ce_effects. apply collect_err; [destruct n; [lia|discriminate]|reflexivity]. Qed.
Print Assumptions C196_no_method.

(** ** x0 -> x1, the class 1 of x2 has probability x1 / 4 *)
Definition ex_B : mat Qc := fun i j => match i, j with 1, 0 => 1%Qc | _, _ => 0%Qc end.
Definition ex_p (x : list Qc) : Qc := (nth 1 x 0 * qf 1 4)%Qc.
Definition show (r : result (list (Qc * Qc))) : option (list (Q * Q)) := match r with Ok l => Some (map (fun e => (this (fst e), this (snd e))) l) | Err _ => None end.
Example C196_example :
  show (ce_effects 3 ex_B [0; 1; 2] (fun i => match i with 2 => 0%Qc | _ => 1%Qc end) (fun _ => 1%Qc) 2 {| m_proba := Some (fun x => [(1 - ex_p x)%Qc; ex_p x]); m_predict := None |})
  = Some [(1 # 2, 1 # 2); (1 # 2, 1 # 2); (0 # 1, 0 # 1)]%Q /\
  map (fun e => (this (fst e), this (snd e))) (effects_on_prediction 3 ex_B [0; 1; 2] (fun i => match i with 2 => 0%Qc | _ => 1%Qc end) (fun _ => 1%Qc) 2 ex_p)
  = [(1 # 4, 1 # 4); (1 # 4, 1 # 4); (0 # 1, 0 # 1)]%Q.
Proof. split; vm_compute; reflexivity. Qed.
Example C196_example_classes : show (ce_effects 3 ex_B [0; 1; 2] (fun _ => 1%Qc) (fun _ => 1%Qc) 2 {| m_proba := Some (fun _ => [qf 1 3; qf 1 3; qf 1 3]); m_predict := Some (fun _ => 0%Qc) |}) = None.
Proof. vm_compute. reflexivity. Qed.
