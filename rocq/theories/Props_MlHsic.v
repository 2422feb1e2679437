(** * Properties of the objective of RCD's MLHSICR (C175) *)
From Coq Require Import Reals Lra Lia Arith Bool List FunctionalExtensionality.
From Verif Require Import Prelude LibR ModelKernel ModelMlHsic ProofMlHsic.
Import ListNotations.
Open Scope R_scope.

(** C175, refuted: whenever the columns are not constant there are coefficients for which the objective is not a number,
    because the width used for the residual is the combination of the widths of the columns and vanishes. *)
Definition all_vary (n : nat) (Y : nat -> nat -> R) (l : list nat) : Prop := forall j, In j l -> kernel_width n (Y j) <> None.
Lemma width_unchanged : forall n Y xjs (c : nat -> R) w, all_vary n Y xjs -> (forall j, In j xjs -> c j = 0) ->
  fold_left (fun w j => match w, kernel_width n (Y j) with Some w, Some wj => Some (w - c j * wj) | _, _ => None end) xjs (Some w) = Some w.
Proof.
  intros n Y xjs c. induction xjs as [|j xjs IH]; intros w V Z; [reflexivity|]. cbn [fold_left]. destruct (kernel_width n (Y j)) as [wj|] eqn:E; [|exfalso; apply (V j (or_introl eq_refl)), E].
  rewrite (Z j (or_introl eq_refl)), Rmult_0_l, Rminus_0_r. apply IH; intros k Hk; [apply V|apply Z]; right; exact Hk.
Qed.
Definition only (j : nat) (v : R) : nat -> R := fun k => if (k =? j)%nat then v else 0.
(** Column [j] with the opposite sign. *)
Definition negated (j : nat) (Y : nat -> nat -> R) : nat -> nat -> R := fun k => if (k =? j)%nat then fun s => -1 * Y k s + 0 else Y k.
Theorem C175_sign_of_a_variable_refuted :
  forall n Y xi j xjs, ~ In j xjs -> xi <> j -> all_vary n Y (xi :: j :: xjs) ->
  exists c, 0 < c /\
    sum_empirical_hsic n Y xi (j :: xjs) (only j c) = None /\
    exists v, sum_empirical_hsic n (negated j Y) xi (j :: xjs) (only j (- c)) = Some v.
Proof.
  intros n Y xi j xjs NI DI V.
  destruct (kernel_width n (Y xi)) as [wi|] eqn:Wi; [|exfalso; apply (V xi (or_introl eq_refl)), Wi].
  destruct (kernel_width n (Y j)) as [wj|] eqn:Wj; [|exfalso; apply (V j (or_intror (or_introl eq_refl))), Wj].
  pose proof (width_pos n _ _ Wi) as Pi. pose proof (width_pos n _ _ Wj) as Pj.
  assert (VX : all_vary n Y xjs) by (intros k Hk; apply V; right; right; exact Hk).
  assert (OZ : forall v k, In k xjs -> only j v k = 0) by (intros v k Hk; unfold only; destruct (Nat.eqb_spec k j); [subst; contradiction|reflexivity]).
  exists (wi / wj). split; [apply Rdiv_lt_0_compat; assumption|].
  assert (OJ : forall v, only j v j = v) by (intro v; unfold only; rewrite Nat.eqb_refl; reflexivity). split.
  - unfold sum_empirical_hsic, ml_width. cbn [fold_left]. rewrite Wi, Wj, OJ, width_unchanged by (try exact VX; apply OZ).
    destruct (Req_EM_T (wi - wi / wj * wj) 0) as [E|E]; [reflexivity|]. exfalso. apply E. field. lra.
  - apply (objective_defined n (negated j Y) xi (j :: xjs) (only j (- (wi / wj))) (wi + wi)); [|lra].
    assert (NJ : kernel_width n (negated j Y j) = Some wj).
    { unfold negated. rewrite Nat.eqb_refl. rewrite (width_units n (-1) 0 (Y j)) by lra. rewrite Wj. cbn. f_equal. rewrite Rabs_left by lra. ring. }
    assert (NK : forall k, k <> j -> negated j Y k = Y k) by (intros k Hk; unfold negated; destruct (Nat.eqb_spec k j); [contradiction|reflexivity]).
    unfold ml_width. cbn [fold_left]. rewrite NJ, (NK xi DI), Wi, OJ.
    replace (wi - - (wi / wj) * wj) with (wi + wi) by (field; lra). apply width_unchanged; [|apply OZ].
    intros k Hk. rewrite NK; [apply VX; exact Hk|]. intros ->. contradiction.
Qed.
Print Assumptions C175_sign_of_a_variable_refuted.

(** C175, the part that holds: the value is never negative, and the same in all units with positive factors and all
    origins at the coefficients expressed in these units. *)
Theorem C175_never_negative_partial : forall n Y xi xjs c v, (0 < n)%nat -> sum_empirical_hsic n Y xi xjs c = Some v -> 0 <= v.
Proof. exact objective_nonneg. Qed.
Print Assumptions C175_never_negative_partial.
Theorem C175_positive_units_partial : forall n (Y : nat -> nat -> R) xi xjs (a b : nat -> R) c, (forall j, 0 < a j) ->
  sum_empirical_hsic n (fun j s => a j * Y j s + b j) xi xjs (fun j => a xi * c j / a j) = sum_empirical_hsic n Y xi xjs c.
Proof. intros n Y xi xjs a b c H. exact (objective_units n Y xi a b H xjs c). Qed.
Print Assumptions C175_positive_units_partial.
(** Hence a minimiser in one set of units is a minimiser in the other. *)
Definition minimises (n : nat) (Y : nat -> nat -> R) (xi : nat) (xjs : list nat) (c : nat -> R) : Prop :=
  exists v, sum_empirical_hsic n Y xi xjs c = Some v /\ forall d u, sum_empirical_hsic n Y xi xjs d = Some u -> v <= u.
Theorem C175_minimiser_in_positive_units_partial : forall n (Y : nat -> nat -> R) xi xjs (a b : nat -> R) c, (forall j, 0 < a j) ->
  minimises n Y xi xjs c -> minimises n (fun j s => a j * Y j s + b j) xi xjs (fun j => a xi * c j / a j).
Proof.
  intros n Y xi xjs a b c H (v & E & M). exists v. split; [rewrite C175_positive_units_partial by exact H; exact E|].
  intros d u D. apply (M (fun j => a j * d j / a xi)). rewrite <- D, <- (C175_positive_units_partial n Y xi xjs a b _ H). f_equal.
  apply functional_extensionality. intro j. pose proof (H j). pose proof (H xi). field. lra.
Qed.
Print Assumptions C175_minimiser_in_positive_units_partial.

(** Three columns of three rows that vary. *)
Definition ml_ex (j s : nat) : R := INR (nth s (nth j [[0; 1; 2]; [1; 0; 2]; [0; 0; 1]] []) 0)%nat.
Example C175_example : all_vary 3 ml_ex [0; 1; 2]%nat.
Proof.
  intros j Hj E. unfold kernel_width in E. cbn [Nat.ltb Nat.leb] in E. destruct (rmedian (rdists 3 (ml_ex j))) as [q|] eqn:M; [discriminate|]. clear E.
  destruct (rdists 3 (ml_ex j)) as [|x l] eqn:D; [|discriminate]. clear M.
  assert (I : In 1 (rdists 3 (ml_ex j))).
  { unfold rdists. apply filter_In. split; [|unfold positive; destruct (Rlt_dec 0 1); [reflexivity|lra]]. apply in_flat_map.
    destruct Hj as [<-|[<-|[<-|[]]]].
    - exists 0%nat. split; [cbn; tauto|]. apply in_map_iff. exists 1%nat. split; [cbn; lra|cbn; tauto].
    - exists 0%nat. split; [cbn; tauto|]. apply in_map_iff. exists 1%nat. split; [cbn; lra|cbn; tauto].
    - exists 0%nat. split; [cbn; tauto|]. apply in_map_iff. exists 2%nat. split; [cbn; lra|cbn; tauto]. }
  rewrite D in I. destruct I.
Qed.
Example C175_example_refuted : exists c, 0 < c /\ sum_empirical_hsic 3 ml_ex 0 [1; 2]%nat (only 1 c) = None /\
  exists v, sum_empirical_hsic 3 (negated 1 ml_ex) 0 [1; 2]%nat (only 1 (- c)) = Some v.
Proof. apply (C175_sign_of_a_variable_refuted 3 ml_ex 0 1 [2]%nat); [cbn; intuition discriminate|discriminate|exact C175_example]. Qed.
