(** * Proofs: the objective of MLHSICR *)
From Coq Require Import Reals Lra Lia Arith Bool List FunctionalExtensionality.
From Verif Require Import Prelude LibR ModelKernel ModelMlHsic Props_Kernel.
Import ListNotations.
Open Scope R_scope.

Lemma rinsert_In : forall x l y, In y (rinsert x l) <-> y = x \/ In y l.
Proof. intros x l y. induction l as [|z l IH]; cbn; [intuition|]. destruct (Rle_dec x z); cbn; [intuition|]. rewrite IH. intuition. Qed.
Lemma rsort_In : forall l y, In y (rsort l) <-> In y l.
Proof. intros l y. induction l as [|z l IH]; [cbn; tauto|]. change (rsort (z :: l)) with (rinsert z (rsort l)). rewrite rinsert_In, IH. cbn. intuition. Qed.
Lemma rinsert_length : forall x l, length (rinsert x l) = S (length l).
Proof. intros x l. induction l as [|z l IH]; cbn; [reflexivity|]. destruct (Rle_dec x z); cbn; [reflexivity|]. rewrite IH. reflexivity. Qed.
Lemma rsort_length : forall l, length (rsort l) = length l.
Proof. induction l as [|z l IH]; [reflexivity|]. change (rsort (z :: l)) with (rinsert z (rsort l)). rewrite rinsert_length, IH. reflexivity. Qed.
Lemma rinsert_map : forall c x l, 0 < c -> rinsert (c * x) (map (Rmult c) l) = map (Rmult c) (rinsert x l).
Proof.
  intros c x l Hc. induction l as [|z l IH]; cbn; [reflexivity|]. destruct (Rle_dec (c * x) (c * z)) as [L|L], (Rle_dec x z) as [L'|L']; try reflexivity.
  - exfalso. apply L'. apply (Rmult_le_reg_l c); assumption.
  - exfalso. apply L. apply Rmult_le_compat_l; lra.
  - rewrite IH. reflexivity.
Qed.
Lemma rsort_map : forall c l, 0 < c -> rsort (map (Rmult c) l) = map (Rmult c) (rsort l).
Proof. intros c l Hc. induction l as [|z l IH]; [reflexivity|]. cbn [map]. change (rsort (z :: l)) with (rinsert z (rsort l)). change (rsort (c * z :: map (Rmult c) l)) with (rinsert (c * z) (rsort (map (Rmult c) l))). rewrite IH. apply rinsert_map. exact Hc. Qed.
Lemma rmedian_map : forall c l, 0 < c -> rmedian (map (Rmult c) l) = option_map (Rmult c) (rmedian l).
Proof.
  intros c l Hc. unfold rmedian. destruct l as [|x l]; [reflexivity|]. set (q := x :: l). change (map (Rmult c) (x :: l)) with (map (Rmult c) q).
  assert (E : match map (Rmult c) q with [] => None | _ => Some (if Nat.odd (length (rsort (map (Rmult c) q))) then nth (length (rsort (map (Rmult c) q)) / 2) (rsort (map (Rmult c) q)) 0
     else (nth (length (rsort (map (Rmult c) q)) / 2 - 1) (rsort (map (Rmult c) q)) 0 + nth (length (rsort (map (Rmult c) q)) / 2) (rsort (map (Rmult c) q)) 0) / 2) end
     = option_map (Rmult c) (Some (if Nat.odd (length (rsort q)) then nth (length (rsort q) / 2) (rsort q) 0 else (nth (length (rsort q) / 2 - 1) (rsort q) 0 + nth (length (rsort q) / 2) (rsort q) 0) / 2))); [|exact E].
  cbn [map q]. change (c * x :: map (Rmult c) l) with (map (Rmult c) q). rewrite (rsort_map c q Hc), map_length. cbn [option_map]. f_equal.
  assert (N : forall k, nth k (map (Rmult c) (rsort q)) 0 = c * nth k (rsort q) 0). { intro k. rewrite <- (map_nth (Rmult c)). rewrite Rmult_0_r. reflexivity. }
  rewrite !N. destruct (Nat.odd _); [reflexivity|]. field.
Qed.
Lemma rmedian_pos : forall l q, (forall x, In x l -> 0 < x) -> rmedian l = Some q -> 0 < q.
Proof.
  intros l q H. unfold rmedian. destruct l as [|x l]; [discriminate|]. set (m := x :: l) in *. intro E. apply (f_equal (fun o => match o with Some v => v | None => 0 end)) in E. cbv beta iota zeta in E. subst q.
  assert (P : forall k, (k < length (rsort m))%nat -> 0 < nth k (rsort m) 0) by (intros k Hk; apply H, rsort_In, nth_In; exact Hk).
  assert (L : (0 < length (rsort m))%nat) by (rewrite rsort_length; cbn; lia).
  assert (D : (length (rsort m) / 2 < length (rsort m))%nat) by (apply Nat.div_lt; lia).
  destruct (Nat.odd _); [apply P; exact D|]. pose proof (P _ D). assert (D' : (length (rsort m) / 2 - 1 < length (rsort m))%nat) by (generalize dependent (length (rsort m) / 2)%nat; intros; lia). pose proof (P _ D'). lra.
Qed.
Lemma width_pos : forall n x w, kernel_width n x = Some w -> 0 < w.
Proof.
  intros n x w. unfold kernel_width. set (k := if (100 <? n)%nat then 100%nat else n). destruct (rmedian (rdists k x)) as [q|] eqn:E; [|discriminate]. cbn. intro H. injection H as <-.
  apply sqrt_lt_R0. assert (0 < q); [|lra]. apply (rmedian_pos (rdists k x)); [|exact E]. intros y Hy. apply filter_In in Hy. destruct Hy as [_ Hy]. unfold positive in Hy. destruct (Rlt_dec 0 y); [assumption|discriminate].
Qed.
Lemma filter_positive_scale : forall c l, 0 < c -> filter positive (map (Rmult c) l) = map (Rmult c) (filter positive l).
Proof.
  intros c l Hc. induction l as [|x l IH]; [reflexivity|]. cbn [map filter]. assert (E : positive (c * x) = positive x).
  { unfold positive. destruct (Rlt_dec 0 (c * x)) as [L|L], (Rlt_dec 0 x) as [L'|L']; try reflexivity; exfalso.
    - apply L'. apply (Rmult_lt_reg_l c); lra.
    - apply L. apply Rmult_lt_0_compat; assumption. }
  rewrite E, IH. destruct (positive x); reflexivity.
Qed.
Lemma map_flat_map : forall A (f : A -> list R) c l, map (Rmult c) (flat_map f l) = flat_map (fun x => map (Rmult c) (f x)) l.
Proof. intros A f c l. induction l as [|x l IH]; [reflexivity|]. cbn. rewrite map_app, IH. reflexivity. Qed.
Lemma width_units : forall n a b x, a <> 0 -> kernel_width n (fun s => a * x s + b) = option_map (Rmult (Rabs a)) (kernel_width n x).
Proof.
  intros n a b x Ha. unfold kernel_width. set (k := if (100 <? n)%nat then 100%nat else n).
  assert (P : 0 < a * a) by (assert (0 <= a * a) by apply Rle_0_sqr; assert (a * a <> 0) by (apply Rmult_integral_contrapositive; tauto); lra).
  replace (rdists k (fun s => a * x s + b)) with (map (Rmult (a * a)) (rdists k x)).
  - rewrite rmedian_map by exact P. destruct (rmedian (rdists k x)) as [q|]; cbn; [|reflexivity]. f_equal.
    replace (1 / 2 * (a * a * q)) with ((a * a) * (1 / 2 * q)) by ring. rewrite sqrt_mult_alt by lra. f_equal. exact (sqrt_Rsqr_abs a).
  - unfold rdists. rewrite <- filter_positive_scale by exact P. f_equal. rewrite map_flat_map. f_equal. apply functional_extensionality. intro i. rewrite map_map. apply map_ext. intro j. destruct (j <=? i)%nat; ring.
Qed.
Lemma gram_units : forall n a b x w, a <> 0 -> w <> 0 -> column_gram n (fun s => a * x s + b) (a * w) = column_gram n x w.
Proof.
  intros n a b x w Ha Hw. unfold column_gram, get_gram_matrix. cbn [snd].
  replace (rbf_dot 1 (fun s _ => a * x s + b) (a * w)) with (rbf_dot 1 (fun s _ => x s) w); [reflexivity|].
  apply functional_extensionality. intro i. apply functional_extensionality. intro j. unfold rbf_dot. cbn. f_equal. field. split; assumption.
Qed.

Section Units.
  Variables (n : nat) (Y : nat -> nat -> R) (xi : nat) (a b : nat -> R).
  Hypothesis Pa : forall j, 0 < a j.
  Definition moved (j : nat) : nat -> R := fun s => a j * Y j s + b j.
  Lemma moved_width : forall j, kernel_width n (moved j) = option_map (Rmult (a j)) (kernel_width n (Y j)).
  Proof. intro j. unfold moved. pose proof (Pa j). rewrite width_units by lra. rewrite Rabs_right by lra. reflexivity. Qed.
  Lemma ml_width_units : forall xjs c, ml_width n moved xi xjs (fun j => a xi * c j / a j) = option_map (Rmult (a xi)) (ml_width n Y xi xjs c).
  Proof.
    intros xjs c. unfold ml_width. rewrite moved_width. generalize (kernel_width n (Y xi)) as w. induction xjs as [|j xjs IH]; intro w; [reflexivity|]. cbn [fold_left].
    rewrite moved_width. assert (E : match option_map (Rmult (a xi)) w, option_map (Rmult (a j)) (kernel_width n (Y j)) with Some w, Some wj => Some (w - a xi * c j / a j * wj) | _, _ => None end
      = option_map (Rmult (a xi)) (match w, kernel_width n (Y j) with Some w, Some wj => Some (w - c j * wj) | _, _ => None end)).
    { destruct w as [w|], (kernel_width n (Y j)) as [wj|]; cbn; try reflexivity. f_equal. field. pose proof (Pa j). lra. }
    rewrite E. apply IH.
  Qed.
  Lemma ml_residual_units : forall xjs c, exists k, forall s, ml_residual moved xi xjs (fun j => a xi * c j / a j) s = a xi * ml_residual Y xi xjs c s + k.
  Proof.
    intros xjs c. unfold ml_residual.
    assert (G : forall xjs (v v' : nat -> R) k, (forall s, v' s = a xi * v s + k) ->
      exists k', forall s, fold_left (fun v j => v - a xi * c j / a j * moved j s) xjs (v' s) = a xi * fold_left (fun v j => v - c j * Y j s) xjs (v s) + k').
    { induction xjs0 as [|j xjs0 IH]; intros v v' k H; [exists k; exact H|]. cbn [fold_left].
      apply (IH (fun s => v s - c j * Y j s) (fun s => v' s - a xi * c j / a j * moved j s) (k - a xi * c j / a j * b j)). intro s. rewrite H. unfold moved. field. pose proof (Pa j). lra. }
    apply (G xjs (Y xi) (moved xi) (b xi)). reflexivity.
  Qed.
  Lemma objective_units : forall xjs c, sum_empirical_hsic n moved xi xjs (fun j => a xi * c j / a j) = sum_empirical_hsic n Y xi xjs c.
  Proof.
    intros xjs c. unfold sum_empirical_hsic. rewrite ml_width_units. destruct (ml_width n Y xi xjs c) as [w|]; cbn [option_map]; [|reflexivity].
    assert (NA : a xi <> 0) by (pose proof (Pa xi); lra). destruct (Req_EM_T w 0) as [E|E], (Req_EM_T (a xi * w) 0) as [E'|E']; try reflexivity.
    - exfalso. apply E'. rewrite E. ring.
    - exfalso. apply Rmult_integral in E'. tauto.
    - destruct (ml_residual_units xjs c) as (k & H). cbv zeta.
      replace (ml_residual moved xi xjs (fun j => a xi * c j / a j)) with (fun s => a xi * ml_residual Y xi xjs c s + k) by (apply functional_extensionality; intro s; symmetry; apply H).
      rewrite gram_units by assumption. generalize (Some 0) as o. set (Kc := column_gram n (ml_residual Y xi xjs c) w). clearbody Kc. clear H k. induction xjs as [|j xjs IH]; intro o; [reflexivity|]. cbn [fold_left].
      rewrite moved_width. replace (match o, option_map (Rmult (a j)) (kernel_width n (Y j)) with Some o, Some wj => Some (o + hsic_teststat Kc (column_gram n (moved j) wj) n) | _, _ => None end)
        with (match o, kernel_width n (Y j) with Some o, Some wj => Some (o + hsic_teststat Kc (column_gram n (Y j) wj) n) | _, _ => None end).
      + apply IH.
      + destruct o as [o|], (kernel_width n (Y j)) as [wj|] eqn:W; cbn; try reflexivity. f_equal. f_equal. f_equal. unfold moved. symmetry. apply gram_units; [pose proof (Pa j); lra|pose proof (width_pos n (Y j) wj W); lra].
  Qed.
End Units.

(** The objective is a number exactly when the columns have widths and the combined width is not zero. *)
Lemma objective_defined : forall n Y xi xjs c w, ml_width n Y xi xjs c = Some w -> w <> 0 -> exists v, sum_empirical_hsic n Y xi xjs c = Some v.
Proof.
  intros n Y xi xjs c w W NZ. unfold sum_empirical_hsic. rewrite W. destruct (Req_EM_T w 0); [contradiction|]. cbv zeta. set (Kc := column_gram _ _ _). clearbody Kc.
  unfold ml_width in W. revert W. generalize (kernel_width n (Y xi)) as w0. generalize 0 as o. induction xjs as [|j xjs IH]; intros o w0 W; [exists o; reflexivity|]. cbn [fold_left] in *.
  destruct w0 as [w0|], (kernel_width n (Y j)) as [wj|]; try (exfalso; clear -W; revert W; induction xjs; [discriminate|assumption]). apply (IH _ _ W).
Qed.
Lemma objective_nonneg : forall n Y xi xjs c v, (0 < n)%nat -> sum_empirical_hsic n Y xi xjs c = Some v -> 0 <= v.
Proof.
  intros n Y xi xjs c v Hn. unfold sum_empirical_hsic. destruct (ml_width n Y xi xjs c) as [w|]; [|discriminate]. destruct (Req_EM_T w 0) as [|NZ]; [discriminate|]. cbv zeta.
  set (Kr := ml_residual Y xi xjs c). clearbody Kr. generalize (Rle_refl 0). generalize 0 at 2 3 as o. induction xjs as [|j xjs IH]; intros o Ho E; [cbn in E; injection E as <-; exact Ho|]. cbn [fold_left] in E.
  destruct (kernel_width n (Y j)) as [wj|] eqn:W; [|exfalso; clear -E; induction xjs; [discriminate|apply IHxjs; assumption]].
  apply (IH _) in E; [exact E|]. pose proof (width_pos n (Y j) wj W). pose proof (C150_statistic_nonnegative n 1 1 (fun s _ => Kr s) (fun s _ => Y j s) w wj Hn NZ ltac:(lra)). unfold column_gram. lra.
Qed.
