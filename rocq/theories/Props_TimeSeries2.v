(** * Property theorems: residuals of LongitudinalLiNGAM (C50), the fitted VARLiNGAM object (C42) and
    the training set of the simulator's models (C52). *)
From Coq Require Import List Arith Bool ZArith QArith Qcanon Lia Permutation.
From Verif Require Import Prelude Spec Lib LibMat ModelVAR ProofVAR ModelLong ProofLong ModelSim.
Import ListNotations.
Open Scope nat_scope.

(** ** C50 *)
(** Time points before the first complete window have no residuals; from then on the residuals are
    those of one regression of the variables at [t] on the [L] earlier time points, oldest first. *)
Theorem C50_residuals_partial : forall reg p L (X : panel) t,
  (t < L -> forall s i, long_resid reg p L X t s i = None) /\
  (L <= t -> exists (Z y : mat Qc),
     (forall l j s, l < L -> j < p -> Z (l * p + j) s = X (t - L + l) s j) /\
     (forall i s, y i s = X t s i) /\
     forall s i, long_resid reg p L X t s i =
       Some (X t s i - sumn L (fun l => sumn p (fun j => reg Z y i (l * p + j)%nat * X (t - L + l)%nat s j)))%Qc).
Proof.
  intros reg p L X t. unfold long_resid. destruct (Nat.ltb_spec t L) as [H|H]; split; intro H'; try lia; [reflexivity|].
  exists (lag_stack p L X t), (fun i s => X t s i).
  assert (E : forall l j s, j < p -> lag_stack p L X t (l * p + j) s = X (t - L + l) s j).
  { intros l j s Hj. unfold lag_stack. destruct (div_mod_unique p l j Hj) as [E1 E2]. rewrite (Nat.mul_comm l p), E1, E2. reflexivity. }
  split; [intros l j s _ Hj; apply E; exact Hj|]. split; [reflexivity|].
  intros s i. f_equal. unfold N_t. rewrite sumn_blocks. f_equal. apply sumn_ext. intros l _. apply sumn_ext. intros j Hj.
  rewrite (E l j s Hj). reflexivity.
Qed.
Print Assumptions C50_residuals_partial.
Example C50_residuals_example : (* x_2 = 5, x_0 = 1, x_1 = 2, coefficients 1 and 1: residual 2 *)
  let X := fun t (s i : nat) => qz (nth t [1; 2; 5]%Z 0%Z) in
  option_map this (long_resid (fun _ _ _ _ => 1%Qc) 1 2 X 2 0 0) = Some 2%Q /\ long_resid (fun _ _ _ _ => 1%Qc) 1 2 X 1 0 0 = None.
Proof. split; vm_compute; reflexivity. Qed.

(** ** C42 *)
(** After a fit the object holds the coefficients, their number as the lag order, and residuals for
    every time point but the first [lags]. *)
Theorem C42_fitted_object : forall est lingam lasso n prune o N X o' order Bs,
  var_fit est lingam lasso n prune o N X = Ok (o', (order, Bs)) ->
  exists Ms, vo_ar o' = Some Ms /\ vo_lags o' = length Ms /\ vo_rows o' = N - length Ms /\ length Bs = 1 + length Ms /\
    (vo_ar o = None -> (Ms, vo_resid o') = est N X (vo_lags o)) /\
    (forall Ms0, vo_ar o = Some Ms0 -> Ms = Ms0 /\
       forall r i, vo_resid o' r i = (X (r + length Ms)%nat i -
         sumn (length Ms) (fun k => sumn n (fun j => nth k Ms zmat i j * X (r + length Ms - (k + 1))%nat j)))%Qc).
Proof.
  intros est lingam lasso n prune o N X o' order Bs. unfold var_fit.
  set (d := match vo_ar o with None => est N X (vo_lags o) | Some Ms => (Ms, var_residuals n Ms X) end).
  assert (D : (vo_ar o = None -> d = est N X (vo_lags o)) /\ (forall Ms0, vo_ar o = Some Ms0 -> d = (Ms0, var_residuals n Ms0 X))).
  { unfold d. split; [intros ->; reflexivity|intros Ms0 ->; reflexivity]. }
  clearbody d. destruct d as [Ms R]. destruct D as [D1 D2]. destruct (lingam (N - length Ms) R) as [ord B0].
  assert (LB : forall Bs', (if prune then var_pruning lasso N n (vo_lags o) X ord (calc_b n B0 Ms) else Ok (calc_b n B0 Ms)) = Ok Bs' -> length Bs' = 1 + length Ms).
  { assert (LC : length (calc_b n B0 Ms) = 1 + length Ms) by (unfold calc_b; cbn [length]; rewrite map_length; reflexivity).
    intro Bs2. destruct prune; [|intros [= <-]; exact LC]. unfold var_pruning. rewrite <- LC. generalize (calc_b n B0 Ms). generalize (seq 0 n).
    clear LC Bs. assert (W : forall Bs i no tau lags coef Bs', write_taus n i no tau lags coef Bs = Ok Bs' -> length Bs' = length Bs).
    { induction Bs as [|B r IH]; intros i no tau lags coef Bs'; cbn [write_taus]; [intros [= <-]; reflexivity|].
      destruct (lags <? tau); [discriminate|]. destruct (write_taus n i no (S tau) lags coef r) eqn:E; [|discriminate]. cbn [bind]. intros [= <-].
      cbn [length]. f_equal. eapply IH. exact E. }
    induction l as [|i l IH]; intros Bs; cbn [prune_vars]; [intros [= <-]; reflexivity|].
    destruct (prune_var lasso N n (vo_lags o) X ord Bs i) as [Bs1|] eqn:E; [|discriminate]. cbn [bind]. intro H. rewrite (IH _ H).
    unfold prune_var in E. destruct (index_of i ord); [|discriminate]. destruct Bs as [|B Bt]; [discriminate|].
    destruct (write_taus n i n0 1 (vo_lags o) _ Bt) as [Bt'|] eqn:E'; [|discriminate]. cbn [bind] in E. injection E as <-. cbn [length]. f_equal. eapply W. exact E'. }
  destruct (if prune then _ else _) as [Bs'|] eqn:E; [|discriminate]. cbn [bind]. intros [= <- <- <-]. cbn [vo_ar vo_lags vo_rows vo_resid].
  exists Ms. repeat (split; [reflexivity|]). split; [apply LB; exact eq_refl|]. split; [exact D1|].
  intros Ms0 H. specialize (D2 Ms0 H). injection D2 as -> ->. split; [reflexivity|]. intros r i. apply var_residuals_spec.
Qed.
Print Assumptions C42_fitted_object.
Example C42_fitted_object_example : (* one variable, given coefficient 2, x = 1, 2, 5: residuals 0 and 1 *)
  match var_fit (fun _ _ _ => ([], fun _ _ => 0%Qc)) (fun _ _ => ([0], zmat)) (fun _ _ _ => 0%Qc) 1 false
      {| vo_ar := Some [fun _ _ => qz 2]; vo_lags := 1; vo_resid := fun _ _ => 0%Qc; vo_rows := 0 |} 3 (fun t _ => qz (nth t [1; 2; 5]%Z 0%Z)) with
  | Ok (o, _) => (vo_rows o, vo_lags o, map (fun r => this (vo_resid o r 0)) (seq 0 (vo_rows o)))
  | Err _ => (0, 0, [])
  end = (2, 1, [0; 1]%Q).
Proof. vm_compute. reflexivity. Qed.

(** ** C52 *)
Lemma opp_lt : forall a b : Qc, (a < b)%Qc -> (- b < - a)%Qc.
Proof. intros a b H. apply (proj2 (Qclt_minus_iff (- b) (- a))). replace (- a + - - b)%Qc with (b + - a)%Qc by ring. apply (proj1 (Qclt_minus_iff a b)). exact H. Qed.
(** A variable's model is trained on the columns of exactly the variables whose coefficient is larger
    than 1e-8 in absolute value, in increasing order; without any there is no model and the column
    itself is the error. *)
Theorem C52_training_set : forall fit im v, exists ps,
  (forall j, In j ps <-> j < im_n im /\ ((qf 1 100000000 < im_graph im v j)%Qc \/ (im_graph im v j < - qf 1 100000000)%Qc)) /\
  (forall a b i j, nth_error ps a = Some i -> nth_error ps b = Some j -> a < b -> i < j) /\
  (ps = [] -> tr_model (train fit im v) = None /\ tr_resid (train fit im v) = Some (im_data im v)) /\
  (ps <> [] -> exists m, tr_model (train fit im v) = Some m /\
     m = fit v (map (fun r => map (fun j => nth r (im_data im j) 0%Qc) ps) (seq 0 (im_N im))) (im_data im v) /\
     (im_discrete im v = true -> tr_resid (train fit im v) = None)).
Proof.
  intros fit im v. exists (parents_of (im_n im) (im_graph im) v).
  assert (NZ : forall q, negb (near_zero q) = true <-> ((qf 1 100000000 < q)%Qc \/ (q < - qf 1 100000000)%Qc)).
  { intro q. unfold near_zero. unfold qleb. rewrite negb_involutive, qltb_lt. change (Q2Qc (1 # 100000000)) with (qf 1 100000000).
    assert (P : (0 < qf 1 100000000)%Qc) by reflexivity. unfold qabs. destruct (qltb q 0) eqn:E.
    - apply qltb_lt in E. split; intro H.
      + right. rewrite <- (Qcopp_involutive q). apply opp_lt. exact H.
      + destruct H as [H|H]; [exfalso; apply (Qclt_not_le _ _ (Qclt_trans _ _ _ P H)); apply Qclt_le_weak; exact E|].
        apply opp_lt in H. rewrite Qcopp_involutive in H. exact H.
    - apply qltb_nlt in E. split; intro H; [left; exact H|]. destruct H as [H|H]; [exact H|].
      exfalso. apply (Qclt_not_le _ _ (Qcle_lt_trans _ _ _ E H)). apply Qclt_le_weak. reflexivity. }
  split.
  { intro j. unfold parents_of. rewrite filter_In, NZ, in_seq. split; intros [H1 H2]; (split; [lia|exact H2]). }
  split.
  { unfold parents_of. intros a b i j Ha Hb Hab.
    assert (S : forall s k, let l := filter (fun j => negb (near_zero (im_graph im v j))) (seq s k) in
      (forall a x, nth_error l a = Some x -> s <= x) /\ forall a b x y, nth_error l a = Some x -> nth_error l b = Some y -> a < b -> x < y).
    { clear. intros s k. revert s. induction k as [|k IH]; intro s; cbn [seq filter].
      - split; [intros [|a] x; discriminate|intros [|a] b x y; discriminate].
      - specialize (IH (S s)). cbn zeta in IH. destruct IH as [L O]. destruct (negb _).
        + split.
          * intros [|a] x; cbn [nth_error]; [intros [= <-]; lia|intro H; specialize (L a x H); lia].
          * intros [|a] [|b] x y; cbn [nth_error]; intros H1 H2 H3; try lia.
            -- injection H1 as <-. specialize (L b y H2). lia.
            -- apply (O a b); [exact H1|exact H2|lia].
        + split; [intros a x H; specialize (L a x H); lia|exact O]. }
    destruct (S 0 (im_n im)) as [_ O]. eapply O; eassumption. }
  unfold train. destruct (parents_of (im_n im) (im_graph im) v) as [|q ps] eqn:E.
  - split; [intros _; split; reflexivity|congruence].
  - split; [discriminate|]. intros _. eexists. split; [reflexivity|]. split.
    + cbn [tr_model]. f_equal. unfold rows. apply map_ext. intro r. rewrite map_map. reflexivity.
    + intro D. cbn [tr_resid]. rewrite D. reflexivity.
Qed.
Print Assumptions C52_training_set.
Example C52_training_set_example : (* weights 0, -1 and 1e-9: only variable 1 is used *)
  parents_of 3 (fun v j => if j =? 1 then (- (1))%Qc else if j =? 2 then qf 1 1000000000 else 0%Qc) 0 = [1].
Proof. vm_compute. reflexivity. Qed.
