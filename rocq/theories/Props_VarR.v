(** * C186: VARLiNGAM in other units and with other origins *)
From Coq Require Import Reals Lra Lia Arith Bool List FunctionalExtensionality Permutation.
From Verif Require Import Prelude LibR SpecDirectR SpecVarR ModelDirectR ProofDirectR3 ProofDirectR4 ProofDirectR5 ProofDirectR8 Props_DirectR ModelVarR ProofVarR ProofVarR2.
From Verif Require ModelDirect.
Import ListNotations.
Open Scope R_scope.

Lemma fit_perm : forall lr lars logsv ms n p ok mode X K B, fit lr lars logsv ms n p ok mode X = Ok (K, B) -> Permutation K (seq 0 p).
Proof.
  intros lr lars logsv ms n p ok mode X K B H. unfold fit in H. destruct (fit_order logsv ms n p ok mode X) as [K'|] eqn:F; [|discriminate]. cbn [bind] in H.
  destruct (adjacency_loop _ _ _ _ _ _ _ _); [|discriminate]. cbn [bind] in H. injection H as -> _. apply fit_order_perm in F. exact F.
Qed.

(** In other units (with the same origins) the same lag and causal order are found, and every coefficient changes with the
    units of its two variables.  Without a search for the lag, with or without pruning. *)
Theorem C186_units : forall ols crit lr lars logsv ms pk_shape_ok mode searching prune N p L (X : rseries) (a : nat -> R),
  var_oracle ols -> criterion_oracle crit -> singular_value_oracle logsv -> (forall n, regression_oracle n (lr n)) ->
  (forall n cols y c, lars n cols y = Ok c -> length c = length cols) ->
  (forall n es e cols y, length es = length cols -> Forall is_sign es -> is_sign e ->
     lars n (flip_columns es cols) (fun s => e * y s)
     = match lars n cols y with Ok c => Ok (map (fun ec => e * fst ec * snd ec) (combine es c)) | Err x => Err x end) ->
  (1 <= L)%nat -> (forall k, (1 <= k <= L)%nat -> var_independent N p X k) -> (forall j, (j < p)%nat -> a j <> 0) ->
  match var_fit ols crit lr lars logsv ms pk_shape_ok mode searching prune N p L X,
        var_fit ols crit lr lars logsv ms pk_shape_ok mode searching prune N p L (fun t j => a j * X t j) with
  | Ok (K, Bs), Ok (K', Bs') =>
      K' = K /\ length Bs' = length Bs /\
      forall k i j, (k < length Bs)%nat -> (i < p)%nat -> (j < p)%nat ->
        nth k Bs' (fun _ _ => 0) i j = a i / a j * nth k Bs (fun _ _ => 0) i j
  | Err x, Err x' => x' = x
  | _, _ => False
  end.
Proof.
  intros ols crit lr lars logsv ms ok mode searching prune N p L X a VO CO SV RO LL LS HL IND Ha. unfold var_fit.
  change (fun t j => a j * X t j) with (series_in_units a X).
  destruct (Nat.eqb_spec N 0) as [_|HN]; [reflexivity|]. destruct (Nat.eqb_spec p 0) as [_|Hp0]; [reflexivity|]. cbn [orb].
  assert (Hp : (0 < p)%nat) by lia.
  pose proof (estimate_rel ols crit N p L X a Hp Ha VO CO IND searching HL) as ER.
  destruct (estimate_var_coefs ols crit searching N p L X) as [Ms|x], (estimate_var_coefs ols crit searching N p L (series_in_units a X)) as [Ms'|x']; try contradiction; [|exact ER].
  destruct ER as [RM HM]. cbn [bind]. cbn zeta. rewrite (proj1 RM).
  rewrite (residuals_units p X a Ha Ms Ms' (proj1 RM) (proj2 RM)).
  pose proof (residuals_independent N p X Ms Hp (IND _ HM)) as IR.
  pose proof (independent_rows N p X (length Ms) Hp (IND _ HM)) as HR. set (n := (N - length Ms)%nat) in *.
  pose proof (C162_adjacency_units (lr n) (lars n) logsv ms n p ok mode (residuals p Ms X) a (fun _ => 0) SV (RO n) (LL n) (LS n) ltac:(unfold n; lia) IR Ha) as F.
  destruct (fit (lr n) (lars n) logsv ms n p ok mode (residuals p Ms X)) as [[K B]|x] eqn:E1,
    (fit (lr n) (lars n) logsv ms n p ok mode (fun j => in_units (a j) 0 (residuals p Ms X j))) as [[K' B']|x'] eqn:E2; try contradiction; [|exact F].
  destruct F as [-> HB]. cbn [bind fst snd].
  destruct (calc_b_rel p a Ha B B' Ms Ms' HB RM) as (Bt & Bt' & C1 & C2 & RT & LT). rewrite C1, C2.
  assert (Fin : forall D Dt D' Dt', in_units_matrix a D D' -> mats_rel p a Dt Dt' ->
    length (D' :: Dt') = length (D :: Dt) /\ forall k i j, (k < length (D :: Dt))%nat -> (i < p)%nat -> (j < p)%nat ->
        nth k (D' :: Dt') (fun _ _ => 0) i j = a i / a j * nth k (D :: Dt) (fun _ _ => 0) i j).
  { intros D Dt D' Dt' H1 H2. apply (mats_rel_cons p a D D' Dt Dt'); [intros; apply H1|exact H2]. }
  destruct prune; [|split; [reflexivity|apply Fin; assumption] ].
  apply fit_perm in E1.
  pose proof (prune_rel lr lars N p L X a Hp Ha IND RO LL LS K HL E1 (seq 0 p) (B :: Bt) (B' :: Bt') ltac:(intros i Hi; apply in_seq in Hi; lia)) as P.
  specialize (P ltac:(exists B, Bt, B', Bt'; repeat split; try assumption; [apply (proj1 RT)|apply (proj2 RT)|lia])).
  unfold prune_all.
  destruct (fold_left _ (seq 0 p) (Ok (B :: Bt))) as [Cs|x], (fold_left _ (seq 0 p) (Ok (B' :: Bt'))) as [Cs'|x']; try contradiction; [|exact P].
  cbn [bind]. split; [reflexivity|]. destruct P as (D & Dt & D' & Dt' & -> & -> & H1 & H2 & _). apply Fin; assumption.
Qed.

(** The origin of the scales does matter, because the VAR model is fitted without a constant term: five observations around the
    level [level] that do not depend on the past at all (the deviations +1, -1, -1, +1, +1 have autocovariance zero) get the
    autoregressive coefficient level^2 / (level^2 + 1): 0 when the level is 0, 0.99 when it is 10. *)
Definition deviation (t : nat) : R := nth t [1; -1; -1; 1; 1] 0.
Theorem C186_origin_refuted : forall ols crit lr lars logsv ms pk_shape_ok level, var_oracle ols ->
  exists B0 B1, var_fit ols crit lr lars logsv ms pk_shape_ok ModelDirect.NoPK false false 5 1 1 (fun t _ => level + deviation t) = Ok ([0%nat], [B0; B1]) /\
    B0 0%nat 0%nat = 0 /\ B1 0%nat 0%nat = level ^ 2 / (level ^ 2 + 1).
Proof.
  intros ols crit lr lars logsv ms ok v VO. set (X := (fun t _ => v + deviation t) : rseries).
  assert (I : var_independent 5 1 X 1).
  { intros cs b L H. destruct cs as [|c [|d [|] ] ]; try discriminate.
    pose proof (H 0%nat ltac:(lia)) as H0. pose proof (H 1%nat ltac:(lia)) as H1. pose proof (H 2%nat ltac:(lia)) as H2. pose proof (H 3%nat ltac:(lia)) as H3.
    unfold stacked, X, deviation in H0, H1, H2, H3. cbn in H0, H1, H2, H3. repeat constructor; lra. }
  destruct (VO 5%nat 1%nat X 1%nat I) as (Ms & E & LS). destruct Ms as [|M [|] ]; try (destruct LS as [LS _]; discriminate).
  unfold var_fit, estimate_var_coefs. cbn [Nat.eqb orb]. fold X. rewrite E. cbn [bind length Nat.sub].
  assert (F : forall n Z, (0 < n)%nat -> fit (lr n) (lars n) logsv ms n 1 ok ModelDirect.NoPK Z = Ok ([0%nat], fun _ _ => 0)).
  { intros n Z Hn. unfold fit, fit_order. destruct (Nat.eqb_spec n 0); [lia|]. destruct ms; reflexivity. }
  rewrite F by lia. cbn [bind fst snd]. unfold calc_b. cbn [map]. eexists. eexists. split; [reflexivity|]. split; [reflexivity|].
  cbn [rsum]. unfold rid. cbn [Nat.eqb]. 
  set (m := M 0%nat 0%nat). 
  assert (Q : forall m', prediction_error 5 1 X [M] 0 <= prediction_error 5 1 X [(fun _ _ => m') : rmat] 0) by (intro m'; apply (proj2 LS); [lia|reflexivity]).
  assert (PE : forall M0 : rmat, prediction_error 5 1 X [M0] 0 = 4 * (v ^ 2 + 1) * (M0 0%nat 0%nat) ^ 2 - 8 * v ^ 2 * M0 0%nat 0%nat + 4 * (v ^ 2 + 1)).
  { intro M0. unfold prediction_error, predicted, X, deviation. cbn. ring. }
  assert (P : 0 < v ^ 2 + 1) by (pose proof (pow2_ge_0 v); lra).
  specialize (Q (v ^ 2 / (v ^ 2 + 1))). rewrite !PE in Q. fold m in Q. 
  assert (S : (m - v ^ 2 / (v ^ 2 + 1)) ^ 2 <= 0).
  { apply (Rmult_le_reg_l (4 * (v ^ 2 + 1))); [lra|]. rewrite Rmult_0_r.
    replace (4 * (v ^ 2 + 1) * (m - v ^ 2 / (v ^ 2 + 1)) ^ 2)
      with (4 * (v ^ 2 + 1) * m ^ 2 - 8 * v ^ 2 * m + 4 * (v ^ 2 + 1) - (4 * (v ^ 2 + 1) * (v ^ 2 / (v ^ 2 + 1)) ^ 2 - 8 * v ^ 2 * (v ^ 2 / (v ^ 2 + 1)) + 4 * (v ^ 2 + 1))) by (field; lra).
    lra. }
  assert (Z : (m - v ^ 2 / (v ^ 2 + 1)) ^ 2 = 0) by (pose proof (pow2_ge_0 (m - v ^ 2 / (v ^ 2 + 1))); lra).
  assert (m - v ^ 2 / (v ^ 2 + 1) = 0) by (apply Rsqr_0_uniq; unfold Rsqr; rewrite <- Z; ring). lra.
Qed.

(** ** Examples: oracles that meet their specifications *)
(** least squares without constant term: every row once more with the opposite sign, then a fit with constant term *)
Definition twice (n : nat) (x : nat -> R) : nat -> R := fun s => if (s <? n)%nat then x s else - x (s - n)%nat.
Lemma lin_twice : forall n cols cs s, lin cs (map (twice n) cols) s = if (s <? n)%nat then lin cs cols s else - lin cs cols (s - n)%nat.
Proof.
  intros n. induction cols as [|x cols IH]; intros [|c cs] s; cbn [map lin]; [destruct (s <? n)%nat; ring..|]. rewrite IH. unfold twice. destruct (s <? n)%nat; ring.
Qed.
Lemma sse_twice : forall n cols y cs b, sse (n + n) cs b (map (twice n) cols) (twice n y) = 2 * rsum n (fun s => (y s - lin cs cols s) ^ 2) + 2 * INR n * b ^ 2.
Proof.
  intros n cols y cs b. unfold sse. rewrite rsum_split.
  rewrite (rsum_ext n _ (fun s => (y s - (lin cs cols s + b)) ^ 2)).
  2:{ intros s Hs. rewrite lin_twice. unfold twice. destruct (Nat.ltb_spec s n); [reflexivity|lia]. }
  rewrite (rsum_ext n (fun i => (twice n y (n + i) - _) ^ 2) (fun s => (- y s - (- lin cs cols s + b)) ^ 2)).
  2:{ intros s Hs. rewrite lin_twice. unfold twice. destruct (Nat.ltb_spec (n + s) n); [lia|]. replace (n + s - n)%nat with s by lia. reflexivity. }
  rewrite <- rsum_plus, <- rsum_scal. replace (2 * INR n * b ^ 2) with (rsum n (fun _ => 2 * b ^ 2)) by (rewrite rsum_const; ring).
  rewrite <- rsum_plus. apply rsum_ext. intros s _. ring.
Qed.
Definition lag_column (p k : nat) (X : rseries) (c s : nat) : R := X (k + s - 1 - c / p)%nat (c mod p)%nat.
Definition ex_coefs (N p : nat) (X : rseries) (k i : nat) : list R :=
  fst (ls (N - k + (N - k)) (map (twice (N - k)) (map (lag_column p k X) (seq 0 (p * k)))) (twice (N - k) (fun s => X (k + s)%nat i))).
Definition ex_ols (N p : nat) (X : rseries) (k : nat) : result (list rmat) :=
  Ok (map (fun t => (fun i l => nth (t * p + l) (ex_coefs N p X k i) 0) : rmat) (seq 0 k)).
Lemma predicted_lin : forall p X k (Ms : list rmat) cs t i, (0 < p)%nat -> length Ms = k -> length cs = (p * k)%nat ->
  (forall u l, (u < k)%nat -> (l < p)%nat -> nth u Ms (fun _ _ => 0) i l = nth (u * p + l) cs 0) ->
  predicted p Ms X (k + t) i = lin cs (map (lag_column p k X) (seq 0 (p * k))) t.
Proof.
  intros p X k Ms cs t i Hp LM LC H. unfold predicted. rewrite LM.
  assert (Ecs : cs = map (fun j => nth j cs 0) (seq 0 (p * k))).
  { apply nth_ext with (d := 0) (d' := 0); [rewrite map_length, seq_length; exact LC|]. intros j Hj. rewrite nth_map_seq by lia. reflexivity. }
  rewrite Ecs, lin_seq. cbn [Nat.add]. unfold lag_column.
  transitivity (rsum (p * k) (fun c => (fun u l => nth (u * p + l) cs 0 * X (k + t - 1 - u)%nat l) (c / p)%nat (c mod p)%nat)).
  - rewrite (rsum_blocks p (fun u l => nth (u * p + l) cs 0 * X (k + t - 1 - u)%nat l) k Hp). apply rsum_ext. intros u Hu. apply rsum_ext. intros l Hl. rewrite H by assumption. reflexivity.
  - apply rsum_ext. intros c _. cbn beta. f_equal. f_equal. rewrite (Nat.div_mod c p) at 3 by lia. lia.
Qed.
Lemma ex_ols_least : forall N p X k, exists Ms, ex_ols N p X k = Ok Ms /\ var_least_squares N p X k Ms.
Proof.
  intros N p X k. set (Ms := map (fun t => (fun i l => nth (t * p + l) (ex_coefs N p X k i) 0) : rmat) (seq 0 k)). exists Ms.
  split; [reflexivity|]. split; [unfold Ms; rewrite map_length, seq_length; reflexivity|]. intros i Hi Ms' L'.
  assert (LM : length Ms = k) by (unfold Ms; rewrite map_length, seq_length; reflexivity).
  unfold prediction_error. rewrite LM, L'. set (n := (N - k)%nat). destruct (Nat.eq_dec n 0) as [->|Hn]; [apply Rle_refl|].
  assert (Hp : (0 < p)%nat) by lia. set (cols := map (lag_column p k X) (seq 0 (p * k))).
  pose proof (ls_least (n + n) ltac:(lia) (map (twice n) cols) (twice n (fun s => X (k + s)%nat i))) as (LC & b & M).
  change (fst (ls (n + n) (map (twice n) cols) (twice n (fun s => X (k + s)%nat i)))) with (ex_coefs N p X k i) in *.
  set (cs := ex_coefs N p X k i) in *. unfold cols in LC. rewrite !map_length, seq_length in LC.
  set (cs' := map (fun c => nth (c / p) Ms' (fun _ _ => 0) i (c mod p)%nat) (seq 0 (p * k))).
  assert (LC' : length cs' = (p * k)%nat) by (unfold cs'; rewrite map_length, seq_length; reflexivity).
  specialize (M cs' 0). unfold cols in M at 1. rewrite !map_length, seq_length in M. specialize (M LC'). rewrite !sse_twice in M.
  assert (NN : 0 <= INR n * b ^ 2) by (apply Rmult_le_pos; [apply pos_INR|apply pow2_ge_0]).
  rewrite (rsum_ext n _ (fun s => (X (k + s)%nat i - lin cs cols s) ^ 2)).
  2:{ intros s _. rewrite (predicted_lin p X k Ms cs) by (try assumption; intros u l Hu Hl; unfold Ms; rewrite nth_map_seq by exact Hu; reflexivity). reflexivity. }
  rewrite (rsum_ext n (fun s => (X (k + s)%nat i - predicted p Ms' X (k + s) i) ^ 2) (fun s => (X (k + s)%nat i - lin cs' cols s) ^ 2)).
  2:{ intros s _. rewrite (predicted_lin p X k Ms' cs'); [reflexivity|exact Hp|exact L'|exact LC'|]. intros u l Hu Hl. unfold cs'. rewrite nth_map_seq by nia.
      f_equal; [f_equal|]; [|rewrite Nat.add_comm, Nat.mod_add, Nat.mod_small by lia; reflexivity]. rewrite Nat.div_add_l, Nat.div_small by lia. f_equal. lia. }
  lra.
Qed.
Example C186_example_ols : var_oracle ex_ols.
Proof. intros N p X k _. apply ex_ols_least. Qed.
(** an information criterion: the product of the sums of squared errors, times a penalty *)
Fixpoint rprod (n : nat) (f : nat -> R) : R := match n with O => 1 | S n => rprod n f * f n end.
Definition ex_crit (N p : nat) (X : rseries) (k : nat) : option R :=
  match ex_ols N p X k with Ok Ms => Some (INR (N + p * k) ^ p * rprod p (prediction_error N p X Ms)) | Err _ => None end.
Example C186_example_criterion : criterion_oracle ex_crit.
Proof.
  intros N p X a Ha. exists (rprod p (fun i => a i ^ 2)), 0.
  assert (P : forall m, (m <= p)%nat -> 0 < rprod m (fun i => a i ^ 2)).
  { induction m as [|m IH]; intro H; cbn [rprod]; [lra|]. apply Rmult_lt_0_compat; [apply IH; lia|]. pose proof (Ha m ltac:(lia)). apply Rsqr_pos_lt in H0. unfold Rsqr in H0. lra. }
  split; [apply P; lia|]. intro k. unfold ex_crit.
  destruct (ex_ols_least N p X k) as (Ms & E & LS). destruct (ex_ols_least N p (series_in_units a X) k) as (Ms' & E' & LS'). rewrite E, E'. cbn [option_map].
  f_equal. rewrite Rplus_0_r.
  assert (Q : forall m, (m <= p)%nat -> rprod m (prediction_error N p (series_in_units a X) Ms') = rprod m (fun i => a i ^ 2) * rprod m (prediction_error N p X Ms)).
  { induction m as [|m IH]; intro H; cbn [rprod]; [ring|]. rewrite IH by lia.
    replace (prediction_error N p (series_in_units a X) Ms' m) with (a m ^ 2 * prediction_error N p X Ms m); [ring|].
    rewrite <- (error_units p X a Ha). apply Rle_antisym.
    - apply (proj2 (least_units p X a Ha N k Ms LS)); [lia|apply (proj1 LS')].
    - apply (proj2 LS'); [lia|]. rewrite map_length. apply (proj1 LS). }
  rewrite Q by lia. ring.
Qed.
Definition ex_lr_n (n : nat) (cols : list (nat -> R)) (y : nat -> R) : list R := if (n =? 0)%nat then map (fun _ => 0) cols else fst (ls n cols y).
Example C186_example_regression : forall n, regression_oracle n (ex_lr_n n).
Proof.
  intros n cols y _. unfold ex_lr_n. destruct (Nat.eqb_spec n 0) as [->|H]; [|apply ls_least; lia].
  split; [apply map_length|]. exists 0. intros. apply Rle_refl.
Qed.
(** two variables, eight observations, the second follows the first with a delay *)
Definition ex_series : rseries := fun t j => nth j (nth t [[1; 0]; [1; 1]; [-1; 1]; [1; -2]; [2; 1]; [0; 3]; [-1; 0]; [3; 1] ] []) 0.
Example C186_example_independent : forall k, (1 <= k <= 1)%nat -> var_independent 8 2 ex_series k.
Proof.
  intros k Hk. replace k with 1%nat by lia. intros cs b L H. destruct cs as [|c0 [|c1 [|c2 [|c3 [|] ] ] ] ]; try discriminate.
  pose proof (H 0%nat ltac:(lia)) as H0. pose proof (H 1%nat ltac:(lia)) as H1. pose proof (H 2%nat ltac:(lia)) as H2. pose proof (H 3%nat ltac:(lia)) as H3.
  pose proof (H 4%nat ltac:(lia)) as H4. pose proof (H 5%nat ltac:(lia)) as H5. pose proof (H 6%nat ltac:(lia)) as H6.
  unfold stacked, ex_series in H0, H1, H2, H3, H4, H5, H6. cbn in H0, H1, H2, H3, H4, H5, H6. repeat constructor; lra.
Qed.
(** from metres to millimetres, and with the sign of the second variable changed: with search and pruning *)
Example C186_example_units : forall logsv, singular_value_oracle logsv ->
  match var_fit ex_ols ex_crit ex_lr_n (fun _ => ex_lars) logsv ModelDirect.Pwling true ModelDirect.NoPK true true 8 2 1 ex_series,
        var_fit ex_ols ex_crit ex_lr_n (fun _ => ex_lars) logsv ModelDirect.Pwling true ModelDirect.NoPK true true 8 2 1 (fun t j => (if (j =? 0)%nat then 1000 else -1) * ex_series t j) with
  | Ok (K, Bs), Ok (K', Bs') => K' = K /\ nth 1 Bs' (fun _ _ => 0) 1%nat 0%nat = -1 / 1000 * nth 1 Bs (fun _ _ => 0) 1%nat 0%nat
  | Err x, Err x' => x' = x
  | _, _ => False
  end.
Proof.
  intros logsv SV.
  pose proof (C186_units ex_ols ex_crit ex_lr_n (fun _ => ex_lars) logsv ModelDirect.Pwling true ModelDirect.NoPK true true 8 2 1 ex_series (fun j => if (j =? 0)%nat then 1000 else -1)
    C186_example_ols C186_example_criterion SV C186_example_regression (fun _ => ex_lars_length) (fun _ => ex_lars_signs) ltac:(lia) C186_example_independent
    ltac:(intros j _; cbn beta; destruct (j =? 0)%nat; lra)) as H. cbn beta in H.
  destruct (var_fit _ _ _ _ _ _ _ _ _ _ _ _ _ ex_series) as [[K Bs]|x], (var_fit _ _ _ _ _ _ _ _ _ _ _ _ _ (fun t j => _ * _)) as [[K' Bs']|x']; try contradiction; [|exact H].
  destruct H as (HK & HL & H). split; [exact HK|]. destruct Bs as [|B0 [|B1 Bs] ].
  - destruct Bs'; [cbn; ring|discriminate].
  - destruct Bs' as [|? [|] ]; try discriminate. cbn. ring.
  - rewrite H by (cbn; lia). reflexivity.
Qed.
(** at the level 10 the coefficient is 100/101 *)
Example C186_example_level : forall lr lars logsv, exists B0 B1,
  var_fit ex_ols ex_crit lr lars logsv ModelDirect.Pwling true ModelDirect.NoPK false false 5 1 1 (fun t _ => 10 + deviation t) = Ok ([0%nat], [B0; B1]) /\ B1 0%nat 0%nat = 100 / 101.
Proof.
  intros lr lars logsv. destruct (C186_origin_refuted ex_ols ex_crit lr lars logsv ModelDirect.Pwling true 10 C186_example_ols) as (B0 & B1 & E & _ & H).
  exists B0, B1. split; [exact E|]. rewrite H. field.
Qed.

Print Assumptions C186_units.
Print Assumptions C186_origin_refuted.
