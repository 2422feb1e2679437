(** * Properties of the score of LiM's local search (C156-C159) *)
From Coq Require Import Reals ZArith Lra Lia Arith Bool List.
From Verif Require Import Prelude LibR SpecBic ModelBic ProofBic ProofBic2.
Import ListNotations.
Open Scope R_scope.

(** ** C156: the score is a sum of one term per variable and a penalty *)
(** The term of a variable depends on the graph through the list of its parents only; the penalty is log n / 2 for every edge
    and every variable; the score is a number exactly if all terms are. *)
Theorem C156_decomposition : forall logistic coef linear n d X is_discrete is_poisson,
  exists term : nat -> list nat -> option R, forall W sc,
  let parents_of := fun i => filter (fun j => if Req_EM_T (W j i) 0 then false else true) (seq 0 d) in
  (bic_scoring logistic coef linear n d X is_discrete is_poisson W = Some sc <->
   exists t, (forall i, (i < d)%nat -> term i (parents_of i) = Some (t i)) /\
     sc = rsum d t - ln (INR n) / 2 * (rsum d (fun i => INR (length (parents_of i))) + INR d)).
Proof.
  intros. exists (fun i ps => if is_discrete i && negb is_poisson then (match ps with [] => Some (bernoulli n X i) | _ => Some (logistic_term logistic n ps i) end)
    else if is_discrete i && is_poisson then (match ps with [] => Some (bernoulli n X i) | _ => Some (poisson_term coef n X ps i) end) else continuous_term linear n d X ps i).
  intros W sc. cbv zeta. unfold bic_scoring. cbv zeta. rewrite edges_by_parents. rewrite fold_add_opt. split; intros (v & Hv & ->); exists v.
  - split; [intros i Hi; apply (Hv i); apply in_seq; lia|]. rewrite fold_seq_rsum, plus_INR, INR_nsum. unfold parents, nonzero. ring.
  - split; [intros i Hi; apply in_seq in Hi; apply (Hv i); lia|]. rewrite fold_seq_rsum, plus_INR, INR_nsum. unfold parents, nonzero. ring.
Qed.
(** Graphs with the same edges have the same score, whatever the weights. *)
Theorem C156_weights_irrelevant : forall logistic coef linear n d X is_discrete is_poisson W W',
  (forall i j, (i < d)%nat -> (j < d)%nat -> (W i j = 0 <-> W' i j = 0)) ->
  bic_scoring logistic coef linear n d X is_discrete is_poisson W = bic_scoring logistic coef linear n d X is_discrete is_poisson W'.
Proof.
  intros logistic coef linear n d X is_discrete is_poisson W W' H.
  assert (P : forall i, (i < d)%nat -> parents d W i = parents d W' i).
  { intros i Hi. unfold parents. apply filter_ext_in. intros j Hj. apply in_seq in Hj. unfold nonzero. specialize (H j i ltac:(lia) Hi).
    destruct (Req_EM_T (W j i) 0) as [A|A], (Req_EM_T (W' j i) 0) as [B|B]; try reflexivity; exfalso; tauto. }
  unfold bic_scoring. assert (E : number_of_edges d W = number_of_edges d W').
  { rewrite !edges_by_parents. assert (G : forall k, (k <= d)%nat -> nsum k (fun i => length (parents d W i)) = nsum k (fun i => length (parents d W' i))).
    { induction k as [|k IH]; intro Hk; [reflexivity|]. cbn [nsum]. rewrite IH, P by lia. reflexivity. }
    apply G. lia. }
  rewrite E. cbv zeta. set (s0 := Some _). clearbody s0. assert (G : forall l s, (forall i, In i l -> (i < d)%nat) ->
    fold_left (fun acc i => add_opt acc (node_term logistic coef linear n d X is_discrete is_poisson W i)) l s =
    fold_left (fun acc i => add_opt acc (node_term logistic coef linear n d X is_discrete is_poisson W' i)) l s).
  { induction l as [|i l IH]; intros s Hl; [reflexivity|]. cbn [fold_left]. unfold node_term at 2 4. rewrite (P i) by (apply Hl; left; reflexivity). apply IH. intros; apply Hl; right; assumption. }
  apply G. intros i Hi. apply in_seq in Hi. lia.
Qed.
(** A discrete variable without parents adds the largest log-likelihood any distribution on its values gives to its samples. *)
Theorem C156_discrete_root_maximum_likelihood : forall n X i,
  let values := nodup Req_EM_T (map (fun s => X s i) (seq 0 n)) in
  let frequency := fun v => INR (length (filter (fun s => if Req_EM_T (X s i) v then true else false) (seq 0 n))) / INR n in
  bernoulli n X i = rsum n (fun s => ln (frequency (X s i))) /\
  (forall q, (forall v, In v values -> 0 < q v) -> lsum values q <= 1 -> rsum n (fun s => ln (q (X s i))) <= bernoulli n X i) /\
  ((0 < n)%nat -> (forall v, In v values -> 0 < frequency v) /\ lsum values frequency = 1).
Proof.
  intros n X i. cbv zeta. split; [apply bernoulli_sum|]. split; [intros q; apply (gibbs n X i)|].
  intro Hn. assert (N : 0 < INR n) by (apply lt_0_INR; exact Hn). split.
  - intros v Hv. apply Rdiv_lt_0_compat; [|exact N]. pose proof (count_pos n X i v Hv) as C. unfold count in C. lra.
  - pose proof (sum_by_value n X i (fun _ => / INR n)) as S. cbn beta in S. rewrite rsum_const, Rinv_r in S by lra. symmetry. rewrite S. reflexivity.
Qed.
Theorem C156_discrete_root_sign : forall n X i, bernoulli n X i <= 0 /\
  (bernoulli n X i = 0 <-> forall s t, (s < n)%nat -> (t < n)%nat -> X s i = X t i).
Proof. intros. split; [apply bernoulli_nonpos|apply bernoulli_zero]. Qed.
Print Assumptions C156_decomposition.
Print Assumptions C156_weights_irrelevant.
Print Assumptions C156_discrete_root_maximum_likelihood.
Print Assumptions C156_discrete_root_sign.

(** ** C157: the term of a continuous variable *)
(** It is the log-likelihood of the samples under Laplace disturbances whose standard deviation is that of the residuals, up to a
    constant that depends on the number of samples only. *)
Theorem C157_laplace_likelihood : forall n d X i b b0 v, likelihood_i n d X i b b0 = Some v ->
  let e := fun s => X s i - rsum d (fun j => b j * X s j) in
  let var := rsum n (fun s => (e s - rsum n e / INR n) ^ 2) / INR n in
  0 < var /\ v = rsum n (fun s => ln (laplace (sqrt var) (e s - b0))) + INR n * (ln (sqrt 2) - 35 / 100).
Proof. intros n d X i b b0 v H. exact (likelihood_laplace n d X i b b0 v H). Qed.
(** The Laplace density has mass one; what the code calls a density has mass sqrt 2 exp(-0.35), a little less than one. *)
Theorem C157_laplace_is_density : forall sigma, 0 < sigma -> total_mass (laplace sigma) 1.
Proof.
  intros sigma H. pose proof sqrt2_pos as S. assert (K : 0 < sqrt 2 / sigma) by (apply Rdiv_lt_0_compat; assumption).
  assert (C : 0 < / (sqrt 2 * sigma)) by (apply Rinv_0_lt_compat, Rmult_lt_0_compat; assumption).
  destruct (lap_mass (/ (sqrt 2 * sigma)) (sqrt 2 / sigma) K C) as (F & D & L). exists F. split.
  - intro x. eapply dlim_val; [|apply D]. unfold laplace. replace (- (sqrt 2 / sigma) * Rabs x) with (- sqrt 2 * Rabs x / sigma) by (field; lra). field. lra.
  - intros eps He. destruct (L eps He) as [T HT]. exists T. intros a b Ha Hb. specialize (HT a b Ha Hb).
    replace (2 * / (sqrt 2 * sigma) / (sqrt 2 / sigma)) with 1 in HT; [exact HT|]. assert (Q := sqrt2_sq). field_simplify; [|lra..]. replace (sqrt 2 ^ 2) with 2 by (cbn; lra). lra.
Qed.
Theorem C157_code_density_mass : exists m, total_mass (fun s => exp (log_p_super_gaussian s)) m /\ m = sqrt 2 * exp (- (35 / 100)) /\ m < 1 /\
  ~ total_mass (fun s => exp (log_p_super_gaussian s)) 1.
Proof.
  pose proof sqrt2_pos as S. assert (M : total_mass (fun s => exp (log_p_super_gaussian s)) (sqrt 2 * exp (- (35 / 100)))).
  { destruct (lap_mass (exp (- (35 / 100))) (sqrt 2) S (exp_pos _)) as (F & D & L). exists F. split.
    - intro x. eapply dlim_val; [|apply D]. unfold log_p_super_gaussian. rewrite exp_plus. ring.
    - intros eps He. destruct (L eps He) as [T HT]. exists T. intros a b Ha Hb. specialize (HT a b Ha Hb).
      replace (2 * exp (- (35 / 100)) / sqrt 2) with (sqrt 2 * exp (- (35 / 100))) in HT; [exact HT|]. replace 2 with (sqrt 2 * sqrt 2) at 2 by apply sqrt2_sq. field. lra. }
  exists (sqrt 2 * exp (- (35 / 100))). split; [exact M|]. split; [reflexivity|].
  assert (L : sqrt 2 * exp (- (35 / 100)) < 1).
  { rewrite exp_Ropp. pose proof sqrt2_below_exp as B. pose proof (exp_pos (35 / 100)) as E. apply (Rmult_lt_reg_r (exp (35 / 100))); [exact E|]. rewrite Rmult_assoc, Rinv_l by lra. lra. }
  split; [exact L|]. intro Q. pose proof (mass_unique _ _ _ M Q). lra.
Qed.
(** In other units of all variables, with coefficients and intercept converted accordingly, the term changes by -n log |a_i|. *)
Theorem C157_units : forall n d X i b b0 (a t : nat -> R), (forall j, (j < d)%nat -> a j <> 0) -> (i < d)%nat ->
  likelihood_i n d (fun s j => a j * X s j + t j) i (fun j => a i / a j * b j) (a i * b0 + t i - rsum d (fun j => a i / a j * b j * t j)) =
  match likelihood_i n d X i b b0 with Some v => Some (v - INR n * ln (Rabs (a i))) | None => None end.
Proof. exact likelihood_units. Qed.
(** It is not a finite number exactly if all residuals are equal. *)
Theorem C157_undefined : forall n d X i b b0, (0 < n)%nat ->
  likelihood_i n d X i b b0 = None <-> forall s t, (s < n)%nat -> (t < n)%nat -> X s i - rsum d (fun j => b j * X s j) = X t i - rsum d (fun j => b j * X t j).
Proof. exact likelihood_none. Qed.
Print Assumptions C157_laplace_likelihood.
Print Assumptions C157_laplace_is_density.
Print Assumptions C157_code_density_mass.
Print Assumptions C157_units.
Print Assumptions C157_undefined.

(** ** Four samples of two variables *)
(** x = (1, -1, 1, -1) and y = (1, -1, 0, 0): the least squares coefficient of y on x is 1/2, the residuals are -+ 1/2. *)
Definition bx : rmat := fun s j => match j, s with
  | O, O => 1 | O, 1%nat => -1 | O, 2%nat => 1 | O, 3%nat => -1 | 1%nat, O => 1 | 1%nat, 1%nat => -1 | _, _ => 0 end.
Definition half_fit (ps : list nat) (i : nat) : (nat -> R) * R := (fun _ => 1 / 2, 0).
Lemma likelihood_some : forall n d X i b b0 var, variance_i n d X i b = var -> 0 < var ->
  likelihood_i n d X i b b0 = Some (rsum n (fun s => log_p_super_gaussian ((disturbance d X i b s - b0) / sqrt var)) - INR n * ln (sqrt var)).
Proof. intros n d X i b b0 var E P. unfold likelihood_i. rewrite E. cbv zeta. destruct (Req_EM_T var 0) as [Z|_]; [lra|reflexivity]. Qed.
Lemma logp0 : log_p_super_gaussian 0 = - (35 / 100). Proof. unfold log_p_super_gaussian. rewrite Rabs_R0. ring. Qed.
Lemma logpm : forall z, log_p_super_gaussian (- z) = log_p_super_gaussian z. Proof. intro z. unfold log_p_super_gaussian. rewrite Rabs_Ropp. reflexivity. Qed.
Lemma logpp : forall z, 0 <= z -> log_p_super_gaussian z = - sqrt 2 * z - 35 / 100. Proof. intros z H. unfold log_p_super_gaussian. rewrite Rabs_pos_eq by exact H. ring. Qed.
Lemma ln_sqrt : forall v, 0 < v -> ln (sqrt v) = ln v / 2.
Proof. intros v H. pose proof (sqrt_lt_R0 v H) as S. rewrite <- (sqrt_sqrt v) at 2 by lra. rewrite ln_mult by assumption. field. Qed.
Lemma sqrt_half : sqrt (/ 2) = / sqrt 2.
Proof.
  pose proof sqrt2_pos as S. pose proof sqrt2_sq as Q. apply sqrt_lem_1; [lra|left; apply Rinv_0_lt_compat; exact S|].
  rewrite <- Rinv_mult, Q. reflexivity.
Qed.
Lemma ln2_bounds : 0 < ln 2 < 3 / 4.
Proof.
  split; [rewrite <- ln_1; apply ln_increasing; lra|]. rewrite <- (ln_exp (3 / 4)). apply ln_increasing; [lra|].
  set (q := exp (3 / 32)). assert (Q : 1 + 3 / 32 < q) by (unfold q; pose proof (exp_ineq1 (3 / 32) ltac:(lra)); lra).
  replace (3 / 4) with (3 / 32 + 3 / 32 + (3 / 32 + 3 / 32) + (3 / 32 + 3 / 32 + (3 / 32 + 3 / 32))) by lra. rewrite !exp_plus. fold q.
  assert (M : forall u v w, 0 < u -> u < v -> w <= u * u -> w < v * v) by (intros u v w P1 P2 P3; assert (u * u < v * v) by (apply Rmult_gt_0_lt_compat; lra); lra).
  assert (Q1 : 1.196 < q * q) by (apply (M (1 + 3 / 32)); lra). assert (Q2 : 1.43 < q * q * (q * q)) by (apply (M 1.196); lra). apply (M 1.43); lra.
Qed.
Lemma sqrt2_lower : 1.4 < sqrt 2.
Proof. apply Rsqr_incrst_0; [|lra|left; apply sqrt2_pos]. unfold Rsqr. rewrite sqrt2_sq. lra. Qed.
Definition no_edge : rmat := fun _ _ => 0.
Definition one_edge : rmat := fun j i => match j, i with O, 1%nat => 1 | _, _ => 0 end.
Ltac conds := repeat (match goal with |- context [Req_EM_T ?a ?b] => destruct (Req_EM_T a b); try lra end).
Lemma par_no : forall i, parents 2 no_edge i = []. Proof. intro i. unfold parents, nonzero, no_edge. cbn. conds. reflexivity. Qed.
Lemma par_one0 : parents 2 one_edge 0 = []. Proof. unfold parents, nonzero, one_edge. cbn. conds. reflexivity. Qed.
Lemma par_one1 : parents 2 one_edge 1 = [0%nat]. Proof. unfold parents, nonzero, one_edge. cbn. conds. reflexivity. Qed.
Lemma ed_no : number_of_edges 2 no_edge = 0%nat. Proof. rewrite edges_by_parents. cbn [nsum]. rewrite !par_no. reflexivity. Qed.
Lemma ed_one : number_of_edges 2 one_edge = 1%nat. Proof. rewrite edges_by_parents. cbn [nsum]. rewrite par_one0, par_one1. reflexivity. Qed.
Lemma term_x : continuous_term half_fit 4 2 bx [] 0 = Some (4 * (- sqrt 2 - 35 / 100)).
Proof.
  cbn [continuous_term]. rewrite (likelihood_some _ _ _ _ _ _ 1); [|unfold variance_i, disturbance, bx; cbn; lra|lra]. f_equal.
  rewrite sqrt_1, ln_1. unfold disturbance, bx. cbn [rsum INR].
  replace ((1 - (0 + 0 * 1 + 0 * 1) - (0 + 1 + -1 + 1 + -1) / (1 + 1 + 1 + 1)) / 1) with 1 by lra.
  replace ((-1 - (0 + 0 * -1 + 0 * -1) - (0 + 1 + -1 + 1 + -1) / (1 + 1 + 1 + 1)) / 1) with (- (1)) by lra.
  replace ((1 - (0 + 0 * 1 + 0 * 0) - (0 + 1 + -1 + 1 + -1) / (1 + 1 + 1 + 1)) / 1) with 1 by lra.
  replace ((-1 - (0 + 0 * -1 + 0 * 0) - (0 + 1 + -1 + 1 + -1) / (1 + 1 + 1 + 1)) / 1) with (- (1)) by lra.
  rewrite logpm, logpp by lra. ring.
Qed.
Lemma term_y_root : continuous_term half_fit 4 2 bx [] 1 = Some (- 4 - 4 * (35 / 100) + 2 * ln 2).
Proof.
  cbn [continuous_term]. rewrite (likelihood_some _ _ _ _ _ _ (/ 2)); [|unfold variance_i, disturbance, bx; cbn; lra|lra]. f_equal.
  rewrite ln_sqrt, ln_Rinv by lra. rewrite sqrt_half. unfold disturbance, bx. cbn [rsum INR]. pose proof sqrt2_pos as S. pose proof sqrt2_sq as Q.
  replace ((1 - (0 + 0 * 1 + 0 * 1) - (0 + 1 + -1 + 0 + 0) / (1 + 1 + 1 + 1)) / / sqrt 2) with (sqrt 2) by (field; lra).
  replace ((-1 - (0 + 0 * -1 + 0 * -1) - (0 + 1 + -1 + 0 + 0) / (1 + 1 + 1 + 1)) / / sqrt 2) with (- sqrt 2) by (field; lra).
  replace ((0 - (0 + 0 * 1 + 0 * 0) - (0 + 1 + -1 + 0 + 0) / (1 + 1 + 1 + 1)) / / sqrt 2) with 0 by (field; lra).
  replace ((0 - (0 + 0 * -1 + 0 * 0) - (0 + 1 + -1 + 0 + 0) / (1 + 1 + 1 + 1)) / / sqrt 2) with 0 by (field; lra).
  rewrite logpm, logp0, logpp by lra. replace (- sqrt 2 * sqrt 2) with (-2) by lra. lra.
Qed.
Lemma term_y_child : continuous_term half_fit 4 2 bx [0%nat] 1 = Some (- 4 * sqrt 2 - 4 * (35 / 100) + 4 * ln 2).
Proof.
  cbn [continuous_term half_fit]. rewrite (likelihood_some _ _ _ _ _ _ (/ 2 * / 2)); [|unfold variance_i, disturbance, bx; cbn; lra|lra]. f_equal.
  rewrite sqrt_square, ln_Rinv by lra. unfold disturbance, bx. cbn [rsum INR combine seq length find snd Nat.eqb].
  replace ((1 - (0 + 1 / 2 * 1 + 0 * 1) - 0) / / 2) with 1 by lra. replace ((-1 - (0 + 1 / 2 * -1 + 0 * -1) - 0) / / 2) with (- (1)) by lra.
  replace ((0 - (0 + 1 / 2 * 1 + 0 * 0) - 0) / / 2) with (- (1)) by lra. replace ((0 - (0 + 1 / 2 * -1 + 0 * 0) - 0) / / 2) with 1 by lra.
  rewrite logpm, logpp by lra. lra.
Qed.
Lemma scores : bic_scoring (fun _ _ _ => 1) (fun _ _ => 0) half_fit 4 2 bx (fun _ => false) false no_edge =
    Some (0 - ln 4 / 2 * 2 + 4 * (- sqrt 2 - 35 / 100) + (- 4 - 4 * (35 / 100) + 2 * ln 2)) /\
  bic_scoring (fun _ _ _ => 1) (fun _ _ => 0) half_fit 4 2 bx (fun _ => false) false one_edge =
    Some (0 - ln 4 / 2 * 3 + 4 * (- sqrt 2 - 35 / 100) + (- 4 * sqrt 2 - 4 * (35 / 100) + 4 * ln 2)).
Proof.
  assert (F : INR 4 = 4) by (cbn; ring). unfold bic_scoring. rewrite ed_no, ed_one, F. cbn [seq fold_left].
  unfold node_term. cbn [andb]. rewrite !par_no, par_one0, par_one1, term_x, term_y_root, term_y_child. cbn [add_opt]. split; do 4 f_equal; cbn; ring.
Qed.

(** ** C158: adding parents to a continuous variable *)
(** Not a property: more parents fit at least as well.  The coefficients are those of least squares while the likelihood is that of
    Laplace disturbances, so a further parent can lower the likelihood even before the penalty. *)
Theorem C158_more_parents_fit_better_refuted : ~ (forall linear n d X W W' sc sc',
  (forall i, (i < d)%nat -> forall (c : nat -> R) c0, let ps := parents d W' i in let '(b, b0) := linear ps i in
     ps <> [] -> rsum n (fun s => (X s i - rsum (length ps) (fun k => b k * X s (nth k ps 0%nat)) - b0) ^ 2) <=
     rsum n (fun s => (X s i - rsum (length ps) (fun k => c k * X s (nth k ps 0%nat)) - c0) ^ 2)) ->
  (forall j i, (j < d)%nat -> (i < d)%nat -> W j i <> 0 -> W' j i <> 0) ->
  bic_scoring (fun _ _ _ => 1) (fun _ _ => 0) linear n d X (fun _ => false) false W = Some sc ->
  bic_scoring (fun _ _ _ => 1) (fun _ _ => 0) linear n d X (fun _ => false) false W' = Some sc' ->
  sc + ln (INR n) / 2 * INR (number_of_edges d W) <= sc' + ln (INR n) / 2 * INR (number_of_edges d W')).
Proof.
  intro H. destruct scores as [S1 S2]. specialize (H half_fit 4%nat 2%nat bx no_edge one_edge). assert (F : INR 4 = 4) by (cbn; ring).
  assert (LS : forall i, (i < 2)%nat -> forall (c : nat -> R) c0, let ps := parents 2 one_edge i in let '(b, b0) := half_fit ps i in
     ps <> [] -> rsum 4 (fun s => (bx s i - rsum (length ps) (fun k => b k * bx s (nth k ps 0%nat)) - b0) ^ 2) <=
     rsum 4 (fun s => (bx s i - rsum (length ps) (fun k => c k * bx s (nth k ps 0%nat)) - c0) ^ 2)).
  { intros i Hi c c0. cbv zeta. cbn [half_fit]. destruct i as [|[|i] ]; [rewrite par_one0; intro C; contradiction|rewrite par_one1; intros _|lia].
    cbn [length rsum nth]. unfold bx. set (k := c 0%nat).
    assert (0 <= (k - 1 / 2) ^ 2) by apply pow2_ge_0. assert (0 <= c0 ^ 2) by apply pow2_ge_0. nra. }
  specialize (H _ _ LS ltac:(intros j i _ _ C; exfalso; apply C; reflexivity) S1 S2).
  rewrite ed_no, ed_one, F in H. change (INR 0) with 0 in H. change (INR 1) with 1 in H.
  pose proof ln2_bounds. pose proof sqrt2_lower. lra.
Qed.
(** What holds: for one and the same residual variance the score falls with the mean absolute residual, and conversely. *)
Theorem C158_comparison_partial : forall n d X i b b' b0 b0' v v', (0 < n)%nat ->
  likelihood_i n d X i b b0 = Some v -> likelihood_i n d X i b' b0' = Some v' ->
  let e := fun b b0 s => X s i - rsum d (fun j => b j * X s j) - b0 in
  let size := fun b b0 => rsum n (fun s => Rabs (e b b0 s)) in
  (variance_i n d X i b = variance_i n d X i b' -> (v <= v' <-> size b' b0' <= size b b0)) /\
  (size b b0 / sqrt (variance_i n d X i b) = size b' b0' / sqrt (variance_i n d X i b') -> (v <= v' <-> variance_i n d X i b' <= variance_i n d X i b)).
Proof.
  intros n d X i b b' b0 b0' v v' Hn H H'. cbv zeta. destruct (likelihood_laplace _ _ _ _ _ _ _ H) as [P E]. destruct (likelihood_laplace _ _ _ _ _ _ _ H') as [P' E'].
  pose proof (sqrt_lt_R0 _ P) as S. pose proof (sqrt_lt_R0 _ P') as S'. assert (N : 0 < INR n) by (apply lt_0_INR; exact Hn). pose proof sqrt2_pos as S2.
  assert (L : forall c c0 sg, 0 < sg -> rsum n (fun s => ln (laplace sg (disturbance d X i c s - c0))) = - sqrt 2 * (rsum n (fun s => Rabs (X s i - rsum d (fun j => c j * X s j) - c0)) / sg) - INR n * (ln (sqrt 2) + ln sg)).
  { intros c c0 sg Hs. rewrite (rsum_ext n _ (fun s => - sqrt 2 / sg * Rabs (X s i - rsum d (fun j => c j * X s j) - c0) + (- (ln (sqrt 2) + ln sg)))).
    - rewrite rsum_plus, rsum_scal, rsum_const. field. lra.
    - intros s _. rewrite ln_laplace by exact Hs. unfold disturbance. field. lra. }
  rewrite L in E, E' by assumption. set (A := rsum n (fun s => Rabs (X s i - rsum d (fun j => b j * X s j) - b0))) in *.
  set (A' := rsum n (fun s => Rabs (X s i - rsum d (fun j => b' j * X s j) - b0'))) in *. clear L H H'. split.
  - intro Q. rewrite <- Q in *. clear Q. set (sg := sqrt (variance_i n d X i b)) in *.
    assert (W : v <= v' <-> A' / sg <= A / sg).
    { rewrite E, E'. split; intro Z; [apply (Rmult_le_reg_l (sqrt 2)); [exact S2|lra]|apply (Rmult_le_compat_l (sqrt 2)) in Z; lra]. }
    rewrite W. split; intro Z.
    + apply (Rmult_le_reg_r (/ sg)); [apply Rinv_0_lt_compat; exact S|exact Z].
    + apply Rmult_le_compat_r; [left; apply Rinv_0_lt_compat; exact S|exact Z].
  - intro Q. rewrite Q in E. assert (W : v <= v' <-> ln (sqrt (variance_i n d X i b')) <= ln (sqrt (variance_i n d X i b))).
    { rewrite E, E'. split; intro Z; [apply (Rmult_le_reg_l (INR n)); [exact N|lra]|apply (Rmult_le_compat_l (INR n)) in Z; lra]. }
    rewrite W. set (p := variance_i n d X i b) in *. set (p' := variance_i n d X i b') in *. rewrite !ln_sqrt by assumption. split; intro Z.
    + destruct (Rle_or_lt p' p) as [|C]; [assumption|]. apply (ln_increasing _ _ P) in C. lra.
    + destruct Z as [C|C]; [apply (ln_increasing _ _ P') in C; lra|rewrite C; lra].
Qed.
Print Assumptions C158_more_parents_fit_better_refuted.
Print Assumptions C158_comparison_partial.
Example C158_example : (* the same coefficients with the right and with a wrong intercept *)
  exists v v', likelihood_i 4 2 bx 0 (fun _ => 0) 0 = Some v /\ likelihood_i 4 2 bx 0 (fun _ => 0) 5 = Some v' /\ v' <= v.
Proof.
  assert (V : variance_i 4 2 bx 0 (fun _ => 0) = 1) by (unfold variance_i, disturbance, bx; cbn; lra).
  do 2 eexists. split; [apply (likelihood_some _ _ _ _ _ _ 1 V); lra|]. split; [apply (likelihood_some _ _ _ _ _ _ 1 V); lra|].
  refine (proj2 (proj1 (C158_comparison_partial 4 2 bx 0 (fun _ => 0) (fun _ => 0) 5 0 _ _ ltac:(lia) (likelihood_some _ _ _ _ _ _ 1 V ltac:(lra)) (likelihood_some _ _ _ _ _ _ 1 V ltac:(lra))) eq_refl) _).
  unfold bx. cbn. unfold Rabs. repeat destruct (Rcase_abs _); lra.
Qed.

(** ** C159: count variables (is_poisson) *)
(** What a count variable with parents adds is minus the log-likelihood of the Poisson regression on the last parent alone, without its
    intercept: all other parents are ignored and the sign is reversed. *)
Theorem C159_term_partial : forall coef n X qs j i y, (forall s, (s < n)%nat -> X s i = INR (y s)) ->
  poisson_term coef n X (qs ++ [j]) i = - rsum n (fun s => ln (poisson_pmf (exp (coef j i * X s j)) (y s))).
Proof. intros. rewrite poisson_last. apply poisson_round_loglik. assumption. Qed.
(** It is positive, while a log-likelihood of counts is negative: *)
Theorem C159_loglikelihood_refuted : forall coef n X ps i y, (0 < n)%nat -> ps <> [] -> (forall s, (s < n)%nat -> X s i = INR (y s)) ->
  0 < poisson_term coef n X ps i /\ forall rate : nat -> R, rsum n (fun s => ln (poisson_pmf (exp (rate s)) (y s))) < 0.
Proof.
  intros coef n X ps i y Hn Hp Hy. split; [|intro rate; apply loglik_neg; exact Hn].
  destruct (exists_last Hp) as (qs & j & ->). rewrite (C159_term_partial coef n X qs j i y Hy). pose proof (loglik_neg n (fun s => coef j i * X s j) y Hn). lra.
Qed.
(** The better the fit, the lower the score: *)
Theorem C159_better_fit_scores_lower_refuted : forall coef coef' n X ps ps' j j' i y, (forall s, (s < n)%nat -> X s i = INR (y s)) ->
  let loglik := fun c j => rsum n (fun s => ln (poisson_pmf (exp (c j i * X s j)) (y s))) in
  (loglik coef j < loglik coef' j' <-> poisson_term coef' n X (ps' ++ [j']) i < poisson_term coef n X (ps ++ [j]) i).
Proof.
  intros coef coef' n X ps ps' j j' i y Hy. cbv zeta. rewrite (C159_term_partial coef n X ps j i y Hy), (C159_term_partial coef' n X ps' j' i y Hy). split; intro; lra.
Qed.
Lemma rsum_change : forall d f g i, (i < d)%nat -> (forall k, (k < d)%nat -> k <> i -> g k = f k) -> rsum d g = rsum d f + (g i - f i).
Proof.
  intros d f g i Hi H. assert (E : rsum d (fun k => g k - f k) = g i - f i) by (apply (rsum_single d (fun k => g k - f k) i Hi); intros k Hk Nk; rewrite (H k Hk Nk); ring).
  rewrite rsum_minus in E. lra.
Qed.
(** A column of zeros, which says nothing about anything, is always worth being a parent of a count variable without parents. *)
Theorem C159_useless_parent_refuted : forall logistic coef linear n d X is_discrete W i j y sc, (0 < n)%nat -> (i < d)%nat -> (j < d)%nat ->
  is_discrete i = true -> (forall s, (s < n)%nat -> X s i = INR (y s)) -> (forall s, (s < n)%nat -> X s j = 0) ->
  (forall k, (k < d)%nat -> W k i = 0) ->
  bic_scoring logistic coef linear n d X is_discrete true W = Some sc ->
  exists sc', bic_scoring logistic coef linear n d X is_discrete true (fun a b => if ((a =? j) && (b =? i))%nat then 1 else W a b) = Some sc' /\ sc < sc'.
Proof.
  intros logistic coef linear n d X is_discrete W i j y sc Hn Hi Hj Di Hy Hx Hw H.
  set (W' := fun a b => if ((a =? j) && (b =? i))%nat then 1 else W a b).
  assert (P0 : parents d W i = []).
  { unfold parents. assert (G : forall l, (forall k, In k l -> (k < d)%nat) -> filter (fun k => nonzero (W k i)) l = []).
    { induction l as [|a l IH]; intro Hl; [reflexivity|]. cbn [filter]. unfold nonzero at 1. rewrite (Hw a) by (apply Hl; left; reflexivity). destruct (Req_EM_T 0 0) as [_|C]; [|contradiction]. apply IH. intros; apply Hl; right; assumption. }
    apply G. intros k Hk. apply in_seq in Hk. lia. }
  assert (P1 : parents d W' i = [j]).
  { unfold parents, W'. assert (G : forall l, (forall k, In k l -> (k < d)%nat) -> NoDup l -> filter (fun k => nonzero (if ((k =? j) && (i =? i))%nat then 1 else W k i)) l = if in_dec Nat.eq_dec j l then [j] else []).
    { induction l as [|a l IH]; intros Hl ND; [reflexivity|]. inversion ND; subst. cbn [filter]. rewrite IH by (try assumption; intros; apply Hl; right; assumption). rewrite Nat.eqb_refl, andb_true_r.
      destruct (Nat.eqb_spec a j) as [->|Na].
      - unfold nonzero. destruct (Req_EM_T 1 0) as [C|_]; [lra|]. destruct (in_dec Nat.eq_dec j l) as [C|_]; [contradiction|]. destruct (in_dec Nat.eq_dec j (j :: l)) as [_|C]; [reflexivity|exfalso; apply C; left; reflexivity].
      - unfold nonzero. rewrite (Hw a) by (apply Hl; left; reflexivity). destruct (Req_EM_T 0 0) as [_|C]; [|contradiction].
        destruct (in_dec Nat.eq_dec j l) as [I|I], (in_dec Nat.eq_dec j (a :: l)) as [I'|I']; try reflexivity; exfalso; [apply I'; right; exact I|destruct I'; [congruence|contradiction] ]. }
    rewrite G; [|intros k Hk; apply in_seq in Hk; lia|apply seq_NoDup]. destruct (in_dec Nat.eq_dec j (seq 0 d)) as [_|C]; [reflexivity|]. exfalso. apply C, in_seq. lia. }
  assert (Po : forall k, k <> i -> parents d W' k = parents d W k).
  { intros k Hk. unfold parents. apply filter_ext. intro a. unfold W'. destruct (Nat.eqb_spec k i); [contradiction|]. rewrite andb_false_r. reflexivity. }
  unfold bic_scoring in H |- *. cbv zeta in H |- *. apply fold_add_opt in H. destruct H as (v & Hv & ->).
  assert (Vi : v i = bernoulli n X i).
  { specialize (Hv i ltac:(apply in_seq; lia)). unfold node_term in Hv. rewrite Di, P0 in Hv. cbn in Hv. injection Hv as <-. reflexivity. }
  assert (Ti : node_term logistic coef linear n d X is_discrete true W' i = Some (poisson_term coef n X [j] i)) by (unfold node_term; rewrite Di, P1; reflexivity).
  set (v' := fun k => if (k =? i)%nat then poisson_term coef n X [j] i else v k).
  exists (0 - ln (INR n) / 2 * INR (number_of_edges d W' + d) + fold_right (fun k acc => v' k + acc) 0 (seq 0 d)). split.
  { apply fold_add_opt. exists v'. split; [|reflexivity]. intros k Hk. unfold v'. destruct (Nat.eqb_spec k i) as [->|Nk]; [exact Ti|].
    unfold node_term. rewrite (Po k Nk). exact (Hv k Hk). }
  rewrite !fold_seq_rsum, !plus_INR, !edges_by_parents, !INR_nsum.
  assert (Ed : rsum d (fun k => INR (length (parents d W' k))) = rsum d (fun k => INR (length (parents d W k))) + 1).
  { rewrite (rsum_change d (fun k => INR (length (parents d W k))) (fun k => INR (length (parents d W' k))) i Hi).
    - rewrite P0, P1. cbn [length]. change (INR 1) with 1. change (INR 0) with 0. ring.
    - intros k _ Nk. rewrite (Po k Nk). reflexivity. }
  assert (Es : rsum d v' = rsum d v + (poisson_term coef n X [j] i - bernoulli n X i)).
  { rewrite (rsum_change d v v' i Hi).
    - unfold v' at 1. rewrite Nat.eqb_refl, Vi. reflexivity.
    - intros k _ Nk. unfold v'. destruct (Nat.eqb_spec k i); [contradiction|reflexivity]. }
  rewrite Ed, Es. pose proof (bernoulli_nonpos n X i) as B. assert (N : 1 <= INR n) by (change 1 with (INR 1); apply le_INR; lia).
  assert (PT : INR n <= poisson_term coef n X [j] i).
  { change (poisson_term coef n X [j] i) with (poisson_round coef n X i j). unfold poisson_round.
    rewrite (rsum_0 n (fun s => X s i * X s j * coef j i)) by (intros s Hs; rewrite (Hx s Hs); ring).
    rewrite (rsum_ext n (fun s => exp (X s j * coef j i)) (fun _ => 1)) by (intros s Hs; rewrite (Hx s Hs), Rmult_0_l; apply exp_0). rewrite rsum_const.
    assert (0 <= rsum n (fun s => ln (IZR (factorial (X s i))))); [|lra]. apply rsum_nonneg. intros s Hs. rewrite (Hy s Hs), factorial_nat, <- INR_IZR_INZ.
    rewrite <- ln_1. pose proof (lt_O_fact (y s)) as F. assert (F1 : 1 <= INR (fact (y s))) by (change 1 with (INR 1); apply le_INR; lia).
    destruct F1 as [F1|<-]; [left; apply ln_increasing; lra|lra]. }
  assert (LN : ln (INR n) <= INR n - 1) by (apply ln_le_minus; lra).
  set (e := rsum d (fun k => INR (length (parents d W k)))). lra.
Qed.
Print Assumptions C159_term_partial.
Print Assumptions C159_loglikelihood_refuted.
Print Assumptions C159_better_fit_scores_lower_refuted.
Print Assumptions C159_useless_parent_refuted.

(** ** The hypotheses can be met *)
Example C156_ex_scores : exists sc sc', bic_scoring (fun _ _ _ => 1) (fun _ _ => 0) half_fit 4 2 bx (fun _ => false) false no_edge = Some sc /\
  bic_scoring (fun _ _ _ => 1) (fun _ _ => 0) half_fit 4 2 bx (fun _ => false) false one_edge = Some sc' /\ sc' < sc.
Proof.
  destruct scores as [S1 S2]. eexists. eexists. split; [exact S1|]. split; [exact S2|]. pose proof ln2_bounds as L. pose proof sqrt2_lower.
  replace (ln 4) with (2 * ln 2) by (replace 4 with (2 * 2) by ring; rewrite ln_mult by lra; ring). lra.
Qed.
(** y takes the values 1, -1, 0, 0: the term of a discrete root is ln (1/4) + ln (1/4) + ln (1/2) + ln (1/2). *)
Example C156_ex_bernoulli : bernoulli 4 bx 1 = - 6 * ln 2.
Proof.
  rewrite bernoulli_sum. cbv zeta. cbn [rsum]. unfold count, bx. cbn [seq filter]. conds. cbn [length INR].
  replace (1 / (1 + 1 + 1 + 1)) with (/ (2 * 2)) by field. replace ((1 + 1) / (1 + 1 + 1 + 1)) with (/ 2) by field.
  rewrite !ln_Rinv, ln_mult by lra. ring.
Qed.
Example C157_ex : likelihood_i 4 2 bx 1 (fun j => if (j =? 0)%nat then 1 / 2 else 0) 0 <> None /\ likelihood_i 4 2 bx 1 (fun j => if (j =? 1)%nat then 1 else 0) 0 = None.
Proof.
  split.
  - rewrite (likelihood_some _ _ _ _ _ _ (/ 2 * / 2)); [discriminate| |lra]. unfold variance_i, disturbance, bx. cbn. lra.
  - apply (C157_undefined 4 2 bx 1); [lia|]. intros s t _ _. cbn [rsum Nat.eqb]. ring.
Qed.
(** Counts 2, 0, 1 with a column of zeros: being its child raises the score. *)
Definition cx : rmat := fun s j => match j, s with 1%nat, O => 2 | 1%nat, 2%nat => 1 | _, _ => 0 end.
Example C159_ex : exists sc sc', bic_scoring (fun _ _ _ => 1) (fun _ _ => 5) half_fit 3 2 cx (fun _ => true) true no_edge = Some sc /\
  bic_scoring (fun _ _ _ => 1) (fun _ _ => 5) half_fit 3 2 cx (fun _ => true) true (fun a b => if ((a =? 0) && (b =? 1))%nat then 1 else no_edge a b) = Some sc' /\ sc < sc'.
Proof.
  assert (E : exists sc, bic_scoring (fun _ _ _ => 1) (fun _ _ => 5) half_fit 3 2 cx (fun _ => true) true no_edge = Some sc).
  { unfold bic_scoring. cbn [seq fold_left]. unfold node_term. cbn [andb negb]. rewrite !par_no. cbn [add_opt]. eexists. reflexivity. }
  destruct E as [sc E]. destruct (C159_useless_parent_refuted (fun _ _ _ => 1) (fun _ _ => 5) half_fit 3 2 cx (fun _ => true) no_edge 1 0
    (fun s => match s with O => 2%nat | 2%nat => 1%nat | _ => 0%nat end) sc) as (sc' & E' & L); try lia; try reflexivity; try exact E.
  - intros s Hs. destruct s as [|[|[|s] ] ]; [| | |lia]; unfold cx; cbn; ring.
  - exists sc, sc'. split; [exact E|]. split; [exact E'|exact L].
Qed.
(** What the factorial of an entry that is no integer is: that of the nearest integer, of the even one of two. *)
Theorem C159_factorial_of_nearest_integer : forall y k,
  (Rabs (y - INR k) < 1 / 2 \/ (Rabs (y - INR k) = 1 / 2 /\ Nat.Even k)) -> factorial y = Z.of_nat (fact k).
Proof.
  intros y k H. rewrite <- factorial_nat. unfold factorial. rewrite round_INR. replace (round_half_even y) with (Z.of_nat k); [reflexivity|].
  assert (B := base_fp y). assert (E : y = IZR (Int_part y) + frac_part y) by (unfold frac_part; ring). rewrite INR_IZR_INZ in H.
  unfold round_half_even. cbv zeta. set (f := Int_part y) in *. set (g := frac_part y) in *. clearbody f g. subst y.
  assert (R : Rabs (IZR f + g - IZR (Z.of_nat k)) <= 1 / 2) by (destruct H as [H|[H _] ]; lra).
  assert (KD : Z.of_nat k = f \/ Z.of_nat k = (f + 1)%Z).
  { assert (A : (IZR f + g - IZR (Z.of_nat k)) <= 1 / 2) by (pose proof (Rle_abs (IZR f + g - IZR (Z.of_nat k))); lra).
    assert (A' : - (1 / 2) <= (IZR f + g - IZR (Z.of_nat k))) by (pose proof (Rle_abs (- (IZR f + g - IZR (Z.of_nat k)))) as Q; rewrite Rabs_Ropp in Q; lra).
    assert (L1 : IZR f - 1 < IZR (Z.of_nat k)) by lra. assert (L2 : IZR (Z.of_nat k) < IZR f + 2) by lra. rewrite <- minus_IZR in L1. rewrite <- plus_IZR in L2. apply lt_IZR in L1. apply lt_IZR in L2. lia. }
  destruct (Rlt_dec g (1 / 2)) as [L|L].
  - destruct KD as [K|K]; [exact K|]. exfalso. rewrite K, plus_IZR in R. replace (IZR f + g - (IZR f + 1)) with (- (1 - g)) in R by ring. rewrite Rabs_Ropp, Rabs_right in R; lra.
  - destruct (Rlt_dec (1 / 2) g) as [L'|L'].
    + destruct KD as [K|K]; [|exact K]. exfalso. rewrite K in R. replace (IZR f + g - IZR f) with g in R by ring. rewrite Rabs_right in R; lra.
    + assert (G : g = 1 / 2) by lra. clear L L'. destruct H as [H|[_ EV] ].
      * exfalso. destruct KD as [K|K]; rewrite K in H; [|rewrite plus_IZR in H]; [replace (IZR f + g - IZR f) with (1 / 2) in H by lra|replace (IZR f + g - (IZR f + 1)) with (- (1 / 2)) in H by lra; rewrite Rabs_Ropp in H]; rewrite Rabs_right in H; lra.
      * assert (EZ : Z.Even (Z.of_nat k)) by (destruct EV as [q ->]; exists (Z.of_nat q); lia). destruct (Z.even f) eqn:EF.
        -- destruct KD as [K|K]; [exact K|]. exfalso. apply Z.even_spec in EF. destruct EF as [a Ea]. destruct EZ as [b Eb]. lia.
        -- destruct KD as [K|K]; [|exact K]. exfalso. rewrite <- K in EF. apply Z.even_spec in EZ. congruence.
Qed.
Print Assumptions C159_factorial_of_nearest_integer.
Example C159_ex_nearest : factorial 2.5 = 2%Z /\ factorial 3.5 = 24%Z /\ factorial 2.9 = 6%Z.
Proof.
  repeat split; [apply (C159_factorial_of_nearest_integer 2.5 2)|apply (C159_factorial_of_nearest_integer 3.5 4)|apply (C159_factorial_of_nearest_integer 2.9 3)]; cbn [INR].
  - right. split; [rewrite Rabs_right; lra|exists 1%nat; reflexivity].
  - right. split; [rewrite Rabs_left; lra|exists 2%nat; reflexivity].
  - left. rewrite Rabs_left; lra.
Qed.
