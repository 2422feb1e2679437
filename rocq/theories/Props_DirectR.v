(** * Properties of DirectLiNGAM on data: units, samples, names of variables, ties and NaN (C160-C165) *)
From Coq Require Import Reals Lra Lia Arith Bool List Permutation FunctionalExtensionality.
From Verif Require Import Prelude LibR SpecFcorr SpecDirectR ModelDirectR ProofDirectR ProofDirectR2 ProofDirectR3 ProofDirectR4 ProofDirectR5 ProofDirectR6 ProofDirectR7 ProofDirectR8.
From Verif Require ModelDirect.
Import ListNotations.
Open Scope R_scope.

(** ** C160: the causal order does not depend on the units of the variables *)
Theorem C160_units_pwling : forall logsv n p pk_shape_ok mode (X : nat -> nat -> R) (a t : nat -> R),
  (forall j, (j < p)%nat -> a j <> 0) ->
  fit_order logsv ModelDirect.Pwling n p pk_shape_ok mode (fun j => in_units (a j) (t j) (X j))
  = fit_order logsv ModelDirect.Pwling n p pk_shape_ok mode X.
Proof.
  intros logsv n p ok mode X a t Ha. destruct (Nat.eq_dec n 0) as [->|Hn]; [reflexivity|].
  apply (pwling_order logsv n n (fun s => s) p ok mode X _ a t (sd_id n)); try lia; [exact Ha|]. intros. reflexivity.
Qed.
Theorem C160_units_kernel : forall logsv n p pk_shape_ok mode (X : nat -> nat -> R) (a t : nat -> R), singular_value_oracle logsv ->
  (forall j, (j < p)%nat -> a j <> 0) ->
  fit_order logsv ModelDirect.Kernel n p pk_shape_ok mode (fun j => in_units (a j) (t j) (X j))
  = fit_order logsv ModelDirect.Kernel n p pk_shape_ok mode X.
Proof.
  intros logsv n p ok mode X a t [LE LP] Ha. destruct (Nat.eq_dec n 0) as [->|Hn]; [reflexivity|].
  apply (kernel_order logsv n (fun s => s)) with (a := a) (t := t); try assumption; try lia.
  - split; [intros; assumption|]. intros; assumption.
  - intros m sg A [B I]. apply LP; assumption.
  - intros. reflexivity.
Qed.

(** ** C161: it does not depend on the order of the samples, nor on repeating all of them *)
Theorem C161_samples_pwling : forall logsv n n' pi p pk_shape_ok mode (X X' : nat -> nat -> R),
  same_distribution n n' pi -> (0 < n)%nat -> (0 < n')%nat ->
  (forall j s, (j < p)%nat -> (s < n')%nat -> X' j s = X j (pi s)) ->
  fit_order logsv ModelDirect.Pwling n' p pk_shape_ok mode X' = fit_order logsv ModelDirect.Pwling n p pk_shape_ok mode X.
Proof.
  intros logsv n n' pi p ok mode X X' SD Hn Hn' H.
  apply (pwling_order logsv n n' pi p ok mode X X' (fun _ => 1) (fun _ => 0) SD Hn Hn'); [intros; lra|].
  intros j s Hj Hs. rewrite (H j s Hj Hs). unfold in_units. ring.
Qed.
Theorem C161_reordered_and_repeated : forall n,
  (forall pi, (forall s, (s < n)%nat -> (pi s < n)%nat) -> (forall r s, (r < n)%nat -> (s < n)%nat -> pi r = pi s -> r = s) -> same_distribution n n pi) /\
  (forall k, (0 < n)%nat -> (0 < k)%nat -> same_distribution n (k * n) (fun s => (s mod n)%nat)).
Proof.
  intro n. split.
  - intros pi B I. apply sd_perm. split; assumption.
  - intros. apply sd_repeat; assumption.
Qed.
Theorem C161_samples_kernel : forall logsv n pi p pk_shape_ok mode (X X' : nat -> nat -> R), singular_value_oracle logsv ->
  (forall s, (s < n)%nat -> (pi s < n)%nat) -> (forall r s, (r < n)%nat -> (s < n)%nat -> pi r = pi s -> r = s) ->
  (forall j s, (j < p)%nat -> (s < n)%nat -> X' j s = X j (pi s)) ->
  fit_order logsv ModelDirect.Kernel n p pk_shape_ok mode X' = fit_order logsv ModelDirect.Kernel n p pk_shape_ok mode X.
Proof.
  intros logsv n pi p ok mode X X' [LE LP] B I H. destruct (Nat.eq_dec n 0) as [->|Hn]; [reflexivity|].
  apply (kernel_order logsv n pi) with (a := fun _ => 1) (t := fun _ => 0); try assumption; try lia.
  - split; assumption.
  - intros m sg A [B' I']. apply LP; assumption.
  - intros. lra.
  - intros j s Hj Hs. rewrite (H j s Hj Hs). unfold in_units. ring.
Qed.

(** ** C162: the connection strengths change with the units as they should *)
Theorem C162_adjacency_units : forall lr lars logsv ms n p pk_shape_ok mode (X : nat -> nat -> R) (a t : nat -> R),
  singular_value_oracle logsv -> regression_oracle n lr ->
  (forall cols y c, lars cols y = Ok c -> length c = length cols) ->
  (forall es e cols y, length es = length cols -> Forall is_sign es -> is_sign e ->
     lars (flip_columns es cols) (fun s => e * y s)
     = match lars cols y with Ok c => Ok (map (fun ec => e * fst ec * snd ec) (combine es c)) | Err x => Err x end) ->
  (0 < n)%nat -> independent_columns n (map X (seq 0 p)) -> (forall j, (j < p)%nat -> a j <> 0) ->
  match fit lr lars logsv ms n p pk_shape_ok mode X, fit lr lars logsv ms n p pk_shape_ok mode (fun j => in_units (a j) (t j) (X j)) with
  | Ok (K, B), Ok (K', B') => K' = K /\ forall i j, B' i j = a i / a j * B i j
  | Err x, Err x' => x' = x
  | _, _ => False
  end.
Proof.
  intros lr lars logsv ms n p ok mode X a t SV RO LL LS Hn IND Ha. unfold fit.
  assert (E : fit_order logsv ms n p ok mode (fun j => in_units (a j) (t j) (X j)) = fit_order logsv ms n p ok mode X).
  { destruct ms; [apply C160_units_pwling; exact Ha|apply C160_units_kernel; assumption]. }
  rewrite E. destruct (fit_order logsv ms n p ok mode X) as [K|] eqn:F; [|reflexivity]. cbn [bind].
  apply fit_order_perm in F.
  pose proof (adjacency_units lr lars n p X a t Hn Ha IND RO LL LS (ModelDirect.pk_of_mode mode) K [] (fun _ _ => 0) (fun _ _ => 0)) as A.
  cbn [app] in A. assert (ND : NoDup K) by (apply (Permutation_NoDup (Permutation_sym F)), seq_NoDup).
  assert (HB : forall j, In j K -> (j < p)%nat) by (intros j Hj; apply (Permutation_in _ F) in Hj; apply in_seq in Hj; lia).
  specialize (A ND HB ltac:(intros i j; ring)).
  destruct (adjacency_loop lr lars n X _ [] K _) as [B|x], (adjacency_loop lr lars n (fun j => in_units (a j) (t j) (X j)) _ [] K _) as [B'|x'];
    cbn [bind]; try contradiction; [split; [reflexivity|exact A]|symmetry; exact A].
Qed.

(** ** C163: the names of the variables do not matter, as long as there are no ties *)
Theorem C163_relabelling : forall logsv n p pk_shape_ok (X : nat -> nat -> R) (sg : nat -> nat) K, (0 < n)%nat -> (0 < p)%nat ->
  (forall j, (j < p)%nat -> (sg j < p)%nat) -> (forall i j, (i < p)%nat -> (j < p)%nat -> sg i = sg j -> i = j) ->
  decisive n (fun j => Some (X j)) (seq 0 p) K ->
  exists K', fit_order logsv ModelDirect.Pwling n p pk_shape_ok ModelDirect.NoPK (fun j => X (sg j)) = Ok K' /\ map sg K' = K.
Proof.
  intros logsv n p ok X sg K Hn Hp B I D. unfold fit_order.
  replace (n =? 0)%nat with false by (symmetry; apply Nat.eqb_neq; lia). replace (p =? 0)%nat with false by (symmetry; apply Nat.eqb_neq; lia). cbn [orb].
  destruct (loop_renamed n sg _ _ _ D (fun j => Some (X (sg j))) (seq 0 p) []) as (L & E & M).
  - apply seq_NoDup.
  - apply seq_NoDup.
  - apply NoDup_Permutation_bis.
    + assert (G : forall l, NoDup l -> (forall j, In j l -> (j < p)%nat) -> NoDup (map sg l)).
      { induction l as [|j l IH]; intros ND H; [constructor|]. inversion ND as [|? ? NI ND']; subst. cbn. constructor.
        - intro Q. apply in_map_iff in Q. destruct Q as (k & E & Hk). apply NI. replace j with k; [exact Hk|]. apply I; try exact E; apply H; [right; exact Hk|left; reflexivity].
        - apply IH; [exact ND'|]. intros; apply H; right; assumption. }
      apply G; [apply seq_NoDup|]. intros j Hj. apply in_seq in Hj. lia.
    + rewrite map_length. lia.
    + intros x Hx. apply in_map_iff in Hx. destruct Hx as (j & <- & Hj). apply in_seq in Hj. apply in_seq. pose proof (B j ltac:(lia)). lia.
  - intros i j Hi Hj. apply in_seq in Hi. apply in_seq in Hj. apply I; lia.
  - reflexivity.
  - rewrite seq_length in E. exists L. split; assumption.
Qed.
Theorem C163_no_ties_is_the_run : forall logsv n p pk_shape_ok (X : nat -> nat -> R) K, (0 < n)%nat -> (0 < p)%nat ->
  decisive n (fun j => Some (X j)) (seq 0 p) K -> fit_order logsv ModelDirect.Pwling n p pk_shape_ok ModelDirect.NoPK X = Ok K.
Proof.
  intros logsv n p ok X K Hn Hp D. destruct (C163_relabelling logsv n p ok X (fun j => j) K Hn Hp) as (K' & E & M); auto.
  rewrite map_id in M. subst. exact E.
Qed.

(** ** C164: two variables: the sign of one difference decides *)
Theorem C164_two_variables : forall logsv n pk_shape_ok (X : nat -> nat -> R), (0 < n)%nat ->
  ~ linearly_related n (X 0%nat) (X 1%nat) ->
  let z := fun j => standardize n (Some (X j)) in
  let r := fun i j => unit_std n (residual n (z i) (z j)) in
  exists H0 H1 H01 H10, entropy n (z 0%nat) = Some H0 /\ entropy n (z 1%nat) = Some H1 /\ entropy n (r 0%nat 1%nat) = Some H01 /\ entropy n (r 1%nat 0%nat) = Some H10 /\
    fit_order logsv ModelDirect.Pwling n 2 pk_shape_ok ModelDirect.NoPK X
    = Ok (if Rle_dec (H0 + H10) (H1 + H01) then [0%nat; 1%nat] else [1%nat; 0%nat]).
Proof.
  intros logsv n ok X Hn NR z r. destruct (dmi n (X 0%nat) (X 1%nat)) as [D|] eqn:E.
  2:{ exfalso. apply NR. apply dmi_none; assumption. }
  pose proof (two_order logsv n ok X D Hn E) as F. unfold dmi, diff_mutual_info in E. fold (z 0%nat) (z 1%nat) in E. fold (r 0%nat 1%nat) (r 1%nat 0%nat) in E.
  destruct (entropy n (z 0%nat)) as [H0|], (entropy n (z 1%nat)) as [H1|], (entropy n (r 0%nat 1%nat)) as [H01|], (entropy n (r 1%nat 0%nat)) as [H10|];
    try discriminate. exists H0, H1, H01, H10. repeat (split; [reflexivity|]). rewrite F. cbn in E. injection E as <-. f_equal.
  destruct (Rle_dec 0 (H1 + H01 - (H0 + H10))), (Rle_dec (H0 + H10) (H1 + H01)); try reflexivity; exfalso; lra.
Qed.
Theorem C164_antisymmetric : forall n x y rx ry d, diff_mutual_info n x y rx ry = Some d <-> diff_mutual_info n y x ry rx = Some (- d).
Proof.
  intros. rewrite (diff_antisym n x y rx ry). destruct (diff_mutual_info n x y rx ry) as [v|]; cbn; split; intro H; try discriminate; injection H as H; f_equal; lra.
Qed.

(** ** C165: linearly related columns *)
Theorem C165_nan_exactly_when_related : forall n (X : nat -> nat -> R) U i, (0 < n)%nat ->
  (pwling_score n (fun j => Some (X j)) U U [] i = Ok None <-> exists j, In j U /\ j <> i /\ linearly_related n (X i) (X j)) /\
  ((forall j, In j U -> j <> i -> ~ linearly_related n (X i) (X j)) -> exists v, pwling_score n (fun j => Some (X j)) U U [] i = Ok (Some v)).
Proof.
  intros n X U i Hn. split; [apply (score_none n Hn (fun j => Some (X j)) U U i)|].
  intro H. apply (score_some n Hn). intros (j & Hj & Dj & Nj). apply (H j Hj Dj Nj).
Qed.
(** The first column related to another one comes first, and the others follow in the order of the columns. *)
Theorem C165_order_of_columns : forall logsv n p pk_shape_ok (X : nat -> nat -> R) k, (0 < n)%nat -> (k < p)%nat ->
  (exists j, (j < p)%nat /\ j <> k /\ linearly_related n (X k) (X j)) ->
  (forall i j, (i < k)%nat -> (j < p)%nat -> j <> i -> ~ linearly_related n (X i) (X j)) ->
  fit_order logsv ModelDirect.Pwling n p pk_shape_ok ModelDirect.NoPK X = Ok (k :: seq 0 k ++ seq (S k) (p - S k)).
Proof.
  intros logsv n p ok X k Hn Hk (j & Hj & Dj & Nj) HA. unfold fit_order.
  replace (n =? 0)%nat with false by (symmetry; apply Nat.eqb_neq; lia). replace (p =? 0)%nat with false by (symmetry; apply Nat.eqb_neq; lia). cbn [orb].
  assert (E : seq 0 p = seq 0 k ++ k :: seq (S k) (p - S k)).
  { replace p with (k + S (p - S k))%nat at 1 by lia. rewrite seq_app. reflexivity. }
  assert (In_ : forall i, In i (seq 0 k ++ k :: seq (S k) (p - S k)) <-> (i < p)%nat) by (intro i; rewrite <- E, in_seq; lia).
  assert (L : length (seq 0 k ++ k :: seq (S k) (p - S k)) = p) by (rewrite <- E; apply seq_length).
  rewrite E. rewrite <- L at 1. rewrite (loop_related n Hn (seq 0 k) k (seq (S k) (p - S k)) (fun j => Some (X j)) []); [reflexivity| | |].
  - rewrite <- E. apply seq_NoDup.
  - intros i Hi (j' & Hj' & Dj' & Nj'). apply In_ in Hj'. apply in_seq in Hi. apply (HA i j' ltac:(lia) Hj' Dj' Nj').
  - exists j. split; [apply In_; exact Hj|]. split; assumption.
Qed.
(** With a constant column anywhere, the causal order is the order of the columns, whatever the data. *)
Theorem C165_constant_column : forall logsv n p pk_shape_ok (X : nat -> nat -> R) c v, (0 < n)%nat -> (c < p)%nat ->
  (forall s, (s < n)%nat -> X c s = v) ->
  fit_order logsv ModelDirect.Pwling n p pk_shape_ok ModelDirect.NoPK X = Ok (seq 0 p).
Proof.
  intros logsv n p ok X c v Hn Hc H. unfold fit_order.
  replace (n =? 0)%nat with false by (symmetry; apply Nat.eqb_neq; lia). replace (p =? 0)%nat with false by (symmetry; apply Nat.eqb_neq; lia). cbn [orb].
  rewrite <- (seq_length p 0) at 1. rewrite (loop_degenerate n Hn); [reflexivity|apply seq_NoDup|].
  exists c. split; [apply in_seq; lia|]. cbn. apply std_zero. apply (const_var n Hn _ v). exact H.
Qed.
(** The kernel measure raises instead: the singular values of a matrix with NaN are not computed. *)
Theorem C165_constant_column_kernel : forall logsv n p pk_shape_ok (X : nat -> nat -> R) c v, (0 < n)%nat -> (c < p)%nat -> (2 <= p)%nat ->
  (forall s, (s < n)%nat -> X c s = v) ->
  fit_order logsv ModelDirect.Kernel n p pk_shape_ok ModelDirect.NoPK X = Err ValueError.
Proof.
  intros logsv n p ok X c v Hn Hc Hp H. unfold fit_order.
  replace (n =? 0)%nat with false by (symmetry; apply Nat.eqb_neq; lia). replace (p =? 0)%nat with false by (symmetry; apply Nat.eqb_neq; lia). cbn [orb].
  destruct p as [|[|p] ]; try lia. change (S (S p)) with (S (S p)) at 1. cbn [loop].
  set (Y := fun j => Some (scale n (X j))). set (U := seq 0 (S (S p))).
  assert (T : traverse (kernel_score logsv n Y U U []) U = Err ValueError).
  { apply (traverse_err _ _ _ U c); [apply in_seq; lia|intros i e _; apply kernel_score_err|].
    apply (kernel_score_const logsv n Hn Y U c (if (c =? 0)%nat then 1%nat else 0%nat)).
    - apply in_seq. destruct (c =? 0)%nat; lia.
    - destruct (Nat.eqb_spec c 0); lia.
    - unfold Y. cbn. apply (const_var n Hn _ 0). intros s Hs. unfold scale.
      assert (V : var n (X c) = 0) by (apply (const_var n Hn _ v); exact H).
      rewrite (var_zero_const n (X c) Hn V s Hs). unfold Rdiv. ring. }
  unfold search. cbn [ModelDirect.search_candidate]. rewrite T. unfold U. cbn [seq]. reflexivity.
Qed.
Print Assumptions C160_units_pwling.
Print Assumptions C160_units_kernel.
Print Assumptions C161_samples_pwling.
Print Assumptions C161_reordered_and_repeated.
Print Assumptions C161_samples_kernel.
Print Assumptions C162_adjacency_units.
Print Assumptions C163_relabelling.
Print Assumptions C163_no_ties_is_the_run.
Print Assumptions C164_two_variables.
Print Assumptions C164_antisymmetric.
Print Assumptions C165_nan_exactly_when_related.
Print Assumptions C165_order_of_columns.
Print Assumptions C165_constant_column.
Print Assumptions C165_constant_column_kernel.

(** ** Examples: x0 = (1, 1, -1, -1), x1 = x0 + (1, -1, 1, -1) *)
Example ex_order : forall logsv, fit_order logsv ModelDirect.Pwling 4 2 true ModelDirect.NoPK ex_data = Ok [0%nat; 1%nat].
Proof.
  intro logsv. destruct ex_dmi as (D & P & E). rewrite (two_order logsv 4 true ex_data D ltac:(lia) E). destruct (Rle_dec 0 D); [reflexivity|lra].
Qed.
(** the same in degrees Fahrenheit and with the sign of the second variable changed, and for the doubled sample in another order *)
Example ex_order_units : forall logsv, fit_order logsv ModelDirect.Pwling 4 2 true ModelDirect.NoPK
  (fun j => in_units (if (j =? 0)%nat then 9 / 5 else -1) 32 (ex_data j)) = Ok [0%nat; 1%nat].
Proof. intro logsv. rewrite C160_units_pwling; [apply ex_order|]. intros j Hj. destruct (j =? 0)%nat; lra. Qed.
Example ex_order_repeated : forall logsv, fit_order logsv ModelDirect.Pwling 8 2 true ModelDirect.NoPK (fun j s => ex_data j (s mod 4)%nat) = Ok [0%nat; 1%nat].
Proof.
  intro logsv. rewrite (C161_samples_pwling logsv 4 8 (fun s => (s mod 4)%nat) 2 true ModelDirect.NoPK ex_data); [apply ex_order| |lia|lia|reflexivity].
  apply (proj2 (C161_reordered_and_repeated 4) 2%nat); lia.
Qed.
Example ex_order_reversed : forall logsv, fit_order logsv ModelDirect.Pwling 4 2 true ModelDirect.NoPK (fun j s => ex_data j (3 - s)%nat) = Ok [0%nat; 1%nat].
Proof.
  intro logsv. rewrite (C161_samples_pwling logsv 4 4 (fun s => (3 - s)%nat) 2 true ModelDirect.NoPK ex_data); [apply ex_order| |lia|lia|reflexivity].
  apply (proj1 (C161_reordered_and_repeated 4)); intros; lia.
Qed.
(** an oracle for the kernel measure *)
Definition ex_logsv (m : nat) (A : rmat) : R := rsum m (fun s => rsum m (fun t => A s t ^ 2)).
Example ex_logsv_oracle : singular_value_oracle ex_logsv.
Proof.
  split.
  - intros m A B H. apply rsum_ext. intros s Hs. apply rsum_ext. intros t Ht. rewrite (H s t Hs Ht). reflexivity.
  - intros m sg A B I. assert (P : perm_below m sg) by (split; assumption). unfold ex_logsv.
    rewrite <- (ProofChol.rsum_perm m sg (fun s => rsum m (fun t => A s t ^ 2)) P). apply rsum_ext. intros s Hs.
    apply (ProofChol.rsum_perm m sg (fun t => A (sg s) t ^ 2) P).
Qed.
(** no ties *)
Example ex_decisive : decisive 4 (fun j => Some (ex_data j)) (seq 0 2) [0%nat; 1%nat].
Proof.
  destruct ex_dmi as (D & P & E). destruct (two_scores 4 ex_data D E) as [S0 S1].
  rewrite (Rmin_left 0 D) in S0 by lra. rewrite (Rmin_right 0 (- D)) in S1 by lra.
  apply (dec_cons 4 _ _ 0%nat _ (fun i => if (i =? 0)%nat then -1 * (0 + 0 ^ 2) else -1 * (0 + (- D) ^ 2))).
  - left. reflexivity.
  - intros i [<-|[<-|[] ] ]; assumption.
  - intros i [<-|[<-|[] ] ] N; [contradiction|]. cbn [Nat.eqb]. assert (0 < (- D) ^ 2) by nra. lra.
  - change (remove_nat 0 (seq 0 2)) with [1%nat]. apply (dec_cons 4 _ _ 1%nat _ (fun _ => -1 * 0)).
    + left. reflexivity.
    + intros i [<-|[] ]. reflexivity.
    + intros i [<-|[] ] N. contradiction.
    + constructor.
Qed.
Example ex_renamed : forall logsv, exists K', fit_order logsv ModelDirect.Pwling 4 2 true ModelDirect.NoPK (fun j => ex_data (1 - j)%nat) = Ok K' /\ K' = [1%nat; 0%nat].
Proof.
  intro logsv. destruct (C163_relabelling logsv 4 2 true ex_data (fun j => (1 - j)%nat) [0%nat; 1%nat] ltac:(lia) ltac:(lia)) as (K' & E & M); [intros; lia|intros; lia|exact ex_decisive|].
  exists K'. split; [exact E|]. destruct K' as [|a [|b [|] ] ]; try discriminate. apply fit_order_perm in E.
  assert (In a (seq 0 2)) by (apply (Permutation_in _ E); left; reflexivity). assert (In b (seq 0 2)) by (apply (Permutation_in _ E); right; left; reflexivity).
  destruct H as [<-|[<-|[] ] ]; destruct H0 as [<-|[<-|[] ] ]; try discriminate; reflexivity.
Qed.
Example ex_not_related : ~ linearly_related 4 ex_x0 ex_x1.
Proof. intro H. apply (dmi_none 4) in H; [|lia]. destruct ex_dmi as (D & _ & E). congruence. Qed.
(** the adjacency matrix: regression by orthogonalisation, one step of LARS; x1 = 1 x0 + ... in the old units *)
Definition ex_lr (cols : list (nat -> R)) (y : nat -> R) : list R := fst (ls 4 cols y).
Definition ex_lars (cols : list (nat -> R)) (y : nat -> R) : result (list R) := Ok (map (fun x => cov 4 x y) cols).
Example ex_lr_oracle : regression_oracle 4 ex_lr.
Proof. intros cols y _. apply ls_least. lia. Qed.
Example ex_lars_length : forall cols y c, ex_lars cols y = Ok c -> length c = length cols.
Proof. intros cols y c H. injection H as <-. apply map_length. Qed.
Example ex_lars_signs : forall es e cols y, length es = length cols -> Forall is_sign es -> is_sign e ->
  ex_lars (flip_columns es cols) (fun s => e * y s)
  = match ex_lars cols y with Ok c => Ok (map (fun ec => e * fst ec * snd ec) (combine es c)) | Err x => Err x end.
Proof.
  intros es e cols y L F Se. unfold ex_lars. f_equal. unfold flip_columns. revert es L F. induction cols as [|x cols IH]; intros [|d es] L F; try discriminate; [reflexivity|].
  cbn [combine map fst snd]. f_equal; [|apply IH; [injection L; auto|inversion F; assumption] ].
  assert (R1 : rel 4 (fun s => s) d 0 x (fun s => d * x s)) by (intros s _; ring). assert (R2 : rel 4 (fun s => s) e 0 y (fun s => e * y s)) by (intros s _; ring).
  rewrite (rel_cov 4 4 _ (sd_id 4) ltac:(lia) d 0 e 0 _ _ _ _ R1 R2). ring.
Qed.
Example ex_independent : independent_columns 4 (map ex_data (seq 0 2)).
Proof.
  intros cs b L H. destruct cs as [|c [|d [|] ] ]; try discriminate.
  pose proof (H 0%nat ltac:(lia)) as H0. pose proof (H 1%nat ltac:(lia)) as H1. pose proof (H 2%nat ltac:(lia)) as H2. pose proof (H 3%nat ltac:(lia)) as H3.
  cbn in H0, H1, H2, H3. repeat constructor; lra.
Qed.
Example ex_fit : forall logsv, exists B, fit ex_lr ex_lars logsv ModelDirect.Pwling 4 2 true ModelDirect.NoPK ex_data = Ok ([0%nat; 1%nat], B) /\ B 1%nat 0%nat = 1 /\ B 0%nat 1%nat = 0.
Proof.
  intro logsv. unfold fit. rewrite ex_order. cbn [bind]. cbn [adjacency_loop ModelDirect.pk_of_mode ModelDirect.predictors_of app].
  assert (M0 : mean 4 ex_x0 = 0) by (rewrite mean4; cbn; field). assert (M1 : mean 4 ex_x1 = 0) by (rewrite mean4; cbn; field).
  pose proof q2_sq as Q. pose proof q2_pos as QP.
  assert (S0 : std 4 ex_x0 = 1) by (apply std4; [exact M0|lra|cbn; field]). assert (S1 : std 4 ex_x1 = q2) by (apply std4; [exact M1|lra|cbn; lra]).
  assert (Z0 : forall s, scale 4 ex_x0 s = ex_x0 s) by (intro s; unfold scale; rewrite M0, S0; destruct (Req_EM_T 1 0); [lra|field]).
  assert (Z1 : forall s, scale 4 ex_x1 s = ex_x1 s / q2) by (intro s; unfold scale; rewrite M1, S1; destruct (Req_EM_T q2 0); [lra|]; field; lra).
  assert (LSQ : forall x y cxy, mean 4 x = 0 -> mean 4 y = 0 -> dot 4 x x = 4 -> dot 4 y x = 4 * cxy -> ex_lr [x] y = [cxy]).
  { intros x y cxy Mx My D1 D2. unfold ex_lr. cbn [ls lin comb fst]. 
    change (rsum 4 x / INR 4) with (mean 4 x). change (rsum 4 y / INR 4) with (mean 4 y). rewrite Mx, My.
    assert (E1 : dot 4 (fun s => x s - (0 + 0)) (fun s => x s - (0 + 0)) = 4) by (refine (eq_trans _ D1); apply rsum_ext; intros; ring).
    assert (E2 : dot 4 (fun s => y s - (0 + 0)) (fun s => x s - (0 + 0)) = 4 * cxy) by (refine (eq_trans _ D2); apply rsum_ext; intros; ring).
    rewrite E1, E2. destruct (Req_EM_T 4 0); [lra|]. f_equal. field. }
  unfold adaptive_lasso, lasso_mask. cbn [map ex_data]. 
  rewrite (LSQ (scale 4 ex_x0) (scale 4 ex_x1) (/ q2)).
  2:{ rewrite mean4, !Z0. cbn. field. }
  2:{ rewrite mean4, !Z1. cbn. field. lra. }
  2:{ unfold dot. cbn [rsum]. rewrite !Z0. cbn. ring. }
  2:{ unfold dot. cbn [rsum]. rewrite !Z0, !Z1. cbn. field. lra. }
  cbn [map combine]. unfold ex_lars. cbn [bind map combine fst snd].
  set (cv := cov 4 _ _). assert (CV : cv = / 2).
  { assert (I : 0 < / q2) by (apply Rinv_0_lt_compat; lra). assert (AB : Rabs (/ q2) = / q2) by (apply Rabs_right; lra).
    unfold cv. rewrite cov4; cbn [fst snd].
    - rewrite !Z0, !Z1, AB. cbn. replace (/ 2) with (/ (q2 * q2)) by (rewrite Q; reflexivity). field. lra.
    - rewrite mean4, !Z0. cbn. field_simplify; lra.
    - rewrite mean4, !Z1. cbn. field. lra. }
  clearbody cv. subst cv. cbn [map combine fst snd]. unfold Rltb.
  assert (I : 0 < / q2) by (apply Rinv_0_lt_compat; lra).
  destruct (Rlt_dec 0 (Rabs (/ 2 * Rabs (/ q2)))) as [_|N].
  2:{ exfalso. apply N. apply Rabs_pos_lt. apply Rmult_integral_contrapositive. split; [lra|]. apply Rabs_no_R0. lra. }
  cbn [existsb orb select map scatter ex_data].
  rewrite (LSQ ex_x0 ex_x1 1 M0 M1) by (unfold dot; cbn; ring). cbn [bind write_coefs].
  eexists. split; [reflexivity|]. split; reflexivity.
Qed.
Example ex_fit_units : forall logsv, singular_value_oracle logsv -> exists B,
  fit ex_lr ex_lars logsv ModelDirect.Pwling 4 2 true ModelDirect.NoPK (fun j => in_units (if (j =? 0)%nat then 1000 else -3) 7 (ex_data j)) = Ok ([0%nat; 1%nat], B) /\ B 1%nat 0%nat = -3 / 1000.
Proof.
  intros logsv SV. pose proof (C162_adjacency_units ex_lr ex_lars logsv ModelDirect.Pwling 4 2 true ModelDirect.NoPK ex_data (fun j => if (j =? 0)%nat then 1000 else -3) (fun _ => 7)
    SV ex_lr_oracle ex_lars_length ex_lars_signs ltac:(lia) ex_independent ltac:(intros j _; cbn beta; destruct (j =? 0)%nat; lra)) as H.
  destruct (ex_fit logsv) as (B & E & B1 & _). rewrite E in H. cbn beta in H.
  destruct (fit ex_lr ex_lars logsv _ 4 2 true _ (fun j => in_units _ _ _)) as [[K' B']|]; [|contradiction]. destruct H as [-> HB].
  exists B'. split; [reflexivity|]. rewrite HB, B1. cbn. field.
Qed.
(** with a third, constant column the order is that of the columns although x1 = x0 + noise was named first *)
Example ex_constant : forall logsv, fit_order logsv ModelDirect.Pwling 4 3 true ModelDirect.NoPK
  (fun j => match j with O => ex_x1 | 1%nat => ex_x0 | _ => fun _ => 5 end) = Ok [0%nat; 1%nat; 2%nat].
Proof. intro logsv. apply (C165_constant_column logsv 4 3 true _ 2%nat 5); try lia. reflexivity. Qed.
(** a column in two units: x2 = 10 x1 *)
Example ex_two_units : forall logsv, fit_order logsv ModelDirect.Pwling 4 3 true ModelDirect.NoPK
  (fun j => match j with O => ex_x0 | 1%nat => ex_x1 | _ => fun s => 10 * ex_x1 s end) = Ok [1%nat; 0%nat; 2%nat].
Proof.
  intro logsv. apply (C165_order_of_columns logsv 4 3 true _ 1%nat); try lia.
  - exists 2%nat. split; [lia|]. split; [lia|]. exists 10, (-1), 0. split; [left; lra|]. intros s _. ring.
  - intros i j Hi Hj Dj. assert (i = 0%nat) as -> by lia. destruct j as [|[|[|j] ] ]; try lia; [exact ex_not_related|].
    intros (a & b & c & D & H). apply ex_not_related. exists a, (10 * b), c. split; [destruct D; [left|right]; lra|].
    intros s Hs. rewrite <- (H s Hs). ring.
Qed.
