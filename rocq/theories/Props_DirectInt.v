(** * Properties of DirectLiNGAM on a table of whole numbers (C209) *)
From Coq Require Import Reals Lra Lia Arith Bool List Permutation ZArith.
From Verif Require Import Prelude LibR SpecDirectR ModelDirectR ModelDirectInt ProofDirectR ProofDirectR2 ProofDirectR5 ProofDirectR6 ProofDirectR7 ProofDirectInt.
From Verif Require ModelDirect ProofDirect Props_DirectR.
Import ListNotations.
Open Scope R_scope.

(** ** C209: the same numbers stored as integers and as floats *)

(** A table of floats, and any table with measure="kernel", is treated as described by C160-C165. *)
Theorem C209_floats : forall nan_int logsv ms n p pk_shape_ok mode X,
  fit_order_dtype false nan_int logsv ms n p pk_shape_ok mode X = fit_order logsv ms n p pk_shape_ok mode X.
Proof.
  intros. unfold fit_order_dtype, fit_order. destruct ((n =? 0)%nat || (p =? 0)%nat); [reflexivity|].
  destruct mode as [|pk|pk]; [destruct ms; apply loop_false| |destruct pk_shape_ok; [destruct ms; apply loop_false|reflexivity] ].
  destruct pk_shape_ok; [|reflexivity]. destruct (ModelDirect.extract_partial_orders p pk) as [po|]; [|reflexivity]. cbn [bind]. destruct ms; apply loop_false.
Qed.
Theorem C209_kernel : forall whole nan_int logsv n p pk_shape_ok mode X,
  fit_order_dtype whole nan_int logsv ModelDirect.Kernel n p pk_shape_ok mode X = fit_order logsv ModelDirect.Kernel n p pk_shape_ok mode X.
Proof. intros. rewrite <- (C209_floats nan_int). reflexivity. Qed.

(** The first variable of the order is the same ... *)
Theorem C209_first_variable_partial : forall nan_int logsv ms n p pk_shape_ok mode X K K',
  fit_order_dtype true nan_int logsv ms n p pk_shape_ok mode X = Ok K -> fit_order logsv ms n p pk_shape_ok mode X = Ok K' ->
  hd_error K = hd_error K'.
Proof.
  intros v logsv ms n p ok mode X K K'. rewrite <- (C209_floats v). destruct ms.
  2:{ intros H H'. change (fit_order_dtype true v logsv ModelDirect.Kernel n p ok mode X) with (fit_order_dtype false v logsv ModelDirect.Kernel n p ok mode X) in H. congruence. }
  unfold fit_order_dtype. destruct ((n =? 0)%nat || (p =? 0)%nat) eqn:Z; [discriminate|].
  assert (A : forall po, loop_int (pwling_score n) argmax true v p n mode po (fun j => Some (X j)) (seq 0 p) [] = Ok K ->
                         loop_int (pwling_score n) argmax false v p n mode po (fun j => Some (X j)) (seq 0 p) [] = Ok K' -> hd_error K = hd_error K').
  { intro po. apply orb_false_iff in Z. destruct Z as [_ Z]. apply Nat.eqb_neq in Z. destruct p as [|p]; [contradiction|]. generalize (seq 0 (S p)). intro U. cbn [loop_int].
    destruct (search (pwling_score n) argmax mode po (fun j => Some (X j)) U) as [m|]; [|discriminate]. cbn [bind].
    intros H H'. apply loop_int_prefix in H. apply loop_int_prefix in H'. destruct H as (L & ->). destruct H' as (L' & ->). reflexivity. }
  destruct mode as [|pk|pk]; [apply A| |destruct ok; [apply A|discriminate] ].
  destruct ok; [|discriminate]. destruct (ModelDirect.extract_partial_orders p pk) as [po|]; [apply A|discriminate].
Qed.
(** ... so is everything with at most two variables ... *)
Theorem C209_two_variables_partial : forall nan_int logsv ms n p pk_shape_ok mode X, (p <= 2)%nat ->
  fit_order_dtype true nan_int logsv ms n p pk_shape_ok mode X = fit_order logsv ms n p pk_shape_ok mode X.
Proof.
  intros v logsv ms n p ok mode X Hp. destruct ms; [|apply C209_kernel]. rewrite <- (C209_floats v). unfold fit_order_dtype.
  destruct ((n =? 0)%nat || (p =? 0)%nat); [reflexivity|].
  assert (A : forall po, loop_int (pwling_score n) argmax true v p n mode po (fun j => Some (X j)) (seq 0 p) []
                       = loop_int (pwling_score n) argmax false v p n mode po (fun j => Some (X j)) (seq 0 p) []).
  { intro po. destruct p as [|[|[|p] ] ]; [reflexivity| | |lia].
    - cbn [loop_int]. destruct (search _ _ _ _ _ _); reflexivity.
    - cbn [loop_int seq]. destruct (search (pwling_score n) argmax mode po (fun j => Some (X j)) [0; 1]%nat) as [m|] eqn:S; [|reflexivity]. cbn [bind].
      apply search_in in S. assert (T : exists x, remove_nat m [0; 1]%nat = [x]) by (destruct S as [<-|[<-|[] ] ]; [exists 1%nat|exists 0%nat]; reflexivity).
      destruct T as (x & ->).
      rewrite (search_single _ _ mode _ (regress_out_int true v n (fun j => Some (X j)) [0; 1]%nat m) (regress_out_int false v n (fun j => Some (X j)) [0; 1]%nat m)).
      reflexivity. }
  destruct mode as [|pk|pk]; [apply A| |destruct ok; [apply A|reflexivity] ].
  destruct ok; [|reflexivity]. destruct (ModelDirect.extract_partial_orders p pk) as [po|]; [apply A|reflexivity].
Qed.
(** ... and the result is an order of all variables. *)
Theorem C209_all_variables_partial : forall whole nan_int logsv ms n p pk_shape_ok mode X K,
  fit_order_dtype whole nan_int logsv ms n p pk_shape_ok mode X = Ok K -> Permutation K (seq 0 p).
Proof.
  intros whole v logsv ms n p ok mode X K H. unfold fit_order_dtype in H. destruct ((n =? 0)%nat || (p =? 0)%nat); [discriminate|].
  assert (A : forall po, match ms with
      | ModelDirect.Pwling => loop_int (pwling_score n) argmax whole v p n mode po (fun j => Some (X j)) (seq 0 p) []
      | ModelDirect.Kernel => loop_int (kernel_score logsv n) argmin false v p n mode po (fun j => Some (scale n (X j))) (seq 0 p) []
      end = Ok K -> Permutation K (seq 0 p)).
  { intros po E. destruct ms; apply loop_int_perm in E; try exact E; try apply seq_NoDup; apply seq_length. }
  destruct mode as [|pk|pk]; [apply (A []); exact H| |].
  - destruct ok; [|discriminate]. destruct (ModelDirect.extract_partial_orders p pk) as [po|]; [|discriminate]. apply (A po). exact H.
  - destruct ok; [|discriminate]. apply (A []). exact H.
Qed.

(** After the first variable [m] the order need not have anything to do with the data: if the residuals of one other variable
    are all smaller than 1, it is the order of the columns. *)
Theorem C209_small_residuals : forall nan_int logsv n p pk_shape_ok X m c, (0 < n)%nat -> (m < p)%nat -> (c < p)%nat -> c <> m ->
  (exists K, fit_order logsv ModelDirect.Pwling n p pk_shape_ok ModelDirect.NoPK X = Ok (m :: K)) ->
  0 < var n (X m) ->
  (forall s, (s < n)%nat -> Rabs (X c s - cov n (X c) (X m) / var n (X m) * X m s) < 1) ->
  fit_order_dtype true nan_int logsv ModelDirect.Pwling n p pk_shape_ok ModelDirect.NoPK X = Ok (m :: seq 0 m ++ seq (S m) (p - S m)).
Proof.
  intros v logsv n p ok X m c Hn Hm Hc D (K & E) V R. rewrite <- (C209_floats v) in E. unfold fit_order_dtype in *.
  replace (n =? 0)%nat with false in * by (symmetry; apply Nat.eqb_neq; lia). replace (p =? 0)%nat with false in * by (symmetry; apply Nat.eqb_neq; lia).
  cbn [orb] in *. assert (SP : seq 0 p = seq 0 m ++ m :: seq (S m) (p - S m)).
  { replace p with (m + S (p - S m))%nat at 1 by lia. rewrite seq_app. reflexivity. }
  assert (ND : NoDup (seq 0 m ++ m :: seq (S m) (p - S m))) by (rewrite <- SP; apply seq_NoDup).
  rewrite SP in *. destruct p as [|p']; [lia|]. cbn [loop_int] in *.
  destruct (search (pwling_score n) argmax ModelDirect.NoPK [] (fun j => Some (X j)) (seq 0 m ++ m :: seq (S m) (S p' - S m))) as [m'|]; [|discriminate].
  cbn [bind] in *. pose proof (loop_int_prefix _ _ _ _ _ _ _ _ _ _ _ _ E) as (L & EL). cbn in EL. injection EL as <- ->.
  rewrite remove_app by exact ND. assert (LE : length (seq 0 m ++ seq (S m) (S p' - S m)) = p') by (rewrite app_length, !seq_length; lia).
  rewrite <- LE at 1. rewrite loop_int_degenerate; [reflexivity|exact Hn|apply (NoDup_remove_1 _ _ _ ND)|].
  exists c. assert (IC : In c (seq 0 m ++ seq (S m) (S p' - S m))).
  { apply in_or_app. destruct (lt_dec c m); [left|right]; apply in_seq; lia. }
  split; [exact IC|]. rewrite regress_out_int_eq by exact ND.
  rewrite (proj2 (memb_in c _)) by (apply in_or_app; apply in_app_or in IC; destruct IC; [left|right; right]; assumption).
  destruct (Nat.eqb_spec c m); [contradiction|]. cbn [andb negb residual]. destruct (Req_EM_T (var n (X m)) 0); [lra|]. cbn [store degenerate].
  apply std_zero. apply (const_var n Hn _ 0). intros s Hs. apply trunc_small. pose proof (Rabs_def2 _ _ (R s Hs)). lra.
Qed.

(** If all residuals that occur are whole numbers, nothing is lost: [whole_run n X U K] is a run without prior knowledge from
    the columns X of the variables U to the order K of which this is true. *)
Inductive whole_run (n : nat) : (nat -> col) -> list nat -> list nat -> Prop :=
| whole_end : forall X, whole_run n X [] []
| whole_step : forall X U m K, search (pwling_score n) argmax ModelDirect.NoPK [] X U = Ok m ->
    (forall j, In j U -> j <> m -> exists r, residual n (X j) (X m) = Some r /\ forall s, (s < n)%nat -> exists z, r s = IZR z) ->
    whole_run n (regress_out n X U m) (remove_nat m U) K -> whole_run n X U (m :: K).
Lemma whole_loop : forall n v X U K, (0 < n)%nat -> whole_run n X U K -> NoDup U -> forall X' L, (forall j, In j U -> sign_rel n (fun s => s) 1 (X j) (X' j)) ->
  loop_int (pwling_score n) argmax true v (length U) n ModelDirect.NoPK [] X' U L = Ok (L ++ K).
Proof.
  intros n v X U K Hn W. induction W as [X|X U m K S H W IH]; intros ND X' L HX; [cbn; rewrite app_nil_r; reflexivity|].
  pose proof (search_in _ _ _ _ _ _ _ S) as Hm. pose proof (remove_perm m U ND Hm) as P. rewrite (Permutation_length P). cbn [length loop_int].
  assert (S' : search (pwling_score n) argmax ModelDirect.NoPK [] X' U = Ok m).
  { rewrite <- S. unfold search. cbn [ModelDirect.search_candidate]. destruct U as [|a [|b U] ]; [reflexivity|reflexivity|].
    rewrite (traverse_ext _ _ (pwling_score n X' (a :: b :: U) (a :: b :: U) []) (pwling_score n X (a :: b :: U) (a :: b :: U) [])); [reflexivity|].
    intros i Hi. apply (pwling_score_rel n n (fun s => s) (sd_id n) Hn); [|exact Hi]. intros j Hj. specialize (HX j Hj).
    destruct (X j) as [x|], (X' j) as [x'|]; try exact HX. exists 1, 0. split; [lra|]. intros s Hs. rewrite (HX s Hs). ring. }
  rewrite S'. cbn [bind]. replace (L ++ m :: K) with ((L ++ [m]) ++ K) by (rewrite <- app_assoc; reflexivity).
  apply IH; [apply NoDup_filter; exact ND|]. intros j Hj. unfold remove_nat in Hj. apply filter_In in Hj. destruct Hj as [Hj Dj].
  apply negb_true_iff, Nat.eqb_neq in Dj. rewrite regress_out_eq, regress_out_int_eq by exact ND. rewrite (proj2 (memb_in j U) Hj).
  destruct (Nat.eqb_spec j m); [contradiction|]. cbn [andb negb].
  pose proof (residual_sign n n (fun s => s) (sd_id n) Hn 1 1 _ _ _ _ (or_introl eq_refl) (or_introl eq_refl) (HX j Hj) (HX m Hm)) as Q.
  destruct (H j Hj Dj) as (r & E & Z). rewrite E in *. destruct (residual n (X' j) (X' m)) as [r'|]; [|contradiction Q].
  cbn [store sign_rel] in *. intros s Hs. rewrite (Q s Hs), !Rmult_1_l. destruct (Z s Hs) as (z & ->). apply trunc_whole.
Qed.
Theorem C209_whole_residuals_partial : forall nan_int logsv n p pk_shape_ok X K, (0 < n)%nat -> (0 < p)%nat ->
  whole_run n (fun j => Some (X j)) (seq 0 p) K ->
  fit_order_dtype true nan_int logsv ModelDirect.Pwling n p pk_shape_ok ModelDirect.NoPK X = Ok K /\
  fit_order_dtype false nan_int logsv ModelDirect.Pwling n p pk_shape_ok ModelDirect.NoPK X = Ok K.
Proof.
  intros v logsv n p ok X K Hn Hp W. rewrite C209_floats. unfold fit_order_dtype, fit_order.
  replace (n =? 0)%nat with false by (symmetry; apply Nat.eqb_neq; lia). replace (p =? 0)%nat with false by (symmetry; apply Nat.eqb_neq; lia). cbn [orb]. split.
  - pose proof (whole_loop n v _ _ K Hn W (seq_NoDup p 0) (fun j => Some (X j)) []) as E. rewrite seq_length in E. apply E.
    intros j _ s Hs. ring.
  - assert (G : forall Y U K, whole_run n Y U K -> NoDup U -> forall L, loop (pwling_score n) argmax (length U) n ModelDirect.NoPK [] Y U L = Ok (L ++ K)).
    { clear. intros Y U K W. induction W as [Y|Y U m K S H W IH]; intros ND L; [cbn; rewrite app_nil_r; reflexivity|].
      pose proof (search_in _ _ _ _ _ _ _ S) as Hm. pose proof (remove_perm m U ND Hm) as P. rewrite (Permutation_length P). cbn [length loop].
      rewrite S. cbn [bind]. rewrite IH by (apply NoDup_filter; exact ND). rewrite <- app_assoc. reflexivity. }
    pose proof (G _ _ _ W (seq_NoDup p 0) []) as E. rewrite seq_length in E. exact E.
Qed.

(** The same whole numbers can give different causal orders, depending on their type. *)
Lemma table_float : forall logsv ok, fit_order logsv ModelDirect.Pwling 8 3 ok ModelDirect.NoPK int_table = Ok [0; 2; 1]%nat.
Proof.
  intros logsv ok. unfold fit_order. cbn [Nat.eqb orb seq]. cbn [loop]. rewrite table_first. cbn [bind].
  change (remove_nat 0 [0; 1; 2]%nat) with [1; 2]%nat. set (Y := regress_out 8 (fun j => Some (int_table j)) [0; 1; 2]%nat 0).
  assert (V : var 8 (int_table 0) = 1) by (unfold var; rewrite !mean8; cbn; field).
  assert (C1 : cov 8 (int_table 1) (int_table 0) = 0) by (unfold cov; rewrite !mean8; cbn; field).
  assert (C2 : cov 8 (int_table 2) (int_table 0) = 1 / 2) by (unfold cov; rewrite !mean8; cbn; field).
  assert (Y1 : Y 1%nat = Some (fun s => int_table 1 s - cov 8 (int_table 1) (int_table 0) / var 8 (int_table 0) * int_table 0 s)).
  { unfold Y, regress_out. cbn [fold_left Nat.eqb]. unfold upd. cbn [Nat.eqb residual]. destruct (Req_EM_T _ 0) as [B|_]; [lra|reflexivity]. }
  assert (Y2 : Y 2%nat = Some (fun s => int_table 2 s - cov 8 (int_table 2) (int_table 0) / var 8 (int_table 0) * int_table 0 s)).
  { unfold Y, regress_out. cbn [fold_left Nat.eqb]. unfold upd. cbn [Nat.eqb residual]. destruct (Req_EM_T _ 0) as [B|_]; [lra|reflexivity]. }
  assert (D : exists D, 0 < D /\ dmi 8 (fun s => int_table 2 s - cov 8 (int_table 2) (int_table 0) / var 8 (int_table 0) * int_table 0 s)
       (fun s => int_table 1 s - cov 8 (int_table 1) (int_table 0) / var 8 (int_table 0) * int_table 0 s) = Some D).
  { destruct ex_dmi as (D & P & E). exists D. split; [exact P|]. rewrite <- E.
    apply (dmi_rel 4 8 (fun s => (s mod 4)%nat) ex_x0 ex_x1 _ _ sd_mod4); [lia| |].
    - exists (/ 2), 0. split; [lra|]. intros s Hs. rewrite C2, V. revert s Hs. apply below8; cbn; lra.
    - exists (/ 2), 0. split; [lra|]. intros s Hs. rewrite C1, V. revert s Hs. apply below8; cbn; lra. }
  destruct D as (D & P & E). set (y2 := fun s => int_table 2 s - _ / _ * _) in *. set (y1 := fun s => int_table 1 s - _ / _ * _) in *.
  assert (S : search (pwling_score 8) argmax ModelDirect.NoPK [] Y [1; 2]%nat = Ok 2%nat).
  { unfold search. cbn [ModelDirect.search_candidate traverse]. rewrite !score_eq. cbn [fold_left Nat.eqb]. unfold pair_term. rewrite Y1, Y2.
    change (diff_mutual_info 8 (standardize 8 (Some y1)) (standardize 8 (Some y2)) _ _) with (dmi 8 y1 y2).
    change (diff_mutual_info 8 (standardize 8 (Some y2)) (standardize 8 (Some y1)) _ _) with (dmi 8 y2 y1).
    rewrite (dmi_antisym 8 y2 y1), E. cbn [oopp option_map min0_sq oadd bind argmax argbest]. unfold Rltb.
    rewrite (Rmin_left 0 D), (Rmin_right 0 (- D)) by lra. destruct (Rlt_dec _ _) as [B|B]; [reflexivity|]. exfalso. apply B. nra. }
  rewrite S. cbn [bind]. reflexivity.
Qed.
Theorem C209_same_numbers_refuted : forall nan_int logsv pk_shape_ok,
  exists X : nat -> nat -> R, (forall j s, (j < 3)%nat -> (s < 8)%nat -> exists z, X j s = IZR z) /\
    fit_order_dtype true nan_int logsv ModelDirect.Pwling 8 3 pk_shape_ok ModelDirect.NoPK X = Ok [0; 1; 2]%nat /\
    fit_order_dtype false nan_int logsv ModelDirect.Pwling 8 3 pk_shape_ok ModelDirect.NoPK X = Ok [0; 2; 1]%nat.
Proof.
  intros v logsv ok. exists int_table. split; [|split].
  - intros j s Hj Hs. revert s Hs. destruct j as [|[|[|j] ] ]; [| | |lia]; apply below8; cbn;
      first [exists 0%Z; lra|exists 1%Z; lra|exists (-1)%Z; lra].
  - apply (C209_small_residuals v logsv 8 3 ok int_table 0 2); try lia.
    + exists [2; 1]%nat. apply table_float.
    + unfold var. rewrite !mean8. cbn. lra.
    + assert (V : var 8 (int_table 0) = 1) by (unfold var; rewrite !mean8; cbn; field).
      assert (C2 : cov 8 (int_table 2) (int_table 0) = 1 / 2) by (unfold cov; rewrite !mean8; cbn; field). rewrite V, C2.
      apply below8; cbn; apply Rabs_def1; lra.
  - rewrite C209_floats. apply table_float.
Qed.

(** ** Examples *)
Example ex_trunc : trunc (7 / 2) = 3 /\ trunc (- (7 / 2)) = -3.
Proof.
  unfold trunc. split.
  - destruct (Rle_dec 0 (7 / 2)); [|lra]. rewrite (int_part_eq (7 / 2) 3); [reflexivity|lra].
  - destruct (Rle_dec 0 (- (7 / 2))); [lra|]. rewrite (int_part_eq (- - (7 / 2)) 3); [reflexivity|lra].
Qed.
(** C209_whole_residuals_partial: u and (v + w) / 2 *)
Example ex_whole_run : exists K, whole_run 8 (fun j => Some (int_table j)) [0; 1]%nat K.
Proof.
  assert (V : var 8 (int_table 0) = 1) by (unfold var; rewrite !mean8; cbn; field).
  assert (C1 : cov 8 (int_table 1) (int_table 0) = 0) by (unfold cov; rewrite !mean8; cbn; field).
  exists [0; 1]%nat. apply whole_step.
  - unfold search. cbn [ModelDirect.search_candidate traverse].
    pose proof table_u_x1 as E. destruct (two_scores 8 int_table 0 E) as [-> ->]. cbn [bind argmax argbest]. unfold Rltb.
    replace (- 0) with 0 by ring. destruct (Rlt_dec _ _) as [B|B]; [exfalso; lra|]. reflexivity.
  - intros j [<-|[<-|[] ] ] D; [contradiction|]. cbn [residual]. destruct (Req_EM_T _ 0) as [B|_]; [lra|]. eexists. split; [reflexivity|].
    rewrite C1, V. apply below8; cbn; first [exists 0%Z; lra|exists 1%Z; lra|exists (-1)%Z; lra].
  - change (remove_nat 0 [0; 1]%nat) with [1%nat]. apply whole_step; [reflexivity| |].
    + intros j [<-|[] ] D. contradiction.
    + apply whole_end.
Qed.

Print Assumptions C209_floats.
Print Assumptions C209_kernel.
Print Assumptions C209_first_variable_partial.
Print Assumptions C209_two_variables_partial.
Print Assumptions C209_all_variables_partial.
Print Assumptions C209_small_residuals.
Print Assumptions C209_whole_residuals_partial.
Print Assumptions C209_same_numbers_refuted.
