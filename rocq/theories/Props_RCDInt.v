(** * Property theorems: RCD on a table of whole numbers (C212) *)
From Coq Require Import List Arith Bool ZArith QArith Qcanon Lia.
From Verif Require Import Prelude Loop Spec SpecPop SpecRCDPop Lib LibMat ProofPop ModelRCD ModelRCDPop ModelUtilInt ModelRCDInt ProofRCD ProofRCDUnits ProofRCDInt OlsGS.
From Verif Require Props_UtilInt Props_RCDPop.
Import ListNotations.
Open Scope nat_scope.

(** A whole number. *)
Definition whole (q : Qc) : Prop := exists z, q = qz z.
(** What a procedure computes from samples does not depend on rows beyond [N]. *)
Definition sees_rows1 (N : nat) (t : sample -> bool) : Prop := forall y y', (forall r, r < N -> y r = y' r) -> t y = t y'.
Definition sees_rows2 (N : nat) (t : sample -> sample -> bool) : Prop :=
  forall y y' z z', (forall r, r < N -> y r = y' r) -> (forall r, r < N -> z r = z' r) -> t y z = t y' z'.
(** Nor on columns that are not regressed on. *)
Definition sees_columns (N : nat) (ols : (nat -> sample) -> list nat -> sample -> nat -> Qc) (icpt : (nat -> sample) -> list nat -> sample -> Qc) : Prop :=
  forall Y Y' ps y y', (forall p r, In p ps -> r < N -> Y p r = Y' p r) -> (forall r, r < N -> y r = y' r) ->
    icpt Y ps y = icpt Y' ps y' /\ forall p, In p ps -> ols Y ps y p = ols Y' ps y' p.
Definition sees_columns_ml (N : nat) (mlcoef : (nat -> sample) -> nat -> list nat -> nat -> Qc) : Prop :=
  forall Y Y' i ps, (forall p r, p = i \/ In p ps -> r < N -> Y p r = Y' p r) -> forall p, In p ps -> mlcoef Y i ps p = mlcoef Y' i ps p.

Lemma trunc_whole : forall z, qtrunc (qz z) = qz z.
Proof.
  intro z. destruct (Props_UtilInt.trunc_spec (qz z)) as ((w & E) & D & _). rewrite E in *. f_equal.
  assert (C : (qabs (qz (w - z)) < 1)%Qc) by (replace (qz (w - z)) with (qz w - qz z)%Qc; [exact D|]; apply Qc_is_canon; unfold qz, Qcminus, Qcplus, Qcopp; cbn [this Q2Qc]; rewrite !Qred_correct; unfold Qeq, inject_Z, Qplus, Qopp; cbn; ring).
  unfold qabs in C. destruct (qltb (qz (w - z)) 0) eqn:L.
  - apply qltb_lt in L. unfold Qclt, qz, Qcopp in *. cbn [this Q2Qc] in *. rewrite ?Qred_correct in *. unfold Qlt in *. cbn in *. lia.
  - apply qltb_nlt in L. unfold Qclt, Qcle, qz in *. cbn [this Q2Qc] in *. rewrite ?Qred_correct in *. unfold Qlt, Qle in *. cbn in *. lia.
Qed.

Lemma small_zero : forall q, (qabs q < 1)%Qc -> qtrunc q = 0%Qc.
Proof.
  intros q H. destruct (Props_UtilInt.trunc_spec q) as ((w & E) & _ & D). rewrite E in *.
  assert (C : (qabs (qz w) < 1)%Qc) by (apply (Qcle_lt_trans _ _ _ D H)).
  assert (W : w = 0%Z).
  { unfold qabs in C. destruct (qltb (qz w) 0) eqn:L.
    - apply qltb_lt in L. unfold Qclt, qz, Qcopp in *. cbn [this Q2Qc] in *. rewrite ?Qred_correct in *. unfold Qlt in *. cbn in *. lia.
    - apply qltb_nlt in L. unfold Qclt, Qcle, qz in *. cbn [this Q2Qc] in *. rewrite ?Qred_correct in *. unfold Qlt, Qle in *. cbn in *. lia. }
  rewrite W. apply Qc_is_canon. reflexivity.
Qed.

Lemma whole_den : forall q : Qc, Qden q = 1%positive -> whole q.
Proof. intros [[a b] C] H. cbn in H. subst b. exists a. apply Qc_is_canon. unfold qz. cbn [this Q2Qc]. rewrite Qred_correct. reflexivity. Qed.

(** ** C212 *)
(** A table of floats is treated as in C142: nothing is cut off. *)
Theorem C212_floats : forall ols icpt shapiro corr ind mlcoef X n maxl mlhsicr,
  rcd_data_fit_dtype false ols icpt shapiro corr ind mlcoef X n maxl mlhsicr = rcd_data_fit ols icpt shapiro corr ind mlcoef X n maxl mlhsicr.
Proof. reflexivity. Qed.

Lemma fit_from_ancestors : forall n maxl ml ng ng' co co' io io' im im' cp cr coef M A,
  (forall k F, rcd_ancestors n maxl ml ng co io im k = inr F -> F = M -> rcd_ancestors n maxl ml ng' co' io' im' k = inr F) ->
  rcd_fit n maxl ml ng co io im cp cr coef = Ok (M, A) -> rcd_fit n maxl ml ng' co' io' im' cp cr coef = Ok (M, A).
Proof.
  intros n maxl ml ng ng' co co' io io' im im' cp cr coef M A H. unfold rcd_fit. destruct (maxl =? 0); [discriminate|].
  destruct (rcd_ancestors n maxl ml ng co io im (rcd_fuel n maxl)) as [|F] eqn:E; [discriminate|]. intro Q.
  assert (F = M) by congruence. rewrite (H _ _ E H0). exact Q.
Qed.
(** When no two variables have a recorded ancestor in common the integers do no harm: the same ancestors and the same matrix. *)
Theorem C212_no_common_ancestor_partial : forall int1 int2 ols icpt shapiro corr ind mlcoef X n maxl mlhsicr M A,
  rcd_data_fit_dtype int1 ols icpt shapiro corr ind mlcoef X n maxl mlhsicr = Ok (M, A) ->
  (forall i j k, i < n -> j < n -> i <> j -> M i k = true -> M j k = true -> False) ->
  rcd_data_fit_dtype int2 ols icpt shapiro corr ind mlcoef X n maxl mlhsicr = Ok (M, A).
Proof.
  intros int1 int2 ols icpt shapiro corr ind mlcoef X n maxl mlhsicr M A E NC. unfold rcd_data_fit_dtype in *.
  apply (fit_from_ancestors _ _ _ _ _ _ _ _ _ _ _ _ _ _ _ _) with (2 := E). intros k F EF ->.
  apply (ancestors_agree n maxl mlhsicr (s_nongauss int1 ols icpt shapiro X) _ (s_corr int1 ols icpt corr X) _ (s_ols int1 ols icpt ind X) _ (s_ml int1 ols icpt ind mlcoef X) _ (fun H => H = [])) with (6 := EF).
  - intros H j -> _. reflexivity.
  - intros H i j -> _ _. reflexivity.
  - intros H i xs j -> _ _ _ _. reflexivity.
  - intros H i xs j -> _ _ _ _. reflexivity.
  - intros M1 U S L ND UB. destruct (common_ancestors n M1 U) as [|x l] eqn:C; [reflexivity|]. exfalso.
    assert (I : In x (common_ancestors n M1 U)) by (rewrite C; left; reflexivity). unfold common_ancestors, elems in I. apply filter_In in I. destruct I as [_ I].
    destruct U as [|a [|b U]]; [cbn in L; lia|cbn in L; lia|]. cbn [forallb] in I. apply andb_true_iff in I. destruct I as [I1 I]. apply andb_true_iff in I. destruct I as [I2 _].
    apply (NC a b x); [apply UB; left; reflexivity|apply UB; right; left; reflexivity| |apply S; exact I1|apply S; exact I2].
    intros ->. inversion ND as [|? ? Q _]. apply Q. left. reflexivity.
Qed.
(** In particular for two variables. *)
Corollary C212_two_variables_partial : forall int1 int2 ols icpt shapiro corr ind mlcoef X maxl mlhsicr,
  rcd_data_fit_dtype int1 ols icpt shapiro corr ind mlcoef X 2 maxl mlhsicr = rcd_data_fit_dtype int2 ols icpt shapiro corr ind mlcoef X 2 maxl mlhsicr.
Proof.
  intros int1 int2 ols icpt shapiro corr ind mlcoef X maxl mlhsicr.
  destruct (rcd_data_fit_dtype int1 ols icpt shapiro corr ind mlcoef X 2 maxl mlhsicr) as [[M A]|e] eqn:E.
  - symmetry. apply (C212_no_common_ancestor_partial int1 int2 _ _ _ _ _ _ _ _ _ _ _ _ E). intros i j k Hi Hj D Mi Mj.
    unfold rcd_data_fit_dtype, rcd_fit in E. destruct (maxl =? 0); [discriminate|].
    destruct (rcd_ancestors 2 maxl mlhsicr _ _ _ _ _) as [|F] eqn:EF in E; [discriminate|]. assert (F = M) by congruence. subst F.
    destruct (ancestors_shape _ _ _ _ _ _ _ _ _ EF) as [[A1 A2] B]. destruct (B i k Mi) as [_ Hk].
    assert (k = i \/ k = j) as [Q|Q] by lia; subst k; [rewrite A1 in Mi|rewrite A1 in Mj]; discriminate.
  - unfold rcd_data_fit_dtype, rcd_fit in *. destruct (maxl =? 0) eqn:Z; [congruence|]. exfalso. apply Nat.eqb_neq in Z.
    destruct (ancestors_terminates 2 maxl mlhsicr (s_nongauss int1 ols icpt shapiro X) (s_corr int1 ols icpt corr X) (s_ols int1 ols icpt ind X) (s_ml int1 ols icpt ind mlcoef X) ltac:(lia) (rcd_fuel 2 maxl)) as (M & EM).
    { unfold rcd_fuel. pose proof (Nat.log2_spec (2 * 2 * S maxl + maxl) ltac:(lia)). lia. }
    rewrite EM in E. discriminate.
Qed.
(** When all residuals are whole numbers nothing is lost either. *)
Theorem C212_whole_residuals_partial : forall N int1 int2 ols icpt shapiro corr ind mlcoef X n maxl mlhsicr M A,
  sees_rows1 N shapiro -> sees_rows2 N corr -> sees_rows2 N ind -> sees_columns N ols icpt -> sees_columns_ml N mlcoef ->
  (forall i H r, i < n -> (forall h, In h H -> h < n) -> NoDup H -> H <> [] -> r < N ->
     whole (X i r - (sumf H (fun h => ols X H (X i) h * X h r) + icpt X H (X i)))%Qc) ->
  rcd_data_fit_dtype int1 ols icpt shapiro corr ind mlcoef X n maxl mlhsicr = Ok (M, A) ->
  rcd_data_fit_dtype int2 ols icpt shapiro corr ind mlcoef X n maxl mlhsicr = Ok (M, A).
Proof.
  intros N int1 int2 ols icpt shapiro corr ind mlcoef X n maxl mlhsicr M A S1 S2 S3 SC SM W E. unfold rcd_data_fit_dtype in *.
  apply (fit_from_ancestors _ _ _ _ _ _ _ _ _ _ _ _ _ _ _ _) with (2 := E). intros k F EF ->.
  assert (Y : forall H i r, (NoDup H /\ forall h, In h H -> h < n) -> i < n -> r < N -> stored_resid int1 ols icpt X H i r = stored_resid int2 ols icpt X H i r).
  { intros H i r [ND HB] Hi Hr. destruct H as [|h H]; [reflexivity|]. unfold stored_resid, stored.
    destruct (W i (h :: H) r Hi HB ND ltac:(discriminate) Hr) as (z & Z). unfold ols_resid. destruct int1, int2; cbv beta zeta; rewrite ?Z, ?trunc_whole; reflexivity. }
  assert (OR : forall H i xs r, (NoDup H /\ forall h, In h H -> h < n) -> i < n -> (forall x, In x xs -> x < n) -> r < N ->
     ols_resid ols icpt (stored_resid int1 ols icpt X H) i xs r = ols_resid ols icpt (stored_resid int2 ols icpt X H) i xs r).
  { intros H i xs r HQ Hi Hx Hr. unfold ols_resid. cbv zeta.
    destruct (SC (stored_resid int1 ols icpt X H) (stored_resid int2 ols icpt X H) xs (stored_resid int1 ols icpt X H i) (stored_resid int2 ols icpt X H i)) as [C1 C2]; [intros; apply Y; auto|intros; apply Y; auto|].
    rewrite C1, (Y H i r HQ Hi Hr). match goal with |- (_ - (?a + _) = _ - (?b + _))%Qc => replace a with b; [reflexivity|] end. apply sumf_ext. intros x Ix. rewrite (C2 x Ix), (Y H x r HQ (Hx x Ix) Hr). reflexivity. }
  assert (MR : forall H i xs r, (NoDup H /\ forall h, In h H -> h < n) -> i < n -> (forall x, In x xs -> x < n) -> r < N ->
     ml_resid mlcoef (stored_resid int1 ols icpt X H) i xs r = ml_resid mlcoef (stored_resid int2 ols icpt X H) i xs r).
  { intros H i xs r HQ Hi Hx Hr. unfold ml_resid. cbv zeta. rewrite (Y H i r HQ Hi Hr). apply fold_ext_in. intros v x Ix.
    rewrite (SM (stored_resid int1 ols icpt X H) (stored_resid int2 ols icpt X H) i xs); [rewrite (Y H x r HQ (Hx x Ix) Hr); reflexivity| |exact Ix].
    intros p q [->|Ip] Hq; apply Y; auto. }
  apply (ancestors_agree n maxl mlhsicr (s_nongauss int1 ols icpt shapiro X) _ (s_corr int1 ols icpt corr X) _ (s_ols int1 ols icpt ind X) _ (s_ml int1 ols icpt ind mlcoef X) _ (fun H => NoDup H /\ forall h, In h H -> h < n)) with (6 := EF).
  - intros H j HQ Hj. apply S1. intros; apply Y; auto.
  - intros H i j HQ Hi Hj. apply S2; intros; apply Y; auto.
  - intros H i xs j HQ Hi Hj _ Hx. apply S3; intros; [apply OR; auto|apply Y; auto].
  - intros H i xs j HQ Hi Hj _ Hx. apply S3; intros; [apply MR; auto|apply Y; auto].
  - intros M1 U _ _ _ _. split; [apply elems_NoDup|]. intros h Ih. unfold common_ancestors, elems in Ih. apply filter_In in Ih. destruct Ih as [Ih _]. apply in_seq in Ih. lia.
Qed.
(** When all residuals are below one, as for errors that are zero or one, the stored columns are zero.  A constant column counts as Gaussian, so
    the search runs as if every variable became Gaussian once its recorded ancestors are taken into account. *)
Theorem C212_small_residuals_partial : forall N ols icpt shapiro corr ind mlcoef X n maxl mlhsicr M A,
  sees_rows1 N shapiro -> shapiro (fun _ => 0%Qc) = false ->
  (forall i H r, i < n -> (forall h, In h H -> h < n) -> NoDup H -> H <> [] -> r < N ->
     (qabs (X i r - (sumf H (fun h => ols X H (X i) h * X h r) + icpt X H (X i))) < 1)%Qc) ->
  rcd_data_fit_dtype true ols icpt shapiro corr ind mlcoef X n maxl mlhsicr = Ok (M, A) ->
    rcd_fit n maxl mlhsicr (fun H j => match H with [] => shapiro (X j) | _ => false end)
      (d_corr ols icpt corr X) (d_ols ols icpt ind X) (d_ml ols icpt ind mlcoef X)
      (d_cor2 ols icpt corr X) (d_cor2 ols icpt corr X) (fun i ps j => ols X ps (X i) j) = Ok (M, A).
Proof.
  intros N ols icpt shapiro corr ind mlcoef X n maxl mlhsicr M A S1 S0 W E. unfold rcd_data_fit_dtype in *.
  apply (fit_from_ancestors _ _ _ (s_nongauss true ols icpt shapiro X) _ (s_corr true ols icpt corr X) _ (s_ols true ols icpt ind X) _ (s_ml true ols icpt ind mlcoef X)) with (2 := E). intros k F EF ->.
  set (ng := fun (H : list nat) j => match H with [] => shapiro (X j) | _ => false end).
  assert (E1 : rcd_ancestors n maxl mlhsicr ng (s_corr true ols icpt corr X) (s_ols true ols icpt ind X) (s_ml true ols icpt ind mlcoef X) k = inr M).
  { apply (ancestors_agree n maxl mlhsicr (s_nongauss true ols icpt shapiro X) _ (s_corr true ols icpt corr X) _ (s_ols true ols icpt ind X) _ (s_ml true ols icpt ind mlcoef X) _ (fun H => NoDup H /\ forall h, In h H -> h < n)) with (6 := EF); try reflexivity.
    - intros H j [ND HB] Hj. destruct H as [|h H]; [reflexivity|]. unfold ng. rewrite <- S0. apply S1. intros r Hr. unfold stored_resid, stored, ols_resid. cbv zeta beta.
      apply small_zero. apply W; auto. discriminate.
    - intros M1 U _ _ _ _. split; [apply elems_NoDup|]. intros h Ih. unfold common_ancestors, elems in Ih. apply filter_In in Ih. destruct Ih as [Ih _]. apply in_seq in Ih. lia. }
  rewrite <- E1. unfold rcd_ancestors. apply loop_ext. intros [[M1 h1] l1]. unfold rcd_step, pass.
  rewrite (fold_ext_in _ _ (visit n mlhsicr ng (d_corr ols icpt corr X) (d_ols ols icpt ind X) (d_ml ols icpt ind mlcoef X)) (visit n mlhsicr ng (s_corr true ols icpt corr X) (s_ols true ols icpt ind X) (s_ml true ols icpt ind mlcoef X))); [reflexivity|].
  intros [[M2 h2] c2] U IU. unfold visit. destruct (common_ancestors n M2 U) as [|x H] eqn:C; [reflexivity|].
  destruct (combs_In _ _ _ IU) as [L _]. destruct U as [|u U]; [discriminate L|]. reflexivity.
Qed.

(** Four variables, each the sum of all earlier ones and an error that is zero or one. *)
Definition ix_e (k : nat) : sample := tab 8 (fun r => (Props_RCDPop.had k r + 1) / qz 2)%Qc.
Definition ix_E : list (nat * nat) := [(0, 1); (0, 2); (0, 3); (1, 2); (1, 3); (2, 3)].
Definition ix_x (i : nat) : sample := tab 8 (fun r => match i with
  | 0 => ix_e 0 r | 1 => ix_e 0 r + ix_e 1 r | 2 => qz 2 * ix_e 0 r + ix_e 1 r + ix_e 2 r
  | 3 => qz 4 * ix_e 0 r + qz 2 * ix_e 1 r + ix_e 2 r + ix_e 3 r | _ => 0 end)%Qc.
Lemma ix_check : model_check 8 4 ix_E ix_E ix_e ix_x = true.
Proof. vm_compute. reflexivity. Qed.
Definition ix_icpt (X : nat -> sample) (ps : list nat) (y : sample) : Qc :=
  let c := gs 8 X ps y in (mean 8 y - sumf ps (fun p => c p * mean 8 (X p)))%Qc.
Definition ix_shapiro (y : sample) : bool := negb (qeqb (fcov 8 y y) 0).
Definition ix_fit (int : bool) := rcd_data_fit_dtype int (gs 8) ix_icpt ix_shapiro (ex_corr 8) (ex_ind 8 4 ix_e) (fun _ _ _ _ => 0%Qc) ix_x 4 2 false.
(** A table of whole numbers, no hidden variable, ideal tests, default max_explanatory_num: with floats the model is found (C142).  With
    the same numbers stored as integers an ancestor is missed, a confounder that does not exist is reported, and a coefficient is wrong. *)
Theorem C212_same_numbers_refuted : exists N n B e x ols icpt shapiro corr ind mlcoef,
  linear_model N n B e x /\ no_cancelling N n B e x /\ (forall i r, i < n -> r < N -> whole (x i r)) /\
  solves_least_squares N ols /\ (forall X ps y, icpt X ps y = mean N y - sumf ps (fun p => ols X ps y p * mean N (X p)))%Qc /\
  ideal_normality N n e shapiro /\ shapiro (fun _ => 0%Qc) = false /\ ideal_correlation N n e corr /\ ideal_independence N n e ind /\
  (exists M A, rcd_data_fit_dtype false ols icpt shapiro corr ind mlcoef x n 2 false = Ok (M, A) /\
     (forall i j, M i j = true <-> ancestor n B j i) /\ forall i j, i < n -> j < n -> A i j = Some (B i j)) /\
  exists M A i j k, i < n /\ j < n /\ k < n /\ rcd_data_fit_dtype true ols icpt shapiro corr ind mlcoef x n 2 false = Ok (M, A) /\
    B i j = 1%Qc /\ ancestor n B j i /\ M i j = false /\ A i j = None /\ A i k = Some (qz 2) /\ B i k = 1%Qc.
Proof.
  destruct (model_check_spec 8 4 ix_E ix_E ix_e ix_x ix_check) as (LM & NC & AN).
  assert (NO : ideal_normality 8 4 ix_e ix_shapiro).
  { intros y _ V. unfold ix_shapiro. rewrite fcov_eq. apply negb_true_iff. apply qeqb_neq. exact V. }
  exists 8, 4, (B_of ix_E), ix_e, ix_x, (gs 8), ix_icpt, ix_shapiro, (ex_corr 8), (ex_ind 8 4 ix_e), (fun _ _ _ _ => 0%Qc).
  split; [exact LM|]. split; [exact NC|]. split.
  { assert (W : all2 4 8 (fun i r => Pos.eqb (Qden (ix_x i r)) 1) = true) by (vm_compute; reflexivity). intros i r Hi Hr. apply whole_den, Pos.eqb_eq. exact (all2_spec _ _ _ W i r Hi Hr). }
  split; [apply gs_solves; lia|]. split; [intros; reflexivity|]. split; [exact NO|]. split; [vm_compute; reflexivity|]. split; [apply ex_corr_ideal|]. split; [apply ex_ind_ideal|].
  split.
  { apply (Props_RCDPop.C142_rcd_recovers_model 8 4 (B_of ix_E) ix_e ix_x (gs 8) ix_icpt ix_shapiro (ex_corr 8) (ex_ind 8 4 ix_e) (fun _ _ _ _ => 0%Qc) 2 false LM NC); [apply gs_solves; lia|exact NO|apply ex_corr_ideal|apply ex_ind_ideal|right; reflexivity]. }
  assert (S : Props_RCDPop.show_sets 4 (ix_fit true) = [[]; [0]; [0; 1]; [0; 1]] /\
    match ix_fit true with Ok (_, A) => A 3 2 = None /\ A 3 0 = Some (qz 2) | _ => False end).
  { split; [vm_compute; reflexivity|]. vm_compute. split; [reflexivity|]. f_equal. apply Qc_is_canon. reflexivity. }
  fold (ix_fit true). destruct (ix_fit true) as [[M A]|?]; [|destruct S as [_ []]]. destruct S as (S & A1 & A2).
  exists M, A, 3, 2, 0. split; [lia|]. split; [lia|]. split; [lia|]. split; [reflexivity|]. split; [reflexivity|].
  split; [apply Relation_Operators.t_step; split; [lia|split; [lia|intro Z; discriminate Z]]|]. split; [|split; [exact A1|split; [exact A2|reflexivity]]].
  unfold Props_RCDPop.show_sets in S. pose proof (f_equal (fun l => nth 3 l []) S) as S3. change (filter (M 3) [0; 1; 2; 3] = [0; 1]) in S3.
  destruct (M 3 2) eqn:Q; [|reflexivity]. assert (I : In 2 (filter (M 3) [0; 1; 2; 3])) by (apply filter_In; split; [cbn; auto|exact Q]).
  rewrite S3 in I. destruct I as [I|[I|[]]]; discriminate I.
Qed.
(** The hypotheses of the partial results: 0 -> 1 <- 2 has no common ancestor; the errors of the example above are below one. *)
Definition vx_x (i : nat) : sample := tab 8 (fun r => match i with 0 => ix_e 0 r | 1 => ix_e 0 r + ix_e 1 r + ix_e 2 r | _ => ix_e 2 r end)%Qc.
Definition vx_fit (int : bool) := rcd_data_fit_dtype int (gs 8) ix_icpt ix_shapiro (ex_corr 8) (ex_ind 8 3 ix_e) (fun _ _ _ _ => 0%Qc) vx_x 3 2 false.
Example C212_collider_example :
  Props_RCDPop.show_sets 3 (vx_fit true) = [[]; [0; 2]; []] /\
  Props_RCDPop.show_adj 3 (vx_fit true) = [[Some 0%Q; Some 0%Q; Some 0%Q]; [Some 1%Q; Some 0%Q; Some 1%Q]; [Some 0%Q; Some 0%Q; Some 0%Q]] /\
  Props_RCDPop.show_adj 3 (vx_fit false) = Props_RCDPop.show_adj 3 (vx_fit true).
Proof. vm_compute. auto. Qed.
Lemma tab_local : forall N (y y' : sample), (forall r, r < N -> y r = y' r) -> forall z, fcov N y z = fcov N y' z.
Proof. intros N y y' H z. rewrite !fcov_eq. apply cov_ext; auto. Qed.
Example C212_tests_example : sees_rows1 8 ix_shapiro /\ sees_rows2 8 (ex_corr 8) /\ sees_rows2 8 (ex_ind 8 4 ix_e).
Proof.
  split; [|split].
  - intros y y' H. unfold ix_shapiro. rewrite !fcov_eq. rewrite (cov_ext 8 y y' y y'); auto.
  - intros y y' z z' H H'. unfold ex_corr. rewrite !fcov_eq. rewrite (cov_ext 8 y y' z z'); auto.
  - intros y y' z z' H H'. unfold ex_ind. cbv zeta. apply forallb_ext_in. intros k _.
    rewrite !fcov_eq. rewrite (cov_ext 8 (tab 8 y) (tab 8 y') (ix_e k) (ix_e k)), (cov_ext 8 (tab 8 z) (tab 8 z') (ix_e k) (ix_e k)); auto; intros r Hr; rewrite !tab_eq by exact Hr; auto.
Qed.
(** Three yes/no variables, the third one true when the other two are: all residuals are below one. *)
Definition yx (i : nat) : sample := tab 4 (fun r => match i with 0 => qn (r mod 2) | 1 => qn (r / 2) | _ => qn (r / 3) end).
Definition yx_icpt (X : nat -> sample) (ps : list nat) (y : sample) : Qc :=
  let c := gs 4 X ps y in (mean 4 y - sumf ps (fun p => c p * mean 4 (X p)))%Qc.
Definition yx_check (i : nat) (H : list nat) : bool := forallb (fun r => qltb (qabs (yx i r - (sumf H (fun h => gs 4 yx H (yx i) h * yx h r) + yx_icpt yx H (yx i)))%Qc) 1) (seq 0 4).
Definition yx_lists : list (list nat) := [[0]; [1]; [2]; [0; 1]; [0; 2]; [1; 0]; [1; 2]; [2; 0]; [2; 1]; [0; 1; 2]; [0; 2; 1]; [1; 0; 2]; [1; 2; 0]; [2; 0; 1]; [2; 1; 0]].
Lemma three_lists : forall H, (forall h, In h H -> h < 3) -> NoDup H -> H <> [] -> In H yx_lists.
Proof.
  intros H HB ND NE.
  assert (L : length H <= 3) by (rewrite <- (seq_length 3 0); apply NoDup_incl_length; [exact ND|intros h Ih; apply in_seq; specialize (HB h Ih); lia]).
    assert (B3 : forall h, In h H -> h = 0 \/ h = 1 \/ h = 2) by (intros h Ih; specialize (HB h Ih); lia). clear HB.
    destruct H as [|a [|b [|c [|d H]]]]; [contradiction| | | |cbn in L; lia].
    - pose proof (B3 a ltac:(cbn; auto)) as [->|[->| ->]]; cbn; tauto.
    - inversion ND as [|? ? N1 _]. cbn in N1. pose proof (B3 a ltac:(cbn; auto)) as Qa. pose proof (B3 b ltac:(cbn; auto)) as Qb. clear - N1 Qa Qb. destruct Qa as [->|[->| ->]]; destruct Qb as [->|[->| ->]]; try (exfalso; apply N1; auto; fail); cbn; tauto.
    - inversion ND as [|? ? N1 ND2]. inversion ND2 as [|? ? N2 _]. cbn in N1, N2. pose proof (B3 a ltac:(cbn; auto)) as Qa. pose proof (B3 b ltac:(cbn; auto)) as Qb. pose proof (B3 c ltac:(cbn; auto)) as Qc0. clear - N1 N2 Qa Qb Qc0.
      destruct Qa as [->|[->| ->]]; destruct Qb as [->|[->| ->]]; try (exfalso; apply N1; auto; fail); destruct Qc0 as [->|[->| ->]]; try (exfalso; apply N1; auto; fail); try (exfalso; apply N2; auto; fail); cbn; tauto.
Qed.
Example C212_small_example : sees_rows1 8 ix_shapiro /\ ix_shapiro (fun _ => 0%Qc) = false /\
  forall i H r, i < 3 -> (forall h, In h H -> h < 3) -> NoDup H -> H <> [] -> r < 4 ->
     (qabs (yx i r - (sumf H (fun h => gs 4 yx H (yx i) h * yx h r) + yx_icpt yx H (yx i))) < 1)%Qc.
Proof.
  split; [apply C212_tests_example|]. split; [vm_compute; reflexivity|]. intros i H r Hi HB ND NE Hr.
  pose proof (three_lists H HB ND NE) as I.
  assert (C : forallb (fun i => forallb (yx_check i) yx_lists) [0; 1; 2] = true) by (vm_compute; reflexivity).
  rewrite forallb_forall in C. specialize (C i ltac:(cbn; lia)). rewrite forallb_forall in C. specialize (C H I). unfold yx_check in C. rewrite forallb_forall in C.
  apply qltb_lt. apply C. apply in_seq. lia.
Qed.
(** Three uncorrelated columns of signs: all residuals are whole. *)
Lemma gs_local : forall N ps Y Y' y y', (forall p r, In p ps -> r < N -> Y p r = Y' p r) -> (forall r, r < N -> y r = y' r) ->
  forall p, In p ps -> gs N Y ps y p = gs N Y' ps y' p.
Proof.
  intros N ps. induction ps as [|q ps IH]; intros Y Y' y y' HY Hy p Ip; [destruct Ip|]. cbn [gs]. cbv zeta.
  assert (Cp : forall z z', (forall r, r < N -> z r = z' r) -> forall p, In p ps -> gs N Y ps z p = gs N Y' ps z' p) by (intros z z' Hz; apply IH; [intros; apply HY; [right; assumption|assumption]|exact Hz]).
  assert (R : forall z z', (forall r, r < N -> z r = z' r) -> forall k, k < N ->
    tab N (fun k => z k - sumf ps (fun q => gs N Y ps z q * Y q k))%Qc k = tab N (fun k => z' k - sumf ps (fun q => gs N Y' ps z' q * Y' q k))%Qc k).
  { intros z z' Hz k Hk. rewrite !tab_eq by exact Hk. rewrite (Hz k Hk). match goal with |- (_ - ?a = _ - ?b)%Qc => replace a with b; [reflexivity|] end. symmetry. apply sumf_ext. intros x Ix. rewrite (Cp z z' Hz x Ix), (HY x k (or_intror Ix) Hk). reflexivity. }
  assert (HQ : forall r, r < N -> Y q r = Y' q r) by (intros; apply HY; [left; reflexivity|assumption]).
  rewrite !fcov_eq.
  rewrite (cov_ext N _ _ _ _ (R y y' Hy) (R (Y q) (Y' q) HQ)), (cov_ext N _ _ _ _ (R (Y q) (Y' q) HQ) (R (Y q) (Y' q) HQ)).
  destruct (p =? q) eqn:E; [reflexivity|]. destruct Ip as [Ip|Ip]; [apply Nat.eqb_neq in E; congruence|]. rewrite (Cp y y' Hy p Ip), (Cp (Y q) (Y' q) HQ p Ip). reflexivity.
Qed.
Definition had_check (i : nat) (H : list nat) : bool := forallb (fun r => Pos.eqb (Qden (Props_RCDPop.had i r - (sumf H (fun h => gs 8 Props_RCDPop.had H (Props_RCDPop.had i) h * Props_RCDPop.had h r) + ix_icpt Props_RCDPop.had H (Props_RCDPop.had i)))%Qc) 1) (seq 0 8).
Example C212_whole_example : sees_rows1 8 ix_shapiro /\ sees_rows2 8 (ex_corr 8) /\ sees_rows2 8 (ex_ind 8 4 ix_e) /\ sees_columns 8 (gs 8) ix_icpt /\ sees_columns_ml 8 (fun _ _ _ _ => 0%Qc) /\
  forall i H r, i < 3 -> (forall h, In h H -> h < 3) -> NoDup H -> H <> [] -> r < 8 ->
    whole (Props_RCDPop.had i r - (sumf H (fun h => gs 8 Props_RCDPop.had H (Props_RCDPop.had i) h * Props_RCDPop.had h r) + ix_icpt Props_RCDPop.had H (Props_RCDPop.had i)))%Qc.
Proof.
  destruct C212_tests_example as (T1 & T2 & T3). do 3 (split; [assumption|]). split; [|split; [intros Y Y' i ps _ p _; reflexivity|]].
  - intros Y Y' ps y y' HY Hy. pose proof (gs_local 8 ps Y Y' y y' HY Hy) as G. split; [|exact G]. unfold ix_icpt. cbv zeta.
    rewrite (mean_ext 8 y y' Hy). match goal with |- (_ - ?a = _ - ?b)%Qc => replace a with b; [reflexivity|] end. symmetry. apply sumf_ext. intros p Ip. rewrite (G p Ip), (mean_ext 8 (Y p) (Y' p)); [reflexivity|]. intros; apply HY; assumption.
  - intros i H r Hi HB ND NE Hr. pose proof (three_lists H HB ND NE) as I.
    assert (C : forallb (fun i => forallb (had_check i) yx_lists) [0; 1; 2] = true) by (vm_compute; reflexivity).
    rewrite forallb_forall in C. specialize (C i ltac:(cbn; lia)). rewrite forallb_forall in C. specialize (C H I). unfold had_check in C. rewrite forallb_forall in C.
    apply whole_den, Pos.eqb_eq. apply C. apply in_seq. lia.
Qed.
Print Assumptions C212_floats.
Print Assumptions C212_no_common_ancestor_partial.
Print Assumptions C212_two_variables_partial.
Print Assumptions C212_whole_residuals_partial.
Print Assumptions C212_small_residuals_partial.
Print Assumptions C212_same_numbers_refuted.
