(** * C205: MultiGroupRCD with hidden variables. *)
From Coq Require Import List Arith Bool ZArith QArith Qcanon Lia Relations.
From Verif Require Import Prelude Spec Lib LibMat Loop SpecPop SpecRCDPop SpecMGRCD ModelRCD ModelRCDPop ModelMGRCD ProofRCD ProofRCDPop ProofRCDPop2 ProofRCDPop3 ProofRCDPop4 OlsGS ProofMGRCD Props_RCDPop Props_MGRCD.
Import ListNotations.
Open Scope nat_scope.

(** The data sets contain the first [n] of the [m] variables of their models, which share one graph.  With
    max_explanatory_num = 1 only true ancestors are recorded, in whatever way the effects cancel. *)
Theorem C205_pairs_sound_with_hidden_partial :
  forall n m Gs ols icpt pshapiro ppearson phsic fcorr mlcoef m2log sf cor_alpha ind_alpha shapiro_alpha ind_corr kind mlhsicr M As,
  n <= m -> one_graph m Gs ->
  (forall g, In g Gs -> solves_least_squares (g_rows g) (ols (g_rows g))) ->
  joint_correlation m Gs (mg_corr_test ppearson m2log sf cor_alpha) ->
  joint_independence m Gs (mg_ind_test phsic fcorr m2log sf ind_alpha ind_corr kind) ->
  mg_rcd_fit ols icpt pshapiro ppearson phsic fcorr mlcoef m2log sf cor_alpha ind_alpha shapiro_alpha ind_corr kind (map data_of Gs) n 1 mlhsicr = Ok (M, As) ->
  forall g, In g Gs -> forall i j, M i j = true -> i < n /\ j < n /\ ancestor m (g_B g) j i.
Proof.
  intros n m Gs ols icpt pshapiro ppearson phsic fcorr mlcoef m2log sf cor_alpha ind_alpha shapiro_alpha ind_corr kind mlh M As Hnm OG OLS JC JI E g I i j Q.
  unfold mg_rcd_fit in E. cbn [Nat.eqb] in E. destruct (length (map data_of Gs) <? 2); [discriminate|].
  match type of E with match ?t with _ => _ end = _ => destruct t as [s|M'] eqn:ER end; [discriminate|].
  assert (M' = M) as -> by congruence. clear E.
  set (cot := mg_corr_test ppearson m2log sf cor_alpha) in *. set (int := mg_ind_test phsic fcorr m2log sf ind_alpha ind_corr kind) in *.
  change (rcd_ancestors n 1 mlh (ng Gs ols icpt (mg_nongauss_test pshapiro m2log sf shapiro_alpha)) (co Gs ols icpt cot) (io Gs ols icpt int) (im Gs ols icpt mlcoef int) (rcd_fuel n 1) = inr M) in ER.
  assert (PS : forall H a b, a < n -> b < n -> a <> b -> (forall h, In h H -> ancestor m (g_B g) h a /\ ancestor m (g_B g) h b) ->
    co Gs ols icpt cot H a b = true \/ co Gs ols icpt cot H b a = true -> io Gs ols icpt int H a [b] b = true -> ancestor m (g_B g) b a).
  { intros H a b Ha Hb D HH C T. exact (joint_pairs m Gs OG ols icpt OLS cot int JC JI g I H a b ltac:(lia) ltac:(lia) D HH C T). }
  destruct (search_sound_from m (g_B g) n mlh _ _ _ (im Gs ols icpt mlcoef int) PS (rcd_fuel n 1) M ER i j Q) as (Q1 & Q2 & Q3). auto.
Qed.
Print Assumptions C205_pairs_sound_with_hidden_partial.

(** *** Two data sets of the model of C143 (observed 0, 1, 2; hidden 3 -> 0, 3 -> 1; 0 -> 2) *)
Definition hg : group := {| g_rows := 8; g_B := B_of hx_E; g_e := had; g_x := hx_x |}.
Definition hg_pp (N : nat) (y z : sample) : Qc := if ex_corr 8 y z then 0%Qc else 1%Qc.
Definition hg_ph (N : nat) (y z : sample) : Qc := if ex_ind 8 4 had y z then 1%Qc else 0%Qc.
Definition hg_fit (maxl : nat) := mg_rcd_fit gs (fun _ _ _ _ => 0%Qc) (fun _ _ => 0%Qc) hg_pp hg_ph (fun _ _ _ => 0%Qc) (fun _ _ _ _ _ => 0%Qc)
  (fun _ => 0%Qc) cx_sf (qf 1 100) (qf 1 100) (qf 1 100) (qf 1 2) Hsic (map data_of [hg; hg]) 3 maxl true.
Lemma hg_tests : decisive_correlation 4 [hg; hg] hg_pp /\ decisive_independence 4 [hg; hg] hg_ph.
Proof.
  assert (R : forall g, In g [hg; hg] -> g_rows g = 8 /\ g_e g = had) by (intros g [<-|[<-|[]]]; split; reflexivity). split.
  - intros g y z I Cy Cz. destruct (R g I) as [R1 R2]. rewrite R1, R2 in *. unfold hg_pp. pose proof (ex_corr_ideal 8 4 had y z Cy Cz) as E.
    destruct (ex_corr 8 y z); split; intro Q; try reflexivity; [contradiction (proj1 E eq_refl Q)|]. apply E in Q. discriminate.
  - intros g y z I Cy Cz. destruct (R g I) as [R1 R2]. rewrite R1, R2 in *. cbv zeta. unfold hg_ph. pose proof (ex_ind_ideal 8 4 had y z Cy Cz) as E.
    destruct (ex_ind 8 4 had y z); [left; split; [apply E; reflexivity|reflexivity]|right; split; [|reflexivity]]. intro Q. apply E in Q. discriminate.
Qed.
Example C205_example :
  one_graph 4 [hg; hg] /\ (forall g, In g [hg; hg] -> solves_least_squares (g_rows g) (gs (g_rows g))) /\
  joint_correlation 4 [hg; hg] (mg_corr_test hg_pp (fun _ => 0%Qc) cx_sf (qf 1 100)) /\
  joint_independence 4 [hg; hg] (mg_ind_test hg_ph (fun _ _ _ => 0%Qc) (fun _ => 0%Qc) cx_sf (qf 1 100) (qf 1 2) Hsic) /\
  joint_normality 4 [hg; hg] (mg_nongauss_test (fun _ _ => 0%Qc) (fun _ => 0%Qc) cx_sf (qf 1 100)) /\
  fst (show_groups 3 (hg_fit 1)) = [[]; []; [0]] /\ fst (show_groups 3 (hg_fit 2)) = [[]; []; [0; 1]].
Proof.
  destruct (model_check_spec 8 4 hx_E hx_CL had hx_x hx_check) as (LM & NC & AN).
  split; [split; [intros g [<-|[<-|[]]]; exact LM|intros g h j i [<-|[<-|[]]] [<-|[<-|[]]] Z; exact Z]|].
  split; [intros g [<-|[<-|[]]]; apply gs_solves; cbn; lia|].
  destruct (C192_fisher_joins_tests 4 [hg; hg] hg_pp hg_ph (fun _ _ _ => 0%Qc) (fun _ _ => 0%Qc) (fun _ => 0%Qc) cx_sf (qf 1 100) (qf 1 100) (qf 1 100) (qf 1 2)) as (J1 & J2 & J3).
  - discriminate.
  - reflexivity.
  - intro d. split; reflexivity.
  - reflexivity.
  - reflexivity.
  - discriminate.
  - reflexivity.
  - discriminate.
  - apply hg_tests.
  - apply hg_tests.
  - reflexivity.
  - split; [exact J1|]. split; [exact J2|]. split; [exact J3|]. split; vm_compute; reflexivity.
Qed.
(** The default max_explanatory_num = 2 records 1 as an ancestor of 2, which it is in neither data set: more data sets
    do not help against a hidden common cause. *)
Theorem C205_hidden_confounder_refuted :
  ~ (forall n m Gs ols icpt pshapiro ppearson phsic fcorr mlcoef m2log sf cor_alpha ind_alpha shapiro_alpha ind_corr kind mlhsicr M As,
     n <= m -> one_graph m Gs ->
     (forall g, In g Gs -> solves_least_squares (g_rows g) (ols (g_rows g))) ->
     joint_normality m Gs (mg_nongauss_test pshapiro m2log sf shapiro_alpha) ->
     joint_correlation m Gs (mg_corr_test ppearson m2log sf cor_alpha) ->
     joint_independence m Gs (mg_ind_test phsic fcorr m2log sf ind_alpha ind_corr kind) ->
     mg_rcd_fit ols icpt pshapiro ppearson phsic fcorr mlcoef m2log sf cor_alpha ind_alpha shapiro_alpha ind_corr kind (map data_of Gs) n 2 mlhsicr = Ok (M, As) ->
     forall g, In g Gs -> forall i j, M i j = true -> ancestor m (g_B g) j i).
Proof.
  intro C. destruct (model_check_spec 8 4 hx_E hx_CL had hx_x hx_check) as (LM & NC & AN).
  destruct C205_example as (OG & OLS & JC & JI & JN & _ & S).
  destruct (hg_fit 2) as [[M As]|?] eqn:E; [|discriminate S].
  assert (Q : M 2 1 = true).
  { assert (I : In 1 (filter (M 2) (seq 0 3))).
    { cbn [show_groups fst map seq] in S. pose proof (f_equal (fun l => nth 2 l []) S) as S2. cbn [nth] in S2. change (seq 0 3) with [0; 1; 2]. rewrite S2. right. left. reflexivity. }
    apply filter_In in I. apply I. }
  pose proof (C 3 4 [hg; hg] gs (fun _ _ _ _ => 0%Qc) (fun _ _ => 0%Qc) hg_pp hg_ph (fun _ _ _ => 0%Qc) (fun _ _ _ _ _ => 0%Qc) (fun _ => 0%Qc) cx_sf
    (qf 1 100) (qf 1 100) (qf 1 100) (qf 1 2) Hsic true M As ltac:(lia) OG OLS JN JC JI E hg (or_introl eq_refl) 2 1 Q) as A1.
  apply AN in A1. cbn in A1. intuition discriminate.
Qed.
Print Assumptions C205_hidden_confounder_refuted.
