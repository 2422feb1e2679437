(** * Property theorems: remove_effect (C130), predict_adaptive_lasso (C131), evaluate_model_fit (C132)

    Vocabulary: SpecUtil.v, SpecPop.v. *)
From Coq Require Import List Arith Bool ZArith QArith Qcanon Lia Permutation Sorted Ascii String DecimalString DecimalNat.
From Verif Require Import Prelude Spec SpecDirect SpecPop SpecUtil Lib LibMat ModelDirect ProofDirect ProofDirect2 ProofPop ProofPop2 ModelUtil ProofUtil.
From Verif Require ProofPop3 ModelTotal.
Import ListNotations.
Open Scope nat_scope.

(** ** C130 *)
(** The removed features are unchanged; every other column becomes its residual: mean zero and uncorrelated
    with every removed feature. *)
Theorem C130_residuals_partial : forall lr N p X rem, 0 < N -> 0 < p -> rem <> [] ->
  Forall (fun z => (0 <= z < Z.of_nat p)%Z) rem -> fits_exactly N lr ->
  exists Y coefs, remove_effect lr N p X rem = Ok (Y, coefs) /\
    (forall q, In (Z.of_nat q) rem -> Y q = X q) /\
    (forall f, f < p -> ~ In (Z.of_nat f) rem ->
       mean N (Y f) = 0%Qc /\ (forall q, In (Z.of_nat q) rem -> cov N (Y f) (X q) = 0%Qc) /\
       exists cs b, In (f, cs) coefs /\ length cs = length rem /\
         forall r, Y f r = (X f r - (combination cs (map (fun z => X (Z.to_nat z)) rem) r + b))%Qc) /\
    map fst coefs = filter (fun f => negb (existsb (Z.eqb (Z.of_nat f)) rem)) (seq 0 p).
Proof.
  intros lr N p X rem HN Hp NE HR HL. unfold remove_effect. rewrite (proj2 (Nat.eqb_neq N 0)), (proj2 (Nat.eqb_neq p 0)) by lia. cbn [orb].
  set (fs := filter (fun i => negb (existsb (Z.eqb (Z.of_nat i)) rem)) (seq 0 p)). rewrite (py_columns_ok p rem HR). cbn [bind].
  assert (FI : forall f, In f fs <-> f < p /\ ~ In (Z.of_nat f) rem).
  { intro f. unfold fs. rewrite filter_In, in_seq, negb_true_iff. split.
    - intros [H1 H2]. split; [lia|]. intro I. assert (E : existsb (Z.eqb (Z.of_nat f)) rem = true) by (apply existsb_exists; exists (Z.of_nat f); split; [exact I|apply Z.eqb_refl]). congruence.
    - intros [H1 H2]. split; [lia|]. destruct (existsb _ rem) eqn:E; [|reflexivity]. apply existsb_exists in E. destruct E as (z & I & E). apply Z.eqb_eq in E. subst z. contradiction. }
  assert (CI : forall q, In q (map Z.to_nat rem) <-> In (Z.of_nat q) rem).
  { intro q. rewrite Forall_forall in HR. split.
    - intro I. apply in_map_iff in I. destruct I as (z & <- & I). rewrite Z2Nat.id; [exact I|]. apply (HR z I).
    - intro I. apply in_map_iff. exists (Z.of_nat q). split; [apply Nat2Z.id|exact I]. }
  assert (ND : NoDup fs) by (apply NoDup_filter, seq_NoDup).
  assert (DJ : forall f, In f fs -> ~ In f (map Z.to_nat rem)) by (intros f Hf I; apply CI in I; apply FI in Hf; tauto).
  destruct fs as [|f0 fs0] eqn:EF.
  - exists X, []. split; [reflexivity|]. split; [reflexivity|]. split; [|reflexivity]. intros f Hf NI. exfalso. apply (proj2 (FI f)). auto.
  - rewrite <- EF in *. clear f0 fs0 EF. destruct (map Z.to_nat rem) as [|c0 cl] eqn:EC; [destruct rem; [congruence|discriminate]|]. rewrite <- EC in *. clear c0 cl EC.
    destruct (remove_fold lr (map Z.to_nat rem) fs X [] ND DJ) as (R1 & R2 & R3). set (st := fold_left (remove_step lr (map Z.to_nat rem)) fs (X, [])) in *.
    exists (fst st), (snd st). split; [destruct st; reflexivity|]. split.
    + intros q Hq. apply R1. intro I. apply FI in I. tauto.
    + split.
      * intros f Hf NI. assert (If : In f fs) by (apply FI; auto).
        assert (NE' : map X (map Z.to_nat rem) <> []) by (destruct rem; [congruence|discriminate]).
        destruct (HL (map X (map Z.to_nat rem)) (X f) NE') as (L & M & C). rewrite !map_length in L. split; [|split].
        -- rewrite (mean_ext N _ _ (fun r _ => R2 f r If)). exact M.
        -- intros q Hq. rewrite (cov_ext N (fst st f) _ (X q) (X q) (fun r _ => R2 f r If)) by reflexivity. apply C. apply in_map, CI, Hq.
        -- exists (fst (lr (map X (map Z.to_nat rem)) (X f))), (snd (lr (map X (map Z.to_nat rem)) (X f))). split; [|split].
           ++ rewrite R3. cbn [app]. apply in_map_iff. exists f. split; [reflexivity|exact If].
           ++ exact L.
           ++ intro r. rewrite (R2 f r If). unfold predicted. rewrite map_map. reflexivity.
      * rewrite R3. cbn [app]. rewrite map_map. cbn [fst]. apply map_id.
Qed.
Print Assumptions C130_residuals_partial.
(** Removing the effects twice changes nothing more. *)
Theorem C130_idempotent : forall lr N p X rem Y cY Y2 c2, 0 < N -> rem <> [] ->
  Forall (fun z => (0 <= z < Z.of_nat p)%Z) rem -> fits_exactly N lr ->
  remove_effect lr N p X rem = Ok (Y, cY) -> remove_effect lr N p Y rem = Ok (Y2, c2) ->
  forall v r, v < p -> r < N -> Y2 v r = Y v r.
Proof.
  intros lr N p X rem Y cY Y2 c2 HN NE HR HL H1 H2 v r Hv Hr. assert (Hp : 0 < p) by lia.
  destruct (C130_residuals_partial lr N p X rem HN Hp NE HR HL) as (Y' & c' & E1 & A1 & A2 & _). rewrite H1 in E1. injection E1 as <- <-.
  destruct (C130_residuals_partial lr N p Y rem HN Hp NE HR HL) as (Y' & c' & E2 & B1 & B2 & _). rewrite H2 in E2. injection E2 as <- <-.
  destruct (existsb (Z.eqb (Z.of_nat v)) rem) eqn:E.
  - apply existsb_exists in E. destruct E as (z & I & E). apply Z.eqb_eq in E. subst z. rewrite (B1 v I). reflexivity.
  - assert (NI : ~ In (Z.of_nat v) rem). { intro I. assert (X1 : existsb (Z.eqb (Z.of_nat v)) rem = true) by (apply existsb_exists; exists (Z.of_nat v); split; [exact I|apply Z.eqb_refl]). congruence. }
    destruct (A2 v Hv NI) as (MY & CY & _). destruct (B2 v Hv NI) as (M2 & C2 & cs & b & _ & LC & EQ).
    set (cols := map (fun z => Y (Z.to_nat z)) rem) in *.
    assert (F : ls_fit N cols (Y v) cs b).
    { split; [unfold cols; rewrite map_length; exact LC|]. split.
      - rewrite <- M2. apply mean_ext. intros k _. symmetry. apply EQ.
      - intros c Hc. apply in_map_iff in Hc. destruct Hc as (z & <- & I). rewrite Forall_forall in HR. pose proof (HR z I) as Hz.
        rewrite <- (C2 (Z.to_nat z)) by (rewrite Z2Nat.id by lia; exact I). apply cov_ext; [intros k _; symmetry; apply EQ|reflexivity]. }
    rewrite EQ. assert (Z0 : (combination cs cols r + b = 0)%Qc); [|rewrite Z0; ring].
    apply (fit_of_residual N cols (Y v) cs b HN F MY); [|exact Hr]. intros c Hc. apply in_map_iff in Hc. destruct Hc as (z & <- & I).
    rewrite Forall_forall in HR. pose proof (HR z I) as Hz. assert (I' : In (Z.of_nat (Z.to_nat z)) rem) by (rewrite Z2Nat.id by lia; exact I).
    rewrite (A1 _ I'). apply CY. exact I'.
Qed.
Print Assumptions C130_idempotent.
(** Invalid arguments: no rows, no columns, no features to remove, indices out of range. *)
Theorem C130_errors : forall lr N p X rem,
  (N = 0 \/ p = 0 -> remove_effect lr N p X rem = Err ValueError) /\
  (0 < N -> 0 < p -> rem = [] -> remove_effect lr N p X rem = Err ValueError) /\
  (0 < N -> (exists f, f < p /\ ~ In (Z.of_nat f) rem) -> Exists (fun z => (z < - Z.of_nat p \/ Z.of_nat p <= z)%Z) rem ->
   remove_effect lr N p X rem = Err IndexError).
Proof.
  intros lr N p X rem. unfold remove_effect. split; [|split].
  - intros [-> | ->]; [reflexivity|]. rewrite orb_true_r. reflexivity.
  - intros HN Hp ->. rewrite (proj2 (Nat.eqb_neq N 0)), (proj2 (Nat.eqb_neq p 0)) by lia. cbn [orb existsb negb py_columns bind].
    destruct p as [|p]; [lia|]. reflexivity.
  - intros HN (f & Hf & NI) EX. rewrite (proj2 (Nat.eqb_neq N 0)), (proj2 (Nat.eqb_neq p 0)) by lia. cbn [orb].
    destruct (filter _ (seq 0 p)) as [|f0 fs] eqn:EF.
    + exfalso. assert (I : In f (filter (fun i => negb (existsb (Z.eqb (Z.of_nat i)) rem)) (seq 0 p))); [|rewrite EF in I; destruct I].
      apply filter_In. split; [apply in_seq; lia|]. apply negb_true_iff. destruct (existsb _ rem) eqn:E; [|reflexivity]. apply existsb_exists in E. destruct E as (z & I & E). apply Z.eqb_eq in E. subst z. contradiction.
    + rewrite (py_columns_err p rem EX). reflexivity.
Qed.
Print Assumptions C130_errors.
(** A negative index selects a column from the end as regressor but does not protect it: the column is
    regressed on itself and erased. *)
Theorem C130_negative_index_refuted : forall lr N p X, 0 < N -> 0 < p -> fits_exactly N lr ->
  exists Y coefs, remove_effect lr N p X [(-1)%Z] = Ok (Y, coefs) /\ (forall r, r < N -> Y (p - 1) r = 0%Qc) /\ In (p - 1) (map fst coefs).
Proof.
  intros lr N p X HN Hp HL. unfold remove_effect. rewrite (proj2 (Nat.eqb_neq N 0)), (proj2 (Nat.eqb_neq p 0)) by lia. cbn [orb].
  assert (FA : filter (fun i => negb (existsb (Z.eqb (Z.of_nat i)) [(-1)%Z])) (seq 0 p) = seq 0 p).
  { apply filter_id. intros i _. cbn [existsb]. destruct (Z.eqb_spec (Z.of_nat i) (-1)); [lia|reflexivity]. }
  rewrite FA. assert (PC : py_columns p [(-1)%Z] = Ok [p - 1]).
  { cbn [py_columns]. unfold py_column. change ((0 <=? -1)%Z) with false. cbn [andb]. change ((-1 <? 0)%Z) with true. cbn [andb].
    rewrite (proj2 (Z.leb_le 0 (-1 + Z.of_nat p))) by lia. cbn [bind]. replace (Z.to_nat (-1 + Z.of_nat p)) with (p - 1) by lia. reflexivity. }
  rewrite PC. cbn [bind]. assert (SQ : seq 0 p = seq 0 (p - 1) ++ [p - 1]) by (replace p with (S (p - 1)) at 1 by lia; rewrite seq_S; reflexivity).
  destruct (seq 0 p) as [|a l] eqn:ES; [destruct p; [lia|discriminate]|]. rewrite SQ, fold_left_app. clear a l ES SQ FA.
  destruct (remove_fold lr [p - 1] (seq 0 (p - 1)) X [] (seq_NoDup _ _)) as (R1 & _ & R3); [intros f If [<-|[]]; apply in_seq in If; lia|].
  set (st := fold_left (remove_step lr [p - 1]) (seq 0 (p - 1)) (X, [])) in *. cbn [fold_left]. destruct st as [X1 c1]. cbn [fst snd] in R1, R3. unfold remove_step. cbn [map].
  assert (E1 : X1 (p - 1) = X (p - 1)) by (apply R1; rewrite in_seq; lia).
  eexists. eexists. split; [reflexivity|]. split.
  - intros r Hr. rewrite Nat.eqb_refl. apply (fit_of_column N [X1 (p - 1)] (X1 (p - 1)) _ _ HN); [apply HL; discriminate|left; reflexivity|exact Hr].
  - rewrite map_app, in_app_iff. right. left. reflexivity.
Qed.
Print Assumptions C130_negative_index_refuted.

(** A data set with x1 = 2 x0 + 1 + e, e orthogonal to x0. *)
Definition ex_lr (cols : list sample) (y : sample) : list Qc * Qc :=
  match cols with
  | [c] => let a := (cov 4 y c / var 4 c)%Qc in ([a], (mean 4 y - a * mean 4 c)%Qc)
  | _ => (map (fun _ => 0%Qc) cols, 0%Qc)
  end.
Definition ex_data : nat -> sample := fun v r =>
  match v with
  | 0 => match r with 0 | 1 => 0%Qc | _ => qz 2 end
  | _ => match r with 0 => qz 2 | 1 => 0%Qc | 2 => qz 6 | _ => qz 4 end
  end.
Example C130_example :
  match remove_effect ex_lr 4 2 ex_data [0%Z] with
  | Ok (Y, [(1, [c])]) => map (fun r => this (Y 0 r)) (seq 0 4) = map (fun r => this (ex_data 0 r)) (seq 0 4) /\
                          map (fun r => this (Y 1 r)) (seq 0 4) = [1#1; (-1)#1; 1#1; (-1)#1]%Q /\ this c = (2#1)%Q
  | _ => False end /\
  ls_fit 4 [ex_data 0] (ex_data 1) (fst (ex_lr [ex_data 0] (ex_data 1))) (snd (ex_lr [ex_data 0] (ex_data 1))).
Proof.
  split; [vm_compute; auto|]. split; [reflexivity|]. split; [apply Qc_is_canon; vm_compute; reflexivity|]. intros c [<-|[]]. apply Qc_is_canon. vm_compute. reflexivity.
Qed.

(** ** C131 *)
(** Exactly the predictors with a non-zero weight and a non-zero penalised coefficient are kept; their
    coefficients are those of a least-squares fit of the unscaled target on exactly them, all others are 0. *)
Theorem C131_selection_and_refit : forall lr lars std pow N X ps t coef, 0 < N -> fits_exactly N lr ->
  (forall cols y c, lars cols y = Ok c -> length c = length cols) ->
  predict_adaptive_lasso lr lars std pow X ps t = Ok coef ->
  length coef = length ps /\
  exists w c mask b,
    w = map (fun c => pow (qabs c)) (fst (lr (map (fun p => std (X p)) ps) (std (X t)))) /\
    lars (map (fun wz => fun r => (snd wz r * fst wz)%Qc) (combine w (map (fun p => std (X p)) ps))) (std (X t)) = Ok c /\
    length mask = length ps /\
    (forall k, k < length ps -> (nth k mask false = true <-> nth k c 0%Qc <> 0%Qc /\ nth k w 0%Qc <> 0%Qc)) /\
    (forall k, nth k mask false = false -> nth k coef 0%Qc = 0%Qc) /\
    ls_fit N (map X (select mask ps)) (X t) (select mask coef) b.
Proof.
  intros lr lars std pow N X ps t coef HN HL LL H. unfold predict_adaptive_lasso in H.
  destruct (lasso_selection lr lars std pow X ps t) as [mask|] eqn:E; [|discriminate]. cbn [bind] in H.
  destruct (selection_spec lr lars std pow X ps t mask N HL LL E) as (w & c & NE & EW & EC & LW & LC & LM & SP).
  destruct (existsb (fun b => b) mask) eqn:EX.
  - injection H as <-. rewrite scatter_length. split; [exact LM|].
    set (cols := map X (select mask ps)). assert (NC : cols <> []).
    { unfold cols. pose proof (some_selection mask EX nat ps LM) as Q. destruct (select mask ps); [congruence|discriminate]. }
    pose proof (HL cols (X t) NC) as F. exists w, c, mask, (snd (lr cols (X t))). split; [exact EW|]. split; [exact EC|]. split; [exact LM|]. split; [exact SP|].
    split; [intros k Q; apply scatter_off; exact Q|].
    rewrite (select_scatter nat mask ps); [exact F|exact LM|]. destruct F as (F & _). unfold cols in F at 2. rewrite map_length in F. exact F.
  - injection H as <-. rewrite repeat_length. split; [exact LM|]. exists w, c, mask, (mean N (X t)). split; [exact EW|]. split; [exact EC|]. split; [exact LM|]. split; [exact SP|].
    split; [intros k _; apply nth_repeat0|]. rewrite (no_selection mask EX nat ps), (no_selection mask EX Qc). split; [reflexivity|]. split; [|intros d []].
    rewrite (mean_ext N _ (fun r => X t r - mean N (X t))%Qc) by (intros; unfold combination; cbn; ring). rewrite mean_minus, mean_const by exact HN. ring.
Qed.
Print Assumptions C131_selection_and_refit.
(** Exceptions: no predictors, or an exception of the penalised regression. *)
Theorem C131_errors : forall lr lars std pow X ps t,
  (ps = [] -> predict_adaptive_lasso lr lars std pow X ps t = Err ValueError) /\
  (forall e, (forall cols y, lars cols y = Err e) -> ps <> [] -> predict_adaptive_lasso lr lars std pow X ps t = Err e) /\
  ((forall cols y, exists c, lars cols y = Ok c) -> ps <> [] -> exists coef, predict_adaptive_lasso lr lars std pow X ps t = Ok coef).
Proof.
  intros lr lars std pow X ps t. unfold predict_adaptive_lasso, lasso_selection. split; [intros ->; reflexivity|]. split.
  - intros e He NE. destruct ps; [congruence|]. rewrite He. reflexivity.
  - intros He NE. destruct ps; [congruence|]. match goal with |- context [lars ?a ?b] => destruct (He a b) as [c Hc]; rewrite Hc end. cbn [bind].
    destruct (existsb _ _); eexists; reflexivity.
Qed.
Print Assumptions C131_errors.
(** On data of a linear model the pruned regressions return the true matrix as soon as no true parent is
    pruned: superfluous predictors do no harm. *)
Definition lasso_of (lr : list sample -> sample -> list Qc * Qc) (lars : list sample -> sample -> result (list Qc))
    (std : sample -> sample) (pow : Qc -> Qc) (x : nat -> sample) : list nat -> nat -> nat -> num :=
  fun ps i p => match predict_adaptive_lasso lr lars std pow x ps i with Ok cs => Some (coef_at ps cs p) | Err _ => None end.
Theorem C131_recovers_adjacency : forall lr lars std pow N n B e x K pk,
  linear_model N n B e x -> is_order n K -> topological (edge_of n B) K ->
  fits_exactly N lr -> (forall cols y c, lars cols y = Ok c -> length c = length cols) ->
  (forall m i j, pk = Some m -> m i j = Some 0%Qc -> B i j = 0%Qc) ->
  (forall ps i, NoDup ps -> ps <> [] -> i < n -> (forall p, In p ps -> precedes K p i) ->
     exists mask, lasso_selection lr lars std pow x ps i = Ok mask /\ forall k, k < length ps -> B i (nth k ps 0) <> 0%Qc -> nth k mask false = true) ->
  forall i j, i < n -> j < n -> estimate_adjacency_matrix (lasso_of lr lars std pow x) pk K i j = Some (B i j).
Proof.
  intros lr lars std pow N n B e x K pk M OK TK HL LL PK KEEP i j Hi Hj.
  assert (HN : 0 < N) by (destruct (Nat.eq_dec N 0) as [->|]; [exfalso|lia]; pose proof (lm_variance 0 n B e x M i Hi) as V; vm_compute in V; discriminate).
  pose proof (K_NoDup n K OK) as ND. assert (KI := K_In N n HN K OK).
  assert (I : In i K) by (apply KI; exact Hi). apply in_split in I. destruct I as (l1 & l2 & E).
  rewrite (adjacency_row _ pk K l1 i l2 j E ND). cbv zeta. set (ps := predictors_of pk i l1).
  assert (ND1 : NoDup l1) by (rewrite E in ND; apply NoDup_app_l in ND; exact ND).
  assert (NDp : NoDup ps) by (unfold ps; destruct pk; cbn; [apply NoDup_filter|]; exact ND1).
  assert (PL : forall p, In p ps -> In p l1) by (intros p Hp; apply predictors_of_In in Hp; apply Hp).
  assert (Par : forall q, In q l1 -> B i q <> 0%Qc -> In q ps).
  { intros q Hq Nz. apply predictors_of_In. split; [exact Hq|]. intros m ->. split; [|intro Z; apply Nz; apply (PK m i q eq_refl Z)].
    intros ->. rewrite E in ND. apply NoDup_remove_2 in ND. apply ND, in_app_iff. left. exact Hq. }
  destruct (memb j ps) eqn:Mj.
  - apply memb_In in Mj. assert (NE : ps <> []) by (intro Q; rewrite Q in Mj; destruct Mj).
    destruct (KEEP ps i NDp NE Hi) as (mask & SEL & KP).
    { intros p Hp. rewrite E. apply precedes_app_cross; [apply PL; exact Hp|left; reflexivity]. }
    destruct (selection_spec lr lars std pow x ps i mask N HL LL SEL) as (w & c & _ & _ & _ & _ & _ & LM & _).
    unfold lasso_of, predict_adaptive_lasso. rewrite SEL. cbn [bind].
    destruct (In_nth ps j 0 Mj) as (k & Hk & Ek).
    assert (OFF : nth k mask false = false -> B i j = 0%Qc).
    { intro Q. destruct (Qc_eq_dec (B i j) 0) as [Z|Z]; [exact Z|]. rewrite <- Ek in Z. rewrite (KP k Hk Z) in Q. discriminate. }
    destruct (existsb (fun b => b) mask) eqn:EX.
    + set (qs := select mask ps). set (cols := map x qs). assert (NC : cols <> []).
      { unfold cols, qs. pose proof (some_selection mask EX nat ps LM) as Q. destruct (select mask ps); [congruence|discriminate]. }
      pose proof (HL cols (x i) NC) as F. f_equal.
      destruct (nth k mask false) eqn:MK.
      * assert (Iq : In j qs) by (apply (select_In nat mask ps 0 j LM); exists k; auto).
        rewrite coef_scatter; [|exact NDp|exact LM| |exact Iq].
        2:{ destruct F as (F & _). unfold cols in F at 2. rewrite map_length in F. exact F. }
        assert (NDq : NoDup qs) by (apply select_NoDup; exact NDp).
        assert (QP : forall q, In q qs -> In q ps) by (intros q Q; apply (select_In nat mask ps 0 q LM) in Q; destruct Q as (k' & K1 & <- & _); apply nth_In; exact K1).
        apply (regression_exact N n B e x HN M K OK TK l1 i l2 qs (coef_at qs (fst (lr cols (x i)))) E NDq).
        -- intros q Q. apply PL, QP, Q.
        -- intros a p b q Eq Hq. assert (P : precedes ps q p).
           { apply (precedes_select mask). change (precedes qs q p). rewrite Eq. apply precedes_app_cross; [exact Hq|left; reflexivity]. }
           rewrite E. apply precedes_app_l. unfold ps in P. destruct pk as [m|]; cbn in P; [apply precedes_filter in P|]; exact P.
        -- intros q Hq Nz. pose proof (Par q Hq Nz) as Q. destruct (In_nth ps q 0 Q) as (k' & K1 & K2). apply (select_In nat mask ps 0 q LM). exists k'. split; [exact K1|]. split; [exact K2|].
           apply KP; [exact K1|]. rewrite K2. exact Nz.
        -- apply (ls_fit_least_squares N x (x i) qs _ (snd (lr cols (x i))) NDq). exact F.
        -- exact Iq.
      * rewrite (OFF eq_refl), (coef_at_off ps _ j k NDp Ek Hk). apply scatter_off. exact MK.
    + f_equal. rewrite (OFF (none_nth mask k EX)), (coef_at_off ps _ j k NDp Ek Hk). apply nth_repeat0.
  - destruct (Qc_eq_dec (B i j) 0) as [Z|Z]; [rewrite Z; reflexivity|]. exfalso.
    assert (T : In j ps) by (apply Par; [apply (B_prefix N n B HN K OK TK l1 i l2 j E Hj Z)|exact Z]). apply memb_In in T. congruence.
Qed.
Print Assumptions C131_recovers_adjacency.
(** Together with a search that finds the order: DirectLiNGAM returns the true matrix, if the selection step
    keeps the true parents among the earlier variables. *)
Theorem C131_direct_lingam_correct : forall lr lars std pow N n B e x ms score ok mode l,
  linear_model N n B e x -> separates (better ms) N n B e score ->
  fits_exactly N lr -> (forall cols y c, lars cols y = Ok c -> length c = length cols) ->
  is_order n l -> topological (edge_of n B) l -> ProofPop3.mode_fits n B ok mode l ->
  (forall m i j, pk_of_mode mode = Some m -> m i j = Some 0%Qc -> B i j = 0%Qc) ->
  (forall K ps i, is_order n K -> topological (edge_of n B) K -> NoDup ps -> ps <> [] -> i < n -> (forall p, In p ps -> precedes K p i) ->
     exists mask, lasso_selection lr lars std pow x ps i = Ok mask /\ forall k, k < length ps -> B i (nth k ps 0) <> 0%Qc -> nth k mask false = true) ->
  exists K A, direct_fit (ModelTotal.np_residual N) score ms (lasso_of lr lars std pow x) n ok mode x = Ok (K, A) /\
    is_order n K /\ topological (edge_of n B) K /\ forall i j, i < n -> j < n -> A i j = Some (B i j).
Proof.
  intros lr lars std pow N n B e x ms score ok mode l M SEP HL LL OL TL MF PK KEEP.
  destruct (ProofPop3.fit_order_correct N n B e x ms score ok mode l M SEP OL TL MF) as (K & E & OK & TK).
  exists K, (estimate_adjacency_matrix (lasso_of lr lars std pow x) (pk_of_mode mode) K). unfold direct_fit. rewrite E. cbn [bind]. split; [reflexivity|]. split; [exact OK|]. split; [exact TK|].
  intros i j Hi Hj. apply (C131_recovers_adjacency lr lars std pow N n B e x K (pk_of_mode mode)); try assumption. intros ps k. apply (KEEP K ps k OK TK).
Qed.
Print Assumptions C131_direct_lingam_correct.
(** The regressions exist (gram_fits); x1 = 2 x0 + e1, x2 independent of both. *)
Definition ex_data3 : nat -> sample := fun v r => match v with 2 => match r with 0 | 3 => 1%Qc | _ => (qz (-1)) end | _ => ex_data v r end.
Definition ex_lars (N : nat) (cols : list sample) (y : sample) : result (list Qc) := Ok (fst (gram_lr N cols y)).
Example C131_example :
  fits_exactly 4 (gram_lr 4) /\ (forall cols y c, ex_lars 4 cols y = Ok c -> length c = length cols) /\
  match predict_adaptive_lasso (gram_lr 4) (ex_lars 4) (fun c => c) (fun w => w) ex_data3 [2; 0] 1 with
  | Ok cs => map this cs = [(0 # 1)%Q; (2 # 1)%Q] | Err _ => False end.
Proof.
  split; [apply gram_fits; lia|]. split; [|vm_compute; reflexivity]. intros cols y c [= <-]. apply gram_length.
Qed.
Definition ex_B : mat Qc := fun i j => match i, j with 1, 0 => qz 2 | _, _ => 0%Qc end.
Definition ex_e : nat -> sample := fun v r => match v with 1 => match r with 0 | 2 => qz 2 | _ => 0%Qc end | _ => ex_data3 v r end.
Example C131_recovers_example : (* the hypotheses of C131_recovers_adjacency are met *)
  linear_model 4 2 ex_B ex_e ex_data3 /\ is_order 2 [0; 1] /\ topological (edge_of 2 ex_B) [0; 1] /\
  (forall ps i, NoDup ps -> ps <> [] -> i < 2 -> (forall p, In p ps -> precedes [0; 1] p i) ->
     exists mask, lasso_selection (gram_lr 4) (ex_lars 4) (fun c => c) (fun w => w) ex_data3 ps i = Ok mask /\
                  forall k, k < length ps -> ex_B i (nth k ps 0) <> 0%Qc -> nth k mask false = true).
Proof.
  assert (T : topological (edge_of 2 ex_B) [0; 1]).
  { intros a b (Hb & Ha & Q). destruct b as [|[|b]]; [destruct a; exfalso; apply Q; reflexivity| |lia]. destruct a as [|a]; [exists [], [], []; reflexivity|]. exfalso. apply Q. reflexivity. }
  split; [|split; [|split; [exact T|]]].
  - constructor.
    + intros v C. assert (ND : NoDup [0; 1]) by (repeat constructor; cbn; intuition lia).
      assert (P : forall a b, Relation_Operators.clos_trans nat (edge_of 2 ex_B) a b -> precedes [0; 1] a b).
      { intros a b H. induction H as [a b H|a b c _ IH1 _ IH2]; [apply T; exact H|]. eapply precedes_trans; eassumption. }
      exact (precedes_irrefl _ _ ND (P _ _ C)).
    + intros i r Hi Hr. apply Qc_is_canon. destruct i as [|[|i]]; [| |lia]; (destruct r as [|[|[|[|r]]]]; [| | | |lia]); vm_compute; reflexivity.
    + intros i Hi. destruct i as [|[|i]]; [| |lia]; vm_compute; reflexivity.
    + intros i j Hi Hj N. apply Qc_is_canon. destruct i as [|[|i]], j as [|[|j]]; try lia; vm_compute; reflexivity.
  - apply Permutation_refl.
  - intros ps i ND NE Hi PR. assert (P0 : forall p, In p ps -> p = 0 /\ i = 1).
    { intros p I. destruct (PR p I) as ([|a l1] & l2 & l3 & E); cbn in E.
      - injection E as <- E. destruct l2 as [|b l2]; cbn in E; [injection E as <- _; auto|]. injection E as _ E. destruct l2; discriminate.
      - injection E as _ E. destruct l1 as [|b l1]; cbn in E; injection E as _ E; [destruct l2; discriminate|destruct l1; discriminate]. }
    destruct ps as [|p [|q ps]]; [congruence| |].
    + destruct (P0 p (or_introl eq_refl)) as [-> ->]. exists [true]. split; [vm_compute; reflexivity|]. intros [|k] Hk _; [reflexivity|cbn in Hk; lia].
    + exfalso. inversion ND as [|? ? N1 N2]; subst. apply N1. left. rewrite (proj1 (P0 p (or_introl eq_refl))), (proj1 (P0 q (or_intror (or_introl eq_refl)))). reflexivity.
Qed.

(** ** C132 *)
Section Description.
  Variable fmt : Qc -> string.
  Local Open Scope string_scope.
  Lemma app_assoc_s : forall a b c, (a ++ b) ++ c = a ++ b ++ c.
  Proof. induction a as [|x a IH]; intros b c; [reflexivity|]. cbn. rewrite IH. reflexivity. Qed.
  Lemma app_nil_s : forall a, a ++ "" = a.
  Proof. induction a as [|x a IH]; [reflexivity|]. cbn. rewrite IH. reflexivity. Qed.
  Lemma length_app_s : forall a b, String.length (a ++ b) = (String.length a + String.length b)%nat.
  Proof. induction a as [|x a IH]; intro b; [reflexivity|]. cbn. rewrite IH. reflexivity. Qed.
  Lemma substring_app : forall a b, substring 0 (String.length a) (a ++ b) = a.
  Proof. induction a as [|x a IH]; intro b; [destruct b; reflexivity|]. cbn. rewrite IH. reflexivity. Qed.
  Lemma drop_app : forall a b, drop_last (String.length b) (a ++ b) = a.
  Proof. intros a b. unfold drop_last. rewrite length_app_s. replace (String.length a + String.length b - String.length b)%nat with (String.length a) by lia. apply substring_app. Qed.
  (** each followed by " + " *)
  Fixpoint plussed (l : list string) : string := match l with [] => "" | s :: l => s ++ " + " ++ plussed l end.
  Lemma plussed_concat : forall l, l <> [] -> plussed l = String.concat " + " l ++ " + ".
  Proof.
    induction l as [|s [|s' l] IH]; intro NE; [congruence|cbn [plussed String.concat]; reflexivity|].
    change (plussed (s :: s' :: l)) with (s ++ " + " ++ plussed (s' :: l)). rewrite IH by discriminate.
    change (String.concat " + " (s :: s' :: l)) with (s ++ " + " ++ String.concat " + " (s' :: l)). rewrite !app_assoc_s. reflexivity.
  Qed.
  Definition shown_entry (A : mat num) (i j : nat) : bool := match A i j with None => true | Some q => negb (close_to_zero q) end.
  Lemma shown_iff : forall A i j, shown_entry A i j = true <-> in_equation A i j.
  Proof. intros A i j. unfold shown_entry, in_equation, close_to_zero. destruct (A i j) as [q|]; [|tauto]. rewrite negb_involutive. apply qltb_lt. Qed.
  Definition new_latents (A : mat num) (i : nat) (l : list nat) (etas : list string) : list string :=
    fold_left (fun e j => match A i j with None => if str_in (latent_name decimal i j) e then e else (e ++ [latent_name decimal i j])%list | _ => e end) l etas.
  Lemma eta_eq : forall i j, (if (i <? j)%nat then "eta_" ++ decimal i ++ "_" ++ decimal j else "eta_" ++ decimal j ++ "_" ++ decimal i) = latent_name decimal i j.
  Proof.
    intros i j. unfold latent_name. destruct (Nat.ltb_spec i j); [rewrite Nat.min_l, Nat.max_r by lia|rewrite Nat.min_r, Nat.max_l by lia]; reflexivity.
  Qed.
  Lemma row_fold : forall A i l d etas,
    fold_left (element_step fmt i A) l (d, etas) =
    (d ++ plussed (map (term_text decimal fmt A i) (filter (shown_entry A i) l)), new_latents A i l etas).
  Proof.
    intros A i l. induction l as [|j l IH]; intros d etas; [cbn; rewrite app_nil_s; reflexivity|]. cbn [fold_left filter new_latents element_step].
    unfold shown_entry at 1. unfold new_latents. cbn [fold_left]. fold (new_latents A i l). destruct (A i j) as [q|] eqn:E.
    - destruct (close_to_zero q); cbn [negb]; rewrite IH; [reflexivity|]. cbn [map plussed].
      assert (T : term_text decimal fmt A i j = fmt q ++ " * x" ++ decimal j) by (unfold term_text; rewrite E; reflexivity). rewrite T, !app_assoc_s. reflexivity.
    - rewrite eta_eq, IH. cbn [map plussed].
      assert (T : term_text decimal fmt A i j = latent_name decimal i j) by (unfold term_text; rewrite E; reflexivity). rewrite T, !app_assoc_s. reflexivity.
  Qed.
  Definition row_shown (n : nat) (A : mat num) (i : nat) : bool := existsb (shown_entry A i) (seq 0 n).
  Lemma row_shown_neg : forall n A i, forallb (fun j => match A i j with Some q => close_to_zero q | None => false end) (seq 0 n) = negb (row_shown n A i).
  Proof.
    intros n A i. unfold row_shown. induction (seq 0 n) as [|j l IH]; [reflexivity|]. cbn. rewrite IH. unfold shown_entry. destruct (A i j); [rewrite negb_orb, negb_involutive|]; reflexivity.
  Qed.
  Definition all_latents (n : nat) (A : mat num) (rows : list nat) (etas : list string) : list string :=
    fold_left (fun e i => new_latents A i (seq 0 n) e) rows etas.
  Lemma new_latents_none : forall A i l e, (forall j, In j l -> A i j <> None) -> new_latents A i l e = e.
  Proof.
    intros A i l. induction l as [|j l IH]; intros e H; [reflexivity|]. unfold new_latents. cbn [fold_left]. fold (new_latents A i l).
    destruct (A i j) eqn:E; [apply IH; intros k Hk; apply H; right; exact Hk|]. exfalso. apply (H j); [left; reflexivity|exact E].
  Qed.
  Lemma rows_fold : forall n A rows d etas,
    fold_left (row_step fmt n A) rows (d, etas) =
    (d ++ String.concat "" (map (fun i => equation_text decimal fmt A i (filter (shown_entry A i) (seq 0 n))) (filter (row_shown n A) rows)), all_latents n A rows etas).
  Proof.
    assert (CC : forall s l, String.concat "" (s :: l) = s ++ String.concat "" l) by (intros s [|t l]; [cbn; rewrite app_nil_s; reflexivity|reflexivity]).
    intros n A rows. induction rows as [|i rows IH]; intros d etas; [cbn; rewrite app_nil_s; reflexivity|].
    cbn [fold_left filter all_latents]. unfold row_step at 2. rewrite row_shown_neg. unfold all_latents. cbn [fold_left]. fold (all_latents n A rows). destruct (row_shown n A i) eqn:E; cbn [negb].
    - rewrite row_fold. cbn [map]. rewrite CC.
      assert (NE : map (term_text decimal fmt A i) (filter (shown_entry A i) (seq 0 n)) <> []).
      { unfold row_shown in E. apply existsb_exists in E. destruct E as (j & I & S). assert (I' : In j (filter (shown_entry A i) (seq 0 n))) by (apply filter_In; auto).
        destruct (filter (shown_entry A i) (seq 0 n)); [destruct I'|discriminate]. }
      rewrite (plussed_concat _ NE). change 3 with (String.length " + "). rewrite <- app_assoc_s, drop_app, IH. f_equal. unfold equation_text. rewrite !app_assoc_s. reflexivity.
    - rewrite IH. f_equal. change (all_latents n A rows etas = all_latents n A rows (new_latents A i (seq 0 n) etas)). f_equal. symmetry. apply new_latents_none. intros j Hj Q. assert (X : row_shown n A i = true); [|congruence].
      apply existsb_exists. exists j. split; [exact Hj|]. unfold shown_entry. rewrite Q. reflexivity.
  Qed.
  Lemma str_in_iff : forall s l, str_in s l = true <-> In s l.
  Proof.
    intros s l. unfold str_in. rewrite existsb_exists. split; [intros (x & I & E); apply String.eqb_eq in E; subst; exact I|].
    intro I. exists s. split; [exact I|apply String.eqb_refl].
  Qed.
  Lemma new_latents_spec : forall A i l e, NoDup e -> NoDup (new_latents A i l e) /\
    forall s, In s (new_latents A i l e) <-> In s e \/ exists j, In j l /\ A i j = None /\ s = latent_name decimal i j.
  Proof.
    intros A i l. induction l as [|j l IH]; intros e ND; [split; [exact ND|]; intro s; cbn; split; [auto|intros [H|(j & [] & _)]; exact H]|].
    unfold new_latents. cbn [fold_left]. fold (new_latents A i l). destruct (A i j) as [q|] eqn:E.
    - destruct (IH e ND) as [I1 I2]. split; [exact I1|]. intro s. rewrite I2. split; (intros [H|(k & K1 & K2 & K3)]; [auto|]); right; exists k; [auto with datatypes|].
      destruct K1 as [<-|K1]; [congruence|auto].
    - set (e' := if str_in (latent_name decimal i j) e then e else (e ++ [latent_name decimal i j])%list).
      assert (ND' : NoDup e'). { unfold e'. destruct (str_in (latent_name decimal i j) e) eqn:S; [exact ND|]. apply NoDup_app_iff'. split; [exact ND|]. split; [constructor; [intros []|constructor]|].
        intros x I [<-|[]]. apply str_in_iff in I. congruence. }
      assert (IE : forall s, In s e' <-> In s e \/ s = latent_name decimal i j).
      { intro s. unfold e'. destruct (str_in (latent_name decimal i j) e) eqn:S; [apply str_in_iff in S; split; [auto|intros [H| ->]; assumption]|].
        rewrite in_app_iff. cbn. split; (intros [H|H]; [auto|]); [destruct H as [<-|[]]; auto|subst; auto]. }
      destruct (IH e' ND') as [I1 I2]. split; [exact I1|]. intro s. rewrite I2, IE. split.
      + intros [[H| ->]|(k & K1 & K2 & K3)]; [auto| |]; right; [exists j; auto with datatypes|exists k; auto with datatypes].
      + intros [H|(k & [<-|K1] & K2 & K3)]; [auto|auto|]. right. exists k. auto.
  Qed.
  Lemma all_latents_spec : forall n A rows e, NoDup e -> NoDup (all_latents n A rows e) /\
    forall s, In s (all_latents n A rows e) <-> In s e \/ exists i j, In i rows /\ (j < n)%nat /\ A i j = None /\ s = latent_name decimal i j.
  Proof.
    intros n A rows. induction rows as [|i rows IH]; intros e ND; [split; [exact ND|]; intro s; cbn; split; [auto|intros [H|(i & j & [] & _)]; exact H]|].
    unfold all_latents. cbn [fold_left]. fold (all_latents n A rows). destruct (new_latents_spec A i (seq 0 n) e ND) as [N1 N2]. destruct (IH _ N1) as [I1 I2].
    split; [exact I1|]. intro s. rewrite I2, N2. split.
    - intros [[H|(j & K1 & K2 & K3)]|(k & j & K1 & K2 & K3 & K4)]; [auto| |]; right; [exists i, j|exists k, j; auto with datatypes].
      apply in_seq in K1. split; [left; reflexivity|]. split; [lia|]. auto.
    - intros [H|(k & j & [<-|K1] & K2 & K3 & K4)]; [auto| |].
      + left. right. exists j. split; [apply in_seq; lia|]. auto.
      + right. exists k, j. auto.
  Qed.
  Lemma ordinal_fold : forall l d, fold_left (fun d i => d ++ " x" ++ decimal i) l d = d ++ String.concat "" (map (fun i => " x" ++ decimal i) l).
  Proof.
    assert (CC : forall s l, String.concat "" (s :: l) = s ++ String.concat "" l) by (intros s [|t l]; [cbn; rewrite app_nil_s; reflexivity|reflexivity]).
    induction l as [|i l IH]; intro d; [cbn; rewrite app_nil_s; reflexivity|]. cbn [fold_left map]. rewrite CC, IH, !app_assoc_s. reflexivity.
  Qed.
End Description.

Lemma qsum_all0 : forall l, (forall q, In q l -> q = 0%Qc) -> qsum l = 0%Qc.
Proof. induction l as [|q l IH]; intro H; [reflexivity|]. cbn. fold (qsum l). rewrite (H q (or_introl eq_refl)), IH; [ring|]. intros q' I. apply H. right. exact I. Qed.
(** The text given to semopy: one equation for every variable with an entry, in order, whose right side lists
    exactly the unknown and the non-zero entries; the latent variables, each once; the ordinal variables. *)
Theorem C132_description : forall (fmt : Qc -> string) R (semopy : string -> result R) n A xr ord,
  0 < n -> 0 < xr -> match ord with Some l => length l = n /\ (forall q, In q l -> (0 <= q)%Qc) | None => True end ->
  exists eqs latents ordinals,
    evaluate_model_fit fmt semopy n n A xr n true ord =
      semopy (String.concat "" (map (fun e => equation_text decimal fmt A (fst e) (snd e)) eqs) ++
              match latents with [] => "" | _ => "DEFINE(latent) " ++ String.concat " " latents ++ newline end ++
              match ordinals with [] => "" | _ => "DEFINE(ordinal)" ++ String.concat "" (map (fun i => " x" ++ decimal i) ordinals) ++ newline end)%string /\
    StronglySorted lt (map fst eqs) /\
    (forall i, In i (map fst eqs) <-> i < n /\ exists j, j < n /\ in_equation A i j) /\
    (forall i js, In (i, js) eqs -> StronglySorted lt js /\ forall j, In j js <-> j < n /\ in_equation A i j) /\
    NoDup latents /\ (forall s, In s latents <-> exists i j, i < n /\ j < n /\ A i j = None /\ s = latent_name decimal i j) /\
    StronglySorted lt ordinals /\
    (forall i, In i ordinals <-> exists l q, ord = Some l /\ nth_error l i = Some q /\ q <> 0%Qc).
Proof.
  intros fmt R semopy n A xr ord Hn Hx HO.
  assert (SS : forall (f : nat -> bool) k m, StronglySorted lt (filter f (seq k m))).
  { intros f k m. revert k. induction m as [|m IH]; intro k; cbn; [constructor|]. destruct (f k); [|apply IH]. constructor; [apply IH|].
    apply Forall_forall. intros x I. apply filter_In in I. destruct I as [I _]. apply in_seq in I. lia. }
  assert (LO : length (match ord with Some l => l | None => repeat 0%Qc n end) = n) by (destruct ord; [apply HO|apply repeat_length]).
  assert (OP : forall q, In q (match ord with Some l => l | None => repeat 0%Qc n end) -> (0 <= q)%Qc) by (destruct ord; [apply HO|intros q I; apply repeat_spec in I; subst; apply Qcle_refl]).
  set (o := match ord with Some l => l | None => repeat 0%Qc n end) in *.
  set (ords := filter (fun i => negb (qeqb (nth i o 0%Qc) 0)) (seq 0 (length o))).
  assert (OI : forall i, In i ords <-> exists q, nth_error o i = Some q /\ q <> 0%Qc).
  { intro i. unfold ords. rewrite filter_In, in_seq, negb_true_iff. split.
    - intros [L Q]. destruct (nth_error o i) as [q|] eqn:E; [|apply nth_error_None in E; lia]. exists q. split; [reflexivity|]. rewrite (nth_error_nth o i 0%Qc E) in Q. apply qeqb_neq. exact Q.
    - intros (q & E & Q). pose proof (nth_error_Some o i) as S. assert (L : i < length o) by (apply S; rewrite E; discriminate). split; [lia|].
      rewrite (nth_error_nth o i 0%Qc E). apply qeqb_neq. exact Q. }
  exists (map (fun i => (i, filter (shown_entry A i) (seq 0 n))) (filter (row_shown n A) (seq 0 n))), (all_latents n A (seq 0 n) []), ords.
  destruct (all_latents_spec n A (seq 0 n) [] (NoDup_nil _)) as [L1 L2]. split; [|split; [|split; [|split; [|split; [|split; [|split]]]]]].
  - unfold evaluate_model_fit. rewrite (proj2 (Nat.eqb_neq n 0)), (proj2 (Nat.eqb_neq xr 0)), Nat.eqb_refl by lia. cbn [orb negb]. fold o. rewrite LO, Nat.eqb_refl. cbn [negb].
    f_equal. unfold describe. rewrite rows_fold. cbn [append]. rewrite map_map. cbn [fst snd].
    assert (SUM : qltb 0 (qsum o) = match ords with [] => false | _ => true end).
    { destruct ords as [|i0 ords0] eqn:EO.
      - destruct (qltb 0 (qsum o)) eqn:Q; [|reflexivity]. exfalso. assert (Z : qsum o = 0%Qc).
        { apply qsum_all0. intros q I. apply In_nth_error in I. destruct I as (i & E). destruct (Qc_eq_dec q 0) as [Z|Z]; [exact Z|]. exfalso. apply (proj2 (OI i)). exists q. auto. }
        rewrite Z in Q. vm_compute in Q. discriminate.
      - destruct (proj1 (OI i0) (or_introl eq_refl)) as (q & E & Q). apply qltb_lt. apply nth_error_In in E. clear - OP E Q.
        assert (PN : forall l, (forall q, In q l -> (0 <= q)%Qc) -> (0 <= qsum l)%Qc).
        { induction l as [|a l IH]; intro H; [apply Qcle_refl|]. cbn. fold (qsum l). replace 0%Qc with (0 + 0)%Qc by ring. apply Qcplus_le_compat; [apply H; left; reflexivity|apply IH; intros b Hb; apply H; right; exact Hb]. }
        assert (QP : (0 < q)%Qc). { destruct (Qcle_lt_or_eq _ _ (OP q E)) as [L|L]; [exact L|congruence]. }
        apply in_split in E. destruct E as (l1 & l2 & EL).
        rewrite EL, qsum_app. change (qsum (q :: l2)) with (q + qsum l2)%Qc. assert (P1 : (0 <= qsum l1)%Qc) by (apply PN; intros u I; apply OP; rewrite EL; apply in_app_iff; auto).
        assert (P2 : (0 <= qsum l2)%Qc) by (apply PN; intros u I; apply OP; rewrite EL; apply in_app_iff; right; right; exact I).
        apply Qclt_le_trans with (0 + (q + 0))%Qc; [replace (0 + (q + 0))%Qc with q by ring; exact QP|]. apply Qcplus_le_compat; [exact P1|]. apply Qcplus_le_compat; [apply Qcle_refl|exact P2]. }
    rewrite SUM. rewrite ordinal_fold. fold ords. destruct ords as [|i0 ords0] eqn:EO; destruct (all_latents n A (seq 0 n) []) as [|s0 ss]; rewrite ?app_nil_s, ?app_assoc_s; reflexivity.
  - rewrite map_map. cbn [fst]. rewrite map_id. apply SS.
  - intro i. rewrite map_map. cbn [fst]. rewrite map_id, filter_In, in_seq. unfold row_shown. rewrite existsb_exists. split.
    + intros [L (j & I & S)]. split; [lia|]. exists j. apply in_seq in I. split; [lia|]. apply shown_iff. exact S.
    + intros [L (j & Hj & S)]. split; [lia|]. exists j. split; [apply in_seq; lia|]. apply shown_iff. exact S.
  - intros i js I. apply in_map_iff in I. destruct I as (i' & [= <- <-] & _). split; [apply SS|]. intro j. rewrite filter_In, in_seq, shown_iff. split; intros [H1 H2]; (split; [lia|exact H2]).
  - exact L1.
  - intro s. rewrite L2. split.
    + intros [[]|(i & j & I & Hj & Q & E)]. apply in_seq in I. exists i, j. split; [lia|]. auto.
    + intros (i & j & Hi & Hj & Q & E). right. exists i, j. split; [apply in_seq; lia|]. auto.
  - apply SS.
  - intro i. rewrite OI. clear - HO. subst o. destruct ord as [l|].
    + split; [intros (q & E & Q); exists l, q; auto|intros (l' & q & [= <-] & E & Q); exists q; auto].
    + split; [|intros (l' & q & D & _); discriminate]. intros (q & E & Q). apply nth_error_In, repeat_spec in E. contradiction.
Qed.
Print Assumptions C132_description.
(** Two pairs share a latent variable only if they are the same pair. *)
Theorem C132_latents_distinct : forall i j k l,
  latent_name decimal i j = latent_name decimal k l <-> (i = k /\ j = l) \/ (i = l /\ j = k).
Proof.
  intros i j k l. assert (DI : forall a b, decimal a = decimal b -> a = b).
  { intros a b H. unfold decimal in H. apply Unsigned.to_uint_inj. pose proof (NilEmpty.usu (Nat.to_uint a)) as P. pose proof (NilEmpty.usu (Nat.to_uint b)) as Q. rewrite H in P. congruence. }
  assert (ND : forall a c, In c (list_ascii_of_string (decimal a)) -> c <> "_"%char).
  { intros a c. unfold decimal. generalize (Nat.to_uint a). intro d. induction d; cbn; [intros []| | | | | | | | | |]; (intros [<-|I]; [discriminate|auto]). }
  assert (SP : forall s t u v, (forall c, In c (list_ascii_of_string s) -> c <> "_"%char) -> (forall c, In c (list_ascii_of_string t) -> c <> "_"%char) ->
    (s ++ "_" ++ u = t ++ "_" ++ v)%string -> s = t /\ u = v).
  { induction s as [|c s IH]; intros [|d t] u v Hs Ht E; cbn in E.
    - injection E as E. auto.
    - injection E as E _. exfalso. apply (Ht d); [left; reflexivity|auto].
    - injection E as E _. exfalso. apply (Hs c); [left; reflexivity|auto].
    - injection E as -> E. destruct (IH t u v) as [-> ->]; [intros c I; apply Hs; right; exact I|intros c I; apply Ht; right; exact I|exact E|auto]. }
  split.
  - intro E. unfold latent_name in E. cbn in E. injection E as E. apply SP in E; [|apply ND|apply ND]. destruct E as [E1 E2]. apply DI in E1. apply DI in E2. lia.
  - intros [[-> ->]|[-> ->]]; unfold latent_name; [reflexivity|]. rewrite Nat.min_comm, Nat.max_comm. reflexivity.
Qed.
Print Assumptions C132_latents_distinct.
Theorem C132_errors : forall (fmt : Qc -> string) R (semopy : string -> result R) r c A xr xc x_ok ord,
  r = 0 \/ c = 0 \/ r <> c \/ xr = 0 \/ xc <> c \/ x_ok = false \/ (exists l, ord = Some l /\ length l <> c) ->
  evaluate_model_fit fmt semopy r c A xr xc x_ok ord = Err ValueError.
Proof.
  intros fmt R semopy r c A xr xc x_ok ord H. unfold evaluate_model_fit.
  destruct (Nat.eqb_spec r 0); [reflexivity|]. destruct (Nat.eqb_spec c 0); [reflexivity|]. destruct (Nat.eqb_spec r c); [|reflexivity]. cbn [orb negb].
  destruct (Nat.eqb_spec xr 0); [reflexivity|]. destruct (Nat.eqb_spec xc 0); [reflexivity|]. destruct x_ok; [|reflexivity]. cbn [orb negb].
  destruct (Nat.eqb_spec xc c); [|reflexivity]. cbn [negb].
  destruct H as [H|[H|[H|[H|[H|[H|(l & -> & H)]]]]]]; try contradiction; try discriminate. rewrite (proj2 (Nat.eqb_neq _ _) H). reflexivity.
Qed.
Print Assumptions C132_errors.
(** Documented: an element of is_ordinal other than 0 makes the variable ordinal.  With entries of both signs
    the test on their sum can miss it. *)
Theorem C132_ordinal_refuted : forall fmt R (semopy : string -> result R) A xr, 0 < xr ->
  evaluate_model_fit fmt semopy 2 2 A xr 2 true (Some [1%Qc; (qz (-1))]) = evaluate_model_fit fmt semopy 2 2 A xr 2 true None.
Proof.
  intros fmt R semopy A xr H. unfold evaluate_model_fit. cbn [Nat.eqb orb negb]. destruct (Nat.eqb_spec xr 0); [lia|]. cbn [orb List.length repeat Nat.eqb negb]. f_equal.
Qed.
Print Assumptions C132_ordinal_refuted.
Example C132_example : (* x1 = 1.5 x0, x1 and x2 with an unknown relation, x2 ordinal *)
  evaluate_model_fit (fun _ => "1.500000"%string) (fun s => Ok s) 3 3
    (fun i j => match i, j with 1, 0 => Some (qf 3 2) | 1, 2 | 2, 1 => None | _, _ => Some 0%Qc end) 5 3 true (Some [0%Qc; 0%Qc; 1%Qc])
  = Ok ("x1 ~ 1.500000 * x0 + eta_1_2" ++ newline ++ "x2 ~ eta_1_2" ++ newline ++ "DEFINE(latent) eta_1_2" ++ newline ++ "DEFINE(ordinal) x2" ++ newline)%string.
Proof. vm_compute. reflexivity. Qed.
