(** * Property theorems: the queries of MultiGroupRCD and the number of data sets. *)
From Coq Require Import List Arith Lia Bool ZArith QArith Qcanon.
From Verif Require Import Prelude Lib ModelDirect ProofDirect2 ModelRCD ModelQuery ModelMGRcdQuery.
Import ListNotations.
Open Scope nat_scope.

(** At least two data sets, all with [m] columns. *)
Definition fits_width (m : nat) (Xs : list dset) : Prop := 2 <= length Xs /\ forall X, In X Xs -> cols X = m.

Lemma check_ok m Xs : fits_width m Xs -> mgr_check Xs = Ok m.
Proof.
  intros [L W]. unfold mgr_check. rewrite (proj2 (Nat.ltb_ge _ _) L). destruct Xs as [|X0 Xs]; [cbn in L; lia|].
  rewrite (proj2 (forallb_forall _ _)); [f_equal; apply W; left; reflexivity|].
  intros X I. apply Nat.eqb_eq. rewrite (W X I), (W X0 (or_introl eq_refl)). reflexivity.
Qed.
Lemma check_inv Xs m : mgr_check Xs = Ok m -> fits_width m Xs.
Proof.
  unfold mgr_check. destruct (length Xs <? 2) eqn:L; [discriminate|]. apply Nat.ltb_ge in L. destruct Xs as [|X0 Xs]; [discriminate|].
  destruct (forallb _ _) eqn:F; [|discriminate]. intro H. injection H as <-. split; [exact L|]. intros X I.
  rewrite forallb_forall in F. apply Nat.eqb_eq, F, I.
Qed.
Lemma predictors_small n B from p : from < n -> In p (effect_predictors n B from) -> p < n.
Proof. intros H [<-|I]; [exact H|]. apply filter_In in I. destruct I as [I _]. apply in_seq in I. lia. Qed.
Lemma effects_ok ols n from to : from < n -> to < n -> forall Xs Bs,
  (forall X, In X Xs -> n <= cols X) -> (forall B, In B Bs -> row_has_nan n B from = false) ->
  mgr_effects ols n from to Xs Bs = Ok (map (fun p => ols (fst p) (effect_predictors n (snd p) from) to from) (combine Xs Bs)).
Proof.
  intros Hf Ht. induction Xs as [|X Xs IH]; intros Bs W NN; [destruct Bs; reflexivity|]. destruct Bs as [|B Bs]; [reflexivity|].
  cbn [mgr_effects combine map fst snd]. rewrite (NN B (or_introl eq_refl)). rewrite (proj2 (forallb_forall _ _)).
  - rewrite IH; [reflexivity| |]; intros Y I; [apply W|apply NN]; right; exact I.
  - specialize (W X (or_introl eq_refl)). intros p [<-|I]; apply Nat.ltb_lt; [lia|]. apply predictors_small in I; [lia|exact Hf].
Qed.
Lemma effects_short ols n from to : forall Xs Bs l, mgr_effects ols n from to Xs Bs = Ok l -> length l <= length Bs /\ length l <= length Xs.
Proof.
  induction Xs as [|X Xs IH]; intros Bs l H; [destruct Bs; injection H as <-; cbn; lia|]. destruct Bs as [|B Bs]; [injection H as <-; cbn; lia|].
  cbn [mgr_effects] in H. destruct (row_has_nan n B from); [injection H as <-; cbn; lia|]. destruct (forallb _ _); [|discriminate].
  destruct (mgr_effects ols n from to Xs Bs) as [r|] eqn:E; [|discriminate]. cbn [bind] in H. injection H as <-. specialize (IH _ _ E). cbn [length]. lia.
Qed.
Lemma p_loop_nil hsic n : forall Xs, mgr_p_loop hsic n Xs [] = Ok (map (fun _ => fun _ _ => Some 0%Qc) Xs).
Proof. induction Xs as [|X Xs IH]; [reflexivity|]. cbn [mgr_p_loop map]. rewrite IH. reflexivity. Qed.
Lemma p_loop_ok hsic n : forall Xs Bs, (forall X, In X Xs -> cols X = n) ->
  exists P, mgr_p_loop hsic n Xs Bs = Ok P /\ length P = length Xs /\
    (forall d X B, nth_error Xs d = Some X -> nth_error Bs d = Some B -> nth_error P d = Some (mgr_pvals hsic n X B)) /\
    (forall d p, length Bs <= d -> nth_error P d = Some p -> forall i j, p i j = Some 0%Qc).
Proof.
  induction Xs as [|X Xs IH]; intros Bs W.
  - exists []. split; [destruct Bs; reflexivity|]. split; [reflexivity|]. split; [intros [|d] X B H; discriminate H|intros [|d] p _ H; discriminate H].
  - destruct Bs as [|B Bs].
    + rewrite p_loop_nil. eexists. split; [reflexivity|]. split; [apply map_length|]. split; [intros [|d] Y B _ H; discriminate H|].
      intros d p _ H i j. rewrite nth_error_map in H. destruct (nth_error (X :: Xs) d); [|discriminate]. injection H as <-. reflexivity.
    + cbn [mgr_p_loop]. rewrite (proj2 (Nat.eqb_eq _ _) (W X (or_introl eq_refl))).
      destruct (IH Bs) as (P & E & L & A & Z); [intros Y I; apply W; right; exact I|]. rewrite E. cbn [bind].
      eexists. split; [reflexivity|]. split; [cbn [length]; rewrite L; reflexivity|]. split.
      * intros [|d] Y C H1 H2; cbn [nth_error] in *; [injection H1 as <-; injection H2 as <-; reflexivity|apply (A d Y C H1 H2)].
      * intros [|d] p Hd H i j; cbn [length] in Hd; [lia|]. apply (Z d p ltac:(lia) H).
Qed.

(** ** C236 *)
(** With as many data sets as at fit, each of the width of fit, every data set gets its total effect: the coefficient of the
    cause in the regression, on that data set, on the cause and its parents in the matrix of that data set. *)
Theorem C236_total_effects : forall ols f Xs from to, fits_width (nvar f) Xs -> length Xs = length (ams f) ->
  from < nvar f -> to < nvar f -> (forall B j, In B (ams f) -> j < nvar f -> B from j <> None) ->
  exists l, mgr_total_effect ols (Some f) Xs from to = Ok l /\ length l = length Xs /\
    forall d X B, nth_error Xs d = Some X -> nth_error (ams f) d = Some B ->
      exists ps, nth_error l d = Some (ols X (from :: ps) to from) /\
        forall p, In p ps <-> p < nvar f /\ B from p <> Some 0%Qc.
Proof.
  intros ols f Xs from to W L Hf Ht NN. unfold mgr_total_effect. rewrite (check_ok _ _ W), (proj2 (Nat.leb_gt _ _) Hf).
  rewrite effects_ok; [|exact Hf|exact Ht|intros X I; rewrite (proj2 W X I); lia|].
  2:{ intros B I. unfold row_has_nan. destruct (existsb _ _) eqn:E; [|reflexivity]. apply existsb_exists in E. destruct E as (j & Hj & E).
      apply in_seq in Hj. specialize (NN B j I ltac:(lia)). destruct (B from j); [discriminate|congruence]. }
  eexists. split; [reflexivity|]. split; [rewrite map_length, combine_length; lia|].
  intros d X B HX HB. exists (filter (fun j => match B from j with Some w => qltb 0 (qabs w) | None => false end) (seq 0 (nvar f))). split.
  - rewrite nth_error_map. assert (C : nth_error (combine Xs (ams f)) d = Some (X, B)).
    { clear - HX HB. revert d HX HB. generalize (ams f) as Bs. induction Xs as [|Y Xs IH]; intros Bs [|d] HX HB; try discriminate; (destruct Bs as [|C Bs]; [discriminate|]); cbn in *; [congruence|apply IH; assumption]. }
    rewrite C. reflexivity.
  - intro p. rewrite filter_In, in_seq. assert (Q : p < nvar f -> (match B from p with Some w => qltb 0 (qabs w) | None => false end = true <-> B from p <> Some 0%Qc)).
    { intro Hp. specialize (NN B p (nth_error_In _ _ HB) Hp). destruct (B from p) as [w|]; [|congruence]. rewrite qltb_lt.
      rewrite qabs_pos. split; congruence. }
    split; [intros [A C]; split; [lia|apply Q; [lia|exact C]]|intros [A C]; split; [lia|apply Q; assumption]].
Qed.
Print Assumptions C236_total_effects.

(** And its matrix of p-values: symmetric, zero on the diagonal, NaN for a variable with a NaN in its row or column, else the
    p-value of the residuals of that data set under its own matrix. *)
Theorem C236_p_values : forall hsic f Xs, fits_width (nvar f) Xs -> length Xs = length (ams f) ->
  exists P, mgr_p_values hsic (Some f) Xs = Ok P /\ length P = length Xs /\
    forall d X B, nth_error Xs d = Some X -> nth_error (ams f) d = Some B -> exists p, nth_error P d = Some p /\
      (forall i, i < nvar f -> p i i = Some 0%Qc) /\
      forall i j, i < j < nvar f -> p j i = p i j /\
        ((exists k, k < nvar f /\ (B i k = None \/ B k i = None \/ B j k = None \/ B k j = None)) -> p i j = None) /\
        ((forall k, k < nvar f -> B i k <> None /\ B k i <> None /\ B j k <> None /\ B k j <> None) ->
           p i j = hsic (rows X) (error_col (nvar f) B (col X) i) (error_col (nvar f) B (col X) j)).
Proof.
  intros hsic f Xs W L. unfold mgr_p_values. rewrite (check_ok _ _ W).
  destruct (p_loop_ok hsic (nvar f) Xs (ams f) (proj2 W)) as (P & E & LP & A & _). exists P. split; [exact E|]. split; [exact LP|].
  intros d X B HX HB. exists (mgr_pvals hsic (nvar f) X B). split; [apply A; assumption|]. unfold mgr_pvals. split.
  - intros i Hi. rewrite p_values_spec by lia. rewrite Nat.ltb_irrefl. reflexivity.
  - intros i j Hij. rewrite !p_values_spec by lia. rewrite (proj2 (Nat.ltb_lt i j)) by lia. rewrite (proj2 (Nat.ltb_ge j i)) by lia. split; [reflexivity|].
    assert (NV : forall v, nan_var (nvar f) B v = true <-> exists k, k < nvar f /\ (B v k = None \/ B k v = None)).
    { intro v. unfold nan_var. rewrite existsb_exists. split; intros (k & Hk & Q); exists k.
      - apply in_seq in Hk. split; [lia|]. destruct (B v k); [|left; reflexivity]. destruct (B k v); [discriminate|right; reflexivity].
      - split; [apply in_seq; lia|]. destruct (B v k); [|reflexivity]. destruct (B k v); [|reflexivity]. destruct Q as [Q|Q]; discriminate Q. }
    split.
    + intros (k & Hk & Q). destruct (nan_var (nvar f) B i || nan_var (nvar f) B j) eqn:K; [reflexivity|]. apply orb_false_iff in K. destruct K as [K1 K2]. exfalso.
      destruct Q as [Q|[Q|[Q|Q] ] ];
        [assert (T : nan_var (nvar f) B i = true)|assert (T : nan_var (nvar f) B i = true)|assert (T : nan_var (nvar f) B j = true)|assert (T : nan_var (nvar f) B j = true)];
        try (apply NV; exists k; auto); congruence.
    + intro Q. destruct (nan_var (nvar f) B i || nan_var (nvar f) B j) eqn:K; [|reflexivity]. exfalso. apply orb_true_iff in K.
      destruct K as [K|K]; apply NV in K; destruct K as (k & Hk & K); destruct (Q k Hk) as (Q1 & Q2 & Q3 & Q4); destruct K as [K|K]; contradiction.
Qed.
Print Assumptions C236_p_values.

(** With more data sets than at fit nothing is raised: the surplus data sets are not looked at.  Their p-values are all zero,
    which reads as "dependent errors", and the list of effects is shorter than the list given. *)
Theorem C236_surplus_data_sets_refuted : forall hsic ols f Xs from to, fits_width (nvar f) Xs -> length (ams f) < length Xs ->
  (exists P, mgr_p_values hsic (Some f) Xs = Ok P /\ length P = length Xs /\
     forall d p, length (ams f) <= d -> nth_error P d = Some p -> forall i j, p i j = Some 0%Qc) /\
  (from < nvar f -> to < nvar f -> (forall B j, In B (ams f) -> j < nvar f -> B from j <> None) ->
   exists l, mgr_total_effect ols (Some f) Xs from to = Ok l /\ length l = length (ams f) /\ length l < length Xs).
Proof.
  intros hsic ols f Xs from to W L. split.
  - unfold mgr_p_values. rewrite (check_ok _ _ W). destruct (p_loop_ok hsic (nvar f) Xs (ams f) (proj2 W)) as (P & E & LP & _ & Z).
    exists P. split; [exact E|]. split; [exact LP|exact Z].
  - intros Hf Ht NN. unfold mgr_total_effect. rewrite (check_ok _ _ W), (proj2 (Nat.leb_gt _ _) Hf).
    rewrite effects_ok; [|exact Hf|exact Ht|intros X I; rewrite (proj2 W X I); lia|].
    + eexists. split; [reflexivity|]. rewrite map_length, combine_length. lia.
    + intros B I. unfold row_has_nan. destruct (existsb _ _) eqn:E; [|reflexivity]. apply existsb_exists in E. destruct E as (j & Hj & E).
      apply in_seq in Hj. specialize (NN B j I ltac:(lia)). destruct (B from j); [discriminate|congruence].
Qed.
Print Assumptions C236_surplus_data_sets_refuted.

(** What is raised: lists of fewer than two data sets or of unequal widths, an object without fit, p-values for another width. *)
Theorem C236_errors : forall hsic ols o Xs from to,
  ((forall m, ~ fits_width m Xs) -> mgr_p_values hsic o Xs = Err ValueError /\ mgr_total_effect ols o Xs from to = Err ValueError) /\
  (forall m, fits_width m Xs -> mgr_p_values hsic None Xs = Err TypeError /\ mgr_total_effect ols None Xs from to = Err TypeError) /\
  (forall m f, fits_width m Xs -> m <> nvar f -> ams f <> [] -> mgr_p_values hsic (Some f) Xs = Err ValueError) /\
  (forall m f, fits_width m Xs -> nvar f <= from -> mgr_total_effect ols (Some f) Xs from to = Err IndexError) /\
  (forall m f B Bs, fits_width m Xs -> from < nvar f -> m <= to -> ams f = B :: Bs -> (forall j, j < nvar f -> B from j <> None) ->
     mgr_total_effect ols (Some f) Xs from to = Err IndexError).
Proof.
  intros hsic ols o Xs from to. repeat split.
  - unfold mgr_p_values. destruct (mgr_check Xs) as [m|e] eqn:E; [apply check_inv in E; destruct (H m E)|]. clear - E. unfold mgr_check in E.
    destruct (length Xs <? 2); [congruence|]. destruct Xs; [congruence|]. destruct (forallb _ _); [discriminate|congruence].
  - unfold mgr_total_effect. destruct (mgr_check Xs) as [m|e] eqn:E; [apply check_inv in E; destruct (H m E)|]. clear - E. unfold mgr_check in E.
    destruct (length Xs <? 2); [congruence|]. destruct Xs; [congruence|]. destruct (forallb _ _); [discriminate|congruence].
  - unfold mgr_p_values. rewrite (check_ok _ _ H). reflexivity.
  - unfold mgr_total_effect. rewrite (check_ok _ _ H). reflexivity.
  - intros m f W N NE. unfold mgr_p_values. rewrite (check_ok _ _ W). destruct W as [L W]. destruct Xs as [|X Xs]; [cbn in L; lia|].
    destruct (ams f) as [|B Bs]; [contradiction|]. cbn [mgr_p_loop]. rewrite (proj2 (Nat.eqb_neq (cols X) (nvar f))); [reflexivity|].
    rewrite (W X (or_introl eq_refl)). exact N.
  - intros m f W H. unfold mgr_total_effect. rewrite (check_ok _ _ W), (proj2 (Nat.leb_le _ _) H). reflexivity.
  - intros m f B Bs W H M E F. unfold mgr_total_effect. rewrite (check_ok _ _ W), (proj2 (Nat.leb_gt _ _) H). destruct W as [L W].
    destruct Xs as [|X Xs]; [cbn in L; lia|]. rewrite E. cbn [mgr_effects].
    replace (row_has_nan (nvar f) B from) with false.
    + cbn [forallb]. rewrite (W X (or_introl eq_refl)), (proj2 (Nat.ltb_ge _ _) M). reflexivity.
    + symmetry. unfold row_has_nan. apply not_true_iff_false. intro C. apply existsb_exists in C. destruct C as (j & Hj & C). apply in_seq in Hj.
      specialize (F j ltac:(lia)). destruct (B from j); [discriminate|congruence].
Qed.
Print Assumptions C236_errors.

(** Two data sets at fit, three given. *)
Definition ds (k : Z) : dset := {| rows := 4; cols := 2; col := fun i r => Q2Qc (inject_Z (k * Z.of_nat (i + r))) |}.
Definition fitted2 : mgrcd := {| nvar := 2; anc := fun i j => (i =? 1) && (j =? 0); ams := [fun i j => Some (if (i =? 1) && (j =? 0) then 1%Qc else 0%Qc); fun i j => Some (if (i =? 1) && (j =? 0) then Q2Qc 2 else 0%Qc)] |}.
Example C236_example : fits_width (nvar fitted2) [ds 1; ds 2; ds 3] /\ length (ams fitted2) < 3 /\
  (forall B j, In B (ams fitted2) -> j < nvar fitted2 -> B 0 j <> None) /\
  match mgr_p_values (fun _ _ _ => Some 1%Qc) (Some fitted2) [ds 1; ds 2; ds 3] with
  | Ok P => map (fun p => option_map this (p 0 1)) P | Err _ => [] end = [Some 1%Q; Some 1%Q; Some 0%Q].
Proof.
  split; [|split; [cbn; lia|split; [|vm_compute; reflexivity] ] ].
  - split; [cbn; lia|]. intros X [<-|[<-|[<-|[] ] ] ]; reflexivity.
  - intros B j [<-|[<-|[] ] ] _; discriminate.
Qed.
