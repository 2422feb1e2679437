(** * C219, C220: objects after calls that fail; multi-group queries *)
From Coq Require Import List Arith Lia Bool ZArith QArith Qcanon.
From Verif Require Import Prelude Spec Lib ModelDirect ModelBaseState.
Import ListNotations.
Open Scope nat_scope.

(** Every entry of the matrix that is not zero goes from an earlier to a later variable of the order. *)
Definition fits_order (K : list nat) (B : mat num) : Prop := forall i j, B i j <> Some 0%Qc -> precedes K j i.
(** The last of a list of answers that is there. *)
Fixpoint latest {A} (l : list (option A)) (d : option A) : option A := match l with [] => d | x :: l' => latest l' (match x with Some a => Some a | None => d end) end.
Definition ok_of {A} (r : result A) : option A := match r with Ok a => Some a | Err _ => None end.

Section Base.
  Variables (D : Type) (search : D -> result (list nat)) (lasso : D -> list nat -> nat -> result (nat -> num)) (pk : option (mat num)).
  Notation FIT := (base_fit D search lasso pk). Notation EST := (est D lasso pk). Notation LOOP := (est_loop D lasso pk). Notation CALLS := (base_calls D search lasso pk).

  Lemma predictors_in : forall target before p, In p (predictors_of pk target before) -> In p before.
  Proof. intros target before p H. unfold predictors_of in H. destruct pk; [apply filter_In in H; tauto|exact H]. Qed.
  Lemma loop_fits : forall d rest before B B', fits_order (before ++ rest) B -> LOOP d before rest B = Ok B' -> fits_order (before ++ rest) B'.
  Proof.
    intros d rest. induction rest as [|t rest IH]; intros before B B' HB E; cbn [est_loop] in E; [injection E as <-; exact HB|].
    replace (before ++ t :: rest) with ((before ++ [t]) ++ rest) in * by (rewrite <- app_assoc; reflexivity).
    assert (ST : forall B1, (match before with [] => Ok B | _ :: _ => match predictors_of pk t before with [] => Ok B | _ :: _ => let* c := lasso d (predictors_of pk t before) t in Ok (fun i j => if (i =? t) && memb j (predictors_of pk t before) then c j else B i j) end end) = Ok B1 -> fits_order ((before ++ [t]) ++ rest) B1).
    { intros B1 E1. destruct before as [|b0 bs] eqn:Eb; [injection E1 as <-; exact HB|]. rewrite <- Eb in *. clear Eb. destruct (predictors_of pk t before) as [|q qs] eqn:Ep; [injection E1 as <-; exact HB|]. rewrite <- Ep in *.
      destruct (lasso d (predictors_of pk t before) t) as [c|e]; [|discriminate]. cbn [bind] in E1. injection E1 as <-. intros i j H. destruct ((i =? t) && memb j (predictors_of pk t before)) eqn:T; [|apply HB; exact H].
      apply andb_true_iff in T. destruct T as [T1 T2]. apply Nat.eqb_eq in T1. subst i. apply memb_In in T2. apply predictors_in in T2. apply precedes_app_l. apply precedes_app_cross; [exact T2|left; reflexivity]. }
    destruct before as [|b0 bs] eqn:Eb.
    - cbn [bind] in E. apply (IH _ _ _ (ST B eq_refl) E).
    - rewrite <- Eb in *. destruct (predictors_of pk t before) as [|q qs] eqn:Ep; [cbn [bind] in E; subst before; apply (IH _ _ _ (ST B eq_refl) E)|]. rewrite <- Ep in *.
      destruct (lasso d (predictors_of pk t before) t) as [c|e] eqn:El; [|discriminate]. cbn [bind] in E. eapply IH; [|exact E]. apply ST. subst before. rewrite Ep. reflexivity.
  Qed.
  Lemma est_fits : forall d K B, EST d K = Ok B -> fits_order K B.
  Proof. intros d K B E. apply (loop_fits d K [] (fun _ _ => Some 0%Qc) B); [|exact E]. intros i j H. contradiction H. reflexivity. Qed.

  (** A call that returns leaves an order and a matrix that fit together and do not depend on earlier calls. *)
  Theorem C219_returned : forall o o' d, FIT o d = (o', Ok tt) ->
    (exists K B, bo_order o' = Some K /\ bo_adj o' = Some B /\ search d = Ok K /\ fits_order K B) /\ forall o2, FIT o2 d = (o', Ok tt).
  Proof.
    intros o o' d E. unfold base_fit in E |- *. destruct (search d) as [K|e]; [|discriminate]. destruct (EST d K) as [B|e] eqn:EE; [|discriminate]. injection E as <-. split; [|reflexivity].
    exists K, B. repeat split. apply (est_fits d K B EE).
  Qed.
  (** A call that fails before the order is known changes nothing. *)
  Theorem C219_failed_search : forall o d e, search d = Err e -> FIT o d = (o, Err e).
  Proof. intros o d e E. unfold base_fit. rewrite E. reflexivity. Qed.
  (** After any calls: the order of the last call that found one, the matrix of the last call that returned. *)
  Theorem C219_history : forall ds o, bo_order (CALLS o ds) = latest (map (fun d => ok_of (search d)) ds) (bo_order o) /\
    bo_adj (CALLS o ds) = latest (map (fun d => ok_of (let* K := search d in EST d K)) ds) (bo_adj o).
  Proof.
    induction ds as [|d ds IH]; intro o; [split; reflexivity|]. cbn [base_calls map latest]. destruct (IH (fst (FIT o d))) as [-> ->]. unfold base_fit.
    destruct (search d) as [K|e]; cbn [bind fst ok_of]; [|split; reflexivity]. destruct (EST d K) as [B|e]; split; reflexivity.
  Qed.
  (** If the lasso never raises, order and matrix fit together after any calls of a new object. *)
  Theorem C219_history_partial : (forall d ps t, exists c, lasso d ps t = Ok c) -> forall ds K B, bo_order (CALLS base_new ds) = Some K -> bo_adj (CALLS base_new ds) = Some B -> fits_order K B.
  Proof.
    intros HL. assert (T : forall d rest before B, exists B', LOOP d before rest B = Ok B').
    { intros d rest. induction rest as [|t rest IH]; intros before B; cbn [est_loop]; [eexists; reflexivity|]. destruct before as [|b0 bs]; [apply IH|].
      destruct (predictors_of pk t (b0 :: bs)) as [|q qs]; [apply IH|]. destruct (HL d (q :: qs) t) as [c ->]. apply IH. }
    assert (H : forall ds o, (forall K B, bo_order o = Some K -> bo_adj o = Some B -> fits_order K B) -> forall K B, bo_order (CALLS o ds) = Some K -> bo_adj (CALLS o ds) = Some B -> fits_order K B).
    { induction ds as [|d ds IH]; intros o HO; [exact HO|]. cbn [base_calls]. apply IH. unfold base_fit. destruct (search d) as [K|e]; [|exact HO]. destruct (T d K [] (fun _ _ => Some 0%Qc)) as [B E]. unfold est. rewrite E.
      cbn. intros K' B' E1 E2. injection E1 as <-. injection E2 as <-. apply (est_fits d K B). exact E. }
    intros ds. apply H. intros K B E. discriminate.
  Qed.
End Base.
Print Assumptions C219_returned.
Print Assumptions C219_failed_search.
Print Assumptions C219_history.
Print Assumptions C219_history_partial.

(** Without prior knowledge: a lasso that cannot be computed with as few rows as predictors plus one (scikit-learn's LassoLarsIC) makes
    fit fail for every data set with at most as many rows as variables, after the order has been replaced. *)
Section Short.
  Variables (D : Type) (rows : D -> nat) (search : D -> result (list nat)) (lasso : D -> list nat -> nat -> result (nat -> num)).
  Hypothesis short : forall d ps t, rows d <= S (length ps) -> exists e, lasso d ps t = Err e.
  Lemma short_loop : forall d rest before B, rest <> [] -> before ++ rest <> [hd 0 (before ++ rest)] -> rows d <= length before + length rest -> exists e, est_loop D lasso None d before rest B = Err e.
  Proof.
    intros d rest. induction rest as [|t rest IH]; intros before B HR H1 HL; [congruence|]. cbn [est_loop].
    assert (L1 : rest <> [] -> forall B', exists e, est_loop D lasso None d (before ++ [t]) rest B' = Err e).
    { intros HR' B'. apply IH; [exact HR'| |rewrite app_length; cbn [length] in *; lia]. rewrite <- app_assoc. exact H1. }
    destruct before as [|b0 bs].
    - cbn [bind]. destruct rest as [|t' rest']; [cbn in H1; congruence|]. apply L1. discriminate.
    - cbn [predictors_of]. destruct (lasso d (b0 :: bs) t) as [c|e] eqn:El; cbn [bind]; [|exists e; reflexivity].
      destruct rest as [|t' rest']; [|apply L1; discriminate]. destruct (short d (b0 :: bs) t) as [e Ee]; [cbn [length] in HL |- *; lia|congruence].
  Qed.
  Theorem C219_short_data_refuted : forall d K o, search d = Ok K -> 2 <= length K -> rows d <= length K ->
    exists e, base_fit D search lasso None o d = ({| bo_order := Some K; bo_adj := bo_adj o |}, Err e).
  Proof.
    intros d K o HS H2 HR. destruct (short_loop d K [] (fun _ _ => Some 0%Qc)) as [e E]; [destruct K; [cbn in H2; lia|discriminate]| |cbn; lia|].
    - destruct K as [|a [|b K]]; cbn in H2 |- *; [lia|lia|discriminate].
    - exists e. unfold base_fit, est. rewrite HS, E. reflexivity.
  Qed.
End Short.
Print Assumptions C219_short_data_refuted.

(** Data sets for the examples: rows, an order to be found, and the common value of all coefficients. *)
Definition ex_search (d : nat * list nat) : result (list nat) := match snd d with [] => Err ValueError | K => Ok K end.
Definition ex_lasso (d : nat * list nat) (ps : list nat) (t : nat) : result (nat -> num) := if fst d <=? S (length ps) then Err ValueError else Ok (fun _ => Some 1%Qc).
(** A second fit with two rows: the order 1, 0 is reported with the edge 0 -> 1 of the first data set. *)
Theorem C219_contradiction_refuted : exists o o' K B, base_fit _ ex_search ex_lasso None base_new (10, [0; 1]) = (o, Ok tt) /\ base_fit _ ex_search ex_lasso None o (2, [1; 0]) = (o', Err ValueError) /\
  bo_order o' = Some K /\ bo_adj o' = Some B /\ ~ fits_order K B.
Proof.
  do 4 eexists. split; [reflexivity|]. split; [reflexivity|]. split; [reflexivity|]. split; [reflexivity|]. intro H. specialize (H 1 0 ltac:(discriminate)).
  apply (precedes_asym [1; 0] 0 1); [repeat constructor; cbn; intuition lia|exact H|]. exists [], [], []. reflexivity.
Qed.
Print Assumptions C219_contradiction_refuted.
Example C219_example : (forall d ps t, fst d <= S (length ps) -> exists e, ex_lasso d ps t = Err e) /\ ex_search (2, [1; 0]) = Ok [1; 0] /\ ex_search (5, []) = Err ValueError /\
  bo_order (base_calls _ ex_search ex_lasso None base_new [(10, [0; 1; 2]); (9, []); (3, [2; 1; 0])]) = Some [2; 1; 0].
Proof. split; [intros d ps t H; unfold ex_lasso; apply Nat.leb_le in H; rewrite H; eexists; reflexivity|]. repeat split. Qed.
Example C219_example_no_raise : forall d ps t, exists c, (fun (_ : nat * list nat) (_ : list nat) (_ : nat) => Ok (fun _ => Some 1%Qc) : result (nat -> num)) d ps t = Ok c.
Proof. intros. eexists. reflexivity. Qed.

(** ** C220: several data sets *)
Section Multi.
  Variables (D : Type) (lasso : D -> list nat -> nat -> result (nat -> num)) (pk : option (mat num)) (mg_search : list D -> result (list nat)).
  Notation FIT := (mg_fit_calls D lasso pk mg_search). Notation EST := (est D lasso pk).
  Lemma matrices_ok : forall K ds l, mg_matrices D lasso pk K ds = (l, Ok tt) -> length l = length ds /\ forall k d, nth_error ds k = Some d -> exists B, nth_error l k = Some B /\ EST d K = Ok B.
  Proof.
    intros K ds. induction ds as [|d ds IH]; intros l E; cbn [mg_matrices] in E; [injection E as <-; split; [reflexivity|intros [|k] d H; discriminate]|].
    destruct (EST d K) as [B|e] eqn:EE; [|discriminate]. destruct (mg_matrices D lasso pk K ds) as [l' r] eqn:EM. injection E as <- ->. destruct (IH l' eq_refl) as [L N]. split; [cbn; lia|].
    intros [|k] d' H; cbn in H; [injection H as <-; exists B; split; [reflexivity|exact EE]|apply N; exact H].
  Qed.
  Lemma matrices_err : forall K ds l e, mg_matrices D lasso pk K ds = (l, Err e) -> length l < length ds /\ (exists d, nth_error ds (length l) = Some d /\ EST d K = Err e) /\
    forall k d, k < length l -> nth_error ds k = Some d -> exists B, nth_error l k = Some B /\ EST d K = Ok B.
  Proof.
    intros K ds. induction ds as [|d ds IH]; intros l e E; cbn [mg_matrices] in E; [discriminate|].
    destruct (EST d K) as [B|e'] eqn:EE.
    - destruct (mg_matrices D lasso pk K ds) as [l' r] eqn:EM. injection E as <- ->. destruct (IH l' e eq_refl) as (L & X & N). split; [cbn; lia|]. split; [exact X|].
      intros [|k] d' Hk H; cbn in H; [injection H as <-; exists B; split; [reflexivity|exact EE]|apply N; [cbn in Hk; lia|exact H]].
    - injection E as <- <-. split; [cbn; lia|]. split; [exists d; split; [reflexivity|exact EE]|]. intros k d' Hk. cbn in Hk. lia.
  Qed.
  (** A fit that returns stores one matrix per data set, in their order, all in agreement with the common order; one effect per data set is reported. *)
  Theorem C220_returned : forall o o' ds, FIT o ds = (o', Ok tt) -> exists K, mo_order o' = Some K /\ mg_search ds = Ok K /\ length (mo_adjs o') = length ds /\
    (forall k d, nth_error ds k = Some d -> exists B, nth_error (mo_adjs o') k = Some B /\ EST d K = Ok B /\ fits_order K B) /\
    (forall effect, length (mg_effects effect o') = length ds) /\ forall reg, length (mg_regressions D reg ds o') = length ds.
  Proof.
    intros o o' ds E. unfold mg_fit_calls in E. destruct (mg_search ds) as [K|e]; [|discriminate]. destruct (mg_matrices D lasso pk K ds) as [l r] eqn:EM. injection E as <- ->. destruct (matrices_ok K ds l EM) as [L N].
    exists K. cbn [mo_order mo_adjs]. split; [reflexivity|]. split; [reflexivity|]. split; [exact L|]. split; [|split].
    - intros k d H. destruct (N k d H) as (B & HB & EB). exists B. split; [exact HB|]. split; [exact EB|]. apply (est_fits D lasso pk d K B EB).
    - intro effect. unfold mg_effects. rewrite map_length. exact L.
    - intro reg. unfold mg_regressions. rewrite map_length, combine_length. cbn [mo_adjs]. lia.
  Qed.
  (** A fit that fails after the order is found leaves the new order with the matrices of the data sets before the one that failed: the
      effects are then reported for fewer data sets, without any error. *)
  Theorem C220_failed_refuted : forall o o' ds K e, mg_search ds = Ok K -> FIT o ds = (o', Err e) -> mo_order o' = Some K /\ length (mo_adjs o') < length ds /\
    (exists d, nth_error ds (length (mo_adjs o')) = Some d /\ EST d K = Err e) /\
    (forall effect, length (mg_effects effect o') < length ds) /\ forall reg, length (mg_regressions D reg ds o') < length ds.
  Proof.
    intros o o' ds K e HS E. unfold mg_fit_calls in E. rewrite HS in E. destruct (mg_matrices D lasso pk K ds) as [l r] eqn:EM. injection E as <- ->. destruct (matrices_err K ds l e EM) as (L & X & N). cbn [mo_order mo_adjs].
    split; [reflexivity|]. split; [exact L|]. split; [exact X|]. split; [intro effect; unfold mg_effects; rewrite map_length; exact L|]. intro reg. unfold mg_regressions. rewrite map_length, combine_length. cbn [mo_adjs]. lia.
  Qed.
  Theorem C220_failed_search : forall o ds e, mg_search ds = Err e -> FIT o ds = (o, Err e).
  Proof. intros o ds e E. unfold mg_fit_calls. rewrite E. reflexivity. Qed.
  (** The p-values: one matrix per data set given; that of the data set and its matrix as far as there are matrices; zeros after that. *)
  Theorem C220_p_values_partial : forall pvals ds adjs, length (mg_p_values D pvals ds adjs) = length ds /\
    forall k d B, nth_error ds k = Some d -> nth_error adjs k = Some B -> nth_error (mg_p_values D pvals ds adjs) k = Some (pvals d B).
  Proof.
    intros pvals ds. induction ds as [|d ds IH]; intro adjs; [split; [reflexivity|intros [|k] d B H; discriminate]|]. destruct adjs as [|B adjs]; cbn [mg_p_values length].
    - split; [rewrite (proj1 (IH [])); reflexivity|intros [|k] d' B' _ H; discriminate].
    - split; [rewrite (proj1 (IH adjs)); reflexivity|]. intros [|k] d' B' H1 H2; cbn in H1, H2 |- *; [injection H1 as <-; injection H2 as <-; reflexivity|apply (proj2 (IH adjs)); assumption].
  Qed.
  Theorem C220_more_data_sets_refuted : forall pvals ds adjs k, length adjs <= k < length ds -> exists P, nth_error (mg_p_values D pvals ds adjs) k = Some P /\ forall i j, P i j = Some 0%Qc.
  Proof.
    intros pvals ds. induction ds as [|d ds IH]; intros adjs k H; [cbn in H; lia|]. destruct adjs as [|B adjs]; cbn [mg_p_values]; destruct k as [|k]; cbn [length] in H; [eexists; split; [reflexivity|reflexivity]| |lia|]; cbn [nth_error]; apply IH; cbn [length] in *; lia.
  Qed.
End Multi.
Print Assumptions C220_returned.
Print Assumptions C220_failed_refuted.
Print Assumptions C220_failed_search.
Print Assumptions C220_p_values_partial.
Print Assumptions C220_more_data_sets_refuted.
Definition ex_joint (ds : list (nat * list nat)) : result (list nat) := match ds with d :: _ :: _ => ex_search d | _ => Err ValueError end.
Example C220_example : exists o o' o'', mg_fit_calls _ ex_lasso None ex_joint {| mo_order := None; mo_adjs := [] |} [(10, [0; 1]); (5, [0; 1]); (7, [])] = (o, Ok tt) /\
  length (mo_adjs o) = 3 /\ mg_fit_calls _ ex_lasso None ex_joint o [(10, [1; 0]); (2, [0; 1]); (7, [])] = (o', Err ValueError) /\ mo_order o' = Some [1; 0] /\ length (mo_adjs o') = 1 /\
  mg_fit_calls _ ex_lasso None ex_joint o [(10, [1; 0])] = (o'', Err ValueError) /\ o'' = o.
Proof. do 3 eexists. repeat (split; [reflexivity|]). reflexivity. Qed.
Example C220_example_p : map (fun P => P 0 1) (mg_p_values nat (fun d _ _ _ => Some (qn d)) [3; 4] [fun _ _ => Some 0%Qc]) = [Some (qn 3); Some 0%Qc].
Proof. reflexivity. Qed.
