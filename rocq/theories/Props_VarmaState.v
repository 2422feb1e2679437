(** * C232: what failed calls leave behind in a VARMALiNGAM object *)
From Coq Require Import List Arith Lia Bool ZArith QArith Qcanon.
From Verif Require Import Prelude Lib Spec ModelVAR ModelVarma ModelVarmaState SpecVarma ProofVarma Props_VarmaObj.
Import ListNotations.
Open Scope nat_scope.

Section Failed.
  Context (n : nat) (prune : bool) (varmax : nat -> series -> nat * nat -> list (mat Qc) * list (mat Qc) * series) (value : nat -> series -> nat * nat -> num)
    (lingam : nat -> series -> list nat * mat Qc) (lasso : nat -> (nat -> nat -> Qc) -> list nat -> nat -> nat -> Qc).
  Notation FIT := (fit_state n prune varmax value lingam lasso).
  Notation BOOT := (bootstrap_state n prune varmax value lingam lasso).
  Notation LOOP := (boot_loop_state n prune varmax value lingam lasso).

  (** A failed fit loses the results and keeps every setting. *)
  Theorem C232_failed_fit : forall noise s s' N X e, FIT noise s N X = (s', Err e) -> ws_obj s' = ws_obj s /\ ws_result s' = None.
  Proof. intros noise s s' N X e. unfold fit_state. destruct (varma_fit _ _ _ _ _ _ _ _ _ _) as [[w r]|x]; intro H; [discriminate|]. injection H as <- _. split; reflexivity. Qed.
  Lemma fit_criterion_kept : forall noise w N X w1 r, varma_fit n prune varmax value lingam lasso noise w N X = Ok (w1, r) -> wo_criterion w1 = wo_criterion w.
  Proof.
    intros noise w N X w1 r. unfold varma_fit. destruct (match wo_ar w, wo_ma w with Some A, Some M => _ | _, _ => _ end) as [[[[[ar ma] o] rows] R]|]; [|discriminate]. cbn [bind]. destruct (lingam rows R) as [order psi0].
    destruct (psi_omega _ _ _ _ _ _) as [po|]; [|discriminate]. cbn [bind]. destruct (if prune then _ else _) as [po'|]; [|discriminate]. cbn [bind]. intro H. injection H as <- _. reflexivity.
  Qed.
  Lemma state_criterion : forall noise s s' N X r, FIT noise s N X = (s', r) -> wo_criterion (ws_obj s') = wo_criterion (ws_obj s).
  Proof. intros noise s s' N X r. unfold fit_state. destruct (varma_fit _ _ _ _ _ _ _ _ _ _) as [[w x]|x] eqn:E; intro H; injection H as <- _; [exact (fit_criterion_kept _ _ _ _ _ _ E)|reflexivity]. Qed.
  Lemma loop_criterion : forall AR MA ar0 ma0 pq N draws s s' r, LOOP AR MA ar0 ma0 pq s N draws = (s', r) -> wo_criterion (ws_obj s') = wo_criterion (ws_obj s).
  Proof.
    intros AR MA ar0 ma0 pq N. induction draws as [|[d nz] ds IH]; intros s s' r H; cbn [boot_loop_state] in H; [injection H as <- _; reflexivity|].
    destruct (if N <=? _ then _ else _) as [Xs|x]; [|injection H as <- _; reflexivity]. destruct (FIT nz (with_obj (set_coefs ar0 ma0 (ws_obj s)) s) N Xs) as [s1 [[]|x]] eqn:E; apply state_criterion in E; cbn in E.
    - destruct (ws_result s1) as [[o po]|]; [|injection H as <- _; exact E]. destruct (LOOP AR MA ar0 ma0 pq s1 N ds) as [s2 [l|x]] eqn:E2; apply IH in E2; injection H as <- _; rewrite E2; exact E.
    - injection H as <- _. exact E.
  Qed.
  (** Rejected data change nothing; a successful bootstrap keeps the criterion. *)
  Theorem C232_rejected_bootstrap : forall noise s N X draws, BOOT noise s false N X draws = (s, Err ValueError).
  Proof. reflexivity. Qed.
  Theorem C232_successful_bootstrap : forall noise s s' N X draws l, BOOT noise s true N X draws = (s', Ok l) -> wo_criterion (ws_obj s') = wo_criterion (ws_obj s).
  Proof.
    intros noise s s' N X draws l. unfold bootstrap_state. cbn [negb]. destruct (FIT _ _ _ _) as [s1 [[]|x]]; [|discriminate]. destruct (LOOP _ _ _ _ _ _ _ _) as [s2 [l2|x]]; [|discriminate]. intro H. injection H as <- _. reflexivity.
  Qed.
  (** A bootstrap that fails, wherever it fails, switches the search for the order off for good. *)
  Theorem C232_failed_bootstrap_refuted : forall noise s s' N X draws e, BOOT noise s true N X draws = (s', Err e) -> wo_criterion (ws_obj s') = false.
  Proof.
    intros noise s s' N X draws e. unfold bootstrap_state. cbn [negb]. destruct (FIT _ _ _ _) as [s1 [[]|x]] eqn:E1; apply state_criterion in E1; cbn in E1.
    - destruct (LOOP _ _ _ _ _ _ _ _) as [s2 [l2|x]] eqn:E2; [discriminate|]. apply loop_criterion in E2. intro H. injection H as <- _. rewrite E2. exact E1.
    - intro H. injection H as <- _. exact E1.
  Qed.
  (** The outcome is the one of ModelVarma.v. *)
  Lemma loop_agrees : forall AR MA ar0 ma0 pq N draws s,
    match LOOP AR MA ar0 ma0 pq s N draws, varma_boot_loop n prune varmax value lingam lasso AR MA ar0 ma0 pq (ws_obj s) N draws with
    | (s', Ok l), Ok (w, l') => ws_obj s' = w /\ l = l' | (_, Err e), Err e' => e = e' | _, _ => False end.
  Proof.
    intros AR MA ar0 ma0 pq N. induction draws as [|[d nz] ds IH]; intro s; cbn [boot_loop_state varma_boot_loop]; [split; reflexivity|].
    destruct (if N <=? _ then _ else _) as [Xs|x]; cbn [bind]; [|reflexivity]. unfold fit_state. cbn [with_obj ws_obj]. unfold set_coefs.
    destruct (varma_fit _ _ _ _ _ _ _ _ _ _) as [[w [o po]]|x]; cbn [bind]; [|reflexivity]. cbn [ws_result]. specialize (IH {| ws_obj := w; ws_result := Some (o, po) |}). cbn [ws_obj] in IH.
    destruct (LOOP AR MA ar0 ma0 pq _ N ds) as [s2 [l|x]]; destruct (varma_boot_loop _ _ _ _ _ _ _ _ _ _ _ _ _ ds) as [[w2 l']|x']; cbn [bind]; try exact IH. destruct IH as [I1 I2]. split; [exact I1|rewrite I2; reflexivity].
  Qed.
  Theorem C232_same_outcome : forall noise s N X draws,
    match BOOT noise s true N X draws, varma_bootstrap n prune varmax value lingam lasso noise (ws_obj s) N X draws with
    | (s', Ok l), Ok (w, l') => ws_obj s' = w /\ l = l' | (_, Err e), Err e' => e = e' | _, _ => False end.
  Proof.
    intros noise s N X draws. unfold bootstrap_state, varma_bootstrap, fit_state. cbn [negb with_obj ws_obj]. unfold set_criterion at 1.
    destruct (varma_fit _ _ _ _ _ _ _ _ _ _) as [[w1 r]|x]; cbn [bind]; [|reflexivity]. cbn [ws_obj].
    pose proof (loop_agrees (wo_ar w1) (wo_ma w1) (wo_ar (ws_obj s)) (wo_ma (ws_obj s)) (wo_order (ws_obj s)) N draws {| ws_obj := w1; ws_result := Some r |}) as H. cbn [ws_obj] in H.
    destruct (LOOP _ _ _ _ _ _ _ _) as [s2 [l|x]]; destruct (varma_boot_loop _ _ _ _ _ _ _ _ _ _ _ _ _ _) as [[w2 l']|x']; cbn [bind]; try exact H. destruct H as [H1 H2]. split; [cbn; rewrite H1; reflexivity|exact H2].
  Qed.
  Hypothesis SH : varmax_shapes varmax.
  (** A pure AR or MA order: bootstrap raises TypeError, and afterwards every fit uses the order given instead of searching one. *)
  Theorem C232_later_fit_refuted : forall noise s N X draws p q, fresh (ws_obj s) -> wo_order (ws_obj s) = (p, q) -> p = 0 \/ q = 0 -> Nat.max p q < N -> draws <> [] ->
    exists s', BOOT noise s true N X draws = (s', Err TypeError) /\
      forall noise' N' X', exists s'' r, FIT noise' s' N' X' = (s'', Ok tt) /\ ws_result s'' = Some r /\ wo_order (ws_obj s'') = (p, q) /\ wo_resid (ws_obj s'') = snd (varmax N' X' (p, q)).
  Proof.
    intros noise s N X draws p q FR HO Z HN ND. unfold bootstrap_state. cbn [negb]. unfold fit_state at 1. cbn [with_obj ws_obj].
    destruct (fit_estimates n prune varmax value lingam lasso SH noise (set_criterion false (ws_obj s)) N X (p, q)) as (order & po & EF & _); [exact FR|cbn; symmetry; exact HO|]. rewrite EF. cbn [ws_obj].
    destruct (SH N X p q) as [L1 L2]. destruct draws as [|[d nz] draws]; [congruence|]. rewrite HO. cbn [boot_loop_state fst snd]. destruct (Nat.leb_spec N (Nat.max p q)); [lia|].
    set (w1 := after_fit varmax (set_criterion false (ws_obj s)) (p, q) N X).
    assert (NN : fresh w1). { unfold fresh, w1. cbn [after_fit wo_ar wo_ma]. destruct Z as [-> | ->]; [left; destruct (fst (fst (varmax N X (0, q)))); [reflexivity|discriminate]|right; destruct (snd (fst (varmax N X (p, 0)))); [reflexivity|discriminate]]. }
    exists {| ws_obj := w1; ws_result := Some (order, po) |}. split.
    - destruct NN as [E|E]; rewrite E; [reflexivity|]. destruct (wo_ar w1); reflexivity.
    - intros noise' N' X'. destruct (C197_fixed_order n prune varmax value lingam lasso SH noise' w1 N' X' NN eq_refl) as (w2 & r & E & O & R). exists {| ws_obj := w2; ws_result := Some r |}, r.
      unfold fit_state. cbn [ws_obj]. rewrite E. split; [reflexivity|]. split; [reflexivity|]. split; [exact O|exact R].
  Qed.
End Failed.
(** With pruning, bootstrap after fit fails whenever the fitted order has p, q >= 1, and then both the results of the fit and the criterion are gone. *)
Theorem C232_bootstrap_after_fit_refuted : forall n varmax value lingam lasso, varmax_shapes varmax -> forall noise s N X s1, fresh (ws_obj s) ->
  fit_state n true varmax value lingam lasso noise s N X = (s1, Ok tt) -> 1 <= fst (wo_order (ws_obj s1)) -> 1 <= snd (wo_order (ws_obj s1)) -> Nat.max (fst (wo_order (ws_obj s1))) (snd (wo_order (ws_obj s1))) + 2 <= N ->
  forall noise' X' draws, exists s2, bootstrap_state n true varmax value lingam lasso noise' s1 true N X' draws = (s2, Err ValueError) /\ wo_criterion (ws_obj s2) = false /\ ws_result s2 = None /\ ws_result s1 <> None.
Proof.
  intros n varmax value lingam lasso SH noise s N X s1 FR E P Q HN noise' X' draws. unfold fit_state in E. destruct (varma_fit _ _ _ _ _ _ _ _ _ _) as [[w1 r]|x] eqn:EF; [|discriminate]. injection E as <-. cbn [ws_obj ws_result] in *.
  pose proof (C198_after_fit_refuted n varmax value lingam lasso SH noise (ws_obj s) N X w1 r FR EF P Q HN noise' X' []) as B0.
  unfold varma_bootstrap in B0. cbn [varma_boot_loop] in B0. unfold bootstrap_state. cbn [negb]. unfold fit_state. cbn [with_obj ws_obj]. unfold set_criterion.
  destruct (varma_fit _ _ _ _ _ _ noise' _ _ _) as [[w2 r2]|x]; [discriminate|]. injection B0 as ->.
  eexists. split; [reflexivity|]. split; [reflexivity|]. split; [reflexivity|discriminate].
Qed.
Print Assumptions C232_failed_fit.
Print Assumptions C232_rejected_bootstrap.
Print Assumptions C232_successful_bootstrap.
Print Assumptions C232_failed_bootstrap_refuted.
Print Assumptions C232_same_outcome.
Print Assumptions C232_later_fit_refuted.
Print Assumptions C232_bootstrap_after_fit_refuted.
(** The one-variable process of Props_VarmaObj.v: bootstrap fails with order (1, 0), and a fit before it searches the order while a fit after it does not. *)
Example C232_example : fresh (ex_new (1, 0) true) /\ Nat.max 1 0 < 2 /\
  (match bootstrap_state 1 true ex_varmax ex_value ex_lingam ex_lasso ex_four {| ws_obj := ex_new (1, 0) true; ws_result := None |} true 2 ex_four [(fun _ => 0, ex_four)] with
   | (s', Err TypeError) => wo_criterion (ws_obj s') = false | _ => False end).
Proof. split; [left; reflexivity|]. split; [cbn; lia|]. reflexivity. Qed.
