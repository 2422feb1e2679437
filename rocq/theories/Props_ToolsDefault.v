(** * bootstrap_with_imputation with its default imputer and discovery model: C238 *)
From Coq Require Import List Arith Bool ZArith QArith Qcanon Lia Permutation.
From Verif Require Import Prelude Spec Lib SpecDirect ModelBootstrap ModelDirect ProofDirect ProofDirect2 ProofDirectFindings ModelTools ProofTools Props_Tools ModelToolsDefault.
Import ListNotations.
Open Scope nat_scope.

Section P.
  Context {Col : Type}.
  Variable residual : Col -> Col -> Col.
  Variable gM : (nat -> Col) -> list nat -> list nat -> list nat -> nat -> num.
  Variable lasso : (nat -> nat -> nat -> Qc) -> nat -> list nat -> nat -> nat -> num.
  Variable to_cols : (nat -> nat -> Qc) -> nat -> Col.
  Variable fill : nat -> nat -> mat num -> nat -> nat -> Qc.
  Variable draw : nat -> nat -> nat.
  Notation boot := (boot_default residual gM lasso to_cols fill draw).

  (** What one entry of the result says: an order of all variables, one matrix per imputed data set,
      observed values kept, imputed values exactly where the resampled value is missing. *)
  Definition entry_ok (mode : pk_mode) (n p reps : nat) (X : mat num) (s : nat) (it : iteration) : Prop :=
    it_index it = draw s /\ it_reps it = reps /\ ao_pre (it_adj it) = [reps] /\ ao_rows (it_adj it) = p /\ ao_cols (it_adj it) = p /\
    (forall k r c, k < reps -> r < n -> c < p ->
       match X (draw s r) c with
       | Some q => it_data it k r c = q /\ it_imp it k r c = None
       | None => it_data it k r c = fill s k (fun r c => X (draw s r) c) r c /\ it_imp it k r c = Some (it_data it k r c)
       end) /\
    exists K, it_order it = O1 (map (fun v => Some (qn v)) K) /\ is_order p K /\
      (forall g i j, ao_val (it_adj it) [g] i j <> Some 0%Qc -> precedes K j i) /\
      (forall g i j, g < reps -> i < p -> j < p -> ao_val (it_adj it) [g] i j <> None) /\
      (forall g pk i j, pk_of_mode mode = Some pk -> pk i j = Some 0%Qc -> ao_val (it_adj it) [g] i j = Some 0%Qc) /\
      (forall pk, mode = Strong pk -> respects p pk K).

  Lemma default_imp_full : forall n p reps s S k d, check_imputer (default_imp fill n p reps s S) n p = Ok (k, d) ->
    k = reps /\ 1 <= reps /\ forall a r c, a < k -> r < n -> c < p -> d a r c = match S r c with Some q => q | None => fill s a S r c end.
  Proof.
    intros n p reps s S k d H. unfold default_imp, check_imputer in H.
    match type of H with context [all3 ?a ?b ?c ?P] => destruct (all3 a b c P) end; cbn [negb] in H; [|discriminate].
    destruct (Nat.eqb_spec reps 0) as [->|R]; [discriminate|].
    rewrite Nat.eqb_refl in H. cbn [andb] in H. destruct (Nat.eqb_spec (length (kept n p S)) p) as [L|L]; cbn [negb] in H; [|discriminate].
    injection H as <- <-. split; [reflexivity|]. split; [lia|]. intros a r c Ha Hr Hc. cbn [nan_to_num].
    replace (nth c (kept n p S) 0) with c; [reflexivity|].
    assert (E : kept n p S = seq 0 p).
    { unfold kept in *. set (f := fun c => existsb (fun r => is_num (S r c)) (seq 0 n)) in *.
      assert (G : forall l, length (filter f l) = length l -> filter f l = l).
      { induction l as [|x l IH]; intro Q; [reflexivity|]. cbn [filter] in *. destruct (f x).
        - cbn [length] in Q. f_equal. apply IH. lia.
        - assert (Z : length (filter f l) <= length l) by (clear; induction l as [|y l IH]; cbn [filter length]; [lia|destruct (f y); cbn [length]; lia]). cbn [length] in Q. lia. }
      apply G. rewrite L, seq_length. reflexivity. }
    rewrite E, seq_nth by exact Hc. reflexivity.
  Qed.

  Lemma order_accepted : forall p K a k, 1 <= p -> is_order p K -> adj_finite a = true -> 1 <= first_dim a -> ao_rows a = p -> ao_cols a = p ->
    check_cd (Pair (O1 (map (fun v => Some (qn v)) K)) a) k p = Ok (O1 (map (fun v => Some (qn v)) K), a).
  Proof.
    intros p K a k Hp HK HF H1 HR HC.
    assert (E : map (fun v => Some (qn v)) K = map Some (map qn K)) by (rewrite map_map; reflexivity).
    assert (Q : is_ok (check_cd (Pair (O1 (map (fun v => Some (qn v)) K)) a) k p)).
    { rewrite E. apply C59_order_accepted_iff_permutation_partial; try assumption. apply Permutation_map. exact HK. }
    destruct Q as [[o a'] Q]. rewrite Q. unfold check_cd in Q. destruct (order_flat _) as [[len l]|]; [|discriminate].
    destruct (negb (len =? p)); [discriminate|]. destruct (negb (array_equal _ _)); [discriminate|].
    destruct (_ || _); [discriminate|]. destruct (negb (_ && _)); [discriminate|]. congruence.
  Qed.
  Lemma cd_pair : forall o a k p o' a', check_cd (Pair o a) k p = Ok (o', a') -> o' = o /\ a' = a /\ adj_finite a = true.
  Proof.
    intros o a k p o' a' Q. unfold check_cd in Q. destruct (order_flat _) as [[len l]|]; [|discriminate].
    destruct (negb (len =? p)); [discriminate|]. destruct (negb (array_equal _ _)); [discriminate|].
    destruct (adj_finite a) eqn:F; cbn [negb orb] in Q; [|discriminate].
    destruct (_ =? 0); [discriminate|]. destruct (negb (_ && _)); [discriminate|]. injection Q as <- <-. repeat split.
  Qed.
  Lemma adj_finite_iff : forall k p v, adj_finite {| ao_pre := [k]; ao_rows := p; ao_cols := p; ao_val := v |} = true <->
    forall g i j, g < k -> i < p -> j < p -> v [g] i j <> None.
  Proof.
    intros k p v. unfold adj_finite. cbn [ao_pre ao_rows ao_cols ao_val]. rewrite forallb_forall. split.
    - intros H g i j Hg Hi Hj E. assert (I : In [g] (indices [k])).
      { cbn [indices]. apply in_flat_map. exists g. split; [apply in_seq; lia|left; reflexivity]. }
      specialize (H [g] I). rewrite forallb_forall in H. specialize (H i ltac:(apply in_seq; lia)). rewrite forallb_forall in H.
      specialize (H j ltac:(apply in_seq; lia)). rewrite E in H. discriminate.
    - intros H ix I. cbn [indices] in I. apply in_flat_map in I. destruct I as (g & Hg & [<-|[]]). apply in_seq in Hg.
      apply forallb_forall. intros i Hi. apply forallb_forall. intros j Hj. apply in_seq in Hi, Hj.
      specialize (H g i j ltac:(lia) ltac:(lia) ltac:(lia)). destruct (v [g] i j); [reflexivity|congruence].
  Qed.
  Lemma adjacency_finite : forall l pk K i j, (forall a b c, l a b c <> None) -> NoDup K -> estimate_adjacency_matrix l pk K i j <> None.
  Proof.
    intros l pk K i j HF ND. destruct (in_dec Nat.eq_dec i K) as [Hi|Hi].
    - apply in_split in Hi. destruct Hi as [l1 [l2 Hl]]. rewrite (adjacency_row l pk _ l1 i l2 j Hl ND). cbv zeta.
      destruct (memb j (predictors_of pk i l1)); [apply HF|discriminate].
    - unfold estimate_adjacency_matrix. rewrite adj_loop_notin by exact Hi. discriminate.
  Qed.
  Lemma iterate_ok : forall mode n p reps X s it,
    default_iterate residual gM lasso to_cols fill draw mode n p reps X s = Ok it -> 2 <= reps /\ entry_ok mode n p reps X s it.
  Proof.
    intros mode n p reps X s it H. unfold default_iterate in H. cbv zeta in H.
    destruct (check_imputer _ n p) as [[k d]|e] eqn:E; cbn [bind] in H; [|discriminate].
    apply default_imp_full in E. destruct E as (-> & _ & D). unfold default_cd in H.
    destruct (Nat.ltb_spec reps 2) as [L|L]; cbn [bind] in H; [discriminate|].
    destruct (mg_fit_order _ _ _ _ _ _) as [K|e] eqn:F; cbn [bind] in H; [|discriminate].
    destruct (check_cd _ reps p) as [[o a]|e] eqn:C; cbn [bind] in H; [|discriminate]. injection H as <-.
    apply cd_pair in C. destruct C as (-> & -> & A). rewrite adj_finite_iff in A. split; [exact L|].
    unfold entry_ok. cbn [it_index it_reps it_adj it_data it_imp it_order ao_pre ao_rows ao_cols ao_val] in *.
    do 5 (split; [reflexivity|]). split.
    - intros k r c Hk Hr Hc. specialize (D k r c Hk Hr Hc). unfold imputation_result. cbv beta in *.
      destruct (X (draw s r) c); split; try exact D; reflexivity.
    - exists K. destruct (mg_fit_spec _ _ _ _ _ _ _ _ (lasso d) F) as (S1 & S2 & S3 & _ & S5).
      split; [reflexivity|]. split; [exact S1|]. split; [|split; [exact A|split; [|exact S5]]].
      + intros g i j. apply (S2 g i j).
      + intros g pk i j. apply (S3 g pk i j).
  Qed.
  Lemma run_ok : forall mode n p reps X l r, default_run residual gM lasso to_cols fill draw mode n p reps X l = Ok r ->
    length r = length l /\ forall k, k < length l -> 2 <= reps /\ exists it, nth_error r k = Some it /\ entry_ok mode n p reps X (nth k l 0) it.
  Proof.
    intros mode n p reps X l. induction l as [|s l IH]; intros r H; cbn [default_run] in H.
    - injection H as <-. split; [reflexivity|]. cbn. lia.
    - destruct (default_iterate _ _ _ _ _ _ mode n p reps X s) as [it|e] eqn:E; cbn [bind] in H; [|discriminate].
      destruct (default_run _ _ _ _ _ _ mode n p reps X l) as [r'|e] eqn:R; cbn [bind] in H; [|discriminate]. injection H as <-.
      destruct (IH r' eq_refl) as [L Q]. cbn [length]. split; [lia|]. apply iterate_ok in E. destruct E as [E1 E2].
      intros [|k] Hk; cbn [nth_error nth]; [split; [exact E1|exists it; split; [reflexivity|exact E2]]|apply Q; lia].
  Qed.
  Lemma nopk_not_stuck : forall s U, NoDup U -> length U = s -> ~ stuck NoPK s [] U.
  Proof.
    induction s as [|s IH]; intros U ND L H; inversion H as [s' po' U' He|s' po' U' m Hm R]; subst.
    - cbn in He. subst U. discriminate.
    - cbn [search_candidate fst po_step] in *. revert R. apply IH; [apply remove_nat_NoDup; exact ND|].
      pose proof (remove_nat_length m U ND Hm). lia.
  Qed.
  (** Prior knowledge that can be obeyed: as hard constraints some order obeys it; as soft ones its entries are -1, 0 or 1
      and the demanded paths form no circle. *)
  Definition obeyable (p : nat) (mode : pk_mode) : Prop :=
    match mode with
    | NoPK => True
    | Strong pk => orderable p pk
    | Soft pk => entries01 p pk /\ acyclic (fun a b => a < p /\ b < p /\ a <> b /\ pk b a = Some 1%Qc)
    end.
  Lemma mg_fit_order_total : forall p mode ds, obeyable p mode -> is_ok (mg_fit_order residual gM p true mode ds).
  Proof.
    intros p mode ds H. unfold mg_fit_order. destruct mode as [|pk|pk].
    - destruct (mg_loop_run Col residual gM p NoPK [] ds (seq 0 p) []) as [(K & -> & _)|(_ & ST)]; [eexists; reflexivity|].
      exfalso. revert ST. apply nopk_not_stuck; [apply seq_NoDup|apply seq_length].
    - pose proof (fit_order_strong_complete unit (fun a _ => a) (fun _ _ _ _ _ => Some 0%Qc) np_argmax np_argmax_ok p pk (fun _ => tt) H) as [K0 F0].
      unfold fit_order in F0. destruct (extract_partial_orders p pk) as [po|e] eqn:Ee; [|discriminate]. cbn [bind].
      destruct (mg_loop_run Col residual gM p (Strong pk) po ds (seq 0 p) []) as [(K & -> & _)|(_ & ST)]; [eexists; reflexivity|].
      exfalso. revert ST. destruct H as [l [Hl HP]]. apply (strong_not_stuck pk l).
      + eapply is_order_NoDup. exact Hl.
      + intros x Hx. apply (is_order_In p l Hl). apply in_seq in Hx. lia.
      + intros a b Hab. apply (extract_ok p pk po Ee) in Hab. destruct Hab as [Ha [Hb M]]. split; [apply HP; assumption|apply in_seq; lia].
      + apply seq_NoDup.
      + apply seq_length.
    - destruct (mg_loop_run Col residual gM p (Soft pk) [] ds (seq 0 p) []) as [(K & -> & _)|(_ & ST)]; [eexists; reflexivity|].
      exfalso. revert ST. destruct H as [H1 H2]. apply (soft_not_stuck p); try assumption.
      + intros x Hx. apply in_seq in Hx. lia.
      + apply seq_NoDup.
      + apply seq_length.
  Qed.
  Lemma default_run_total : forall mode n p reps X l, obeyable p mode -> 1 <= p -> 2 <= reps -> (forall d g a b c, lasso d g a b c <> None) ->
    (forall s c, In s l -> c < p -> exists r, r < n /\ X (draw s r) c <> None) ->
    is_ok (default_run residual gM lasso to_cols fill draw mode n p reps X l).
  Proof.
    intros mode n p reps X l HM Hp Hr HL. induction l as [|s l IH]; intros HX; cbn [default_run]; [eexists; reflexivity|].
    destruct IH as [r' ->]; [intros; apply HX; [right|]; assumption|].
    assert (Q : is_ok (default_iterate residual gM lasso to_cols fill draw mode n p reps X s)); [|destruct Q as [it ->]; eexists; reflexivity].
    unfold default_iterate. cbv zeta.
    destruct (C96_default_imputer_partial fill n p reps s (fun r c => X (draw s r) c) ltac:(lia)) as [[k d] E].
    { intros c Hc. apply HX; [left; reflexivity|exact Hc]. }
    rewrite E. cbn [bind]. apply default_imp_full in E. destruct E as (-> & _ & _). unfold default_cd.
    replace (reps <? 2) with false by (symmetry; apply Nat.ltb_ge; exact Hr).
    set (ds := map _ (seq 0 reps)).
    assert (F : is_ok (mg_fit_order residual gM p true mode ds)) by (apply mg_fit_order_total; exact HM).
    destruct F as [K F]. rewrite F. cbn [bind]. destruct (mg_fit_spec _ _ _ _ _ _ _ _ (lasso d) F) as (S1 & _).
    rewrite order_accepted; cbn [bind]; [eexists; reflexivity|exact Hp|exact S1| |cbn; lia|reflexivity|reflexivity].
    apply adj_finite_iff. intros g i j _ _ _. cbn [hd]. unfold mg_adjacency. apply adjacency_finite; [intros; apply HL|].
    eapply is_order_NoDup. exact S1.
  Qed.
End P.

(** ** C238 *)
(** n_repeats = 1 is accepted by the argument check, but the default discovery model rejects a single
    imputed data set: the call always fails. *)
Theorem C238_single_repeat_refuted : forall Col residual gM lasso to_cols fill draw ok mode n p X N,
  @boot_default Col residual gM lasso to_cols fill draw ok mode n p 1 X N = Err ValueError.
Proof.
  intros. unfold boot_default. destruct (_ || _); [reflexivity|]. destruct N as [|N]; [reflexivity|]. cbn [Nat.eqb].
  destruct ok; [|reflexivity]. cbn [negb seq default_run]. unfold default_iterate. cbv zeta.
  destruct (check_imputer _ n p) as [[k d]|e] eqn:E.
  - apply default_imp_full in E. destruct E as (-> & _). reflexivity.
  - unfold check_imputer, default_imp in E. destruct (negb (all3 _ _ _ _)); [injection E as <-; reflexivity|]. cbn [Nat.eqb] in E.
    destruct (negb _); [|discriminate]. injection E as <-. reflexivity.
Qed.
Print Assumptions C238_single_repeat_refuted.
(** Whatever the prior knowledge: when the call returns, it returns one entry per bootstrap sample,
    each with an order of all variables obeying the prior knowledge, one finite matrix per repeat
    whose coefficients follow that order, and the imputed values where values were missing. *)
Theorem C238_result : forall Col residual gM lasso to_cols fill draw ok mode n p reps X N r,
  @boot_default Col residual gM lasso to_cols fill draw ok mode n p reps X N = Ok r ->
  1 <= n /\ 1 <= p /\ 1 <= N /\ 2 <= reps /\ ok = true /\ length r = N /\
  forall s, s < N -> exists it, nth_error r s = Some it /\ entry_ok fill draw mode n p reps X s it.
Proof.
  intros Col residual gM lasso to_cols fill draw ok mode n p reps X N r H. unfold boot_default in H.
  destruct (Nat.eqb_spec n 0); [discriminate|]. destruct (Nat.eqb_spec p 0); [discriminate|]. cbn [orb] in H.
  destruct (Nat.eqb_spec N 0); [discriminate|]. destruct (reps =? 0); [discriminate|]. destruct ok; [|discriminate]. cbn [negb] in H.
  destruct (default_run _ _ _ _ _ _ mode n p reps X (seq 0 N)) as [l|e] eqn:E; cbn [bind] in H; [|discriminate].
  apply run_ok in E. destruct E as [L Q]. rewrite seq_length in L, Q.
  assert (R : r = l). { destruct l as [|it l]; [congruence|]. destruct (forallb _ l); [congruence|discriminate]. }
  subst l. do 3 (split; [lia|]). split; [apply (Q 0); lia|]. split; [reflexivity|]. split; [exact L|].
  intros s Hs. destruct (Q s Hs) as (_ & it & A & B). rewrite seq_nth in B by exact Hs. exists it. split; assumption.
Qed.
Print Assumptions C238_result.
(** For at least two repeats, bootstrap samples that have an observed value of each variable and
    prior knowledge (if any) that can be obeyed, the call returns. *)
Theorem C238_defaults_partial : forall Col residual gM lasso to_cols fill draw mode n p reps X N, obeyable p mode ->
  1 <= n -> 1 <= p -> 1 <= N -> 2 <= reps -> (forall d g a b c, lasso d g a b c <> None) ->
  (forall s c, s < N -> c < p -> exists r, r < n /\ X (draw s r) c <> None) ->
  exists r, @boot_default Col residual gM lasso to_cols fill draw true mode n p reps X N = Ok r /\ length r = N /\
    forall s, s < N -> exists it, nth_error r s = Some it /\ entry_ok fill draw mode n p reps X s it.
Proof.
  intros Col residual gM lasso to_cols fill draw mode n p reps X N HM Hn Hp HN Hr HL HX.
  assert (T : is_ok (@boot_default Col residual gM lasso to_cols fill draw true mode n p reps X N)).
  { unfold boot_default. destruct (Nat.eqb_spec n 0); [lia|]. destruct (Nat.eqb_spec p 0); [lia|]. cbn [orb].
    destruct (Nat.eqb_spec N 0); [lia|]. destruct (Nat.eqb_spec reps 0); [lia|]. cbn [negb].
    destruct (default_run_total residual gM lasso to_cols fill draw mode n p reps X (seq 0 N) HM Hp Hr HL) as [l E].
    { intros s c Hs. apply in_seq in Hs. apply HX. lia. }
    rewrite E. cbn [bind]. apply run_ok in E. destruct E as [L Q]. rewrite seq_length in L, Q.
    destruct l as [|it l]; [eexists; reflexivity|].
    assert (W : forall b, In b (it :: l) -> ao_pre (it_adj b) = [reps] /\ it_reps b = reps /\ order_shape (it_order b) = [p]).
    { intros b Hb. apply In_nth_error in Hb. destruct Hb as [k Hk].
      assert (k < N). { rewrite <- L. apply nth_error_Some. congruence. }
      destruct (Q k H) as (_ & it' & A & B). rewrite Hk in A. injection A as <-.
      destruct B as (_ & B2 & B3 & _ & _ & _ & K & B7 & B8 & _). split; [exact B3|]. split; [exact B2|].
      rewrite B7. cbn [order_shape]. rewrite map_length. apply Permutation_length in B8. rewrite seq_length in B8. rewrite B8. reflexivity. }
    replace (forallb (same_shapes it) l) with true; [eexists; reflexivity|]. symmetry. apply forallb_forall. intros b Hb.
    destruct (W it (or_introl eq_refl)) as (W1 & W2 & W3), (W b (or_intror Hb)) as (V1 & V2 & V3).
    unfold same_shapes. rewrite W1, W2, W3, V1, V2, V3, Nat.eqb_refl.
    destruct (list_eq_dec Nat.eq_dec [reps] [reps]); [|congruence]. destruct (list_eq_dec Nat.eq_dec [p] [p]); [reflexivity|congruence]. }
  destruct T as [r E]. exists r. split; [exact E|]. apply C238_result in E. tauto.
Qed.
Print Assumptions C238_defaults_partial.
(** Hard prior knowledge that no order obeys makes the call fail. *)
Theorem C238_contradictory_prior_knowledge : forall Col residual gM lasso to_cols fill draw ok pk n p reps X N, ~ orderable p pk ->
  ~ is_ok (@boot_default Col residual gM lasso to_cols fill draw ok (Strong pk) n p reps X N).
Proof.
  intros Col residual gM lasso to_cols fill draw ok pk n p reps X N H [r E]. apply C238_result in E.
  destruct E as (_ & _ & HN & _ & _ & _ & Q). destruct (Q 0 HN) as (it & _ & _ & _ & _ & _ & _ & _ & K & _ & HK & _ & _ & _ & HR).
  apply H. exists K. split; [exact HK|]. apply HR. reflexivity.
Qed.
Print Assumptions C238_contradictory_prior_knowledge.
(** Whatever fails, the exception is ValueError; rejected arguments do. *)
Theorem C238_errors : forall Col residual gM lasso to_cols fill draw ok mode n p reps X N,
  (forall e, @boot_default Col residual gM lasso to_cols fill draw ok mode n p reps X N = Err e -> e = ValueError) /\
  (n = 0 \/ p = 0 \/ N = 0 \/ reps < 2 \/ ok = false ->
   @boot_default Col residual gM lasso to_cols fill draw ok mode n p reps X N = Err ValueError).
Proof.
  intros Col residual gM lasso to_cols fill draw ok mode n p reps X N.
  assert (V : forall e, @boot_default Col residual gM lasso to_cols fill draw ok mode n p reps X N = Err e -> e = ValueError).
  { intros e H. unfold boot_default in H. destruct (_ || _); [congruence|]. destruct (N =? 0); [congruence|]. destruct (reps =? 0); [congruence|].
    destruct (negb ok); [congruence|]. destruct (default_run _ _ _ _ _ _ mode n p reps X (seq 0 N)) as [l|e'] eqn:E; cbn [bind] in H.
    - destruct l as [|it l]; [discriminate|]. destruct (forallb _ l); congruence.
    - injection H as ->. revert E. generalize (seq 0 N) as l. induction l as [|s l IH]; cbn [default_run]; [discriminate|].
      destruct (default_iterate _ _ _ _ _ _ mode n p reps X s) as [it|e2] eqn:I; cbn [bind].
      + destruct (default_run _ _ _ _ _ _ mode n p reps X l); cbn [bind]; [discriminate|]. intro Q. apply IH. exact Q.
      + intro Q. injection Q as ->. unfold default_iterate in I. cbv zeta in I.
        destruct (check_imputer _ n p) as [[k d]|e3] eqn:C; cbn [bind] in I.
        * unfold default_cd in I. destruct (k <? 2); cbn [bind] in I; [congruence|].
          destruct (mg_fit_order _ _ _ _ _ _) as [K|e3] eqn:F; cbn [bind] in I.
          -- destruct (check_cd _ k p) as [[o a]|e3] eqn:D; cbn [bind] in I; [discriminate|]. injection I as ->.
             unfold check_cd in D. destruct (order_flat _) as [[len l']|]; [|congruence].
             destruct (negb (len =? p)); [congruence|]. destruct (negb (array_equal _ _)); [congruence|].
             destruct (_ || _); [congruence|]. destruct (negb (_ && _)); congruence.
          -- injection I as ->. unfold mg_fit_order in F.
             assert (G : forall po ds, mg_loop residual gM p mode po ds (seq 0 p) [] = Err e -> e = ValueError).
             { intros po ds M. destruct (mg_loop_run Col residual gM p mode po ds (seq 0 p) []) as [(K & M' & _)|(M' & _)]; congruence. }
             destruct mode as [|pk|pk]; try (eapply G; exact F).
             destruct (extract_partial_orders p pk) as [po|e3] eqn:Z; cbn [bind] in F; [eapply G; exact F|]. injection F as ->.
             unfold extract_partial_orders in Z. cbv zeta in Z. destruct (unique_with _ _); congruence.
        * injection I as ->. unfold check_imputer, default_imp in C. destruct (negb (all3 _ _ _ _)); [congruence|].
          destruct (reps =? 0); [congruence|]. destruct (negb _); congruence. }
  split; [exact V|]. intro B.
  destruct (@boot_default Col residual gM lasso to_cols fill draw ok mode n p reps X N) as [r|e] eqn:E.
  - apply C238_result in E. exfalso. destruct E as (E1 & E2 & E3 & E4 & E5 & _). subst ok. intuition (try lia; discriminate).
  - f_equal. apply V. reflexivity.
Qed.
Print Assumptions C238_errors.
(** Two bootstrap samples of three observations, the value of x1 missing in one of them. *)
Example C238_example : forall s c, s < 2 -> c < 2 -> exists r, r < 3 /\ ex_X (ex_draw s r) c <> None.
Proof. intros s c Hs Hc. exists 2. split; [lia|]. destruct s as [|[|s]]; [| |lia]; destruct c as [|[|c]]; try lia; cbn; discriminate. Qed.
Example C238_example_run :
  match boot_default (fun a _ : unit => a) (fun _ _ _ _ i => Some (qn i)) (fun _ _ _ _ _ => Some 1%Qc) (fun _ _ => tt)
          (fun _ k _ _ _ => qn (7 + k)) ex_draw true NoPK 3 2 2 ex_X 2 with
  | Ok r => map (fun it => (it_order it, option_map this (ao_val (it_adj it) [1] 1 0), option_map this (it_imp it 1 1 1))) r
  | Err _ => []
  end = [(O1 [Some (qn 0); Some (qn 1)], Some 1%Q, Some 8%Q); (O1 [Some (qn 0); Some (qn 1)], Some 1%Q, None)].
Proof. reflexivity. Qed.
(** Prior knowledge that demands a path from x0 to x1. *)
Definition pk01 : mat num := fun i j => if (i =? 1) && (j =? 0) then Some 1%Qc else None.
Example C238_example_prior_knowledge : obeyable 2 (Strong pk01) /\ obeyable 2 NoPK.
Proof.
  split; [|exact I]. exists [0; 1]. split; [apply Permutation_refl|]. intros a b Ha Hb M.
  destruct a as [|[|a]]; destruct b as [|[|b]]; try lia; try (exists [], [], []; reflexivity);
    exfalso; destruct M as [M|[M _]]; cbn in M; discriminate.
Qed.
