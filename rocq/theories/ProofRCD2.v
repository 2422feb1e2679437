From Coq Require Import List Arith Lia Bool ZArith QArith Qcanon Permutation Sorted.
From Verif Require Import Prelude Spec Lib Loop SpecRCD ModelRCD ProofRCD SpecCAMUV ProofCAMUV2.
Import ListNotations.
Open Scope nat_scope.

Lemma sorted_nodup' : forall l, StronglySorted lt l -> NoDup l.
Proof.
  induction l as [|x l IH]; intro S; [constructor|]. inversion S as [|? ? S' F]; subst. constructor; [|apply IH; exact S'].
  intro I. rewrite Forall_forall in F. specialize (F x I). lia.
Qed.
Lemma sorted_filter' : forall (p : nat -> bool) l, StronglySorted lt l -> StronglySorted lt (filter p l).
Proof.
  intros p l S. induction S as [|x l S IH F]; [constructor|]. cbn [filter]. destruct (p x); [|exact IH]. constructor; [exact IH|].
  rewrite Forall_forall in *. intros y I. apply filter_In in I. apply F. tauto.
Qed.
Lemma sorted_seq' : forall n a, StronglySorted lt (seq a n).
Proof.
  induction n as [|n IH]; intro a; [constructor|]. cbn [seq]. constructor; [apply IH|]. apply Forall_forall. intros y I.
  apply in_seq in I. lia.
Qed.
Lemma sorted_unique' : forall a b, StronglySorted lt a -> StronglySorted lt b -> (forall x, In x a <-> In x b) -> a = b.
Proof.
  induction a as [|x a IH]; intros b SA SB H.
  - destruct b as [|y b]; [reflexivity|]. exfalso. apply (H y). left. reflexivity.
  - destruct b as [|y b]; [exfalso; apply (proj1 (H x)); left; reflexivity|].
    inversion SA as [|? ? SA' FA]; subst. inversion SB as [|? ? SB' FB]; subst. rewrite Forall_forall in FA, FB.
    assert (x = y).
    { destruct (proj1 (H x) (or_introl eq_refl)) as [E|E]; [congruence|]. destruct (proj2 (H y) (or_introl eq_refl)) as [E'|E']; [congruence|].
      apply FA in E'. apply FB in E. lia. }
    subst y. f_equal. apply IH; try assumption. intro z. split; intro I.
    + destruct (proj1 (H z) (or_intror I)) as [E|E]; [|exact E]. subst. apply FA in I. lia.
    + destruct (proj2 (H z) (or_intror I)) as [E|E]; [|exact E]. subst. apply FB in I. lia.
Qed.
Lemma filter_single : forall (p : nat -> bool) l x, NoDup l ->
  (filter p l = [x] <-> (In x l /\ p x = true /\ forall y, In y l -> p y = true -> y = x)).
Proof.
  intros p l x ND. split.
  - intro E. assert (I : In x (filter p l)) by (rewrite E; left; reflexivity). apply filter_In in I.
    split; [tauto|]. split; [tauto|]. intros y Iy Py. assert (J : In y (filter p l)) by (apply filter_In; auto).
    rewrite E in J. destruct J as [J|[]]. auto.
  - intros [I [P U]]. apply in_split in I. destruct I as [l1 [l2 ->]]. rewrite filter_app. cbn [filter]. rewrite P.
    apply NoDup_remove in ND. destruct ND as [_ NI].
    assert (G : forall l', (forall y, In y l' -> In y (l1 ++ l2)) -> filter p l' = []).
    { induction l' as [|y l' IH]; intro H; [reflexivity|]. cbn [filter]. destruct (p y) eqn:Py.
      - exfalso. apply NI. assert (In y (l1 ++ l2)) as J by (apply H; left; reflexivity).
        rewrite <- (U y); [exact J| |exact Py]. apply in_app_iff in J. apply in_app_iff. destruct J; [left|right; right]; assumption.
      - apply IH. intros z Iz. apply H. right. exact Iz. }
    rewrite !G; [reflexivity| |]; intros y Iy; apply in_app_iff; auto.
Qed.

Section RCD2.
  Variables (n maxl : nat) (mlhsicr : bool)
    (nongauss : list nat -> nat -> bool) (correlated : list nat -> nat -> nat -> bool)
    (indep_ols indep_ml : list nat -> nat -> list nat -> nat -> bool).
  Notation visit := (visit n mlhsicr nongauss correlated indep_ols indep_ml).
  Notation pass := (pass n mlhsicr nongauss correlated indep_ols indep_ml).
  Notation step := (rcd_step n maxl mlhsicr nongauss correlated indep_ols indep_ml).
  Notation indep := (indep_of_resid mlhsicr indep_ols indep_ml).
  Notation snk := (sink mlhsicr indep_ols indep_ml).
  Notation fnd := (finds n mlhsicr nongauss correlated indep_ols indep_ml).
  Notation lrn := (learned n mlhsicr nongauss correlated indep_ols indep_ml (S maxl)).
  Notation exd := (examined n mlhsicr nongauss correlated indep_ols indep_ml (S maxl)).

  Lemma common_ok : forall M U, common n M U (common_ancestors n M U).
  Proof.
    intros M U. unfold common_ancestors, elems. split; [apply sorted_filter', sorted_seq'|]. intro v.
    rewrite filter_In, in_seq, forallb_forall. split; intros [A B]; (split; [lia|exact B]).
  Qed.
  Lemma common_uniq : forall M U H, common n M U H -> H = common_ancestors n M U.
  Proof.
    intros M U H [S E]. destruct (common_ok M U) as [S' E']. apply sorted_unique'; [exact S|exact S'|].
    intro x. rewrite E, E'. tauto.
  Qed.
  Lemma indep_iff : forall H i js, indep H i js = true <-> residual_independent mlhsicr indep_ols indep_ml H i js.
  Proof.
    intros H i js. unfold indep_of_resid, residual_independent. destruct (forallb (indep_ols H i js) js) eqn:F.
    - split; [intros _; left; apply forallb_forall; exact F|reflexivity].
    - assert (NF : ~ forall j, In j js -> indep_ols H i js j = true) by (intro Z; apply forallb_forall in Z; congruence).
      destruct (Nat.eqb_spec (length js) 1) as [L|L]; cbn [orb].
      + split; [discriminate|]. tauto.
      + destruct mlhsicr; cbn [negb].
        * rewrite forallb_forall. split; [intro; right; auto|]. intros [|[_ [_ G]]]; [contradiction|exact G].
        * split; [discriminate|]. intros [|[G _]]; [contradiction|discriminate].
  Qed.
  Lemma sinks_iff : forall M H U i, In i (sinks mlhsicr indep_ols indep_ml M H U) <-> snk M H U i.
  Proof.
    intros M H U i. unfold sinks, sink. rewrite filter_In, andb_true_iff, negb_true_iff, indep_iff.
    unfold exists_ancestor. rewrite orb_false_iff.
    assert (A : existsb (fun xj => M xj i) (remove_nat i U) = false <-> forall j, In j U -> j <> i -> M j i = false).
    { split.
      - intros E j I D. destruct (M j i) eqn:Mj; [|reflexivity]. assert (existsb (fun xj => M xj i) (remove_nat i U) = true); [|congruence].
        apply existsb_exists. exists j. split; [apply remove_nat_In; auto|exact Mj].
      - intro G. apply not_true_is_false. intro E. apply existsb_exists in E. destruct E as [j [I Mj]]. apply remove_nat_In in I.
        rewrite (G j) in Mj; [discriminate|tauto|tauto]. }
    assert (B : forallb (fun xj => M i xj) (remove_nat i U) = false <-> exists j, In j U /\ j <> i /\ M i j = false).
    { split.
      - intro E. assert (NF : ~ forall j, In j (remove_nat i U) -> M i j = true) by (intro Z; assert (forallb (fun xj => M i xj) (remove_nat i U) = true) by (apply forallb_forall; exact Z); congruence).
        clear -NF. assert (X : exists j, In j (remove_nat i U) /\ M i j = false).
        { induction (remove_nat i U) as [|a l IH]; [exfalso; apply NF; intros x []|].
          destruct (M i a) eqn:Ma; [|exists a; split; [left; reflexivity|exact Ma]].
          destruct IH as [j [I J]]; [intro Z; apply NF; intros x [<-|Ix]; auto|]. exists j. split; [right; exact I|exact J]. }
        destruct X as [j [I J]]. apply remove_nat_In in I. exists j. tauto.
      - intros [j [I [D Mj]]]. apply not_true_is_false. intro E. rewrite forallb_forall in E.
        rewrite E in Mj; [discriminate|]. apply remove_nat_In. auto. }
    rewrite A, B. tauto.
  Qed.
  Lemma finds_iff : forall M U i, NoDup U -> let H := common_ancestors n M U in
    (fnd M U i <-> suitable nongauss correlated H U /\ sinks mlhsicr indep_ols indep_ml M H U = [i]).
  Proof.
    intros M U i ND H. split.
    - intros [H' [C [T [S1 S2]]]]. assert (H' = H) by (apply common_uniq; exact C). subst H'. split; [exact T|].
      unfold sinks. apply filter_single; [exact ND|]. pose proof S1 as S1'. apply sinks_iff in S1. unfold sinks in S1. apply filter_In in S1.
      split; [tauto|]. split; [tauto|]. intros y Iy Py. apply S2. apply sinks_iff. unfold sinks. apply filter_In. auto.
    - intros [T E]. exists H. split; [apply common_ok|]. split; [exact T|].
      split; [apply sinks_iff; rewrite E; left; reflexivity|]. intros y Sy. apply sinks_iff in Sy. rewrite E in Sy.
      destruct Sy as [->|[]]. reflexivity.
  Qed.
  Lemma suitable_iff : forall H U, StronglySorted lt U ->
    (forallb (nongauss H) U && forallb (fun p => correlated H (fst p) (snd p)) (pairs U) = true <-> suitable nongauss correlated H U).
  Proof.
    intros H U S. rewrite andb_true_iff, !forallb_forall. unfold suitable.
    assert (X : (forall p, In p (pairs U) -> correlated H (fst p) (snd p) = true) <->
                forall a b, In a U -> In b U -> a < b -> correlated H a b = true).
    { split.
      - intros G a b Ia Ib L. apply (G (a, b)). apply pairs_In_conv.
        destruct (precedes_total U a b Ia Ib) as [P|P]; [lia|exact P|]. exfalso. clear -S P L.
        induction S as [|x U S IH F]; destruct P as [l1 [l2 [l3 E]]]; [destruct l1; discriminate|].
        destruct l1 as [|y l1]; injection E as E1 E2.
        + rewrite Forall_forall in F. subst x. assert (In a U) by (rewrite E2; apply in_app_iff; right; left; reflexivity).
          apply F in H. lia.
        + apply IH. exists l1, l2, l3. exact E2.
      - intros G [a b] I. apply pairs_In in I; [|apply sorted_nodup'; exact S]. cbn [fst snd].
        pose proof (precedes_In _ _ _ I) as [Ia Ib]. apply G; try assumption.
        destruct (Nat.lt_trichotomy a b) as [|[->|L]]; [assumption| |].
        + exfalso. exact (precedes_irrefl _ _ (sorted_nodup' _ S) I).
        + exfalso. clear -S I L. induction S as [|x U S IH F]; destruct I as [l1 [l2 [l3 E]]]; [destruct l1; discriminate|].
          destruct l1 as [|y l1]; injection E as E1 E2.
          * rewrite Forall_forall in F. subst x. assert (In b U) by (rewrite E2; apply in_app_iff; right; left; reflexivity).
            apply F in H. lia.
          * apply IH. exists l1, l2, l3. exact E2. }
    rewrite X. tauto.
  Qed.

  (** What is known of the history: every stored pair comes from an examination. *)
  Definition hist_ok (M : sets) (hist : list (list nat * list nat)) : Prop :=
    forall U H, hist_get hist U = Some H ->
      exists M0, lrn M0 /\ (forall a b, M0 a b = true -> M a b = true) /\ H = common_ancestors n M0 U /\
        forall i, fnd M0 U i -> forall j, In j U -> j <> i -> M i j = true.
  Lemma list_eqb_iff : forall a b, list_eqb a b = true <-> a = b.
  Proof. intros a b. unfold list_eqb. destruct (list_eq_dec Nat.eq_dec a b); split; congruence. Qed.
  Lemma hist_cons : forall M hist U M0, hist_ok M hist -> lrn M0 -> (forall a b, M0 a b = true -> M a b = true) ->
    (forall i, fnd M0 U i -> forall j, In j U -> j <> i -> M i j = true) ->
    hist_ok M ((U, common_ancestors n M0 U) :: hist).
  Proof.
    intros M hist U M0 HO L S F V H E. cbn [hist_get] in E. destruct (list_eqb V U) eqn:EQ; [|apply HO; exact E].
    apply list_eqb_iff in EQ. subst V. inversion E; subst. exists M0. auto.
  Qed.
  Lemma hist_mono : forall M M' hist, (forall a b, M a b = true -> M' a b = true) -> hist_ok M hist -> hist_ok M' hist.
  Proof.
    intros M M' hist S HO U H E. destruct (HO U H E) as [M0 [L [S0 [E0 F]]]]. exists M0. repeat split; auto.
  Qed.

  Lemma visit_exact : forall t (M : sets) hist ch U, 2 <= t <= S maxl -> subset_of_size n t U -> lrn M -> hist_ok M hist ->
    let '(M', hist', ch') := visit (M, hist, ch) U in
    lrn M' /\ hist_ok M' hist' /\ (forall a b, M a b = true -> M' a b = true) /\
    (ch' = false -> ch = false /\ M' = M /\ exd M U).
  Proof.
    intros t M hist ch U T SU L HO. pose proof SU as [LU [SS BU]]. pose proof (sorted_nodup' _ SS) as ND.
    unfold ModelRCD.visit. cbv zeta. set (H := common_ancestors n M U).
    destruct (match hist_get hist U with Some H' => list_eqb H H' | None => false end) eqn:C.
    { split; [exact L|]. split; [exact HO|]. split; [auto|]. intro E. split; [exact E|]. split; [reflexivity|].
      destruct (hist_get hist U) as [H'|] eqn:G; [|discriminate]. apply list_eqb_iff in C. subst H'.
      destruct (HO U H G) as [M0 [L0 [S0 [E0 F0]]]]. exists M0. split; [exact L0|]. split; [exact S0|]. split; [|exact F0].
      intro K. split; intro CK; apply common_uniq in CK; subst K; [rewrite <- E0|fold H; rewrite E0]; apply common_ok. }
    assert (TRIV : (forall i, fnd M U i -> forall j, In j U -> j <> i -> M i j = true) -> exd M U).
    { intro F. exists M. split; [exact L|]. split; [auto|]. split; [tauto|exact F]. }
    destruct (forallb (nongauss H) U) eqn:NG; cbn [negb].
    2:{ split; [exact L|]. split; [exact HO|]. split; [auto|]. intro E. split; [exact E|]. split; [reflexivity|].
        apply TRIV. intros i Fi. exfalso. apply (finds_iff M U i ND) in Fi. destruct Fi as [Ts _]. apply suitable_iff in Ts; [|exact SS].
        fold H in Ts. rewrite NG in Ts. discriminate. }
    destruct (forallb (fun p => correlated H (fst p) (snd p)) (pairs U)) eqn:CO; cbn [negb].
    2:{ split; [exact L|]. split; [exact HO|]. split; [auto|]. intro E. split; [exact E|]. split; [reflexivity|].
        apply TRIV. intros i Fi. exfalso. apply (finds_iff M U i ND) in Fi. destruct Fi as [Ts _]. apply suitable_iff in Ts; [|exact SS].
        fold H in Ts. rewrite NG, CO in Ts. discriminate. }
    assert (Ts : suitable nongauss correlated H U) by (apply suitable_iff; [exact SS|rewrite NG, CO; reflexivity]).
    assert (NOT : (forall i, sinks mlhsicr indep_ols indep_ml M H U <> [i]) -> forall i, ~ fnd M U i).
    { intros G i Fi. apply (finds_iff M U i ND) in Fi. destruct Fi as [_ E]. exact (G i E). }
    destruct (sinks mlhsicr indep_ols indep_ml M H U) as [|xi [|y r]] eqn:E.
    - assert (N : forall i, ~ fnd M U i) by (apply NOT; discriminate).
      split; [exact L|]. split; [apply hist_cons; auto; intros i Fi; destruct (N i Fi)|]. split; [auto|].
      intro E'. split; [exact E'|]. split; [reflexivity|]. apply TRIV. intros i Fi. destruct (N i Fi).
    - assert (Fx : fnd M U xi) by (apply finds_iff; [exact ND|]; split; [exact Ts|exact E]).
      assert (UQ : forall i, fnd M U i -> i = xi).
      { intros i Fi. apply (finds_iff M U i ND) in Fi. destruct Fi as [_ E']. fold H in E'. congruence. }
      destruct (forallb (M xi) (remove_nat xi U)) eqn:FB.
      + assert (AB : forall i, fnd M U i -> forall j, In j U -> j <> i -> M i j = true).
        { intros i Fi j Ij D. apply UQ in Fi. subst i. rewrite forallb_forall in FB. apply FB. apply remove_nat_In. auto. }
        split; [exact L|]. split; [apply hist_cons; auto|]. split; [auto|]. intro E'. split; [exact E'|]. split; [reflexivity|]. apply TRIV. exact AB.
      + assert (S' : forall a b, M a b = true -> absorb M xi (remove_nat xi U) a b = true) by (intros a b Mab; apply absorb_true; auto).
        split.
        { eapply (learned_step _ _ _ _ _ _ _ M _ U t xi); [exact L|exact T|exact SU|exact Fx|].
          intros a b. rewrite absorb_true, remove_nat_In. tauto. }
        split.
        { apply hist_cons; [eapply hist_mono; [exact S'|exact HO]|exact L|exact S'|]. intros i Fi j Ij D. apply UQ in Fi. subst i.
          apply absorb_true. right. split; [reflexivity|]. apply remove_nat_In. auto. }
        split; [exact S'|]. discriminate.
    - assert (N : forall i, ~ fnd M U i) by (apply NOT; discriminate).
      split; [exact L|]. split; [apply hist_cons; auto; intros i Fi; destruct (N i Fi)|]. split; [auto|].
      intro E'. split; [exact E'|]. split; [reflexivity|]. apply TRIV. intros i Fi. destruct (N i Fi).
  Qed.
  Lemma fold_exact : forall t us (M : sets) hist ch, 2 <= t <= S maxl -> (forall U, In U us -> subset_of_size n t U) -> lrn M -> hist_ok M hist ->
    let '(M', hist', ch') := fold_left visit us (M, hist, ch) in
    lrn M' /\ hist_ok M' hist' /\
    (ch' = false -> ch = false /\ M' = M /\ forall U, In U us -> exd M U).
  Proof.
    intros t us. induction us as [|U us IH]; intros M hist ch T HU L HO.
    - cbn [fold_left]. split; [exact L|]. split; [exact HO|]. intro E. split; [exact E|]. split; [reflexivity|]. intros U [].
    - cbn [fold_left]. assert (V := visit_exact t M hist ch U T (HU U (or_introl eq_refl)) L HO).
      destruct (visit (M, hist, ch) U) as [[M1 h1] c1]. destruct V as [L1 [H1 [S1 E1]]].
      assert (G := IH M1 h1 c1 T (fun W I => HU W (or_intror I)) L1 H1).
      destruct (fold_left visit us (M1, h1, c1)) as [[M2 h2] c2]. destruct G as [L2 [H2 E2]].
      split; [exact L2|]. split; [exact H2|]. intro Z. destruct (E2 Z) as [Z1 [-> F]]. destruct (E1 Z1) as [Z2 [-> X]].
      split; [exact Z2|]. split; [reflexivity|]. intros W [<-|I]; [exact X|apply F; exact I].
  Qed.
  Definition all_examined (t : nat) (M : sets) : Prop := forall s U, 2 <= s < t -> subset_of_size n s U -> exd M U.
  Lemma pass_exact : forall (M : sets) hist l, 1 <= l <= maxl -> lrn M -> hist_ok M hist -> all_examined (S l) M ->
    let '(M', hist', ch) := pass M hist l in
    lrn M' /\ hist_ok M' hist' /\ (ch = false -> all_examined (S (S l)) M').
  Proof.
    intros M hist l HL L HO A. unfold ModelRCD.pass.
    assert (CS : forall U, In U (combs (S l) (seq 0 n)) -> subset_of_size n (S l) U) by (intros U IU; apply combs_var_set in IU; exact IU).
    assert (HT : 2 <= S l <= S maxl) by lia.
    assert (G := fold_exact (S l) (combs (S l) (seq 0 n)) M hist false HT CS L HO).
    destruct (fold_left visit (combs (S l) (seq 0 n)) (M, hist, false)) as [[M' h'] c']. destruct G as [L' [H' E']].
    split; [exact L'|]. split; [exact H'|]. intro Z. destruct (E' Z) as [_ [-> F]]. intros s U Hs SU.
    destruct (Nat.eq_dec s (S l)) as [->|D]; [apply F; apply combs_var_set; exact SU|]. apply (A s U); [lia|exact SU].
  Qed.
  Lemma ancestors_exact : 1 <= maxl -> forall k M, rcd_ancestors n maxl mlhsicr nongauss correlated indep_ols indep_ml k = inr M ->
    lrn M /\ forall t U, 2 <= t <= S maxl -> subset_of_size n t U -> exd M U.
  Proof.
    intros HM k M E. unfold rcd_ancestors in E.
    destruct (loop_inv _ _ step (fun st => let '(M, h, l) := st in 1 <= l <= maxl /\ lrn M /\ hist_ok M h /\ all_examined (S l) M))
      with (k := k) (s := (no_sets, @nil (list nat * list nat), 1)) (r := M) as [[[M1 h1] l1] [[I1 [I2 [I3 I4]]] E1]].
    - intros [[Ma ha] la] s' [A1 [A2 [A3 A4]]] Ea. unfold rcd_step in Ea. assert (P := pass_exact Ma ha la A1 A2 A3 A4).
      destruct (pass Ma ha la) as [[M2 h2] c2]. destruct P as [P1 [P2 P3]]. destruct c2.
      + inversion Ea; subst. split; [lia|]. split; [exact P1|]. split; [exact P2|]. intros s U Hs. lia.
      + destruct (Nat.ltb_spec la maxl); inversion Ea; subst. split; [lia|]. split; [exact P1|]. split; [exact P2|]. apply P3. reflexivity.
    - split; [lia|]. split; [constructor; reflexivity|]. split; [intros U H Z; discriminate|]. intros s U Hs. lia.
    - exact E.
    - unfold rcd_step in E1. assert (P := pass_exact M1 h1 l1 I1 I2 I3 I4).
      destruct (pass M1 h1 l1) as [[M2 h2] c2]. destruct P as [P1 [P2 P3]]. destruct c2; [discriminate|].
      destruct (Nat.ltb_spec l1 maxl); inversion E1; subst. split; [exact P1|]. intros t U Ht. apply (P3 eq_refl). lia.
  Qed.
End RCD2.
