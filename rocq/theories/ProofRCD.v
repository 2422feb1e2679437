From Coq Require Import List Arith Lia Bool ZArith QArith Qcanon Permutation Relations.
From Verif Require Import Prelude Spec Lib Loop ModelRCD.
Import ListNotations.
Open Scope nat_scope.

(** ** Combinations *)
Lemma combs_S_cons : forall k x r, combs (S k) (x :: r) = map (cons x) (combs k r) ++ combs (S k) r.
Proof. reflexivity. Qed.
Lemma combs_In : forall k l U, In U (combs k l) -> length U = k /\ (forall v, In v U -> In v l).
Proof.
  induction k as [|k IH]; intros l U H.
  - destruct H as [<-|[]]. split; [reflexivity|]. intros v [].
  - induction l as [|x r IHr]; [contradiction|]. rewrite combs_S_cons in H. apply in_app_iff in H.
    destruct H as [H|H].
    + apply in_map_iff in H. destruct H as [W [<- HW]]. destruct (IH r W HW) as [L S].
      split; [cbn [length]; lia|]. intros v [->|I]; [left; reflexivity|right; apply S; exact I].
    + destruct (IHr H) as [L S]. split; [exact L|]. intros v I. right. apply S. exact I.
Qed.
Lemma combs_NoDup_elem : forall k l U, NoDup l -> In U (combs k l) -> NoDup U.
Proof.
  induction k as [|k IH]; intros l U ND H.
  - destruct H as [<-|[]]. constructor.
  - induction l as [|x r IHr]; [contradiction|]. rewrite combs_S_cons in H. apply in_app_iff in H.
    inversion ND; subst. destruct H as [H|H].
    + apply in_map_iff in H. destruct H as [W [<- HW]]. constructor; [|apply (IH r); assumption].
      intro I. apply (combs_In k r W HW) in I. contradiction.
    + apply IHr; assumption.
Qed.
Lemma pairs_In : forall l i j, NoDup l -> In (i, j) (pairs l) -> precedes l i j.
Proof.
  induction l as [|x r IH]; intros i j ND H; [contradiction|]. cbn [pairs] in H. apply in_app_iff in H.
  inversion ND; subst. destruct H as [H|H].
  - apply in_map_iff in H. destruct H as [b [E I]]. inversion E; subst. apply in_split in I.
    destruct I as [a [c ->]]. exists [], a, c. reflexivity.
  - destruct (IH i j H3 H) as [a [b [c ->]]]. exists (x :: a), b, c. reflexivity.
Qed.
Lemma pairs_In_conv : forall l i j, precedes l i j -> In (i, j) (pairs l).
Proof.
  induction l as [|x r IH]; intros i j [a [b [c E]]].
  - destruct a; discriminate.
  - cbn [pairs]. apply in_app_iff. destruct a as [|y a].
    + inversion E; subst. left. apply in_map. apply in_app_iff. right. left. reflexivity.
    + inversion E; subst. right. apply IH. exists a, b, c. reflexivity.
Qed.
Lemma seq_precedes : forall n i j, precedes (seq 0 n) i j <-> i < j < n.
Proof.
  intros n i j. split.
  - intro H. apply precedes_nth in H. destruct H as [a [b [L [Ha Hb]]]].
    assert (a < length (seq 0 n)) by (apply nth_error_Some; congruence).
    assert (b < length (seq 0 n)) by (apply nth_error_Some; congruence).
    rewrite seq_length in *.
    rewrite (nth_error_nth' _ 0) in Ha by (rewrite seq_length; assumption).
    rewrite (nth_error_nth' _ 0) in Hb by (rewrite seq_length; assumption).
    rewrite seq_nth in Ha, Hb by assumption. inversion Ha. inversion Hb. lia.
  - intro H. exists (seq 0 i), (seq (S i) (j - S i)), (seq (S j) (n - S j)).
    replace n with (i + S ((j - S i) + S (n - S j))) at 1 by lia.
    rewrite seq_app. cbn [plus seq]. f_equal. f_equal. rewrite seq_app. f_equal. cbn [seq].
    f_equal; [lia|f_equal; lia].
Qed.

Lemma filter_length_le : forall A (p : A -> bool) l, length (filter p l) <= length l.
Proof. intros A p l. induction l as [|x l IH]; [apply le_n|]. cbn [filter]. destruct (p x); cbn [length]; lia. Qed.

Section RCD.
  Variables (n maxl : nat) (mlhsicr : bool)
    (nongauss : list nat -> nat -> bool) (correlated : list nat -> nat -> nat -> bool)
    (indep_ols indep_ml : list nat -> nat -> list nat -> nat -> bool).
  Notation visit := (visit n mlhsicr nongauss correlated indep_ols indep_ml).
  Notation pass := (pass n mlhsicr nongauss correlated indep_ols indep_ml).
  Notation step := (rcd_step n maxl mlhsicr nongauss correlated indep_ols indep_ml).
  Notation indep := (indep_of_resid mlhsicr indep_ols indep_ml).

  Definition bounded (M : sets) := forall i j, M i j = true -> i < n /\ j < n.
  Definition asym (M : sets) := (forall i, M i i = false) /\ forall i j, M i j = true -> M j i = false.

  (** What one visit can do. *)
  Lemma visit_cases : forall M hist ch U,
    (exists hist', visit (M, hist, ch) U = (M, hist', ch)) \/
    (exists hist' xi H, visit (M, hist, ch) U = (absorb M xi (remove_nat xi U), hist', true) /\
       In xi U /\ exists_ancestor M xi (remove_nat xi U) = false /\
       indep H xi (remove_nat xi U) = true /\ exists xj, In xj (remove_nat xi U) /\ M xi xj = false).
  Proof.
    intros M hist ch U. unfold ModelRCD.visit. cbv zeta.
    set (H := common_ancestors n M U).
    destruct (match hist_get hist U with Some H' => list_eqb H H' | None => false end); [left; eauto|].
    destruct (negb (forallb (nongauss H) U)); [left; eauto|].
    destruct (negb (forallb (fun p => correlated H (fst p) (snd p)) (pairs U))); [left; eauto|].
    destruct (sinks mlhsicr indep_ols indep_ml M H U) as [|xi [|y r]] eqn:E; [left; eauto| |left; eauto].
    destruct (forallb (M xi) (remove_nat xi U)) eqn:F; [left; eauto|]. right.
    exists ((U, H) :: hist), xi, H. split; [reflexivity|].
    assert (In xi (sinks mlhsicr indep_ols indep_ml M H U)) as I by (rewrite E; left; reflexivity).
    unfold sinks in I. apply filter_In in I. destruct I as [I1 I2]. apply andb_true_iff in I2.
    destruct I2 as [I2 I3]. apply negb_true_iff in I2. repeat split; try assumption.
    assert (~ forall x, In x (remove_nat xi U) -> M xi x = true) as NF.
    { intro A. assert (forallb (M xi) (remove_nat xi U) = true); [apply forallb_forall; exact A|congruence]. }
    clear -NF. induction (remove_nat xi U) as [|a l IH]; [exfalso; apply NF; intros x []|].
    destruct (M xi a) eqn:Ma.
    - destruct IH as [xj [I J]]; [intro A; apply NF; intros x [<-|Ix]; auto|]. exists xj. split; [right; exact I|exact J].
    - exists a. split; [left; reflexivity|exact Ma].
  Qed.
  Lemma exists_ancestor_false : forall M xi xjs, exists_ancestor M xi xjs = false ->
    forall xj, In xj xjs -> M xj xi = false.
  Proof.
    intros M xi xjs H xj I. unfold exists_ancestor in H. apply orb_false_iff in H. destruct H as [H _].
    destruct (M xj xi) eqn:E; [|reflexivity]. assert (existsb (fun xj => M xj xi) xjs = true); [|congruence].
    apply existsb_exists. eauto.
  Qed.
  Lemma absorb_true : forall M xi xjs i j, absorb M xi xjs i j = true <->
    M i j = true \/ (i = xi /\ In j xjs).
  Proof. intros. unfold absorb. rewrite orb_true_iff, andb_true_iff, Nat.eqb_eq, memb_In. reflexivity. Qed.

  (** Generic invariant preservation. *)
  Lemma visit_inv : forall (Inv : sets -> Prop) U,
    (forall M xi H, Inv M -> In xi U -> exists_ancestor M xi (remove_nat xi U) = false ->
       indep H xi (remove_nat xi U) = true -> Inv (absorb M xi (remove_nat xi U))) ->
    forall M hist ch, Inv M -> Inv (fst (fst (visit (M, hist, ch) U))).
  Proof.
    intros Inv U HI M hist ch I. destruct (visit_cases M hist ch U) as [[h E]|[h [xi [H [E [A [B [C _]]]]]]]].
    - rewrite E. exact I.
    - rewrite E. cbn [fst]. eapply HI; eauto.
  Qed.
  Lemma pass_inv : forall (Inv : sets -> Prop),
    (forall U M xi H, NoDup U -> (forall v, In v U -> v < n) -> Inv M -> In xi U ->
       exists_ancestor M xi (remove_nat xi U) = false ->
       indep H xi (remove_nat xi U) = true -> Inv (absorb M xi (remove_nat xi U))) ->
    forall M hist l, Inv M -> Inv (fst (fst (pass M hist l))).
  Proof.
    intros Inv HI M hist l I. unfold ModelRCD.pass.
    assert (forall us st, (forall U, In U us -> NoDup U /\ forall v, In v U -> v < n) -> Inv (fst (fst st)) ->
      Inv (fst (fst (fold_left visit us st)))) as G.
    { induction us as [|U us IH]; intros [[M0 h0] c0] Hus I0; [exact I0|]. cbn [fold_left]. apply IH.
      - intros V IV. apply Hus. right. exact IV.
      - destruct (Hus U (or_introl eq_refl)) as [ND B]. apply visit_inv; [|exact I0].
        intros. eapply HI; eauto. }
    apply G; [|exact I]. intros U IU. split.
    - eapply combs_NoDup_elem; [apply seq_NoDup|exact IU].
    - intros v Iv. apply (proj2 (combs_In _ _ _ IU)) in Iv. apply in_seq in Iv. lia.
  Qed.
  Lemma loop_sets_inv : forall (Inv : sets -> Prop),
    (forall U M xi H, NoDup U -> (forall v, In v U -> v < n) -> Inv M -> In xi U ->
       exists_ancestor M xi (remove_nat xi U) = false ->
       indep H xi (remove_nat xi U) = true -> Inv (absorb M xi (remove_nat xi U))) ->
    Inv no_sets -> forall k M, rcd_ancestors n maxl mlhsicr nongauss correlated indep_ols indep_ml k = inr M -> Inv M.
  Proof.
    intros Inv HI I0 k M E. unfold rcd_ancestors in E.
    destruct (loop_inv _ _ step (fun st => Inv (fst (fst st)))) with (k := k) (s := (no_sets, @nil (list nat * list nat), 1)) (r := M)
      as [[[M1 h1] l1] [I1 E1]].
    - intros [[Ma ha] la] s' Ia Ea. unfold rcd_step in Ea.
      assert (P := pass_inv Inv HI Ma ha la Ia).
      destruct (pass Ma ha la) as [[M2 h2] c2]. cbn [fst] in P.
      destruct c2; [inversion Ea; exact P|]. destruct (la <? maxl); inversion Ea. exact P.
    - exact I0.
    - exact E.
    - unfold rcd_step in E1. assert (P := pass_inv Inv HI M1 h1 l1 I1).
      destruct (pass M1 h1 l1) as [[M2 h2] c2]. cbn [fst] in P.
      destruct c2; [discriminate|]. destruct (l1 <? maxl); inversion E1. subst. exact P.
  Qed.

  (** ** Growth and termination *)
  Definition msize (M : sets) : nat := length (filter (fun p => M (fst p) (snd p)) (list_prod (seq 0 n) (seq 0 n))).
  Lemma msize_bound : forall M, msize M <= n * n.
  Proof.
    intro M. unfold msize. eapply Nat.le_trans; [apply filter_length_le|]. rewrite prod_length, !seq_length. lia.
  Qed.
  Lemma filter_length_mono : forall A (p q : A -> bool) l, (forall x, p x = true -> q x = true) ->
    length (filter p l) <= length (filter q l).
  Proof.
    intros A p q l H. induction l as [|x l IH]; [apply le_n|]. cbn [filter].
    destruct (p x) eqn:P; [rewrite (H x P)|destruct (q x)]; cbn [length]; lia.
  Qed.
  Lemma filter_length_strict : forall A (p q : A -> bool) l y, (forall x, p x = true -> q x = true) ->
    In y l -> p y = false -> q y = true -> length (filter p l) < length (filter q l).
  Proof.
    intros A p q l y H I Py Qy. induction l as [|x l IH]; [contradiction|]. cbn [filter]. destruct I as [->|I].
    - rewrite Py, Qy. cbn [length]. assert (L := filter_length_mono A p q l H). lia.
    - specialize (IH I). destruct (p x) eqn:P; [rewrite (H x P)|destruct (q x)]; cbn [length]; lia.
  Qed.
  Lemma msize_mono : forall M M', (forall i j, M i j = true -> M' i j = true) -> msize M <= msize M'.
  Proof. intros M M' H. unfold msize. apply filter_length_mono. intros [i j]. cbn [fst snd]. apply H. Qed.
  Lemma visit_size : forall U M hist ch, (forall v, In v U -> v < n) ->
    let '(M', _, ch') := visit (M, hist, ch) U in
    (forall i j, M i j = true -> M' i j = true) /\
    (ch = true -> ch' = true) /\ (ch' = true -> ch = true \/ msize M < msize M').
  Proof.
    intros U M hist ch B. destruct (visit_cases M hist ch U) as [[h E]|[h [xi [H [E [I [_ [_ [xj [J F]]]]]]]]]].
    - rewrite E. auto.
    - rewrite E. split; [intros i j T; apply absorb_true; auto|]. split; [reflexivity|]. intros _. right.
      unfold msize. apply filter_length_strict with (y := (xi, xj)).
      + intros [a b] T. cbn [fst snd] in *. apply absorb_true. auto.
      + apply in_prod; apply in_seq; [apply B in I; lia|]. apply remove_nat_In in J. destruct J as [J _]. apply B in J. lia.
      + exact F.
      + cbn [fst snd]. apply absorb_true. auto.
  Qed.
  Lemma fold_size : forall us M hist ch, (forall U, In U us -> forall v, In v U -> v < n) ->
    let '(M', _, ch') := fold_left visit us (M, hist, ch) in
    msize M <= msize M' /\ (ch' = true -> ch = true \/ msize M < msize M').
  Proof.
    induction us as [|U us IH]; intros M hist ch B; [cbn; auto|]. cbn [fold_left].
    assert (V := visit_size U M hist ch (B U (or_introl eq_refl))).
    destruct (visit (M, hist, ch) U) as [[M1 h1] c1]. destruct V as [V1 [V2 V3]].
    assert (I := IH M1 h1 c1 (fun W HW => B W (or_intror HW))).
    destruct (fold_left visit us (M1, h1, c1)) as [[M2 h2] c2]. destruct I as [I1 I2].
    assert (L := msize_mono _ _ V1). split; [lia|]. intro T. destruct (I2 T) as [T1|T1]; [|right; lia].
    destruct (V3 T1); [left; assumption|right; lia].
  Qed.
  Lemma ancestors_terminates : 1 <= maxl -> forall k, n * n * S maxl + maxl < 2 ^ k ->
    exists M, rcd_ancestors n maxl mlhsicr nongauss correlated indep_ols indep_ml k = inr M.
  Proof.
    intros Hm k Hk. unfold rcd_ancestors.
    apply (loop_terminates_up _ _ step (fun st => snd st <= maxl)
             (fun st => msize (fst (fst st)) * S maxl + snd st) (n * n * S maxl + maxl)); [| |cbn [snd]; exact Hm|exact Hk].
    - intros [[M h] l] s' L E. cbn [snd fst] in *. unfold rcd_step in E.
      assert (F := fold_size (combs (S l) (seq 0 n)) M h false). 
      assert (forall U, In U (combs (S l) (seq 0 n)) -> forall v, In v U -> v < n) as HB.
      { intros U IU v Iv. apply (proj2 (combs_In _ _ _ IU)) in Iv. apply in_seq in Iv. lia. }
      specialize (F HB). unfold ModelRCD.pass in E.
      destruct (fold_left visit (combs (S l) (seq 0 n)) (M, h, false)) as [[M' h'] c'].
      destruct F as [F1 F2]. destruct c'.
      + inversion E; subst. cbn [fst snd]. split; [exact Hm|].
        destruct (F2 eq_refl) as [|F3]; [discriminate|].
        assert (S (msize M) * S maxl <= msize M' * S maxl) by (apply Nat.mul_le_mono_r; exact F3).
        cbn [Nat.mul] in H. lia.
      + destruct (Nat.ltb_spec l maxl); [|discriminate]. inversion E; subst. cbn [fst snd]. split; [lia|].
        assert (msize M * S maxl <= msize M' * S maxl) by (apply Nat.mul_le_mono_r; exact F1). lia.
    - intros [[M h] l] L. cbn [fst snd] in *.
      assert (msize M * S maxl <= n * n * S maxl) by (apply Nat.mul_le_mono_r; apply msize_bound). lia.
  Qed.

  (** ** Shape of the ancestor sets *)
  Lemma absorb_asym : forall U M xi, NoDup U -> asym M -> exists_ancestor M xi (remove_nat xi U) = false ->
    asym (absorb M xi (remove_nat xi U)).
  Proof.
    intros U M xi ND [A1 A2] E. assert (F := exists_ancestor_false M xi _ E).
    assert (forall i j, absorb M xi (remove_nat xi U) i j = true -> absorb M xi (remove_nat xi U) j i = true -> False) as G.
    { intros i j H1 H2. apply absorb_true in H1. apply absorb_true in H2.
      destruct H1 as [H1|[-> H1]], H2 as [H2|[E2 H2]].
      - apply A2 in H1. congruence.
      - subst. rewrite F in H1 by exact H2. discriminate.
      - rewrite F in H2 by exact H1. discriminate.
      - subst. apply remove_nat_In in H1. destruct H1. congruence. }
    split.
    - intro i. destruct (absorb M xi (remove_nat xi U) i i) eqn:T; [|reflexivity]. exfalso. exact (G i i T T).
    - intros i j T. destruct (absorb M xi (remove_nat xi U) j i) eqn:T2; [|reflexivity]. exfalso. exact (G i j T T2).
  Qed.
  Lemma ancestors_shape : forall k M, rcd_ancestors n maxl mlhsicr nongauss correlated indep_ols indep_ml k = inr M ->
    asym M /\ bounded M.
  Proof.
    intros k M E. apply (loop_sets_inv (fun M => asym M /\ bounded M)) with (k := k); [| |exact E].
    - intros U M0 xi H ND B [A1 A2] I X _. split; [apply absorb_asym; assumption|].
      intros i j T. apply absorb_true in T. destruct T as [T|[-> T]]; [apply A2; exact T|].
      apply remove_nat_In in T. destruct T as [T _]. split; apply B; assumption.
    - split; [split; [reflexivity|discriminate]|]. intros i j T. discriminate.
  Qed.
  (** If every accepted sink test is right about relation [R], so are the ancestor sets. *)
  Lemma ancestors_sound : forall (R : nat -> nat -> Prop),
    (forall H xi xjs, indep H xi xjs = true -> forall xj, In xj xjs -> R xj xi) ->
    forall k M, rcd_ancestors n maxl mlhsicr nongauss correlated indep_ols indep_ml k = inr M ->
    forall i j, M i j = true -> R j i.
  Proof.
    intros R HR k M E. apply (loop_sets_inv (fun M => forall i j, M i j = true -> R j i)) with (k := k); [| |exact E].
    - intros U M0 xi H ND B I Ix X T i j A. apply absorb_true in A. destruct A as [A|[-> A]]; [apply I; exact A|].
      eapply HR; eauto.
    - discriminate.
  Qed.
End RCD.

(** ** Confounders and adjacency matrix *)
Section Shape.
  Variables (n : nat) (cor_resid : nat -> list nat -> nat -> list nat -> bool) (coef : nat -> list nat -> nat -> Qc) (P : sets).
  Notation C := (rcd_confounded n cor_resid P).
  Definition shares i j := i < j < n /\ P j i = false /\ P i j = false /\
    cor_resid i (elems n (P i)) j (elems n (P j)) = true.
  Lemma confounded_iff : forall a b, C a b = true <-> shares a b \/ shares b a.
  Proof.
    intros a b. unfold rcd_confounded, shares.
    assert (forall l C0 a b, fold_left (fun C p => let '(i, j) := p in
                 if P j i || P i j then C
                 else if cor_resid i (elems n (P i)) j (elems n (P j)) then add_pair C i j else C) l C0 a b = true <->
      C0 a b = true \/ exists i j, In (i, j) l /\ P j i = false /\ P i j = false /\
        cor_resid i (elems n (P i)) j (elems n (P j)) = true /\ ((a = i /\ b = j) \/ (a = j /\ b = i))) as G.
    { induction l as [|[i j] l IH]; intros C0 x y; cbn [fold_left].
      - split; [auto|]. intros [H|[i [j [[] _]]]]. exact H.
      - rewrite IH. destruct (P j i || P i j) eqn:E1.
        + split; intros [H|[i0 [j0 [I K]]]]; auto.
          * right. exists i0, j0. split; [right; exact I|exact K].
          * destruct I as [I|I]; [inversion I; subst; destruct K as [K1 [K2 _]]; rewrite K1, K2 in E1; discriminate|].
            right. exists i0, j0. auto.
        + apply orb_false_iff in E1. destruct E1 as [E1 E2].
          destruct (cor_resid i (elems n (P i)) j (elems n (P j))) eqn:E3.
          * split; intros [H|[i0 [j0 [I K]]]].
            -- unfold add_pair in H. rewrite !orb_true_iff, !andb_true_iff, !Nat.eqb_eq in H.
               destruct H as [[H|H]|H]; [auto| |]; right; exists i, j; repeat split; auto; left; reflexivity.
            -- right. exists i0, j0. split; [right; exact I|exact K].
            -- left. unfold add_pair. rewrite H. reflexivity.
            -- destruct I as [I|I].
               ++ inversion I; subst. left. unfold add_pair. rewrite !orb_true_iff, !andb_true_iff, !Nat.eqb_eq. tauto.
               ++ right. exists i0, j0. auto.
          * split; intros [H|[i0 [j0 [I K]]]]; auto.
            -- right. exists i0, j0. split; [right; exact I|exact K].
            -- destruct I as [I|I]; [inversion I; subst; destruct K as [_ [_ [K3 _]]]; congruence|].
               right. exists i0, j0. auto. }
    rewrite G. unfold no_sets. split.
    - intros [H|[i [j [I [K1 [K2 [K3 K4]]]]]]]; [discriminate|]. apply pairs_In in I; [|apply seq_NoDup].
      apply seq_precedes in I. destruct K4 as [[-> ->]|[-> ->]]; auto.
    - intro H. right. destruct H as [[H1 H2]|[H1 H2]].
      + exists a, b. split; [apply pairs_In_conv, seq_precedes; exact H1|]. tauto.
      + exists b, a. split; [apply pairs_In_conv, seq_precedes; exact H1|]. tauto.
  Qed.
  Lemma adjacency_nan_iff : forall i j, rcd_adjacency n coef P C i j = None <-> shares i j \/ shares j i.
  Proof.
    intros i j. rewrite <- confounded_iff. unfold rcd_adjacency. destruct (C i j); [tauto|].
    destruct (P i j); split; intro H; discriminate.
  Qed.
  Lemma adjacency_value : forall i j v, rcd_adjacency n coef P C i j = Some v -> v <> 0%Qc -> P i j = true.
  Proof.
    intros i j v H N. unfold rcd_adjacency in H. destruct (C i j); [discriminate|]. destruct (P i j); [reflexivity|].
    congruence.
  Qed.
End Shape.

(** ** MultiGroupRCD *)
Lemma mg_fcorr_last : forall fs f thr, mg_fcorr_independent (fs ++ [f]) thr = Ok (qltb f thr).
Proof.
  intros fs f thr. unfold mg_fcorr_independent. rewrite fold_left_app. cbn [fold_left].
  destruct (fold_left _ fs _) as [mx lf]. reflexivity.
Qed.
Lemma ext_add_comm : forall a b, ext_add a b = ext_add b a.
Proof. intros [a|] [b|]; cbn; try reflexivity. f_equal. ring. Qed.
Lemma ext_add_assoc : forall a b c, ext_add (ext_add a b) c = ext_add a (ext_add b c).
Proof. intros [a|] [b|] [c|]; cbn; try reflexivity. f_equal. ring. Qed.
Lemma fisher_perm : forall m2log ps ps', Permutation ps ps' -> fisher_stat m2log ps = fisher_stat m2log ps'.
Proof.
  intros m2log ps ps' P. unfold fisher_stat. generalize (Some 0%Qc).
  induction P as [|x l l' P IH|x y l|l l' l'' P1 IH1 P2 IH2]; intro s; cbn [fold_left].
  - reflexivity.
  - apply IH.
  - f_equal. rewrite !ext_add_assoc. f_equal. apply ext_add_comm.
  - rewrite IH1. apply IH2.
Qed.
Lemma mg_hsic_perm : forall m2log sf alpha ps ps', Permutation ps ps' ->
  mg_hsic_independent m2log sf alpha ps = mg_hsic_independent m2log sf alpha ps'.
Proof.
  intros m2log sf alpha ps ps' P. unfold mg_hsic_independent.
  rewrite (fisher_perm m2log ps ps' P), (Permutation_length P). reflexivity.
Qed.
