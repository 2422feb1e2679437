From Coq Require Import List Arith Lia Bool ZArith QArith Qcanon Permutation Relations.
From Verif Require Import Prelude Spec Lib Loop ModelRCD ProofRCD ModelCAMUV.
Import ListNotations.
Open Scope nat_scope.

Lemma pair_fold_iff : forall (test : nat -> nat -> bool) l (C0 : sets) a b,
  fold_left (fun C p => let '(i, j) := p in if test i j then add_pair C i j else C) l C0 a b = true <->
  C0 a b = true \/ (In (a, b) l /\ test a b = true) \/ (In (b, a) l /\ test b a = true).
Proof.
  intros test l. induction l as [|[i j] l IH]; intros C0 a b; cbn [fold_left].
  - cbn [In]. tauto.
  - rewrite IH. destruct (test i j) eqn:T.
    + unfold add_pair at 1. rewrite !orb_true_iff, !andb_true_iff, !Nat.eqb_eq. cbn [In]. split.
      * intros [[[H|[-> ->]]|[-> ->]]|H]; auto. tauto.
      * intros [H|[[[E|I] K]|[[E|I] K]]]; [auto| | | |]; try (inversion E; subst); tauto.
    + cbn [In]. split; [tauto|]. intros [H|[[[E|I] K]|[[E|I] K]]]; try (inversion E; subst; congruence); tauto.
Qed.
Lemma fold_ext_in : forall A B (f g : A -> B -> A) l a, (forall a x, f a x = g a x) ->
  fold_left f l a = fold_left g l a.
Proof. intros A B f g l. induction l as [|x l IH]; intros a H; [reflexivity|]. cbn [fold_left]. rewrite H. apply IH. exact H. Qed.

Section CAMUV.
  Variables (d maxnum : nat) (hsic : bool) (thr : Qc) (pk : option (list (nat * nat)))
    (ind : nat -> list nat -> nat -> list nat -> bool)
    (value : nat -> list nat -> list (nat * list nat) -> num) (iter : list nat -> list nat).
  Hypothesis iter_perm : forall l, Permutation (iter l) l.
  Notation N := (neighborhoods d ind).
  Notation visit := (cam_visit d hsic thr pk ind value iter N).
  Notation step := (cam_step d maxnum hsic thr pk ind value iter N).

  Lemma neighborhoods_iff : forall a b, N a b = true <->
    (a < b < d /\ ind a [] b [] = false) \/ (b < a < d /\ ind b [] a [] = false).
  Proof.
    intros a b. unfold neighborhoods.
    rewrite (fold_ext_in _ _ _ (fun C p => let '(i, j) := p in if negb (ind i [] j []) then add_pair C i j else C)).
    2:{ intros C [i j]. destruct (ind i [] j []); reflexivity. }
    rewrite (pair_fold_iff (fun i j => negb (ind i [] j []))). unfold no_sets. rewrite !negb_true_iff. split.
    - intros [H|[[I H]|[I H]]]; [discriminate| |]; (apply pairs_In in I; [|apply seq_NoDup]);
        apply seq_precedes in I; auto.
    - intros [[I H]|[I H]]; right; [left|right]; split; try assumption; apply pairs_In_conv, seq_precedes; exact I.
  Qed.

  Lemma get_child_spec : forall P vs c b, get_child d hsic thr pk value iter N P vs = (Some c, b) ->
    In c vs /\ check_pk pk (remove_nat c vs) c = false /\ (forall q, In q (remove_nat c vs) -> N c q = true).
  Proof.
    intros P vs c b. unfold get_child.
    set (f := fun st c0 => _).
    assert (forall l st, (forall c0, In c0 l -> In c0 vs) ->
      (forall c0, snd st = Some c0 -> In c0 vs /\ check_pk pk (remove_nat c0 vs) c0 = false /\ (forall q, In q (remove_nat c0 vs) -> N c0 q = true)) ->
      forall c0, snd (fold_left f l st) = Some c0 ->
        In c0 vs /\ check_pk pk (remove_nat c0 vs) c0 = false /\ (forall q, In q (remove_nat c0 vs) -> N c0 q = true)) as G.
    { induction l as [|x l IH]; intros st HL HS c0; [apply HS|]. cbn [fold_left]. apply IH.
      - intros y Iy. apply HL. right. exact Iy.
      - intros y. unfold f. destruct st as [prev best]. cbn [snd].
        destruct (check_pk pk (remove_nat x vs) x) eqn:K; [apply HS|].
        destruct (check_correlation N x (remove_nat x vs)) eqn:Cc; cbn [negb]; [|apply HS].
        destruct (better hsic _ prev); [|apply HS]. cbn [snd]. intro E. inversion E; subst.
        split; [apply HL; left; reflexivity|]. split; [exact K|]. apply forallb_forall. exact Cc. }
    assert (G0 := G (iter vs) (Some (if hsic then 0%Qc else 1%Qc), None)).
    destruct (fold_left f (iter vs) (Some (if hsic then 0%Qc else 1%Qc), None)) as [best child].
    intro E. inversion E; subst. apply G0; [|discriminate|reflexivity].
    intros c0 I. apply (Permutation_in c0 (iter_perm vs)). exact I.
  Qed.

  Lemma visit_cases : forall P ch vs,
    visit (P, ch) vs = (P, ch) \/
    exists c, visit (P, ch) vs = (absorb P c (remove_nat c vs), match remove_nat c vs with [] => ch | _ => true end) /\
      In c vs /\ not_identified P vs = true /\ check_pk pk (remove_nat c vs) c = false /\
      (forall q, In q (remove_nat c vs) -> N c q = true).
  Proof.
    intros P ch vs. unfold cam_visit. destruct (not_identified P vs) eqn:NI; cbn [negb]; [|left; reflexivity].
    destruct (get_child d hsic thr pk value iter N P vs) as [[c|] b] eqn:G; [|left; reflexivity].
    destruct b; [|left; reflexivity].
    destruct (negb (dependent_without d ind P (remove_nat c vs) c)); [left; reflexivity|].
    right. exists c. destruct (get_child_spec _ _ _ _ G) as [A [B C]]. auto.
  Qed.
  Lemma not_identified_spec : forall P vs, not_identified P vs = true -> forall a b, In a vs -> In b vs -> a <> b -> P a b = false.
  Proof.
    intros P vs H a b Ia Ib D. unfold not_identified in H.
    destruct (precedes_total vs a b Ia Ib D) as [Pr|Pr]; apply pairs_In_conv in Pr;
      assert (X := proj1 (forallb_forall _ _) H _ Pr); cbn [fst snd] in X; apply negb_true_iff in X;
      apply orb_false_iff in X; tauto.
  Qed.

  Lemma fold_inv : forall (Inv : sets -> Prop),
    (forall vs P c, NoDup vs -> (forall v, In v vs -> v < d) -> Inv P -> In c vs -> not_identified P vs = true ->
       check_pk pk (remove_nat c vs) c = false -> (forall q, In q (remove_nat c vs) -> N c q = true) ->
       Inv (absorb P c (remove_nat c vs))) ->
    forall t P ch, Inv P -> Inv (fst (fold_left visit (combs t (seq 0 d)) (P, ch))).
  Proof.
    intros Inv HI t P ch I.
    assert (forall us st, (forall U, In U us -> NoDup U /\ forall v, In v U -> v < d) -> Inv (fst st) ->
      Inv (fst (fold_left visit us st))) as G.
    { induction us as [|U us IH]; intros [P0 c0] Hus I0; [exact I0|]. cbn [fold_left]. apply IH.
      - intros V IV. apply Hus. right. exact IV.
      - destruct (Hus U (or_introl eq_refl)) as [ND B]. destruct (visit_cases P0 c0 U) as [->|[c [-> [A1 [A2 [A3 A4]]]]]]; [exact I0|].
        cbn [fst]. apply HI; assumption. }
    apply G; [|exact I]. intros U IU. split.
    - eapply combs_NoDup_elem; [apply seq_NoDup|exact IU].
    - intros v Iv. apply (proj2 (combs_In _ _ _ IU)) in Iv. apply in_seq in Iv. lia.
  Qed.
  Lemma loop_sets : forall (Inv : sets -> Prop),
    (forall vs P c, NoDup vs -> (forall v, In v vs -> v < d) -> Inv P -> In c vs -> not_identified P vs = true ->
       check_pk pk (remove_nat c vs) c = false -> (forall q, In q (remove_nat c vs) -> N c q = true) ->
       Inv (absorb P c (remove_nat c vs))) ->
    Inv no_sets -> forall k P, loop step k (no_sets, 2) = inr P -> Inv P.
  Proof.
    intros Inv HI I0 k P E.
    destruct (loop_inv _ _ step (fun st => Inv (fst st))) with (k := k) (s := (no_sets, 2)) (r := P) as [[P1 t1] [I1 E1]].
    - intros [Pa ta] s' Ia Ea. unfold cam_step in Ea. assert (F := fold_inv Inv HI ta Pa false Ia).
      destruct (fold_left visit (combs ta (seq 0 d)) (Pa, false)) as [P2 c2]. cbn [fst] in F.
      destruct c2; [inversion Ea; exact F|]. destruct (maxnum <? S ta); inversion Ea. exact F.
    - exact I0.
    - exact E.
    - unfold cam_step in E1. assert (F := fold_inv Inv HI t1 P1 false I1).
      destruct (fold_left visit (combs t1 (seq 0 d)) (P1, false)) as [P2 c2]. cbn [fst] in F.
      destruct c2; [discriminate|]. destruct (maxnum <? S t1); inversion E1. subst. exact F.
  Qed.

  (** ** Termination *)
  Lemma visit_grows : forall vs P ch, (forall v, In v vs -> v < d) ->
    let '(P', ch') := visit (P, ch) vs in
    msize d P <= msize d P' /\ (ch' = true -> ch = true \/ msize d P < msize d P').
  Proof.
    intros vs P ch B. destruct (visit_cases P ch vs) as [E|[c [E [Ic [NI _]]]]]; rewrite E; [auto|].
    destruct (remove_nat c vs) as [|q r] eqn:R.
    - split; [|auto]. apply msize_mono. intros i j T. apply absorb_true. auto.
    - assert (msize d P < msize d (absorb P c (q :: r))); [|split; [lia|auto]].
      assert (In q vs /\ q <> c) as [Iq Dq].
      { apply (proj1 (remove_nat_In c vs q)). rewrite R. left. reflexivity. }
      unfold msize. apply filter_length_strict with (y := (c, q)).
      + intros [a b] T. cbn [fst snd] in *. apply absorb_true. auto.
      + apply in_prod; apply in_seq; [apply B in Ic|apply B in Iq]; lia.
      + cbn [fst snd]. eapply not_identified_spec; [exact NI|exact Ic|exact Iq|congruence].
      + cbn [fst snd]. apply absorb_true. right. split; [reflexivity|left; reflexivity].
  Qed.
  Lemma fold_grows : forall us P ch, (forall U, In U us -> forall v, In v U -> v < d) ->
    let '(P', ch') := fold_left visit us (P, ch) in
    msize d P <= msize d P' /\ (ch' = true -> ch = true \/ msize d P < msize d P').
  Proof.
    induction us as [|U us IH]; intros P ch B; [cbn; auto|]. cbn [fold_left].
    assert (V := visit_grows U P ch (B U (or_introl eq_refl))).
    destruct (visit (P, ch) U) as [P1 c1]. destruct V as [V1 V2].
    assert (I := IH P1 c1 (fun W HW => B W (or_intror HW))).
    destruct (fold_left visit us (P1, c1)) as [P2 c2]. destruct I as [I1 I2].
    split; [lia|]. intro T. destruct (I2 T) as [T1|T1]; [|right; lia].
    destruct (V2 T1); [left; assumption|right; lia].
  Qed.
  Lemma cam_terminates : forall k, cam_top d maxnum < 2 ^ k -> exists P, loop step k (no_sets, 2) = inr P.
  Proof.
    intros k Hk. set (T := Nat.max 2 maxnum) in *. assert (2 <= T) as T2 by apply Nat.le_max_l.
    assert (maxnum <= T) as TM by apply Nat.le_max_r.
    apply (loop_terminates_up _ _ step (fun st => snd st <= T) (fun st => msize d (fst st) * S T + snd st) (cam_top d maxnum));
      [| |exact T2|exact Hk].
    - intros [P t] s' L E. cbn [fst snd] in *. unfold cam_step in E.
      assert (F := fold_grows (combs t (seq 0 d)) P false).
      assert (forall U, In U (combs t (seq 0 d)) -> forall v, In v U -> v < d) as HB.
      { intros U IU v Iv. apply (proj2 (combs_In _ _ _ IU)) in Iv. apply in_seq in Iv. lia. }
      specialize (F HB). destruct (fold_left visit (combs t (seq 0 d)) (P, false)) as [P' c'].
      destruct F as [F1 F2]. destruct c'.
      + inversion E; subst. cbn [fst snd]. split; [exact T2|]. destruct (F2 eq_refl) as [|F3]; [discriminate|].
        assert (S (msize d P) * S T <= msize d P' * S T) by (apply Nat.mul_le_mono_r; exact F3).
        cbn [Nat.mul] in H. lia.
      + destruct (Nat.ltb_spec maxnum (S t)); [discriminate|]. inversion E; subst. cbn [fst snd]. split; [lia|].
        assert (msize d P * S T <= msize d P' * S T) by (apply Nat.mul_le_mono_r; exact F1). lia.
    - intros [P t] L. cbn [fst snd] in *. unfold cam_top. fold T.
      assert (msize d P * S T <= d * d * S T) by (apply Nat.mul_le_mono_r; apply msize_bound). lia.
  Qed.

  (** ** Pruning only removes *)
  Lemma prune_sub : forall l P i j, fold_left (prune_row d ind) l P i j = true -> P i j = true.
  Proof.
    induction l as [|x l IH]; intros P i j H; [exact H|]. cbn [fold_left] in H. apply IH in H.
    unfold prune_row in H. apply (proj1 (andb_true_iff _ _)) in H. tauto.
  Qed.

  Definition cam_good (P : sets) : Prop :=
    (forall i j, P i j = true -> i < d /\ j < d /\ i <> j /\ P j i = false /\ N i j = true) /\
    (forall l a b, pk = Some l -> In (a, b) l -> P b a = false).
  Lemma check_pk_spec : forall l xjs xi a, pk = Some l -> check_pk pk xjs xi = false -> In (a, xi) l -> ~ In a xjs.
  Proof.
    intros l xjs xi a E H I J. unfold check_pk in H. rewrite E in H.
    assert (existsb (fun xj => existsb (fun p => (snd p =? xi) && (fst p =? xj)) l) xjs = true); [|congruence].
    apply existsb_exists. exists a. split; [exact J|]. apply existsb_exists. exists (a, xi). split; [exact I|].
    cbn [fst snd]. rewrite !Nat.eqb_refl. reflexivity.
  Qed.
  Lemma cam_loop_good : forall k P, loop step k (no_sets, 2) = inr P -> cam_good P.
  Proof.
    intros k P E. eapply (loop_sets cam_good); [| |exact E].
    - intros vs P0 c ND B [G1 G2] Ic NI K HN. assert (NS := not_identified_spec P0 vs NI). split.
      + intros i j T. apply absorb_true in T. destruct T as [T|[-> T]].
        * destruct (G1 i j T) as [A1 [A2 [A3 [A4 A5]]]]. repeat split; try assumption.
          destruct (absorb P0 c (remove_nat c vs) j i) eqn:X; [|reflexivity]. exfalso.
          apply absorb_true in X. destruct X as [X|[-> X]]; [congruence|]. apply remove_nat_In in X. destruct X as [X1 X2].
          rewrite (NS i c X1 Ic X2) in T. discriminate.
        * assert (N c j = true) as Ncj by (apply HN; exact T).
          apply remove_nat_In in T. destruct T as [T1 T2]. repeat split; auto.
          destruct (absorb P0 c (remove_nat c vs) j c) eqn:X; [|reflexivity]. exfalso.
          apply absorb_true in X. destruct X as [X|[-> X]]; [|contradiction].
          rewrite (NS j c T1 Ic T2) in X. discriminate.
      + intros l a b El I. destruct (absorb P0 c (remove_nat c vs) b a) eqn:X; [|reflexivity]. exfalso.
        apply absorb_true in X. destruct X as [X|[-> X]].
        * rewrite (G2 l a b El I) in X. discriminate.
        * exact (check_pk_spec l _ c a El K I X).
    - split; [discriminate|reflexivity].
  Qed.
  Lemma cam_good_sub : forall P P', (forall i j, P' i j = true -> P i j = true) -> cam_good P -> cam_good P'.
  Proof.
    intros P P' S [G1 G2]. split.
    - intros i j T. destruct (G1 i j (S i j T)) as [A1 [A2 [A3 [A4 A5]]]]. repeat split; try assumption.
      destruct (P' j i) eqn:X; [|reflexivity]. apply S in X. congruence.
    - intros l a b El I. destruct (P' b a) eqn:X; [|reflexivity]. apply S in X. rewrite (G2 l a b El I) in X. discriminate.
  Qed.
  Lemma find_parents_good : forall k P, find_parents d maxnum hsic thr pk ind value iter k = Some P -> cam_good P.
  Proof.
    intros k P E. unfold find_parents in E. destruct (loop step k (no_sets, 2)) as [s|P0] eqn:L; [discriminate|].
    inversion E; subst. apply (cam_good_sub P0); [|eapply cam_loop_good; exact L].
    intros i j T. eapply prune_sub. exact T.
  Qed.

  (** ** Confounded pairs *)
  Lemma cam_confounded_iff : forall P a b, cam_confounded d ind N P a b = true <->
    (a < b < d \/ b < a < d) /\ P a b = false /\ P b a = false /\ N a b = true /\ N b a = true /\
    (if a <? b then ind a (elems d (P a)) b (elems d (P b)) else ind b (elems d (P b)) a (elems d (P a))) = false.
  Proof.
    intros P a b. unfold cam_confounded.
    rewrite (fold_ext_in _ _ _ (fun C p => let '(i, j) := p in
       if negb (P j i) && negb (P i j) && N j i && N i j && negb (ind i (elems d (P i)) j (elems d (P j))) then add_pair C i j else C)).
    2:{ intros C [i j]. destruct (P j i), (P i j), (N j i), (N i j), (ind i (elems d (P i)) j (elems d (P j))); reflexivity. }
    rewrite (pair_fold_iff (fun i j => negb (P j i) && negb (P i j) && N j i && N i j && negb (ind i (elems d (P i)) j (elems d (P j))))).
    unfold no_sets. rewrite !andb_true_iff, !negb_true_iff. split.
    - intros [H|[[I H]|[I H]]]; [discriminate| |]; (apply pairs_In in I; [|apply seq_NoDup]); apply seq_precedes in I.
      + replace (a <? b) with true by (symmetry; apply Nat.ltb_lt; lia). tauto.
      + replace (a <? b) with false by (symmetry; apply Nat.ltb_ge; lia). tauto.
    - intros [[L|L] [H1 [H2 [H3 [H4 H5]]]]].
      + replace (a <? b) with true in H5 by (symmetry; apply Nat.ltb_lt; lia). right. left.
        split; [apply pairs_In_conv, seq_precedes; exact L|]. tauto.
      + replace (a <? b) with false in H5 by (symmetry; apply Nat.ltb_ge; lia). right. right.
        split; [apply pairs_In_conv, seq_precedes; exact L|]. tauto.
  Qed.
End CAMUV.
