From Coq Require Import List Arith Lia Bool ZArith QArith Qcanon Permutation Sorted.
From Verif Require Import Prelude Spec Lib Loop ModelRCD ProofRCD ModelCAMUV ProofCAMUV SpecCAMUV.
Import ListNotations.
Open Scope nat_scope.

Lemma combs_sorted : forall k a n U, In U (combs k (seq a n)) -> StronglySorted lt U.
Proof.
  induction k as [|k IH]; intros a n U.
  - intros [<-|[]]. constructor.
  - revert a U. induction n as [|n IHn]; intros a U; [intros []|]. cbn [seq]. rewrite combs_S_cons.
    intro I. apply in_app_or in I. destruct I as [I|I].
    + apply in_map_iff in I. destruct I as [V [<- IV]]. constructor; [apply (IH _ _ _ IV)|].
      apply Forall_forall. intros x Ix. apply (proj2 (combs_In _ _ _ IV)) in Ix. apply in_seq in Ix. lia.
    + apply (IHn _ _ I).
Qed.
Lemma combs_complete : forall k a n U, length U = k -> StronglySorted lt U -> (forall v, In v U -> a <= v < a + n) ->
  In U (combs k (seq a n)).
Proof.
  induction k as [|k IH]; intros a n U L S B.
  - destruct U; [left; reflexivity|discriminate].
  - destruct U as [|u U]; [discriminate|]. cbn in L. inversion S as [|? ? S' F]; subst.
    rewrite Forall_forall in F. revert a B. induction n as [|n IHn]; intros a B.
    + exfalso. specialize (B u (or_introl eq_refl)). lia.
    + cbn [seq]. rewrite combs_S_cons. apply in_or_app. destruct (Nat.eq_dec u a) as [E|E].
      * subst a. left. apply in_map. apply IH; [lia|exact S'|].
        intros v Iv. specialize (F v Iv). specialize (B v (or_intror Iv)). lia.
      * right. apply IHn. intros v Iv. assert (B1 := B v Iv). destruct Iv as [<-|Iv].
        -- assert (B2 := B u (or_introl eq_refl)). lia.
        -- specialize (F v Iv). assert (B2 := B u (or_introl eq_refl)). lia.
Qed.
Lemma combs_var_set : forall d t K, In K (combs t (seq 0 d)) <-> var_set d t K.
Proof.
  intros d t K. split.
  - intro I. destruct (combs_In _ _ _ I) as [L B]. split; [exact L|]. split; [eapply combs_sorted; exact I|].
    intros v Iv. apply B in Iv. apply in_seq in Iv. lia.
  - intros [L [S B]]. apply combs_complete; [exact L|exact S|]. intros v Iv. apply B in Iv. lia.
Qed.

Section CAMUV2.
  Variables (d maxnum : nat) (hsic : bool) (thr : Qc) (pk : option (list (nat * nat)))
    (ind : nat -> list nat -> nat -> list nat -> bool)
    (value : nat -> list nat -> list (nat * list nat) -> num) (iter : list nat -> list nat).
  Hypothesis iter_perm : forall l, Permutation (iter l) l.
  Definition banned (a b : nat) : Prop := match pk with None => False | Some l => In (a, b) l end.
  Notation N := (neighborhoods d ind).
  Notation visit := (cam_visit d hsic thr pk ind value iter N).
  Notation step := (cam_step d maxnum hsic thr pk ind value iter N).
  Notation est := (establishes d hsic thr banned ind value iter).
  Notation elig := (eligible d banned ind).
  Notation sc := (score d value).


  Lemma check_pk_iff : forall xjs xi, check_pk pk xjs xi = false <-> forall p, In p xjs -> ~ banned p xi.
  Proof.
    intros xjs xi. unfold check_pk, banned. destruct pk as [l|]; [|split; [tauto|reflexivity]]. split.
    - intros H p Ip Il. assert (existsb (fun xj => existsb (fun q => (snd q =? xi) && (fst q =? xj)) l) xjs = true); [|congruence].
      apply existsb_exists. exists p. split; [exact Ip|]. apply existsb_exists. exists (p, xi). split; [exact Il|].
      cbn [fst snd]. rewrite !Nat.eqb_refl. reflexivity.
    - intro H. destruct (existsb _ xjs) eqn:E; [|reflexivity]. exfalso. apply existsb_exists in E.
      destruct E as [p [Ip E]]. apply existsb_exists in E. destruct E as [[a b] [Il E]]. cbn [fst snd] in E.
      apply andb_true_iff in E. destruct E as [E1 E2]. apply Nat.eqb_eq in E1, E2. subst. exact (H _ Ip Il).
  Qed.
  Lemma neighbours_iff : forall a b, N a b = true <-> neighbours d ind a b.
  Proof. intros a b. rewrite neighborhoods_iff. reflexivity. Qed.
  Definition elb (K : list nat) (c : nat) : bool :=
    negb (check_pk pk (remove_nat c K) c) && check_correlation N c (remove_nat c K).
  Lemma elb_iff : forall K c, elb K c = true <-> elig K c.
  Proof.
    intros K c. unfold elb, eligible. rewrite andb_true_iff, negb_true_iff, check_pk_iff.
    unfold check_correlation. rewrite forallb_forall. split.
    - intros [A B] p Ip D. assert (In p (remove_nat c K)) as I by (apply remove_nat_In; auto).
      split; [apply A; exact I|]. apply neighbours_iff. apply B. exact I.
    - intro H. split; intros p Ip; apply remove_nat_In in Ip; destruct Ip as [I D]; destruct (H p I D) as [A B]; [exact A|].
      apply neighbours_iff. exact B.
  Qed.
  Lemma better_iff : forall v w, better hsic v w = true <-> beats hsic v w.
  Proof.
    intros [v|] [w|]; unfold better, beats, nltb; destruct hsic; cbn; try (rewrite qltb_lt; reflexivity);
      try (split; [discriminate|tauto]).
  Qed.
  Lemma beats_trans_worst : forall v w u, beats hsic v u -> ~ beats hsic (Some w) u -> u <> None -> beats hsic v (Some w).
  Proof.
    intros [v|] w [u|]; unfold beats; destruct hsic; try tauto; intros A B _; apply Qcnot_lt_le in B; qclra.
  Qed.
  Definition pick (P : sets) (K : list nat) (st : num * option nat) (c : nat) : num * option nat :=
    if elb K c then if better hsic (sc P K c) (fst st) then (sc P K c, Some c) else st else st.
  Lemma get_child_pick : forall P K, get_child d hsic thr pk value iter N P K =
    let st := fold_left (pick P K) (iter K) (worst hsic, None) in
    (snd st, if hsic then nltb (Some thr) (fst st) else nltb (fst st) (Some thr)).
  Proof.
    intros P K. unfold get_child. cbv zeta. unfold worst.
    rewrite (fold_ext_in _ _ _ (pick P K)).
    - destruct (fold_left (pick P K) (iter K) _) as [a b]. reflexivity.
    - intros [prev best] x. unfold pick, elb, sc. cbn [fst].
      destruct (check_pk pk (remove_nat x K) x); cbn [negb andb]; [reflexivity|].
      destruct (check_correlation N x (remove_nat x K)); reflexivity.
  Qed.
  Definition best_in (P : sets) (K L : list nat) (c : nat) : Prop :=
    elig K c /\ beats hsic (sc P K c) (worst hsic) /\
    exists before after, L = before ++ c :: after /\
      (forall a w, In a before -> elig K a -> sc P K a = Some w -> beats hsic (sc P K c) (Some w)) /\
      (forall a w, In a after -> elig K a -> sc P K a = Some w -> ~ beats hsic (Some w) (sc P K c)).
  Lemma pick_spec : forall P K L,
    let st := fold_left (pick P K) L (worst hsic, None) in
    (snd st = None /\ fst st = worst hsic /\
       forall a w, In a L -> elig K a -> sc P K a = Some w -> ~ beats hsic (Some w) (worst hsic)) \/
    (exists c, snd st = Some c /\ fst st = sc P K c /\ best_in P K L c).
  Proof.
    intros P K L. induction L as [|x L IH] using rev_ind; cbv zeta.
    - left. split; [reflexivity|]. split; [reflexivity|]. intros a w [].
    - cbv zeta in IH. rewrite fold_left_app. cbn [fold_left].
      set (st := fold_left (pick P K) L (worst hsic, None)) in *. unfold pick.
      destruct (elb K x) eqn:E.
      + assert (EX := proj1 (elb_iff _ _) E). destruct (better hsic (sc P K x) (fst st)) eqn:Bt.
        * right. exists x. split; [reflexivity|]. split; [reflexivity|]. apply better_iff in Bt.
          destruct IH as [[A [B C]]|[c [A [B [D1 [D2 [bf [af [D3 [D4 D5]]]]]]]]]].
          -- rewrite B in Bt. split; [exact EX|]. split; [exact Bt|]. exists L, []. split; [reflexivity|]. split; [|intros a w []].
             intros a w Ia Ea Sa. apply (beats_trans_worst _ _ (worst hsic)); [exact Bt|eapply C; eassumption|discriminate].
          -- rewrite B in Bt. split; [exact EX|]. split.
             { destruct (sc P K x) as [v|], (sc P K c) as [w|]; unfold beats, worst in *; destruct hsic; try tauto; qclra. }
             exists L, []. split; [reflexivity|]. split; [|intros a w []].
             intros a w Ia Ea Sa. rewrite D3 in Ia. apply in_app_or in Ia. destruct Ia as [Ia|[<-|Ia]].
             ++ specialize (D4 a w Ia Ea Sa). destruct (sc P K x) as [v|], (sc P K c) as [u|]; unfold beats in *; destruct hsic; try tauto; qclra.
             ++ rewrite Sa in Bt. exact Bt.
             ++ apply (beats_trans_worst _ _ (sc P K c)); [exact Bt|eapply D5; eassumption|].
                intro Z. rewrite Z in D2. exact D2.
        * assert (~ beats hsic (sc P K x) (fst st)) as NB by (intro Z; apply better_iff in Z; congruence).
          destruct IH as [[A [B C]]|[c [A [B [D1 [D2 [bf [af [D3 [D4 D5]]]]]]]]]].
          -- left. split; [exact A|]. split; [exact B|]. intros a w Ia Ea Sa. apply in_app_or in Ia.
             destruct Ia as [Ia|[<-|[]]]; [eapply C; eassumption|]. rewrite <- Sa, <- B. exact NB.
          -- right. exists c. split; [exact A|]. split; [exact B|]. split; [exact D1|]. split; [exact D2|].
             exists bf, (af ++ [x]). split; [rewrite D3, <- app_assoc; reflexivity|]. split; [exact D4|].
             intros a w Ia Ea Sa. apply in_app_or in Ia. destruct Ia as [Ia|[<-|[]]]; [eapply D5; eassumption|].
             rewrite <- Sa, <- B. exact NB.
      + assert (~ elig K x) as NE by (intro Z; apply elb_iff in Z; congruence).
        destruct IH as [[A [B C]]|[c [A [B [D1 [D2 [bf [af [D3 [D4 D5]]]]]]]]]].
        * left. split; [exact A|]. split; [exact B|]. intros a w Ia Ea Sa. apply in_app_or in Ia.
          destruct Ia as [Ia|[<-|[]]]; [eapply C; eassumption|tauto].
        * right. exists c. split; [exact A|]. split; [exact B|]. split; [exact D1|]. split; [exact D2|].
          exists bf, (af ++ [x]). split; [rewrite D3, <- app_assoc; reflexivity|]. split; [exact D4|].
          intros a w Ia Ea Sa. apply in_app_or in Ia. destruct Ia as [Ia|[<-|[]]]; [eapply D5; eassumption|tauto].
  Qed.
  Lemma best_unique : forall P K L c c', NoDup L -> best_in P K L c -> best_in P K L c' -> c = c'.
  Proof.
    intros P K L c c' ND [E1 [W1 [b1 [a1 [L1 [F1 G1]]]]]] [E2 [W2 [b2 [a2 [L2 [F2 G2]]]]]].
    destruct (Nat.eq_dec c c') as [|D]; [assumption|]. exfalso.
    destruct (sc P K c) as [v|] eqn:Sv; [|exact W1]. destruct (sc P K c') as [v'|] eqn:Sv'; [|exact W2].
    assert (In c' L) as I by (rewrite L2; apply in_or_app; right; left; reflexivity).
    assert (X : In c' b1 \/ In c' a1).
    { rewrite L1 in I. apply in_app_or in I. destruct I as [I|[I|I]]; [auto|congruence|auto]. }
    assert (In c L) as J by (rewrite L1; apply in_or_app; right; left; reflexivity).
    assert (Y : In c b2 \/ In c a2).
    { rewrite L2 in J. apply in_app_or in J. destruct J as [J|[J|J]]; [auto|congruence|auto]. }
    destruct X as [X|X], Y as [Y|Y].
    - specialize (F1 c' v' X E2 Sv'). specialize (F2 c v Y E1 Sv). unfold beats in *. destruct hsic; qclra.
    - exact (G2 c v Y E1 Sv (F1 c' v' X E2 Sv')).
    - exact (G1 c' v' X E2 Sv' (F2 c v Y E1 Sv)).
    - assert (precedes L c c') as Q1. { rewrite L1. apply in_split in X. destruct X as [u [w ->]]. exists b1, u, w. reflexivity. }
      assert (precedes L c' c) as Q2. { rewrite L2. apply in_split in Y. destruct Y as [u [w ->]]. exists b2, u, w. reflexivity. }
      exact (precedes_asym _ _ _ ND Q1 Q2).
  Qed.
  Lemma get_child_iff : forall P K c, NoDup K ->
    (get_child d hsic thr pk value iter N P K = (Some c, true) <->
     best_child d hsic banned ind value iter P K c /\ beats hsic (sc P K c) (Some thr)).
  Proof.
    intros P K c ND. rewrite get_child_pick. cbv zeta.
    assert (NoDup (iter K)) as NI by (eapply Permutation_NoDup; [apply Permutation_sym, iter_perm|exact ND]).
    assert (forall v, (if hsic then nltb (Some thr) v else nltb v (Some thr)) = true <-> beats hsic v (Some thr)) as T.
    { intro v. rewrite <- better_iff. unfold better. reflexivity. }
    assert (H := pick_spec P K (iter K)). cbv zeta in H.
    destruct (fold_left (pick P K) (iter K) (worst hsic, None)) as [v b]. cbn [fst snd] in *.
    destruct H as [[A [B C]]|[c' [A [B C]]]].
    - subst b. split; [discriminate|]. intros [[E [W [bf [af [I [_ _]]]]]] _]. exfalso.
      destruct (sc P K c) as [w|] eqn:Sw; [|exact W]. apply (C c w); [|exact E|exact Sw|exact W].
      rewrite I. apply in_or_app. right. left. reflexivity.
    - subst b v. split.
      + intro E. inversion E; subst. split; [exact C|]. apply T. assumption.
      + intros [E Bt]. assert (c = c') by (eapply best_unique; [exact NI|exact E|exact C]). subst c'.
        apply T in Bt. rewrite Bt. reflexivity.
  Qed.
  Lemma not_identified_iff : forall P K, NoDup K ->
    (not_identified P K = true <-> forall a b, In a K -> In b K -> a <> b -> P a b = false).
  Proof.
    intros P K ND. split; [intro H; eapply not_identified_spec; eassumption|]. intro H. apply forallb_forall. intros [a b] I.
    apply pairs_In in I; [|exact ND]. cbn [fst snd].
    assert (a <> b) by (intro Z; subst; exact (precedes_irrefl _ _ ND I)).
    assert (Ia : In a K) by (destruct I as [u [v [w ->]]]; apply in_or_app; right; left; reflexivity).
    assert (Ib : In b K).
    { destruct I as [u [v [w ->]]]. apply in_or_app; right; right. apply in_or_app. right. left. reflexivity. }
    rewrite (H a b), (H b a); auto.
  Qed.
  Lemma visit_iff : forall P ch K, NoDup K ->
    (exists c, est P K c /\ visit (P, ch) K = (absorb P c (remove_nat c K), match remove_nat c K with [] => ch | _ => true end)) \/
    ((forall c, ~ est P K c) /\ visit (P, ch) K = (P, ch)).
  Proof.
    intros P ch K ND. unfold cam_visit.
    destruct (not_identified P K) eqn:NI; cbn [negb].
    2:{ right. split; [|reflexivity]. intros c [E _]. apply not_identified_iff in E; [|exact ND]. congruence. }
    assert (forall c, dependent_without d ind P (remove_nat c K) c = true <->
              forall q, In q K -> q <> c -> ind c (parents_of d P c) q (parents_of d P q) = false) as DW.
    { intro c. unfold dependent_without. rewrite forallb_forall. split.
      - intros H q I D. apply negb_true_iff. apply H. apply remove_nat_In. auto.
      - intros H q I. apply remove_nat_In in I. apply negb_true_iff. apply H; tauto. }
    destruct (get_child d hsic thr pk value iter N P K) as [[c|] b] eqn:G.
    2:{ right. split; [|reflexivity]. intros c [_ [E1 [E2 _]]].
        assert (X := proj2 (get_child_iff P K c ND) (conj E1 E2)). congruence. }
    destruct b.
    2:{ right. split; [|reflexivity]. intros c' [_ [E1 [E2 _]]].
        assert (X := proj2 (get_child_iff P K c' ND) (conj E1 E2)). congruence. }
    destruct (dependent_without d ind P (remove_nat c K) c) eqn:D; cbn [negb].
    - left. exists c. split; [|reflexivity]. destruct (proj1 (get_child_iff P K c ND) G) as [E1 E2].
      split; [apply not_identified_iff; assumption|]. split; [exact E1|]. split; [exact E2|]. apply DW. exact D.
    - right. split; [|reflexivity]. intros c' [_ [E1 [E2 E3]]].
      assert (X := proj2 (get_child_iff P K c' ND) (conj E1 E2)). rewrite G in X. inversion X; subst.
      apply DW in E3. congruence.
  Qed.
  Lemma sorted_NoDup : forall l, StronglySorted lt l -> NoDup l.
  Proof.
    induction l as [|x l IH]; intro S; [constructor|]. inversion S as [|? ? S' F]; subst. constructor; [|apply IH; exact S'].
    intro I. rewrite Forall_forall in F. specialize (F x I). lia.
  Qed.
  Definition top := Nat.max 2 maxnum.
  Notation disc := (discovered d hsic thr banned ind value iter top).
  Lemma fold_disc : forall t us P ch, 2 <= t <= top -> (forall U, In U us -> var_set d t U) -> disc P ->
    disc (fst (fold_left visit us (P, ch))) /\
    (snd (fold_left visit us (P, ch)) = false ->
       ch = false /\ fst (fold_left visit us (P, ch)) = P /\ forall U, In U us -> forall c, ~ est P U c).
  Proof.
    intros t us. induction us as [|U us IH]; intros P ch T HU D.
    - cbn [fold_left fst snd]. split; [exact D|]. intro E. split; [exact E|]. split; [reflexivity|]. intros U [].
    - cbn [fold_left]. destruct (HU U (or_introl eq_refl)) as [LU [SU BU]].
      destruct (visit_iff P ch U (sorted_NoDup _ SU)) as [[c [E V]]|[E V]]; rewrite V.
      + assert (disc (absorb P c (remove_nat c U))) as D'.
        { eapply (disc_step _ _ _ _ _ _ _ _ P _ U t c); [exact D|exact T|repeat split; assumption|exact E|].
          intros i j. rewrite absorb_true, remove_nat_In. tauto. }
        assert (Ic : In c U).
        { destruct E as [_ [[_ [_ [bf [af [I _]]]]] _]]. apply (Permutation_in c (iter_perm U)). rewrite I.
          apply in_or_app. right. left. reflexivity. }
        assert (remove_nat c U <> []) as NE.
        { intro Z. destruct U as [|u [|w U']]; [destruct Ic|cbn in LU; lia|].
          inversion SU as [|? ? _ F]; subst. inversion F; subst.
          assert (In (if c =? u then w else u) (remove_nat c (u :: w :: U'))) as I.
          { apply remove_nat_In. destruct (Nat.eqb_spec c u); split; cbn [In]; auto; lia. }
          rewrite Z in I. exact I. }
        destruct (remove_nat c U) as [|q r] eqn:R; [congruence|]. rewrite <- R in *.
        destruct (IH (absorb P c (remove_nat c U)) true T (fun W HW => HU W (or_intror HW)) D') as [A B].
        split; [exact A|]. intro F. destruct (B F) as [Z _]. discriminate.
      + destruct (IH P ch T (fun W HW => HU W (or_intror HW)) D) as [A B]. split; [exact A|].
        intro F. destruct (B F) as [B1 [B2 B3]]. split; [exact B1|]. split; [exact B2|].
        intros W [<-|IW]; [exact E|apply B3; exact IW].
  Qed.
  Definition exhausted (t : nat) (P : sets) : Prop :=
    forall s K c, 2 <= s < t -> var_set d s K -> ~ est P K c.
  Lemma loop_disc : forall k P, loop step k (no_sets, 2) = inr P -> disc P /\ exhausted (S top) P.
  Proof.
    intros k P E. assert (2 <= top /\ maxnum <= top) as [T2 TM] by (unfold top; lia).
    assert (forall P0 t0, let r := fold_left visit (combs t0 (seq 0 d)) (P0, false) in
              2 <= t0 <= top -> disc P0 -> exhausted t0 P0 ->
              disc (fst r) /\ (snd r = false -> exhausted (S t0) (fst r))) as F.
    { intros P0 t0 r T D X. destruct (fold_disc t0 (combs t0 (seq 0 d)) P0 false T) as [A B].
      - intros U IU. apply combs_var_set. exact IU.
      - exact D.
      - fold r in A, B. split; [exact A|]. intro Fr. destruct (B Fr) as [_ [B2 B3]]. change (fst r = P0) in B2. rewrite B2.
        intros s K c Hs VK. destruct (Nat.eq_dec s t0) as [->|Ds].
        + apply B3. apply combs_var_set. exact VK.
        + apply (X s K c); [lia|exact VK]. }
    destruct (loop_inv _ _ step (fun st => 2 <= snd st <= top /\ disc (fst st) /\ exhausted (snd st) (fst st)))
      with (k := k) (s := (no_sets, 2)) (r := P) as [[P1 t1] [[I1 [I2 I3]] E1]].
    - intros [Pa ta] s' [A1 [A2 A3]] Ea. cbn [fst snd] in *. unfold cam_step in Ea. assert (G := F Pa ta A1 A2 A3). cbv zeta in G.
      destruct (fold_left visit (combs ta (seq 0 d)) (Pa, false)) as [P2 c2]. cbn [fst snd] in G. destruct G as [G1 G2].
      destruct c2.
      + inversion Ea; subst. cbn [fst snd]. split; [lia|]. split; [exact G1|]. intros s K c Hs. lia.
      + destruct (Nat.ltb_spec maxnum (S ta)); [discriminate|]. inversion Ea; subst. cbn [fst snd].
        split; [lia|]. split; [exact G1|]. apply G2. reflexivity.
    - cbn [fst snd]. split; [lia|]. split; [constructor; reflexivity|]. intros s K c Hs. lia.
    - exact E.
    - cbn [fst snd] in *. unfold cam_step in E1. assert (G := F P1 t1 I1 I2 I3). cbv zeta in G.
      destruct (fold_left visit (combs t1 (seq 0 d)) (P1, false)) as [P2 c2]. cbn [fst snd] in G. destruct G as [G1 G2].
      destruct c2; [discriminate|]. destruct (Nat.ltb_spec maxnum (S t1)); [|discriminate]. inversion E1; subst.
      split; [exact G1|]. specialize (G2 eq_refl). intros s K c Hs. apply G2. unfold top in *. lia.
  Qed.

  (** ** Pruning *)
  Lemma filter_ext' : forall (p q : nat -> bool) l, (forall x, p x = q x) -> filter p l = filter q l.
  Proof. intros p q l H. induction l as [|x l IH]; [reflexivity|]. cbn. rewrite H, IH. reflexivity. Qed.
  Lemma prune_prefix : forall Q n, let P := fold_left (prune_row d ind) (seq 0 n) Q in
    (forall i j, n <= i -> P i j = Q i j) /\
    (forall i j, i < n -> P i j = Q i j &&
       negb (ind i (elems d (fun x => Q i x && negb (x =? j))) j (elems d (if j <? i then P j else Q j)))).
  Proof.
    intros Q n. induction n as [|n [IH1 IH2]]; cbv zeta.
    - split; [reflexivity|]. intros i j H. lia.
    - rewrite seq_S, fold_left_app. cbn [fold_left]. cbv zeta in *. rewrite Nat.add_0_l.
      set (R := fold_left (prune_row d ind) (seq 0 n) Q) in *.
      assert (forall i j, i <> n -> prune_row d ind R n i j = R i j) as Hne.
      { intros i j D. unfold prune_row. replace (i =? n) with false by (symmetry; apply Nat.eqb_neq; exact D).
        cbn [andb negb]. apply andb_true_r. }
      assert (forall i j, elems d (if j <? i then R j else Q j) = elems d (if j <? i then prune_row d ind R n j else Q j) \/ n < i) as He.
      { intros i j. destruct (Nat.ltb_spec j i); [|auto]. destruct (Nat.eq_dec j n) as [->|D]; [right; lia|].
        left. apply filter_ext'. intro x. symmetry. apply Hne. exact D. }
      split.
      + intros i j H. rewrite Hne by lia. apply IH1. lia.
      + intros i j H. destruct (Nat.eq_dec i n) as [->|D].
        * unfold prune_row at 1. rewrite Nat.eqb_refl. cbn [andb].
          replace (elems d (fun x => R n x && negb (x =? j))) with (elems d (fun x => Q n x && negb (x =? j))).
          2:{ apply filter_ext'. intro x. rewrite IH1 by lia. reflexivity. }
          rewrite IH1 by lia. f_equal. f_equal. f_equal.
          destruct (Nat.ltb_spec j n).
          -- apply filter_ext'. intro x. symmetry. apply Hne. lia.
          -- apply filter_ext'. intro x. apply IH1. lia.
        * rewrite Hne by exact D. rewrite IH2 by lia. destruct (He i j) as [->|Z]; [reflexivity|lia].
  Qed.
  Lemma prune_pruned : forall Q, pruned d ind Q (prune d ind Q).
  Proof.
    intros Q i j. unfold prune. destruct (prune_prefix Q d) as [A B].
    set (P := fold_left (prune_row d ind) (seq 0 d) Q) in *.
    destruct (Nat.lt_ge_cases i d) as [H|H].
    - rewrite B by exact H. rewrite andb_true_iff, negb_true_iff. unfold parents_of, elems.
      destruct (j <? i); (split; [intros [X Y]; split; [exact X|intros _; exact Y]|intros [X Y]; split; [exact X|exact (Y H)]]).
    - rewrite A by exact H. split; [intro X; split; [exact X|lia]|tauto].
  Qed.
  Lemma find_parents_exact : forall k P, find_parents d maxnum hsic thr pk ind value iter k = Some P ->
    exists Q, disc Q /\ exhausted (S top) Q /\ pruned d ind Q P.
  Proof.
    intros k P E. unfold find_parents in E. destruct (loop step k (no_sets, 2)) as [s|Q] eqn:L; [discriminate|].
    inversion E; subst. exists Q. destruct (loop_disc k Q L) as [A B]. split; [exact A|]. split; [exact B|]. apply prune_pruned.
  Qed.
End CAMUV2.
