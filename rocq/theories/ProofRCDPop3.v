(** * RCD on model data: the search for ancestors, parents and the matrix *)
From Coq Require Import List Arith Bool ZArith QArith Qcanon Lia Permutation Relations.
From Verif Require Import Prelude Spec Lib LibMat Loop SpecPop SpecRCDPop ModelRCD ModelRCDPop ProofRCD ProofEffect ProofPop ProofPop2 ProofPop3 ProofRCDPop ProofRCDPop2.
From Verif Require ProofUtil.
Import ListNotations.
Open Scope nat_scope.

Lemma list_eqb_eq : forall a b, list_eqb a b = true <-> a = b.
Proof. intros a b. unfold list_eqb. destruct (list_eq_dec Nat.eq_dec a b); split; congruence. Qed.
Lemma hist_get_In : forall h U H, hist_get h U = Some H -> In (U, H) h.
Proof.
  induction h as [|[V K] h IH]; intros U H E; [discriminate|]. cbn [hist_get] in E. destruct (list_eqb U V) eqn:Q.
  - apply list_eqb_eq in Q. subst V. inversion E. left. reflexivity.
  - right. apply IH. exact E.
Qed.

Lemma sinks_In : forall mlh (io im : list nat -> nat -> list nat -> nat -> bool) M H U xi, In xi (sinks mlh io im M H U) <-> In xi U /\ exists_ancestor M xi (remove_nat xi U) = false /\ indep_of_resid mlh io im H xi (remove_nat xi U) = true.
Proof. intros. unfold sinks. rewrite filter_In, andb_true_iff, negb_true_iff. tauto. Qed.
Lemma indep_pair : forall mlh (io im : list nat -> nat -> list nat -> nat -> bool) H xi xj, indep_of_resid mlh io im H xi [xj] = io H xi [xj] xj.
Proof. intros. unfold indep_of_resid. cbn [forallb length Nat.eqb orb]. rewrite andb_true_r. destruct (io H xi [xj] xj); reflexivity. Qed.
Lemma exists_pair : forall M xi xj, exists_ancestor M xi [xj] = M xj xi || M xi xj.
Proof. intros. unfold exists_ancestor. cbn [existsb forallb]. rewrite orb_false_r, andb_true_r. reflexivity. Qed.

  Lemma combs_In_conv : forall l u v, precedes l u v -> In [u; v] (combs 2 l).
  Proof.
    induction l as [|a l IH]; intros u v P; [destruct P as (l1 & l2 & l3 & E); destruct l1; discriminate|].
    rewrite combs_S_cons. apply in_app_iff. destruct P as ([|b l1] & l2 & l3 & E).
    - inversion E. subst. left. apply in_map_iff. exists [v]. split; [reflexivity|].
      assert (G : forall r w, In w r -> In [w] (combs 1 r)) by (induction r as [|c r IHr]; intros w Iw; [destruct Iw|]; rewrite combs_S_cons; apply in_app_iff; destruct Iw as [<-|Iw]; [left; left; reflexivity|right; apply IHr; exact Iw]).
      apply G. apply in_app_iff. right. left. reflexivity.
    - inversion E. subst. right. apply IH. exists l1, l2, l3. reflexivity.
  Qed.
  Lemma combs_two : forall n U, In U (combs 2 (seq 0 n)) -> exists u v, U = [u; v] /\ u < n /\ v < n /\ u <> v.
  Proof.
    intros n U I. destruct (combs_In _ _ _ I) as [L HU]. pose proof (combs_NoDup_elem _ _ _ (seq_NoDup n 0) I) as ND.
    destruct U as [|u [|v [|w U]]]; try discriminate. exists u, v. split; [reflexivity|].
    assert (H1 : In u (seq 0 n)) by (apply HU; left; reflexivity). assert (H2 : In v (seq 0 n)) by (apply HU; right; left; reflexivity). apply in_seq in H1. apply in_seq in H2.
    split; [lia|]. split; [lia|]. intros ->. inversion ND. subst. apply H3. left. reflexivity.
  Qed.
  Lemma remove_pair : forall u v, u <> v -> remove_nat u [u; v] = [v] /\ remove_nat v [u; v] = [u].
  Proof.
    intros u v D. unfold remove_nat. cbn [filter]. rewrite !Nat.eqb_refl. cbn [negb].
    destruct (Nat.eqb_spec v u) as [E|_]; [congruence|]. destruct (Nat.eqb_spec u v) as [E|_]; [congruence|]. split; reflexivity.
  Qed.

  Lemma common_In : forall n M U v, In v (common_ancestors n M U) <-> v < n /\ forall u, In u U -> M u v = true.
  Proof. intros n M U v. unfold common_ancestors, elems. rewrite filter_In, in_seq, forallb_forall. split; intros [H1 H2]; (split; [lia|exact H2]). Qed.
  Lemma common_NoDup : forall n M U, NoDup (common_ancestors n M U).
  Proof. intros. apply NoDup_filter, seq_NoDup. Qed.

Lemma anc_last : forall m B a j, ancestor m B a j -> edge_of m B a j \/ exists p, edge_of m B p j /\ ancestor m B a p.
Proof. intros m B a j A. apply clos_trans_tn1 in A. destruct A as [j E|p j E A]; [left; exact E|]. right. exists p. split; [exact E|]. apply clos_tn1_trans. exact A. Qed.

Section Visit.
  Variables (n maxl : nat) (mlhsicr : bool)
    (nongauss : list nat -> nat -> bool) (correlated : list nat -> nat -> nat -> bool)
    (indep_ols indep_ml : list nat -> nat -> list nat -> nat -> bool).
  Notation visit := (visit n mlhsicr nongauss correlated indep_ols indep_ml).
  Notation sinks := (sinks mlhsicr indep_ols indep_ml).
  Lemma visit_spec : forall M hist ch U, let H := common_ancestors n M U in
    (visit (M, hist, ch) U = (M, hist, ch) /\
      (hist_get hist U = Some H \/ (exists u, In u U /\ nongauss H u = false) \/ (exists u v, In (u, v) (pairs U) /\ correlated H u v = false))) \/
    ((forall u, In u U -> nongauss H u = true) /\ (forall u v, In (u, v) (pairs U) -> correlated H u v = true) /\
      ((visit (M, hist, ch) U = (M, (U, H) :: hist, ch) /\ forall xi, sinks M H U = [xi] -> forall xj, In xj (remove_nat xi U) -> M xi xj = true) \/
       exists xi xj, sinks M H U = [xi] /\ In xj (remove_nat xi U) /\ M xi xj = false /\
         visit (M, hist, ch) U = (absorb M xi (remove_nat xi U), (U, H) :: hist, true))).
  Proof.
    intros M hist ch U H. unfold ModelRCD.visit. cbv zeta. fold H.
    assert (EX : forall (f : nat -> bool) l, forallb f l = false -> exists u, In u l /\ f u = false).
    { intros f l. induction l as [|a l IH]; [discriminate|]. cbn. intro Q. apply andb_false_iff in Q. destruct Q as [Q|Q]; [exists a; auto|]. destruct (IH Q) as (u & I & F). exists u; auto. }
    destruct (hist_get hist U) as [H'|] eqn:HG.
    - destruct (list_eqb H H') eqn:E; [left; split; [reflexivity|]; left; apply list_eqb_eq in E; congruence|].
      destruct (forallb (nongauss H) U) eqn:F1; cbn [negb].
      + destruct (forallb (fun p => correlated H (fst p) (snd p)) (pairs U)) eqn:F2; cbn [negb].
        * right. rewrite forallb_forall in F1, F2. split; [exact F1|]. split; [intros u v I; exact (F2 (u, v) I)|].
          destruct (ModelRCD.sinks mlhsicr indep_ols indep_ml M H U) as [|xi [|y r]] eqn:S; [left; split; [reflexivity|discriminate]| |left; split; [reflexivity|discriminate]].
          destruct (forallb (M xi) (remove_nat xi U)) eqn:F3.
          -- left. split; [reflexivity|]. intros xi' Q. inversion Q. subst. rewrite forallb_forall in F3. exact F3.
          -- right. destruct (EX _ _ F3) as (xj & I & Q). exists xi, xj. auto.
        * left. split; [reflexivity|]. right. right.
          assert (G : forall l, forallb (fun p => correlated H (fst p) (snd p)) l = false -> exists u v, In (u, v) l /\ correlated H u v = false).
          { induction l as [|[a b] l IH]; [discriminate|]. cbn. intro Q. apply andb_false_iff in Q. destruct Q as [Q|Q]; [exists a, b; auto|]. destruct (IH Q) as (u & v & I & W). exists u, v; auto. }
          apply G. exact F2.
      + left. split; [reflexivity|]. right. left. apply EX. exact F1.
    - destruct (forallb (nongauss H) U) eqn:F1; cbn [negb].
      + destruct (forallb (fun p => correlated H (fst p) (snd p)) (pairs U)) eqn:F2; cbn [negb].
        * right. rewrite forallb_forall in F1, F2. split; [exact F1|]. split; [intros u v I; exact (F2 (u, v) I)|].
          destruct (ModelRCD.sinks mlhsicr indep_ols indep_ml M H U) as [|xi [|y r]] eqn:S; [left; split; [reflexivity|discriminate]| |left; split; [reflexivity|discriminate]].
          destruct (forallb (M xi) (remove_nat xi U)) eqn:F3.
          -- left. split; [reflexivity|]. intros xi' Q. inversion Q. subst. rewrite forallb_forall in F3. exact F3.
          -- right. destruct (EX _ _ F3) as (xj & I & Q). exists xi, xj. auto.
        * left. split; [reflexivity|]. right. right.
          assert (G : forall l, forallb (fun p => correlated H (fst p) (snd p)) l = false -> exists u v, In (u, v) l /\ correlated H u v = false).
          { induction l as [|[a b] l IH]; [discriminate|]. cbn. intro Q. apply andb_false_iff in Q. destruct Q as [Q|Q]; [exists a, b; auto|]. destruct (IH Q) as (u & v & I & W). exists u, v; auto. }
          apply G. exact F2.
      + left. split; [reflexivity|]. right. left. apply EX. exact F1.
  Qed.
  Lemma fold_true : forall us M hist, snd (fold_left visit us (M, hist, true)) = true.
  Proof.
    induction us as [|U us IH]; intros M hist; [reflexivity|]. cbn [fold_left].
    destruct (visit_spec M hist true U) as [[E _]|(_ & _ & [[E _]|(xi & xj & _ & _ & _ & E)])]; rewrite E; apply IH.
  Qed.
  (** A pass without change looks at every set with the same ancestors. *)
  Lemma fold_unchanged : forall (Inv : sets -> list (list nat * list nat) -> Prop) us,
    (forall M hist ch U, In U us -> Inv M hist -> Inv (fst (fst (visit (M, hist, ch) U))) (snd (fst (visit (M, hist, ch) U)))) ->
    forall M hist M' hist', Inv M hist -> fold_left visit us (M, hist, false) = (M', hist', false) ->
    M' = M /\ forall U, In U us -> exists h1 h2, Inv M h1 /\ visit (M, h1, false) U = (M, h2, false).
  Proof.
    intros Inv us HI. induction us as [|U us IH]; intros M hist M' hist' I E.
    - inversion E. split; [reflexivity|intros U []].
    - cbn [fold_left] in E. pose proof (HI M hist false U (or_introl eq_refl) I) as I1.
      destruct (visit_spec M hist false U) as [[V _]|(_ & _ & [[V _]|(xi & xj & _ & _ & _ & V)])]; rewrite V in E, I1; cbn [fst snd] in I1.
      + destruct (IH (fun M h c U IU => HI M h c U (or_intror IU)) M hist M' hist' I1 E) as [EM HU]. split; [exact EM|].
        intros U' [<-|IU]; [exists hist, hist; split; assumption|apply HU; exact IU].
      + destruct (IH (fun M h c U IU => HI M h c U (or_intror IU)) M _ M' hist' I1 E) as [EM HU]. split; [exact EM|].
        intros U' [<-|IU]; [exists hist, ((U, common_ancestors n M U) :: hist); split; assumption|apply HU; exact IU].
      + pose proof (fold_true us (absorb M xi (remove_nat xi U)) ((U, common_ancestors n M U) :: hist)) as T. rewrite E in T. discriminate.
  Qed.
  Lemma fold_keep : forall (Inv : sets -> list (list nat * list nat) -> Prop) us,
    (forall M hist ch U, In U us -> Inv M hist -> Inv (fst (fst (visit (M, hist, ch) U))) (snd (fst (visit (M, hist, ch) U)))) ->
    forall st, Inv (fst (fst st)) (snd (fst st)) -> Inv (fst (fst (fold_left visit us st))) (snd (fst (fold_left visit us st))).
  Proof.
    intros Inv us HI. induction us as [|U us IH]; intros [[M h] c] I; [exact I|]. cbn [fold_left]. apply IH; [intros; apply HI; [right; assumption|assumption]|].
    apply HI; [left; reflexivity|exact I].
  Qed.
End Visit.

(** ** The search, for tests that answer as follows *)
Section From.
  Variables (m : nat) (B : mat Qc) (n : nat) (mlh : bool)
    (ng : list nat -> nat -> bool) (co : list nat -> nat -> nat -> bool) (io im : list nat -> nat -> list nat -> nat -> bool).
  Hypothesis Hnm : n <= m.
  Notation anc := (ancestor m B).
  Notation visit := (visit n mlh ng co io im).
  (** an independent residual of correlated variables shows a cause *)
  Hypothesis PS : forall H i j, i < n -> j < n -> i <> j -> (forall h, In h H -> anc h i /\ anc h j) ->
    co H i j = true \/ co H j i = true -> io H i [j] j = true -> anc j i.

  Definition sound (M : sets) : Prop := forall i j, M i j = true -> j < n /\ i < n /\ anc j i.
  Lemma common_anc : forall M U h, sound M -> In h (common_ancestors n M U) -> forall u, In u U -> anc h u.
  Proof. intros M U h S I u Iu. apply common_In in I. apply S. apply I. exact Iu. Qed.
  Lemma common_bound : forall M U h, sound M -> U <> [] -> In h (common_ancestors n M U) -> h < m.
  Proof. intros M U h S NE I. destruct U as [|u U]; [congruence|]. apply (anc_bound m B h u). apply (common_anc M (u :: U) h S I). left. reflexivity. Qed.
  (** A pair recorded by the search is right, with hidden variables or not. *)
  Lemma visit_pair_sound : forall M hist ch U, In U (combs 2 (seq 0 n)) -> sound M -> sound (fst (fst (visit (M, hist, ch) U))).
  Proof.
    intros M hist ch U IU S. destruct (combs_two n U IU) as (u & v & -> & Hu & Hv & D).
    destruct (visit_spec n mlh ng co io im M hist ch [u; v]) as [[E _]|(_ & HC & [[E _]|(xi & xj & SK & Ij & _ & E)])]; rewrite E; cbn [fst]; [exact S|exact S|].
    assert (Ixi : In xi (sinks mlh io im M (common_ancestors n M [u; v]) [u; v])) by (rewrite SK; left; reflexivity).
    apply sinks_In in Ixi. destruct Ixi as (Ix & _ & T). apply remove_nat_In in Ij.
    assert (RX : remove_nat xi [u; v] = [xj] /\ xi < n /\ xj < n /\ xi <> xj).
    { destruct (remove_pair u v D) as [R1 R2]. destruct Ix as [<-|[<-|[]]]; destruct Ij as [[<-|[<-|[]]] ?]; try congruence; [rewrite R1|rewrite R2]; (split; [reflexivity|]; split; [assumption|]; split; [assumption|congruence]). }
    destruct RX as (RX & Hxi & Hxj & Dx). rewrite RX in T |- *. rewrite indep_pair in T.
    set (H := common_ancestors n M [u; v]) in *.
    assert (HB : forall h, In h H -> h < m) by (intros h Ih; apply (common_bound M [u; v] h S ltac:(discriminate) Ih)).
    assert (AJ : anc xj xi).
    { apply (PS H xi xj); [exact Hxi|exact Hxj|exact Dx| | |exact T].
      - intros h Ih. split; apply (common_anc M [u; v] h S Ih); [exact Ix|apply Ij].
      - destruct (precedes_total [u; v] xi xj Ix (proj1 Ij) Dx) as [P|P]; apply pairs_In_conv in P; apply HC in P; [left|right]; exact P. }
    intros i j T'. apply absorb_true in T'. destruct T' as [T'|[-> [<-|[]]]]; [apply S; exact T'|]. split; [assumption|]. split; assumption.
  Qed.
  Lemma search_sound_from : forall k M, rcd_ancestors n 1 mlh ng co io im k = inr M -> sound M.
  Proof.
    intros k M E. unfold rcd_ancestors in E.
    assert (PSS : forall Ma ha, sound Ma -> sound (fst (fst (pass n mlh ng co io im Ma ha 1)))).
    { intros Ma ha S. unfold pass. apply (fold_keep n mlh ng co io im (fun M _ => sound M)); [|exact S]. intros M0 h0 c0 U IU S0. apply visit_pair_sound; assumption. }
    destruct (loop_inv _ _ (rcd_step n 1 mlh ng co io im) (fun st => sound (fst (fst st)) /\ snd st = 1)) with (k := k) (s := (no_sets, @nil (list nat * list nat), 1)) (r := M) as [[[M1 h1] l1] [[I1 L1] E1]].
    - intros [[Ma ha] la] s' [Ia La] Ea. cbn [fst snd] in Ia, La. subst la. unfold rcd_step in Ea. pose proof (PSS Ma ha Ia) as P.
      destruct (pass n mlh ng co io im Ma ha 1) as [[M2 h2] c2]. cbn [fst] in P. destruct c2; [inversion Ea; split; [exact P|reflexivity]|]. discriminate.
    - split; [|reflexivity]. intros i j Q. discriminate.
    - exact E.
    - cbn [fst snd] in I1, L1. subst l1. unfold rcd_step in E1. pose proof (PSS M1 h1 I1) as P.
      destruct (pass n mlh ng co io im M1 h1 1) as [[M2 h2] c2]. cbn [fst] in P. destruct c2; [discriminate|]. cbn in E1. inversion E1. subst. exact P.
  Qed.

  (** ** Without hidden variables *)
  Hypothesis ALL : n = m.
  Hypothesis ACY : acyclic (edge_of m B).
  (** the effect and its cause, given all causes of the cause *)
  Hypothesis PC : forall H i j, anc j i -> NoDup H -> (forall h, In h H <-> anc h j) ->
    co H i j = true /\ co H j i = true /\ io H i [j] j = true /\ io H j [i] i = false.
  Hypothesis NGH : forall H j, j < m -> (forall h, In h H -> anc h j) -> ng H j = true.
  Lemma ANA : forall a b, anc a b -> ~ anc b a.
  Proof. intros a b H1 H2. exact (ACY a (anc_trans m B _ _ _ H1 H2)). Qed.
  Definition known (M : sets) (hist : list (list nat * list nat)) : Prop :=
    forall i j H, In ([i; j], H) hist \/ In ([j; i], H) hist -> anc j i -> (forall h, In h H <-> anc h j) -> M i j = true.
  Definition InvP (M : sets) hist : Prop := sound M /\ known M hist.
  Lemma common_exact : forall M u v i j, sound M -> (u = i /\ v = j) \/ (u = j /\ v = i) -> anc j i ->
    (forall a, anc a j -> M j a = true /\ M i a = true) -> forall h, In h (common_ancestors n M [u; v]) <-> anc h j.
  Proof.
    intros M u v i j S UV A HA h. split.
    - intro I. apply (common_anc M [u; v] h S I). destruct UV as [[-> ->]|[-> ->]]; [right; left|left]; reflexivity.
    - intro Q. apply common_In. split; [rewrite ALL; apply (anc_bound m B h j Q)|]. destruct (HA h Q) as [Q1 Q2].
      intros w [<-|[<-|[]]]; destruct UV as [[-> ->]|[-> ->]]; assumption.
  Qed.
  Lemma sinks_pair : forall M u v i j H, sound M -> u <> v -> (u = i /\ v = j) \/ (u = j /\ v = i) -> i < n -> j < n -> anc j i -> NoDup H -> (forall h, In h H <-> anc h j) -> M i j = false ->
    sinks mlh io im M H [u; v] = [i].
  Proof.
    intros M u v i j H S D UV Hi Hj A ND HH MF.
    destruct (PC H i j A ND HH) as (_ & _ & T1 & T2).
    assert (MJ : M j i = false) by (destruct (M j i) eqn:Q; [|reflexivity]; apply S in Q; destruct Q as (_ & _ & Q); contradiction (ANA j i A Q)).
    destruct (remove_pair u v D) as [R1 R2].
    unfold sinks. cbn [filter]. rewrite R1, R2, !exists_pair, !indep_pair.
    destruct UV as [[-> ->]|[-> ->]]; rewrite MF, MJ, T1, T2; reflexivity.
  Qed.
  Lemma pair_in_combs : forall i j, i < n -> j < n -> i <> j -> exists u v, In [u; v] (combs 2 (seq 0 n)) /\ u <> v /\ ((u = i /\ v = j) \/ (u = j /\ v = i)).
  Proof.
    intros i j Hi Hj D. destruct (Nat.lt_ge_cases i j) as [L|L].
    - exists i, j. split; [apply combs_In_conv, seq_precedes; lia|]. split; [exact D|left; auto].
    - exists j, i. split; [apply combs_In_conv, seq_precedes; lia|]. split; [congruence|right; auto].
  Qed.
  Lemma visit_pair_inv : forall M hist ch U, In U (combs 2 (seq 0 n)) -> InvP M hist -> InvP (fst (fst (visit (M, hist, ch) U))) (snd (fst (visit (M, hist, ch) U))).
  Proof.
    intros M hist ch U IU [S K]. split; [apply visit_pair_sound; assumption|].
    destruct (combs_two n U IU) as (u & v & -> & Hu & Hv & D).
    destruct (visit_spec n mlh ng co io im M hist ch [u; v]) as [[E _]|(_ & HC & CASE)]; [rewrite E; exact K|].
    set (H := common_ancestors n M [u; v]) in *. assert (ND : NoDup H) by apply common_NoDup.
    assert (NEW : forall i j, (u = i /\ v = j) \/ (u = j /\ v = i) -> anc j i -> (forall h, In h H <-> anc h j) -> M i j = false -> sinks mlh io im M H [u; v] = [i]).
    { intros i j UV A HH MF. apply (sinks_pair M u v i j H S D UV); try assumption; destruct UV as [[-> ->]|[-> ->]]; assumption. }
    destruct CASE as [[E NA]|(xi & xj & SK & Ij & MF & E)]; rewrite E; cbn [fst snd]; intros i j H' I A HH.
    - destruct I as [[I|I]|[I|I]]; try (apply (K i j H'); [left; exact I|exact A|exact HH]); try (apply (K i j H'); [right; exact I|exact A|exact HH]).
      + injection I as -> -> <-. destruct (M i j) eqn:Q; [reflexivity|]. rewrite <- Q. apply (NA i); [apply (NEW i j); auto|]. destruct (remove_pair i j D) as [-> _]. left. reflexivity.
      + injection I as -> -> <-. destruct (M i j) eqn:Q; [reflexivity|]. rewrite <- Q. apply (NA i); [apply (NEW i j); auto|]. destruct (remove_pair j i D) as [_ ->]. left. reflexivity.
    - apply absorb_true.
      destruct I as [[I|I]|[I|I]]; try (left; apply (K i j H'); [left; exact I|exact A|exact HH]); try (left; apply (K i j H'); [right; exact I|exact A|exact HH]).
      + injection I as -> -> <-. destruct (M i j) eqn:Q; [left; reflexivity|]. right.
        assert (SI : sinks mlh io im M H [i; j] = [i]) by (apply (NEW i j); auto). assert (XI : xi = i) by congruence. subst xi. split; [reflexivity|]. destruct (remove_pair i j D) as [-> _]. left. reflexivity.
      + injection I as -> -> <-. destruct (M i j) eqn:Q; [left; reflexivity|]. right.
        assert (SI : sinks mlh io im M H [j; i] = [i]) by (apply (NEW i j); auto). assert (XI : xi = i) by congruence. subst xi. split; [reflexivity|]. destruct (remove_pair j i D) as [_ ->]. left. reflexivity.
  Qed.
  Definition exact (M : sets) : Prop := forall i j, M i j = true <-> anc j i.
  Lemma pass_pairs_complete : forall M hist M' hist', InvP M hist -> pass n mlh ng co io im M hist 1 = (M', hist', false) -> M' = M /\ exact M.
  Proof.
    intros M hist M' hist' I E. unfold pass in E.
    destruct (fold_unchanged n mlh ng co io im InvP (combs 2 (seq 0 n)) (fun M h c U => visit_pair_inv M h c U) M hist M' hist' I E) as [EM HU].
    split; [exact EM|]. destruct I as [S _]. intros i j. split; [intro Q; apply S; exact Q|]. intro A.
    assert (G : forall j, j < m -> forall a, a = j \/ anc a j -> forall i, anc a i -> M i a = true).
    { apply (dag_ind m B ACY (fun j => forall a, a = j \/ anc a j -> forall i, anc a i -> M i a = true)).
      intros j0 Hj0 IH a [->|Aa] i0 A0.
      - assert (BELOW : forall a, anc a j0 -> forall i, anc a i -> M i a = true).
        { intros a Aa. destruct (anc_last m B a j0 Aa) as [E1|(p & E1 & Ap)].
          - apply (IH a (proj1 (proj2 E1)) (proj2 (proj2 E1)) a). left. reflexivity.
          - apply (IH p (proj1 (proj2 E1)) (proj2 (proj2 E1)) a). right. exact Ap. }
        destruct (anc_bound m B j0 i0 A0) as [_ Hi0].
        assert (D0 : i0 <> j0) by (intros ->; exact (ACY j0 A0)).
        destruct (pair_in_combs i0 j0 ltac:(lia) ltac:(lia) D0) as (u & v & IU & D & UV).
        destruct (HU [u; v] IU) as (h1 & h2 & [_ K] & V).
        assert (HH : forall h, In h (common_ancestors n M [u; v]) <-> anc h j0).
        { apply (common_exact M u v i0 j0 S UV A0). intros a Aa. split; apply (BELOW a Aa); [exact Aa|exact (anc_trans m B a j0 i0 Aa A0)]. }
        pose proof (common_NoDup n M [u; v]) as ND.
        destruct (PC (common_ancestors n M [u; v]) i0 j0 A0 ND HH) as (C1 & C2 & _).
        destruct (M i0 j0) eqn:Q; [reflexivity|]. exfalso.
        destruct (visit_spec n mlh ng co io im M h1 false [u; v]) as [[_ W]|(_ & _ & [[_ NA]|(xi & xj & SK & Ij & MF & E2)])].
        + destruct W as [W|[(w & Iw & W)|(a & b & Iab & W)]].
          * apply hist_get_In in W. assert (M i0 j0 = true); [|congruence]. apply (K i0 j0 (common_ancestors n M [u; v])); [|exact A0|exact HH].
            destruct UV as [[-> ->]|[-> ->]]; [left|right]; exact W.
          * rewrite (NGH _ w) in W; [discriminate| |].
            -- destruct UV as [[-> ->]|[-> ->]]; destruct Iw as [<-|[<-|[]]]; lia.
            -- intros h Ih. apply (common_anc M [u; v] h S Ih w Iw).
          * cbn in Iab. destruct Iab as [Iab|[]]. injection Iab as <- <-. destruct UV as [[-> ->]|[-> ->]]; congruence.
        + assert (SI : sinks mlh io im M (common_ancestors n M [u; v]) [u; v] = [i0]) by (apply (sinks_pair M u v i0 j0); try assumption; lia).
          assert (M i0 j0 = true); [|congruence]. apply (NA i0 SI). destruct (remove_pair u v D) as [R1 R2]. destruct UV as [[-> ->]|[-> ->]]; [rewrite R1|rewrite R2]; left; reflexivity.
        + rewrite E2 in V. discriminate.
      - destruct (anc_last m B a j0 Aa) as [E1|(p & E1 & Ap)].
        + apply (IH a (proj1 (proj2 E1)) (proj2 (proj2 E1)) a); [left; reflexivity|exact A0].
        + apply (IH p (proj1 (proj2 E1)) (proj2 (proj2 E1)) a); [right; exact Ap|exact A0]. }
    apply (G j (proj1 (anc_bound m B j i A)) j); [left; reflexivity|exact A].
  Qed.

  (** a triple with one sink tells nothing new once all ancestors are known *)
  Hypothesis TR : forall M U i xj, exact M -> In U (combs 3 (seq 0 n)) ->
    (forall u v, In (u, v) (pairs U) -> co (common_ancestors n M U) u v = true) ->
    sinks mlh io im M (common_ancestors n M U) U = [i] -> In xj (remove_nat i U) -> M i xj = false -> False.
  (** Triples change nothing once all ancestors are known. *)
  Lemma visit_triple : forall M hist U, exact M -> In U (combs 3 (seq 0 n)) -> exists h, visit (M, hist, false) U = (M, h, false).
  Proof.
    intros M hist U EX IU.
    destruct (visit_spec n mlh ng co io im M hist false U) as [[E _]|(_ & HC & [[E _]|(i & xj & SK & Ij & MF & E)])]; [eexists; exact E|eexists; exact E|].
    exfalso. exact (TR M U i xj EX IU HC SK Ij MF).
  Qed.
  Lemma pass_triples : forall M hist, exact M -> exists h, pass n mlh ng co io im M hist 2 = (M, h, false).
  Proof.
    intros M hist EX. unfold pass.
    assert (G : forall us h0, (forall U, In U us -> In U (combs 3 (seq 0 n))) -> exists h, fold_left visit us (M, h0, false) = (M, h, false)).
    { induction us as [|U us IH]; intros h0 HU; [eexists; reflexivity|]. cbn [fold_left].
      destruct (visit_triple M h0 U EX (HU U (or_introl eq_refl))) as [h1 ->]. apply IH. intros V IV. apply HU. right. exact IV. }
    apply G. auto.
  Qed.
  Lemma search_exact_from : forall maxl k M, maxl <= 2 -> 1 <= maxl -> rcd_ancestors n maxl mlh ng co io im k = inr M -> exact M.
  Proof.
    intros maxl k M ML ML1 E. unfold rcd_ancestors in E.
    assert (PI : forall Ma ha, InvP Ma ha -> InvP (fst (fst (pass n mlh ng co io im Ma ha 1))) (snd (fst (pass n mlh ng co io im Ma ha 1)))).
    { intros Ma ha I. unfold pass. apply (fold_keep n mlh ng co io im InvP); [|exact I]. intros M0 h0 c0 U IU I0. apply visit_pair_inv; assumption. }
    destruct (loop_inv _ _ (rcd_step n maxl mlh ng co io im)
      (fun st => let '(M, h, l) := st in (l = 1 /\ InvP M h) \/ (l = 2 /\ maxl = 2 /\ exact M))) with (k := k) (s := (no_sets, @nil (list nat * list nat), 1)) (r := M) as [[[M1 h1] l1] [I1 E1]].
    - intros [[Ma ha] la] s' Ia Ea. unfold rcd_step in Ea. destruct Ia as [[-> Ia]|(-> & -> & EX)].
      + pose proof (PI Ma ha Ia) as P. destruct (pass n mlh ng co io im Ma ha 1) as [[M2 h2] c2] eqn:EP. cbn [fst snd] in P. destruct c2.
        * inversion Ea. left. split; [reflexivity|exact P].
        * destruct (Nat.ltb_spec 1 maxl); [|discriminate]. inversion Ea. right. split; [reflexivity|]. split; [lia|].
          destruct (pass_pairs_complete Ma ha M2 h2 Ia EP) as [-> X]. exact X.
      + destruct (pass_triples Ma ha EX) as [h EP]. rewrite EP in Ea. discriminate.
    - left. split; [reflexivity|]. split; [intros i j Q; discriminate|]. intros i j H [[]|[]].
    - exact E.
    - unfold rcd_step in E1. destruct I1 as [[-> Ia]|(-> & -> & EX)].
      + destruct (pass n mlh ng co io im M1 h1 1) as [[M2 h2] c2] eqn:EP. destruct c2; [discriminate|].
        destruct (1 <? maxl); [discriminate|]. inversion E1. subst M2. destruct (pass_pairs_complete M1 h1 M h2 Ia EP) as [-> X]. exact X.
      + destruct (pass_triples M1 h1 EX) as [h EP]. rewrite EP in E1. cbn in E1. inversion E1. subst. exact EX.
  Qed.
End From.

Section Search.
  Variables (N m : nat) (B : mat Qc) (e x : nat -> sample).
  Hypothesis LM : linear_model N m B e x.
  Variables (ols : (nat -> sample) -> list nat -> sample -> nat -> Qc) (icpt : (nat -> sample) -> list nat -> sample -> Qc).
  Hypothesis OLS : solves_least_squares N ols.
  Hypothesis NC : no_cancelling N m B e x.
  Variables (shapiro : sample -> bool) (corr ind : sample -> sample -> bool) (mlcoef : (nat -> sample) -> nat -> list nat -> nat -> Qc).
  Hypothesis IC : ideal_correlation N m e corr.
  Hypothesis II : ideal_independence N m e ind.
  Variables (n : nat) (mlh : bool).
  Hypothesis Hnm : n <= m.
  Notation anc := (ancestor m B).
  Notation Y := (resid_given ols icpt x).
  Notation ng := (d_nongauss ols icpt shapiro x).
  Notation co := (d_corr ols icpt corr x).
  Notation io := (d_ols ols icpt ind x).
  Notation im := (d_ml ols icpt ind mlcoef x).
  Notation visit := (visit n mlh ng co io im).

  Lemma corr_any : forall H U u v, (forall a b, In (a, b) (pairs U) -> co H a b = true) -> (forall h, In h H -> h < m) -> (forall w, In w U -> w < m) -> In u U -> In v U -> u <> v ->
    cov N (Y H u) (Y H v) <> 0%Qc.
  Proof.
    intros H U u v HC HB HU Iu Iv D. destruct (precedes_total U u v Iu Iv D) as [P|P]; apply pairs_In_conv in P; apply HC in P; unfold d_corr in P.
    - apply (IC _ _ (Y_comb' N m B e x LM ols icpt H u (HU u Iu) HB) (Y_comb' N m B e x LM ols icpt H v (HU v Iv) HB)). exact P.
    - rewrite cov_sym. apply (IC _ _ (Y_comb' N m B e x LM ols icpt H v (HU v Iv) HB) (Y_comb' N m B e x LM ols icpt H u (HU u Iu) HB)). exact P.
  Qed.
  Lemma pairs_from : forall H i j, i < n -> j < n -> i <> j -> (forall h, In h H -> anc h i /\ anc h j) ->
    co H i j = true \/ co H j i = true -> io H i [j] j = true -> anc j i.
  Proof.
    intros H i j Hi Hj D HH C T. apply (pair_sound N m B e x LM ols icpt OLS NC corr ind IC II H i j); [lia|lia|exact D|exact HH| |exact T].
    destruct C as [C|C]; [exact C|]. assert (HB : forall h, In h H -> h < m) by (intros h Ih; apply (anc_bound m B h i), HH, Ih).
    apply IC; [apply (Y_comb' N m B e x LM); [lia|exact HB]|apply (Y_comb' N m B e x LM); [lia|exact HB]|]. rewrite cov_sym.
    apply (IC _ _ (Y_comb' N m B e x LM ols icpt H j ltac:(lia) HB) (Y_comb' N m B e x LM ols icpt H i ltac:(lia) HB)). exact C.
  Qed.
  (** Pairs recorded by the search are right, with hidden variables or not. *)
  Lemma search_sound_pairs : forall k M, rcd_ancestors n 1 mlh ng co io im k = inr M -> sound m B n M.
  Proof. exact (search_sound_from m B n mlh ng co io im pairs_from). Qed.

  (** ** Without hidden variables *)
  Hypothesis ALL : n = m.
  Hypothesis IN : ideal_normality N m e shapiro.
  Lemma triple_once : forall M U i xj, exact m B M -> In U (combs 3 (seq 0 n)) ->
    (forall u v, In (u, v) (pairs U) -> co (common_ancestors n M U) u v = true) ->
    sinks mlh io im M (common_ancestors n M U) U = [i] -> In xj (remove_nat i U) -> M i xj = false -> False.
  Proof.
    intros M U i xj EX IU HC SK Ij MF. destruct (combs_In _ _ _ IU) as [L HU]. pose proof (combs_NoDup_elem _ _ _ (seq_NoDup n 0) IU) as ND.
    assert (UB : forall w, In w U -> w < m) by (intros w Iw; apply HU, in_seq in Iw; lia).
    assert (S : sound m B n M) by (intros i0 j0 Q; apply EX in Q; destruct (anc_bound m B j0 i0 Q); split; [lia|split; [lia|exact Q]]).
    set (H := common_ancestors n M U) in *.
    assert (NE : U <> []) by (intros ->; discriminate).
    assert (HB : forall h, In h H -> h < m) by (intros h Ih; apply (common_bound m B n M U h S NE Ih)).
    assert (NDH : NoDup H) by apply common_NoDup.
    assert (Isk : In i (sinks mlh io im M H U)) by (rewrite SK; left; reflexivity). apply sinks_In in Isk. destruct Isk as (Ii & XA & T).
    assert (Lr : length (remove_nat i U) = 2).
    { pose proof (Permutation_length (remove_nat_perm i U ND Ii)) as PL. cbn in PL. lia. }
    assert (NDr : NoDup (remove_nat i U)) by (apply NoDup_filter; exact ND).
    assert (Ir : forall q, In q (remove_nat i U) <-> In q U /\ q <> i) by (intro q; apply remove_nat_In).
    assert (BNA : forall q, In q (remove_nat i U) -> ~ anc i q) by (intros q Iq A; apply EX in A; rewrite (exists_ancestor_false M i _ XA q Iq) in A; discriminate).
    destruct (accepted_resid N m B e x LM ols icpt ind mlcoef II mlh H i (remove_nat i U) (UB i Ii)) as (c & R & CR & RC & RI); [intros j Ij'; apply UB; apply Ir; exact Ij'|exact HB|exact T|].
    destruct (remove_nat i U) as [|a [|b [|z r]]] eqn:ER; try discriminate. clear Lr.
    assert (Dab : a <> b) by (intros ->; inversion NDr as [|? ? Q _]; apply Q; left; reflexivity).
    assert (Fa : In a U /\ a <> i) by (apply Ir; left; reflexivity). assert (Fb : In b U /\ b <> i) by (apply Ir; right; left; reflexivity).
    assert (IU3 : forall q, In q U <-> q = i \/ q = a \/ q = b).
    { intro q. split.
      - intro Iq. destruct (Nat.eq_dec q i) as [->|D]; [auto|]. right. assert (Q : In q [a; b]) by (apply Ir; auto). destruct Q as [<-|[<-|[]]]; auto.
      - intros [-> |[-> | ->]]; [exact Ii|apply Fa|apply Fb]. }
    assert (HH : forall h, In h H <-> anc h i /\ anc h a /\ anc h b).
    { intro h. split.
      - intro Ih. split; [|split]; apply (common_anc m B n M U h S Ih); [exact Ii|apply Fa|apply Fb].
      - intros (A1 & A2 & A3). apply common_In. split; [rewrite ALL; apply (anc_bound m B h i A1)|]. intros w Iw. apply IU3 in Iw. apply EX. destruct Iw as [-> |[-> | ->]]; assumption. }
    assert (CV : forall p q, In p U -> In q U -> p <> q -> cov N (Y H p) (Y H q) <> 0%Qc) by (intros p q Ip Iq D; apply (corr_any H U p q HC HB UB Ip Iq D)).
    (* a variable that is no ancestor of i would be a second sink *)
    assert (CONTRA : forall p q, In p U -> In q U -> p <> q -> p <> i -> q <> i -> In p [a; b] -> In q [a; b] -> ~ anc q i ->
      (exists cp cq, forall z, cov N R z = (cov N (Y H i) z - (cp * cov N (Y H p) z + cq * cov N (Y H q) z))%Qc) -> False).
    { intros p q Ip Iq D Dpi Dqi Ip' Iq' NA (cp & cq & RC').
      assert (HPQ : forall h, In h H <-> anc h i /\ anc h p /\ anc h q).
      { intro h. rewrite HH. destruct Ip' as [<-|[<-|[]]]; destruct Iq' as [<-|[<-|[]]]; try congruence; tauto. }
      destruct (triple_second_sink N m B e x LM ols icpt OLS NC ind II H i p q R cp cq (UB i Ii) (UB p Ip) (UB q Iq) (not_eq_sym Dpi) (not_eq_sym Dqi) D NDH HPQ NA
        (CV i p Ii Ip (not_eq_sym Dpi)) (CV p q Ip Iq D) CR RC' (RI p Ip') (RI q Iq')) as [NQP ACC].
      assert (IQS : In q (sinks mlh io im M H U)).
      { apply sinks_In. split; [exact Iq|].
        assert (RQ : forall w, In w (remove_nat q U) <-> w = i \/ w = p).
        { intro w. rewrite remove_nat_In, IU3. split.
          - intros [[->|Q] D']; [auto|]. right. destruct Ip' as [<-|[<-|[]]]; destruct Iq' as [<-|[<-|[]]]; try congruence; destruct Q as [-> | ->]; congruence.
          - intros [-> | ->]; [split; [auto|congruence]|]. split; [|exact D]. destruct Ip' as [<-|[<-|[]]]; auto. }
        assert (NDq : NoDup (remove_nat q U)) by (apply NoDup_filter; exact ND).
        destruct (ACC (remove_nat q U) NDq RQ) as [T1 T2]. split.
        - unfold exists_ancestor. apply orb_false_iff. split.
          + apply not_true_is_false. intro Q. apply existsb_exists in Q. destruct Q as (w & Iw & Q). apply RQ in Iw. apply EX in Q. destruct Iw as [-> | ->]; contradiction.
          + apply not_true_is_false. intro Q. rewrite forallb_forall in Q. assert (Q' : M q i = true) by (apply Q, RQ; left; reflexivity). apply EX in Q'. exact (BNA q Iq' Q').
        - unfold indep_of_resid. replace (forallb (io H q (remove_nat q U)) (remove_nat q U)) with true; [reflexivity|].
          symmetry. apply forallb_forall. intros w Iw. apply RQ in Iw. destruct Iw as [-> | ->]; assumption. }
      rewrite SK in IQS. destruct IQS as [Q|[]]. congruence. }
    assert (RC2 : forall z, cov N R z = (cov N (Y H i) z - (c a * cov N (Y H a) z + c b * cov N (Y H b) z))%Qc) by (intro z; rewrite RC, !sumf_cons, sumf_nil; ring).
    assert (NX : ~ anc xj i) by (intro A; apply EX in A; congruence).
    destruct Ij as [<-|[<-|[]]].
    - apply (CONTRA b a); [apply Fb|apply Fa|congruence|apply Fb|apply Fa|right; left; reflexivity|left; reflexivity|exact NX|].
      exists (c b), (c a). intro z. rewrite RC2. ring.
    - apply (CONTRA a b); [apply Fa|apply Fb|exact Dab|apply Fa|apply Fb|left; reflexivity|right; left; reflexivity|exact NX|].
      exists (c a), (c b). exact RC2.
  Qed.
  Lemma search_exact : forall maxl k M, maxl <= 2 -> 1 <= maxl -> rcd_ancestors n maxl mlh ng co io im k = inr M -> exact m B M.
  Proof.
    apply (search_exact_from m B n mlh ng co io im Hnm pairs_from ALL (lm_acyclic _ _ _ _ _ LM)).
    - intros H i j A ND HH. destruct (anc_bound m B j i A) as [Hj Hi]. exact (pair_complete N m B e x LM ols icpt OLS NC corr ind IC II H i j Hi Hj A ND HH).
    - intros H j Hj HH. apply IN; [apply (Y_comb' N m B e x LM); [exact Hj|intros h Ih; apply (anc_bound m B h j), HH, Ih]|apply (Y_variance N m B e x LM ols icpt); assumption].
    - exact triple_once.
  Qed.
End Search.
