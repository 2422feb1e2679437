From Coq Require Import List Arith Lia Bool ZArith QArith Qcanon Permutation Sorted.
From Verif Require Import Prelude Spec Lib Loop ModelRCD ProofRCD ModelCAMUV ProofCAMUV SpecCAMUV ProofCAMUV2 ModelCamFcorr.
Import ListNotations.
Open Scope nat_scope.

Lemma cholesky_shape_spec : forall n m, 2 <= n -> 1 <= m ->
  cholesky_shape n m = if m =? 1 then Ok tt else Err ValueError.
Proof.
  intros n m Hn Hm. unfold cholesky_shape, squared_dist_shape, bc, bc_axis, assign, tile, column. cbn [fst snd].
  rewrite !Nat.mul_1_r, !Nat.mul_1_l.
  destruct (Nat.eqb_spec m 1) as [->|Dm].
  - rewrite ?Nat.mul_1_r. rewrite !Nat.eqb_refl. generalize (n - 1). intro k.
    destruct k as [|[|k]]; cbn; rewrite ?Nat.eqb_refl; cbn; rewrite ?Nat.eqb_refl; reflexivity.
  - assert ((n - 1) * m <> 1) as D1 by (intro E; apply Nat.eq_mul_1 in E; lia).
    rewrite (proj2 (Nat.eqb_neq _ _) D1). cbn [Nat.eqb bind].
    destruct m as [|[|m]]; [lia|lia|]. cbn [Nat.eqb bind fst snd]. rewrite !Nat.eqb_refl. cbn [bind fst snd].
    rewrite !Nat.eqb_refl. cbn [bind fst snd Nat.eqb]. rewrite !andb_false_r. reflexivity.
Qed.

Section Search.
  Variables (d : nat) (hsic : bool) (thr : Qc) (pk : option (list (nat * nat)))
    (ind : nat -> list nat -> nat -> list nat -> bool)
    (value : nat -> list nat -> list (nat * list nat) -> result num)
    (total : nat -> list nat -> list (nat * list nat) -> num) (iter : list nat -> list nat).
  Hypothesis iter_perm : forall l, Permutation (iter l) l.
  Hypothesis one : forall c A q, value c A [q] = Ok (total c A [q]).
  Hypothesis many : forall c A qs, 2 <= length qs -> value c A qs = Err ValueError.
  Notation N := (neighborhoods d ind).
  Notation visit_e := (cam_visit_e d hsic thr pk ind value iter N).
  Notation visit := (cam_visit d hsic thr pk ind total iter N).
  Notation step_e := (fun maxnum => cam_step_e d maxnum hsic thr pk ind value iter N).
  Notation step := (fun maxnum => cam_step d maxnum hsic thr pk ind total iter N).

  Lemma rest_length : forall t K c, In K (combs t (seq 0 d)) -> In c K -> S (length (remove_nat c K)) = t.
  Proof.
    intros t K c I Ic. assert (ND := combs_NoDup_elem _ _ _ (seq_NoDup _ _) I).
    rewrite <- (proj1 (combs_In _ _ _ I)). rewrite (Permutation_length (remove_nat_perm c K ND Ic)). reflexivity.
  Qed.

  (** pairs *)
  Lemma child_pair : forall P K l st, In K (combs 2 (seq 0 d)) -> (forall c, In c l -> In c K) ->
    foldM (child_visit d hsic pk value N P K) l st =
    Ok (fold_left (fun st c =>
        let '(prev, best) := st in
        let ps := remove_nat c K in
        if check_pk pk ps c then st
        else if negb (check_correlation N c ps) then st
        else let v := total c (elems d (fun x => memb x ps || P c x))
                            (map (fun q => (q, elems d (P q))) ps) in
             if better hsic v prev then (v, Some c) else st) l st).
  Proof.
    intros P K l. induction l as [|c l IH]; intros st IK Hl; [reflexivity|]. cbn [foldM fold_left].
    destruct st as [prev best]. unfold child_visit at 1.
    assert (L := rest_length _ _ _ IK (Hl c (or_introl eq_refl))).
    destruct (remove_nat c K) as [|q [|q' ps]] eqn:R; [discriminate| |discriminate].
    destruct (check_pk pk [q] c); [cbn [bind]; apply IH; [exact IK|intros; apply Hl; right; assumption]|].
    destruct (negb (check_correlation N c [q])); [cbn [bind]; apply IH; [exact IK|intros; apply Hl; right; assumption]|].
    cbn [map]. rewrite one. cbn [bind]. apply IH; [exact IK|intros; apply Hl; right; assumption].
  Qed.
  Lemma visit_pair : forall st K, In K (combs 2 (seq 0 d)) -> visit_e st K = Ok (visit st K).
  Proof.
    intros [P ch] K IK. unfold cam_visit_e, cam_visit. destruct (negb (not_identified P K)); [reflexivity|].
    unfold get_child_e, get_child. rewrite child_pair; [|exact IK|].
    2:{ intros c I. apply (Permutation_in c (iter_perm K)). exact I. }
    cbn [bind]. destruct (fold_left _ (iter K) _) as [best [c|]]; cbn [fst snd]; [|reflexivity].
    destruct (if hsic then nltb (Some thr) best else nltb best (Some thr)); [|reflexivity].
    destruct (negb (dependent_without d ind P (remove_nat c K) c)); reflexivity.
  Qed.
  Lemma fold_pair : forall us st, (forall K, In K us -> In K (combs 2 (seq 0 d))) ->
    foldM visit_e us st = Ok (fold_left visit us st).
  Proof.
    induction us as [|K us IH]; intros st H; [reflexivity|]. cbn [foldM fold_left].
    rewrite visit_pair by (apply H; left; reflexivity). cbn [bind]. apply IH. intros; apply H; right; assumption.
  Qed.
  Lemma step_pair : forall maxnum P, step_e maxnum (P, 2) =
    match step maxnum (P, 2) with inl s => inl s | inr Q => inr (Ok Q) end.
  Proof.
    intros maxnum P. unfold cam_step_e, cam_step. rewrite fold_pair by auto.
    destruct (fold_left visit _ _) as [P' [|]]; [reflexivity|]. destruct (maxnum <? 3); reflexivity.
  Qed.

  (** larger sets: either nothing is tried, or the test raises *)
  Definition tried (P : sets) (K : list nat) (c : nat) : Prop :=
    In c K /\ not_identified P K = true /\ check_pk pk (remove_nat c K) c = false /\
    forall q, In q (remove_nat c K) -> N c q = true.
  Lemma child_many : forall P K l st, 3 <= length K -> (forall c, In c l -> S (length (remove_nat c K)) = length K) ->
    (foldM (child_visit d hsic pk value N P K) l st = Ok st /\
     forall c, In c l -> check_pk pk (remove_nat c K) c = true \/ exists q, In q (remove_nat c K) /\ N c q = false) \/
    (foldM (child_visit d hsic pk value N P K) l st = Err ValueError /\
     exists c, In c l /\ check_pk pk (remove_nat c K) c = false /\ forall q, In q (remove_nat c K) -> N c q = true).
  Proof.
    intros P K l. induction l as [|c l IH]; intros st LK Hl; [left; split; [reflexivity|intros c []]|].
    cbn [foldM]. destruct st as [prev best]. unfold child_visit at 1 3.
    assert (L := Hl c (or_introl eq_refl)).
    assert (forall c0, In c0 l -> S (length (remove_nat c0 K)) = length K) as Hl' by (intros; apply Hl; right; assumption).
    destruct (check_pk pk (remove_nat c K) c) eqn:CK.
    { cbn [bind]. destruct (IH (prev, best) LK Hl') as [[E H]|[E [c0 [I H]]]].
      - left. split; [exact E|]. intros c0 [<-|I]; [auto|auto].
      - right. split; [exact E|]. exists c0. split; [right; exact I|exact H]. }
    destruct (check_correlation N c (remove_nat c K)) eqn:CC; cbn [negb].
    2:{ cbn [bind]. destruct (IH (prev, best) LK Hl') as [[E H]|[E [c0 [I H]]]].
        - left. split; [exact E|]. intros c0 [<-|I]; [right|auto].
          unfold check_correlation in CC. clear - CC. induction (remove_nat c K) as [|q r IHr]; [discriminate|].
          cbn [forallb] in CC. destruct (N c q) eqn:Nq; [|exists q; split; [left; reflexivity|exact Nq]].
          cbn [andb] in CC. destruct (IHr CC) as [q' [I Hq]]. exists q'. split; [right; exact I|exact Hq].
        - right. split; [exact E|]. exists c0. split; [right; exact I|exact H]. }
    right. rewrite many by (rewrite map_length; lia). cbn [bind]. split; [reflexivity|].
    exists c. split; [left; reflexivity|]. split; [exact CK|]. apply forallb_forall. exact CC.
  Qed.
  Lemma visit_many : forall t P ch K, 3 <= t -> In K (combs t (seq 0 d)) ->
    (visit_e (P, ch) K = Ok (P, ch) /\ forall c, ~ tried P K c) \/
    (visit_e (P, ch) K = Err ValueError /\ exists c, tried P K c).
  Proof.
    intros t P ch K Ht IK. unfold cam_visit_e. destruct (not_identified P K) eqn:NI; cbn [negb].
    2:{ left. split; [reflexivity|]. intros c [_ [H _]]. congruence. }
    unfold get_child_e.
    assert (LK := proj1 (combs_In _ _ _ IK)).
    assert (forall c, In c (iter K) -> In c K) as Hi by (intros c I; apply (Permutation_in c (iter_perm K)); exact I).
    destruct (child_many P K (iter K) (Some (if hsic then 0%Qc else 1%Qc), None)) as [[E H]|[E [c [I [H1 H2]]]]].
    - lia.
    - intros c I. rewrite LK. apply (rest_length t K c IK (Hi c I)).
    - left. rewrite E. cbn [bind fst snd]. split; [reflexivity|]. intros c [Ic [_ [H1 H2]]].
      destruct (H c) as [H3|[q [Iq H3]]]; [apply (Permutation_in c (Permutation_sym (iter_perm K))); exact Ic|congruence|].
      rewrite (H2 q Iq) in H3. discriminate.
    - right. rewrite E. cbn [bind]. split; [reflexivity|]. exists c. unfold tried. auto.
  Qed.
  Lemma fold_many : forall t P us, 3 <= t -> (forall K, In K us -> In K (combs t (seq 0 d))) ->
    (foldM visit_e us (P, false) = Ok (P, false) /\ forall K c, In K us -> ~ tried P K c) \/
    (foldM visit_e us (P, false) = Err ValueError /\ exists K c, In K us /\ tried P K c).
  Proof.
    intros t P us Ht. induction us as [|K us IH]; intro H; [left; split; [reflexivity|intros K c []]|]. cbn [foldM].
    destruct (visit_many t P false K Ht (H K (or_introl eq_refl))) as [[E H1]|[E [c H1]]]; rewrite E; cbn [bind].
    - destruct IH as [[E' H2]|[E' [K' [c [I H2]]]]]; [intros; apply H; right; assumption| |].
      + left. split; [exact E'|]. intros K' c [<-|I]; [apply H1|apply H2; exact I].
      + right. split; [exact E'|]. exists K', c. split; [right; exact I|exact H2].
    - right. split; [reflexivity|]. exists K, c. split; [left; reflexivity|exact H1].
  Qed.

  (** three variables that larger sets would try *)
  Definition triple (P : sets) : Prop := exists c p q, c < d /\ p < d /\ q < d /\ c <> p /\ c <> q /\ p <> q /\
    N c p = true /\ N c q = true /\ check_pk pk [p; q] c = false /\
    (forall a b, In a [c; p; q] -> In b [c; p; q] -> a <> b -> P a b = false).
  Lemma check_pk_incl : forall l l' c, (forall x, In x l -> In x l') -> check_pk pk l' c = false -> check_pk pk l c = false.
  Proof.
    intros l l' c H E. unfold check_pk in *. destruct pk as [k|]; [|reflexivity].
    destruct (existsb _ l) eqn:X; [|reflexivity]. apply existsb_exists in X. destruct X as [x [I X]].
    rewrite <- E. symmetry. apply existsb_exists. exists x. auto.
  Qed.
  Lemma tried_triple : forall t P K c, 3 <= t -> In K (combs t (seq 0 d)) -> tried P K c -> triple P.
  Proof.
    intros t P K c Ht IK [Ic [NI [CK HN]]]. assert (L := rest_length _ _ _ IK Ic).
    assert (ND := combs_NoDup_elem _ _ _ (seq_NoDup _ _) IK).
    assert (NoDup (remove_nat c K)) as NDr by (apply NoDup_filter; exact ND).
    assert (forall x, In x K -> x < d) as B by (intros x I; apply (proj2 (combs_In _ _ _ IK)) in I; apply in_seq in I; lia).
    destruct (remove_nat c K) as [|p [|q r]] eqn:R; [cbn in L; lia|cbn in L; lia|].
    assert (In p K /\ p <> c) as [Ip Dp] by (apply remove_nat_In; rewrite R; left; reflexivity).
    assert (In q K /\ q <> c) as [Iq Dq] by (apply remove_nat_In; rewrite R; right; left; reflexivity).
    exists c, p, q. repeat split; auto.
    - inversion NDr as [|? ? H _]. intros ->. apply H. left. reflexivity.
    - apply HN. left. reflexivity.
    - apply HN. right. left. reflexivity.
    - apply (check_pk_incl _ (p :: q :: r)); [|exact CK]. intros x [<-|[<-|[]]]; cbn; auto.
    - intros a b Ia Ib D. apply (not_identified_spec d ind total _ _ NI); [| |exact D];
        match goal with I : In ?x [c; p; q] |- In ?x K => destruct I as [<-|[<-|[<-|[]]]]; assumption end.
  Qed.
  Lemma not_identified_conv : forall P K, (forall a b, In a K -> In b K -> a <> b -> P a b = false) -> NoDup K ->
    not_identified P K = true.
  Proof.
    intros P K H ND. apply forallb_forall. intros [a b] I. cbn [fst snd].
    apply pairs_In in I; [|exact ND]. assert (J := I). apply precedes_In in J. destruct J as [Ia Ib].
    assert (a <> b) as D by (intros ->; apply (precedes_irrefl _ _ ND I)).
    rewrite (H a b Ia Ib D), (H b a Ib Ia (not_eq_sym D)). reflexivity.
  Qed.
  Lemma sorted3 : forall c p q, c <> p -> c <> q -> p <> q -> c < d -> p < d -> q < d ->
    exists K, In K (combs 3 (seq 0 d)) /\ (forall x, In x K <-> In x [c; p; q]) /\
      forall x, In x (remove_nat c K) <-> In x [p; q].
  Proof.
    intros c p q D1 D2 D3 B1 B2 B3.
    assert (exists K, length K = 3 /\ StronglySorted lt K /\ forall x, In x K <-> In x [c; p; q]) as [K [L [S E]]].
    { assert (forall a b e, a < b -> b < e -> StronglySorted lt [a; b; e]) as SS.
      { intros a b e H1 H2. repeat constructor; lia. }
      destruct (lt_eq_lt_dec c p) as [[A1|A1]|A1]; [| lia |];
      destruct (lt_eq_lt_dec c q) as [[A2|A2]|A2]; try lia;
      destruct (lt_eq_lt_dec p q) as [[A3|A3]|A3]; try lia;
      [ exists [c; p; q] | exists [c; q; p] | exists [q; c; p] | exists [p; c; q] | exists [p; q; c] | exists [q; p; c] ];
      (split; [reflexivity|split; [apply SS; lia|intro x; cbn; intuition]]). }
    exists K. split; [|split].
    - apply combs_complete; [exact L|exact S|]. intros v Iv. apply E in Iv. destruct Iv as [<-|[<-|[<-|[]]]]; lia.
    - exact E.
    - intro x. rewrite remove_nat_In, E. cbn. split; [intros [[H|[H|[H|[]]]] D]; subst; auto; congruence|].
      intros [<-|[<-|[]]]; split; auto.
  Qed.
  Lemma triple_tried : forall P, triple P -> exists K c, In K (combs 3 (seq 0 d)) /\ tried P K c.
  Proof.
    intros P [c [p [q [Bc [Bp [Bq [D1 [D2 [D3 [N1 [N2 [CK H]]]]]]]]]]]].
    destruct (sorted3 c p q D1 D2 D3 Bc Bp Bq) as [K [IK [E R]]]. exists K, c. split; [exact IK|].
    split; [apply E; left; reflexivity|]. split; [|split].
    - apply not_identified_conv; [|eapply combs_NoDup_elem; [apply seq_NoDup|exact IK]].
      intros a b Ia Ib D. apply H; [apply E; exact Ia|apply E; exact Ib|exact D].
    - apply (check_pk_incl _ [p; q]); [|exact CK]. intros x I. apply R. exact I.
    - intros x I. apply R in I. destruct I as [<-|[<-|[]]]; assumption.
  Qed.

  (** the search *)
  Lemma steps_many : forall maxnum P k t, 3 <= t -> S maxnum - t = k -> t <= maxnum ->
    (~ triple P -> exists a, steps (step_e maxnum) (P, t) a /\ step_e maxnum a = inr (Ok P)) /\
    (triple P -> t = 3 -> step_e maxnum (P, t) = inr (Err ValueError)).
  Proof.
    intros maxnum P k. induction k as [|k IH]; intros t Ht Hk Hm; [lia|].
    assert (F := fold_many t P (combs t (seq 0 d)) Ht (fun K I => I)).
    split.
    - intro NT. destruct F as [[E _]|[_ [K [c [IK H]]]]]; [|exfalso; apply NT; apply (tried_triple t P K c Ht IK H)].
      destruct (Nat.ltb_spec maxnum (S t)) as [L|L].
      + exists (P, t). split; [constructor|]. unfold cam_step_e. rewrite E. rewrite (proj2 (Nat.ltb_lt _ _) L). reflexivity.
      + destruct (IH (S t)) as [IH1 _]; [lia|lia|lia|]. destruct (IH1 NT) as [a [A1 A2]]. exists a. split; [|exact A2].
        apply steps_cons with (s1 := (P, S t)); [|exact A1]. unfold cam_step_e. rewrite E.
        rewrite (proj2 (Nat.ltb_ge _ _) L). reflexivity.
    - intros T ->. destruct F as [[_ H]|[E _]].
      + exfalso. destruct (triple_tried P T) as [K [c [IK X]]]. exact (H K c IK X).
      + unfold cam_step_e. rewrite E. reflexivity.
  Qed.

  Lemma changed_or_same : forall us P ch, snd (fold_left visit us (P, ch)) = false ->
    (forall K, In K us -> 2 <= length K /\ NoDup K) -> fst (fold_left visit us (P, ch)) = P.
  Proof.
    assert (forall us P, (forall K, In K us -> 2 <= length K /\ NoDup K) -> snd (fold_left visit us (P, true)) = true) as T.
    { induction us as [|K us IH]; intros P H; [reflexivity|]. cbn [fold_left].
      destruct (visit_cases d hsic thr pk ind total iter iter_perm P true K) as [->|[c [-> _]]].
      - apply IH. intros; apply H; right; assumption.
      - destruct (remove_nat c K); apply IH; intros; apply H; right; assumption. }
    induction us as [|K us IH]; intros P ch E H; [reflexivity|]. cbn [fold_left] in *.
    destruct (visit_cases d hsic thr pk ind total iter iter_perm P ch K) as [R|[c [R [Ic _]]]]; rewrite R in *.
    - apply IH; [exact E|]. intros; apply H; right; assumption.
    - exfalso. destruct (H K (or_introl eq_refl)) as [L ND].
      assert (length K = S (length (remove_nat c K))) as L' by apply (Permutation_length (remove_nat_perm c K ND Ic)).
      destruct (remove_nat c K) as [|q r]; [cbn in L'; lia|].
      rewrite T in E; [discriminate|]. intros; apply H; right; assumption.
  Qed.

  Lemma t_two : forall maxnum s, maxnum <= 2 -> steps (step maxnum) (no_sets, 2) s -> snd s = 2.
  Proof.
    intros maxnum s Hm H. apply (steps_inv _ _ (step maxnum) (fun s => snd s = 2)) with (s := (no_sets, 2)); [|reflexivity|exact H].
    intros [P t] s' E X. cbn [snd] in E. subst t. unfold cam_step in X.
    destruct (fold_left visit _ _) as [P' [|]]; [inversion X; reflexivity|].
    rewrite (proj2 (Nat.ltb_lt maxnum 3)) in X by lia. discriminate.
  Qed.
  Lemma steps_up : forall maxnum m2 s s', m2 <= 2 -> steps (step m2) s s' -> snd s = 2 -> steps (step_e maxnum) s s'.
  Proof.
    intros maxnum m2 s s' Hm H. induction H as [s|s s1 s2 E _ IH]; intro T; [constructor|].
    destruct s as [P t]. cbn [snd] in T. subst t.
    assert (snd s1 = 2 /\ step maxnum (P, 2) = inl s1) as [T1 E1].
    { unfold cam_step in E |- *. destruct (fold_left visit _ _) as [P' [|]]; [inversion E; auto|].
      rewrite (proj2 (Nat.ltb_lt m2 3)) in E by lia. discriminate. }
    apply steps_cons with (s1 := s1); [|apply IH; exact T1]. rewrite step_pair, E1. reflexivity.
  Qed.
  (** what the search ends with, for every bound *)
  Lemma search_end : forall maxnum m2 k Q, m2 <= 2 -> loop (step m2) k (no_sets, 2) = inr Q ->
    (maxnum <= 2 -> exists a, steps (step_e maxnum) (no_sets, 2) a /\ step_e maxnum a = inr (Ok Q)) /\
    (3 <= maxnum -> triple Q -> exists a, steps (step_e maxnum) (no_sets, 2) a /\ step_e maxnum a = inr (Err ValueError)) /\
    (3 <= maxnum -> ~ triple Q -> exists a, steps (step_e maxnum) (no_sets, 2) a /\ step_e maxnum a = inr (Ok Q)).
  Proof.
    intros maxnum m2 k Q Hm E. destruct (loop_inr_steps _ _ _ _ _ _ E) as [[P t] [S1 S2]].
    assert (T := t_two m2 _ Hm S1). cbn [snd] in T. subst t.
    assert (U := steps_up maxnum m2 _ _ Hm S1 eq_refl).
    unfold cam_step in S2. destruct (fold_left visit (combs 2 (seq 0 d)) (P, false)) as [P' ch] eqn:F.
    destruct ch; [discriminate|]. rewrite (proj2 (Nat.ltb_lt m2 3)) in S2 by lia. inversion S2; subst P'.
    assert (Q = P) as ->.
    { assert (C := changed_or_same (combs 2 (seq 0 d)) P false). rewrite F in C. apply C; [reflexivity|].
      intros K IK. split; [rewrite (proj1 (combs_In _ _ _ IK)); lia|eapply combs_NoDup_elem; [apply seq_NoDup|exact IK]]. }
    assert (step_e maxnum (P, 2) = if maxnum <? 3 then inr (Ok P) else inl (P, 3)) as ST.
    { rewrite step_pair. unfold cam_step. rewrite F. destruct (maxnum <? 3); reflexivity. }
    split; [|split].
    - intro L. exists (P, 2). split; [exact U|]. rewrite ST, (proj2 (Nat.ltb_lt maxnum 3)) by lia. reflexivity.
    - intros L T. exists (P, 3). rewrite (proj2 (Nat.ltb_ge maxnum 3)) in ST by lia. split.
      + eapply steps_trans; [exact U|]. apply steps_one. exact ST.
      + apply (proj2 (steps_many maxnum P _ 3 (le_n 3) eq_refl L) T eq_refl).
    - intros L T. rewrite (proj2 (Nat.ltb_ge maxnum 3)) in ST by lia.
      destruct (proj1 (steps_many maxnum P _ 3 (le_n 3) eq_refl L) T) as [a [A1 A2]]. exists a. split; [|exact A2].
      eapply steps_trans; [exact U|]. eapply steps_trans; [apply steps_one; exact ST|exact A1].
  Qed.

  (** the iteration bound suffices *)
  Lemma search_stops : forall maxnum k, cam_top d maxnum < 2 ^ k -> exists r, loop (step_e maxnum) k (no_sets, 2) = inr r.
  Proof.
    intros maxnum k Hk. set (T := Nat.max 2 maxnum) in *. assert (2 <= T) as T2 by apply Nat.le_max_l.
    assert (maxnum <= T) as TM by apply Nat.le_max_r.
    apply (loop_terminates_up _ _ (step_e maxnum) (fun st => 2 <= snd st <= T) (fun st => msize d (fst st) * S T + snd st) (cam_top d maxnum));
      [| |cbn [snd]; lia|exact Hk].
    - intros [P t] s' L E. cbn [fst snd] in *.
      destruct (Nat.eq_dec t 2) as [->|Dt].
      + rewrite step_pair in E. unfold cam_step in E.
        assert (F := fold_grows d hsic thr pk ind total iter iter_perm (combs 2 (seq 0 d)) P false).
        assert (forall U, In U (combs 2 (seq 0 d)) -> forall v, In v U -> v < d) as HB.
        { intros U IU v Iv. apply (proj2 (combs_In _ _ _ IU)) in Iv. apply in_seq in Iv. lia. }
        specialize (F HB). destruct (fold_left visit (combs 2 (seq 0 d)) (P, false)) as [P' c'].
        destruct F as [F1 F2]. destruct c'.
        * inversion E; subst. cbn [fst snd]. split; [lia|]. destruct (F2 eq_refl) as [|F3]; [discriminate|].
          assert (S (msize d P) * S T <= msize d P' * S T) by (apply Nat.mul_le_mono_r; exact F3). lia.
        * destruct (Nat.ltb_spec maxnum 3); [discriminate|]. inversion E; subst. cbn [fst snd]. split; [lia|].
          assert (msize d P * S T <= msize d P' * S T) by (apply Nat.mul_le_mono_r; exact F1). lia.
      + unfold cam_step_e in E. assert (3 <= t) as Ht by lia.
        destruct (fold_many t P (combs t (seq 0 d)) Ht (fun K I => I)) as [[F _]|[F _]]; rewrite F in E; [|discriminate].
        destruct (Nat.ltb_spec maxnum (S t)); [discriminate|]. inversion E; subst. cbn [fst snd]. split; [lia|lia].
    - intros [P t] L. cbn [fst snd] in *. unfold cam_top. fold T.
      assert (msize d P * S T <= d * d * S T) by (apply Nat.mul_le_mono_r; apply msize_bound). lia.
  Qed.
  Lemma search_result : forall maxnum m2 k k' Q r, m2 <= 2 -> loop (step m2) k (no_sets, 2) = inr Q ->
    loop (step_e maxnum) k' (no_sets, 2) = inr r ->
    (maxnum <= 2 -> r = Ok Q) /\ (3 <= maxnum -> triple Q -> r = Err ValueError) /\ (3 <= maxnum -> ~ triple Q -> r = Ok Q).
  Proof.
    intros maxnum m2 k k' Q r Hm E E'. destruct (search_end maxnum m2 k Q Hm E) as [A [B C]].
    split; [|split].
    - intro L. destruct (A L) as [a [S1 S2]]. exact (loop_steps_eq _ _ _ _ _ _ _ _ E' S1 S2).
    - intros L T. destruct (B L T) as [a [S1 S2]]. exact (loop_steps_eq _ _ _ _ _ _ _ _ E' S1 S2).
    - intros L T. destruct (C L T) as [a [S1 S2]]. exact (loop_steps_eq _ _ _ _ _ _ _ _ E' S1 S2).
  Qed.
  Lemma triple_dec : forall P, triple P \/ ~ triple P.
  Proof.
    intro P. destruct (fold_many 3 P (combs 3 (seq 0 d)) (le_n 3) (fun K I => I)) as [[_ H]|[_ [K [c [IK H]]]]].
    - right. intro T. destruct (triple_tried P T) as [K [c [IK X]]]. exact (H K c IK X).
    - left. exact (tried_triple 3 P K c (le_n 3) IK H).
  Qed.
End Search.

(** With at most two explanatory variables only blocks of one column are tested. *)
Lemma fit_small : forall d maxnum hsic thr pk ind value total iter, (forall l, Permutation (iter l) l) ->
  (forall c A q, value c A [q] = Ok (total c A [q])) -> (forall c A qs, 2 <= length qs -> value c A qs = Err ValueError) ->
  maxnum <= 2 -> cam_fit_e d maxnum hsic thr pk ind value iter = cam_fit d maxnum hsic thr pk ind total iter.
Proof.
  intros d maxnum hsic thr pk ind value total iter IP O M Hm. unfold cam_fit_e, cam_fit. destruct (maxnum =? 0); [reflexivity|].
  assert (cam_top d maxnum < 2 ^ S (Nat.log2 (cam_top d maxnum))) as HK by (apply Nat.log2_spec; unfold cam_top; lia).
  destruct (cam_terminates d maxnum hsic thr pk ind total iter IP _ HK) as [Q EQ].
  destruct (search_stops d hsic thr pk ind value total iter IP O M maxnum _ HK) as [r Er].
  destruct (search_result d hsic thr pk ind value total iter IP O M maxnum maxnum _ _ Q r Hm EQ Er) as [A _].
  cbn beta in Er. rewrite Er, (A Hm). unfold find_parents. rewrite EQ. reflexivity.
Qed.
Lemma fit_singles : forall d maxnum hsic thr pk ind v w iter, (forall l, Permutation (iter l) l) -> maxnum <= 2 ->
  (forall c A q, v c A [q] = w c A [q]) -> cam_fit d maxnum hsic thr pk ind v iter = cam_fit d maxnum hsic thr pk ind w iter.
Proof.
  intros d maxnum hsic thr pk ind v w iter IP Hm H.
  set (value := fun c A qs => match qs with [q] => Ok (v c A [q]) | _ => Err ValueError end).
  rewrite <- (fit_small d maxnum hsic thr pk ind value v iter IP), <- (fit_small d maxnum hsic thr pk ind value w iter IP);
    [reflexivity| | | | | |]; try exact Hm.
  - intros c A q. cbn. rewrite H. reflexivity.
  - intros c A [|q [|q' qs]] L; cbn in *; [lia|lia|reflexivity].
  - intros c A q. reflexivity.
  - intros c A [|q [|q' qs]] L; cbn in *; [lia|lia|reflexivity].
Qed.
