From Coq Require Import Arith List Lia Bool Permutation Sorted QArith Qcanon.
From Verif Require Import Prelude Lib Loop SpecCAMUV ModelRCD ModelCAMUV ProofRCD ProofCAMUV ProofCAMUV2.
Import ListNotations.
Open Scope nat_scope.

Section InOrder.
  Variables (d maxnum : nat) (hsic : bool) (thr : Qc) (pk : option (list (nat * nat)))
    (ind : nat -> list nat -> nat -> list nat -> bool)
    (value : nat -> list nat -> list (nat * list nat) -> num) (iter : list nat -> list nat).
  Hypothesis iter_perm : forall l, Permutation (iter l) l.
  Notation N := (neighborhoods d ind).
  Notation visit := (cam_visit d hsic thr pk ind value iter N).
  Notation step := (cam_step d maxnum hsic thr pk ind value iter N).
  Notation est := (establishes d hsic thr (banned pk) ind value iter).
  Notation top := (Nat.max 2 maxnum).
  Notation found := (found_in_order d hsic thr (banned pk) ind value iter top).
  Notation used_up := (fun t P => forall s K c, 2 <= s < t -> var_set d s K -> ~ est P K c).
  Lemma fold_found : forall t P0 us P ch, 2 <= t <= top -> found P0 -> used_up t P0 -> (forall i j, P0 i j = true -> P i j = true) ->
    (forall U, In U us -> var_set d t U) -> found P -> found (fst (fold_left visit us (P, ch))).
  Proof.
    intros t P0 us. induction us as [|U us IH]; intros P ch T F0 X Sub HU F; [exact F|]. cbn [fold_left]. destruct (HU U (or_introl eq_refl)) as [LU [SU BU]].
    destruct (visit_iff d maxnum hsic thr pk ind value iter iter_perm P ch U (sorted_NoDup _ SU)) as [[c [E V]]|[E V]]; rewrite V.
    - apply IH; [exact T|exact F0|exact X| |intros W HW; apply HU; right; exact HW|].
      + intros i j H. apply absorb_true. left. apply Sub. exact H.
      + eapply (order_step _ _ _ _ _ _ _ _ P0 P _ U t c); [exact F0|exact Sub|exact F|exact T|exact X|repeat split; assumption|exact E|]. intros i j. rewrite absorb_true, remove_nat_In. tauto.
    - apply IH; [exact T|exact F0|exact X|exact Sub|intros W HW; apply HU; right; exact HW|exact F].
  Qed.
  Lemma fold_unchanged : forall us (P : nat -> nat -> bool) ch t, (forall U, In U us -> var_set d t U) -> 2 <= t -> snd (fold_left visit us (P, ch)) = false -> fst (fold_left visit us (P, ch)) = P /\ forall U, In U us -> forall c, ~ est P U c.
  Proof.
    induction us as [|U us IH]; intros P ch t HU T F; [split; [reflexivity|intros U []]|]. cbn [fold_left] in *. destruct (HU U (or_introl eq_refl)) as [LU [SU BU]].
    assert (St : forall us (P : nat -> nat -> bool), snd (fold_left visit us (P, true)) = true).
    { clear. induction us as [|U us IH]; intro P; [reflexivity|]. cbn [fold_left]. assert (Z : exists P', visit (P, true) U = (P', true)).
      { unfold cam_visit. destruct (negb (not_identified P U)); [eauto|]. destruct (get_child d hsic thr pk value iter N P U) as [[c|] b]; [|eauto]. destruct b; [|eauto].
        destruct (negb (dependent_without d ind P (remove_nat c U) c)); [eauto|]. destruct (remove_nat c U); eauto. }
      destruct Z as [P' ->]. apply IH. }
    destruct (visit_iff d maxnum hsic thr pk ind value iter iter_perm P ch U (sorted_NoDup _ SU)) as [[c [E V]]|[E V]]; rewrite V in *.
    - exfalso. assert (Ic : In c U).
      { destruct E as [_ [[_ [_ [bf [af [I _]]]]] _]]. apply (Permutation_in c (iter_perm U)). rewrite I. apply in_or_app. right. left. reflexivity. }
      assert (remove_nat c U <> []) as NE.
      { intro Z. destruct U as [|u [|w U']]; [destruct Ic|cbn in LU; lia|]. inversion SU as [|? ? _ Fo]; subst. inversion Fo; subst.
        assert (In (if c =? u then w else u) (remove_nat c (u :: w :: U'))) as I by (apply remove_nat_In; destruct (Nat.eqb_spec c u); split; cbn [In]; auto; lia). rewrite Z in I. exact I. }
      destruct (remove_nat c U) as [|q r]; [congruence|]. rewrite St in F. discriminate.
    - destruct (IH P ch t (fun W HW => HU W (or_intror HW)) T F) as [A B]. split; [exact A|]. intros W [<-|HW]; [exact E|apply B; exact HW].
  Qed.
  Lemma loop_found : forall k P, loop step k (no_sets, 2) = inr P -> found P.
  Proof.
    intros k P E.
    assert (F : forall P0 t0, let r := fold_left visit (combs t0 (seq 0 d)) (P0, false) in 2 <= t0 <= top -> found P0 -> used_up t0 P0 -> found (fst r) /\ (snd r = false -> used_up (S t0) (fst r))).
    { intros P0 t0 r T F0 X. assert (V : forall U, In U (combs t0 (seq 0 d)) -> var_set d t0 U) by (intros U IU; apply combs_var_set; exact IU). split.
      - apply (fold_found t0 P0); [exact T|exact F0|exact X|auto|exact V|exact F0].
      - intros Fr. destruct (fold_unchanged (combs t0 (seq 0 d)) P0 false t0 V ltac:(lia) Fr) as [A B]. change (fst r = P0) in A. rewrite A. intros s K c Hs VK.
        destruct (Nat.eq_dec s t0) as [->|Ds]; [apply B, combs_var_set; exact VK|apply (X s K c); [lia|exact VK]]. }
    destruct (loop_inv _ _ step (fun st => 2 <= snd st <= top /\ found (fst st) /\ used_up (snd st) (fst st)))
      with (k := k) (s := (no_sets, 2)) (r := P) as [[P1 t1] [[I1 [I2 I3]] E1]].
    - intros [Pa ta] s' [A1 [A2 A3]] Ea. cbn [fst snd] in *. unfold cam_step in Ea. assert (G := F Pa ta A1 A2 A3). cbv zeta in G.
      destruct (fold_left visit (combs ta (seq 0 d)) (Pa, false)) as [P2 c2]. cbn [fst snd] in G. destruct G as [G1 G2]. destruct c2.
      + inversion Ea; subst. cbn [fst snd]. split; [lia|]. split; [exact G1|]. intros s K c Hs. lia.
      + destruct (Nat.ltb_spec maxnum (S ta)); [discriminate|]. inversion Ea; subst. cbn [fst snd]. split; [lia|]. split; [exact G1|]. apply G2. reflexivity.
    - cbn [fst snd]. split; [lia|]. split; [constructor; reflexivity|]. intros s K c Hs. lia.
    - exact E.
    - cbn [fst snd] in *. unfold cam_step in E1. assert (G := F P1 t1 I1 I2 I3). cbv zeta in G.
      destruct (fold_left visit (combs t1 (seq 0 d)) (P1, false)) as [P2 c2]. cbn [fst snd] in G. destruct G as [G1 G2].
      destruct c2; [discriminate|]. destruct (Nat.ltb_spec maxnum (S t1)); [|discriminate]. inversion E1; subst. exact G1.
  Qed.
End InOrder.
