From Coq Require Import List Arith Lia Bool Permutation Sorted QArith Qcanon.
From Verif Require Import Prelude Lib Loop SpecCAMUV ModelRCD ModelCAMUV ModelCamInt ProofRCD ProofCAMUV ProofCAMUV2.
Import ListNotations.
Open Scope nat_scope.

(** ** Sets of two variables *)
Lemma two_child : forall d thr value iter N P a b c o qc qo, (0 <= thr)%Qc -> Permutation (iter [a; b]) [a; b] -> a <> b -> (c = a /\ o = b) \/ (c = b /\ o = a) ->
  N a b = true -> N b a = true ->
  value c (elems d (fun x => memb x [o] || P c x)) [(o, elems d (P o))] = Some qc -> (thr < qc)%Qc ->
  value o (elems d (fun x => memb x [c] || P o x)) [(c, elems d (P c))] = Some qo -> ~ (thr < qo)%Qc ->
  get_child d true thr None value iter N P [a; b] = (Some c, true).
Proof.
  intros d thr value iter N P a b c o qc qo H0 IP NE CO Nab Nba Ec Lc Eo Lo.
  assert (Ra : remove_nat a [a; b] = [b]) by (unfold remove_nat; cbn; rewrite Nat.eqb_refl; cbn; destruct (Nat.eqb_spec b a); [congruence|reflexivity]).
  assert (Rb : remove_nat b [a; b] = [a]) by (unfold remove_nat; cbn; rewrite Nat.eqb_refl; destruct (Nat.eqb_spec a b); [congruence|reflexivity]).
  assert (L0 : (0 < qc)%Qc) by (eapply Qcle_lt_trans; eassumption).
  assert (Loc : (qo < qc)%Qc) by (eapply Qcle_lt_trans; [apply Qcnot_lt_le; exact Lo|exact Lc]).
  assert (T1 : qltb 0%Qc qc = true) by (apply qltb_lt; exact L0). assert (T2 : qltb qo qc = true) by (apply qltb_lt; exact Loc).
  assert (T3 : qltb qc qo = false) by (apply qltb_nlt, Qclt_le_weak; exact Loc). assert (T4 : qltb thr qc = true) by (apply qltb_lt; exact Lc).
  unfold get_child. cbv zeta. apply Permutation_sym, Permutation_length_2_inv in IP.
  destruct IP as [-> | ->]; cbn [fold_left check_pk]; rewrite Ra, Rb; unfold check_correlation; cbn [forallb map]; rewrite Nab, Nba; cbn [negb andb];
    destruct CO as [[-> ->]|[-> ->]]; rewrite Ec, Eo; unfold better, nltb; rewrite ?T1; destruct (qltb 0%Qc qo); rewrite ?T2, ?T3; rewrite ?T1, ?T4; try reflexivity.
Qed.

Lemma get_child_in : forall d hsic thr pk value iter N P vs c b, (forall l, Permutation (iter l) l) -> get_child d hsic thr pk value iter N P vs = (Some c, b) -> In c vs.
Proof.
  intros d hsic thr pk value iter N P vs c b IP EC. unfold get_child in EC. cbv zeta in EC.
  match type of EC with (let '(b0, c0) := fold_left ?f ?l ?s in _) = _ => assert (G : forall l0 s0, (forall x, In x l0 -> In x vs) -> (forall x, snd s0 = Some x -> In x vs) -> forall x, snd (fold_left f l0 s0) = Some x -> In x vs) end.
  { clear. induction l0 as [|y l0 IH]; intros s0 Hl Hs x Hx; [apply Hs; exact Hx|]. cbn [fold_left] in Hx. apply IH in Hx; [exact Hx|intros z Hz; apply Hl; right; exact Hz|].
    destruct s0 as [p o]. cbn [snd] in Hs. intros z. destruct (check_pk _ _ _); [apply Hs|]. destruct (negb _); [apply Hs|]. destruct (better _ _ _); cbn [snd]; [|apply Hs]. intro W. injection W as <-. apply Hl. left. reflexivity. }
  specialize (G (iter vs) (Some (if hsic then 0%Qc else 1%Qc), None)). destruct (fold_left _ (iter vs) _) as [q c']. injection EC as -> _. apply G; [intros x Hx; apply (Permutation_in _ (IP vs)); exact Hx|discriminate|reflexivity].
Qed.
Lemma loop_agree : forall (S T : Type) (f g : S -> S + T) (J : S -> Prop), (forall st, J st -> f st = g st /\ forall st', g st = inl st' -> J st') ->
  forall k st, J st -> loop f k st = loop g k st /\ forall st', loop g k st = inl st' -> J st'.
Proof.
  intros S T f g J H. induction k as [|k IH]; intros st HI; cbn [loop]; [apply H; exact HI|].
  destruct (IH st HI) as [E1 E2]. rewrite E1. destruct (loop g k st) as [s1|t1]; [|split; [reflexivity|discriminate]]. exact (IH s1 (E2 s1 eq_refl)).
Qed.
Lemma loop_inv : forall (S T : Type) (f : S -> S + T) (J : S -> Prop) (Q : T -> Prop), (forall st, J st -> match f st with inl st' => J st' | inr t => Q t end) ->
  forall k st, J st -> match loop f k st with inl st' => J st' | inr t => Q t end.
Proof.
  intros S T f J Q H. induction k as [|k IH]; intros st HI; cbn [loop]; [apply H; exact HI|]. pose proof (IH st HI) as E. destruct (loop f k st) as [s1|t1]; [apply IH; exact E|exact E].
Qed.
Lemma prune_sub : forall d ind P i j, prune d ind P i j = true -> P i j = true.
Proof.
  intros d ind P i j. unfold prune. generalize P. induction (seq 0 d) as [|a l IH]; intros P0 H; [exact H|]. cbn [fold_left] in H. apply IH in H. unfold prune_row in H. apply andb_true_iff in H. tauto.
Qed.

(** ** Agreement of two searches *)
Section Agree.
  Variables (d maxnum : nat) (hsic : bool) (thr : Qc) (pk : option (list (nat * nat))) (ind indY : nat -> list nat -> nat -> list nat -> bool)
    (value valueY : nat -> list nat -> list (nat * list nat) -> num) (iter : list nat -> list nat).
  Hypothesis IP : forall l, Permutation (iter l) l.
  Definition visits_agree (N P : sets) (vs : list nat) : Prop := forall ch,
    cam_visit_Y d hsic thr pk indY valueY iter N (P, ch) vs = cam_visit d hsic thr pk ind value iter N (P, ch) vs.
  Lemma visit_ext : forall N P vs, (forall v, In v vs -> v < d) ->
    (forall i j, In i vs -> In j vs -> indY i (elems d (P i)) j (elems d (P j)) = ind i (elems d (P i)) j (elems d (P j))) ->
    (forall c A qs, In c vs -> (forall q, In q qs -> In (fst q) vs /\ snd q = elems d (P (fst q))) -> valueY c A qs = value c A qs) ->
    visits_agree N P vs.
  Proof.
    intros N P vs B HI HV ch. unfold cam_visit_Y, cam_visit. destruct (negb (not_identified P vs)); [reflexivity|].
    assert (RI : forall c q, In q (remove_nat c vs) -> In q vs) by (intros c q Hq; apply remove_nat_In in Hq; tauto).
    assert (E : get_child d hsic thr pk valueY iter N P vs = get_child d hsic thr pk value iter N P vs).
    { unfold get_child. cbv zeta.
      match goal with |- (let '(b, c) := fold_left ?f ?l ?s in _) = (let '(b', c') := fold_left ?g _ _ in _) => assert (EF : fold_left f l s = fold_left g l s) end.
      { assert (GI : forall x, In x (iter vs) -> In x vs) by (intros x Hx; apply (Permutation_in _ (IP vs)); exact Hx). clear - HV GI RI.
        generalize (Some (if hsic then 0%Qc else 1%Qc), @None nat). induction (iter vs) as [|x l IH]; intro s; [reflexivity|]. cbn [fold_left].
        rewrite HV; [apply IH; intros y Hy; apply GI; right; exact Hy|apply GI; left; reflexivity|]. intros q Hq. apply in_map_iff in Hq. destruct Hq as (y & <- & Hy). cbn [fst snd]. split; [apply (RI x); exact Hy|reflexivity]. }
      rewrite EF. reflexivity. }
    rewrite E. destruct (get_child d hsic thr pk value iter N P vs) as [[c|] [|]] eqn:EC; try reflexivity.
    assert (Ic : In c vs) by (apply (get_child_in _ _ _ _ _ _ _ _ _ _ _ IP EC)).
    assert (D : dependent_without d indY P (remove_nat c vs) c = dependent_without d ind P (remove_nat c vs) c).
    { unfold dependent_without. assert (F : forall l, (forall q, In q l -> In q vs) -> forallb (fun q => negb (indY c (elems d (P c)) q (elems d (P q)))) l = forallb (fun q => negb (ind c (elems d (P c)) q (elems d (P q)))) l).
      { induction l as [|q l IH]; intro Hl; [reflexivity|]. cbn [forallb]. rewrite HI, IH; [reflexivity|intros z Hz; apply Hl; right; exact Hz|exact Ic|apply Hl; left; reflexivity]. }
      apply F. intros q Hq. apply (RI c). exact Hq. }
    rewrite D. reflexivity.
  Qed.
  (** An invariant of the float search under which all visits agree. *)
  Variable Inv : sets -> Prop.
  Hypothesis Inv0 : Inv no_sets.
  Hypothesis InvA : forall N t P ch vs, 2 <= t -> In vs (combs t (seq 0 d)) -> Inv P -> visits_agree N P vs /\ Inv (fst (cam_visit d hsic thr pk ind value iter N (P, ch) vs)).
  Lemma fold_agree : forall N t l P ch, 2 <= t -> (forall vs, In vs l -> In vs (combs t (seq 0 d))) -> Inv P ->
    fold_left (cam_visit_Y d hsic thr pk indY valueY iter N) l (P, ch) = fold_left (cam_visit d hsic thr pk ind value iter N) l (P, ch) /\
    Inv (fst (fold_left (cam_visit d hsic thr pk ind value iter N) l (P, ch))).
  Proof.
    intros N t. induction l as [|vs l IH]; intros P ch Ht Hl HI; [split; [reflexivity|exact HI]|]. cbn [fold_left].
    destruct (InvA N t P ch vs Ht (Hl vs (or_introl eq_refl)) HI) as [E HI']. rewrite (E ch). destruct (cam_visit d hsic thr pk ind value iter N (P, ch) vs) as [P' ch']. cbn [fst] in HI'.
    apply IH; [exact Ht|intros; apply Hl; right; assumption|exact HI'].
  Qed.
  Lemma fit_agree : cam_fit_Y d maxnum hsic thr pk ind indY valueY iter = cam_fit d maxnum hsic thr pk ind value iter.
  Proof.
    unfold cam_fit_Y, cam_fit. destruct (maxnum =? 0); [reflexivity|]. unfold find_parents_Y, find_parents.
    destruct (loop_agree _ _ (cam_step_Y d maxnum hsic thr pk indY valueY iter (neighborhoods d ind)) (cam_step d maxnum hsic thr pk ind value iter (neighborhoods d ind)) (fun st => Inv (fst st) /\ 2 <= snd st)) with (k := S (Nat.log2 (cam_top d maxnum))) (st := (no_sets, 2)) as [E _].
    - intros [P t] [HI Ht]. cbn [fst snd] in HI, Ht. unfold cam_step_Y, cam_step. destruct (fold_agree (neighborhoods d ind) t (combs t (seq 0 d)) P false Ht ltac:(auto) HI) as [E1 E2]. rewrite E1. clear E1.
      destruct (fold_left (cam_visit d hsic thr pk ind value iter (neighborhoods d ind)) (combs t (seq 0 d)) (P, false)) as [P' ch]. cbn [fst] in E2. split; [reflexivity|]. intros st'.
      destruct ch; [intro Q; injection Q as <-; split; [exact E2|cbn; lia]|]. destruct (maxnum <? S t); [discriminate|]. intro Q. injection Q as <-. split; [exact E2|cbn; lia].
    - split; [exact Inv0|cbn; lia].
    - rewrite E. reflexivity.
  Qed.
End Agree.
