(** * Proofs: RCD on the same data in other units *)
From Coq Require Import List Arith Bool ZArith QArith Qcanon Lia Permutation.
From Verif Require Import Prelude Loop Spec SpecPop SpecRCDPop SpecUnits Lib LibMat ProofPop ModelRCD ModelRCDPop ProofRCD ProofUnits.
Import ListNotations.
Open Scope nat_scope.

Lemma forallb_ext_in : forall A (f g : A -> bool) l, (forall x, In x l -> f x = g x) -> forallb f l = forallb g l.
Proof. intros A f g. induction l as [|x l IH]; intro H; [reflexivity|]. cbn. rewrite (H x (or_introl eq_refl)), IH; [reflexivity|]. intros y Hy. apply H. right. exact Hy. Qed.
Lemma filter_ext_in : forall A (f g : A -> bool) l, (forall x, In x l -> f x = g x) -> filter f l = filter g l.
Proof. intros A f g. induction l as [|x l IH]; intro H; [reflexivity|]. cbn. rewrite (H x (or_introl eq_refl)), IH; [reflexivity|]. intros y Hy. apply H. right. exact Hy. Qed.
Lemma fold_ext_in : forall A B (f g : A -> B -> A) l a, (forall a b, In b l -> f a b = g a b) -> fold_left f l a = fold_left g l a.
Proof. intros A B f g. induction l as [|x l IH]; intros a H; [reflexivity|]. cbn. rewrite (H a x (or_introl eq_refl)). apply IH. intros b y Hy. apply H. right. exact Hy. Qed.
Lemma loop_ext : forall S R (f g : S -> S + R) k s, (forall s, f s = g s) -> loop f k s = loop g k s.
Proof. intros S R f g. induction k as [|k IH]; intros s H; cbn; [apply H|]. rewrite (IH s H). destruct (loop g k s); [apply IH; exact H|reflexivity]. Qed.

Section Congruence.
  Variables (n maxl : nat) (ml : bool).
  Variables (ng ng' : list nat -> nat -> bool) (co co' : list nat -> nat -> nat -> bool) (io io' im im' : list nat -> nat -> list nat -> nat -> bool).
  Variables (cp cp' : nat -> list nat -> nat -> list nat -> bool).
  Hypothesis NG : forall H j, NoDup H -> ng H j = ng' H j.
  Hypothesis CO : forall H i j, NoDup H -> co H i j = co' H i j.
  Hypothesis IO : forall H i xs j, NoDup H -> NoDup xs -> io H i xs j = io' H i xs j.
  Hypothesis IM : ml = false \/ forall H i xs j, NoDup H -> NoDup xs -> im H i xs j = im' H i xs j.
  Hypothesis CP : forall i H j H', NoDup H -> NoDup H' -> cp i H j H' = cp' i H j H'.

  Lemma elems_NoDup : forall p, NoDup (elems n p).
  Proof. intro p. apply NoDup_filter, seq_NoDup. Qed.
  Lemma visit_same : forall st U, NoDup U -> visit n ml ng co io im st U = visit n ml ng' co' io' im' st U.
  Proof.
    intros [[M h] c] U ND. unfold visit. set (H := common_ancestors n M U). assert (NH : NoDup H) by apply elems_NoDup. clearbody H.
    rewrite (forallb_ext_in _ (ng H) (ng' H) U) by (intros; apply NG; exact NH).
    rewrite (forallb_ext_in _ (fun p => co H (fst p) (snd p)) (fun p => co' H (fst p) (snd p)) (pairs U)) by (intros; apply CO; exact NH).
    replace (sinks ml io im M H U) with (sinks ml io' im' M H U); [reflexivity|].
    unfold sinks. apply filter_ext_in. intros x _. f_equal. unfold indep_of_resid.
    assert (NX : NoDup (remove_nat x U)) by (apply NoDup_filter; exact ND). set (xs := remove_nat x U) in *. clearbody xs.
    rewrite (forallb_ext_in _ (io' H x xs) (io H x xs) xs) by (intros; symmetry; apply IO; assumption).
    destruct IM as [E|IM']; [rewrite E; destruct (forallb (io H x xs) xs); [reflexivity|]; cbn [negb]; rewrite orb_true_r; reflexivity|].
    rewrite (forallb_ext_in _ (im' H x xs) (im H x xs) xs) by (intros; symmetry; apply IM'; assumption). reflexivity.
  Qed.
  Lemma step_same : forall st, rcd_step n maxl ml ng co io im st = rcd_step n maxl ml ng' co' io' im' st.
  Proof.
    intros [[M h] l]. unfold rcd_step, pass. rewrite (fold_ext_in _ _ (visit n ml ng co io im) (visit n ml ng' co' io' im')); [reflexivity|].
    intros a U HU. apply visit_same. apply (combs_NoDup_elem _ _ _ (seq_NoDup n 0) HU).
  Qed.
  Lemma parents_same : forall M, forall i j, rcd_parents n cp M i j = rcd_parents n cp' M i j.
  Proof. intros M i j. unfold rcd_parents. rewrite CP by apply elems_NoDup. reflexivity. Qed.
  Lemma elems_same : forall p q, (forall j, p j = q j) -> elems n p = elems n q.
  Proof. intros p q H. apply filter_ext_in. intros; apply H. Qed.
  Lemma confounded_same : forall P P', (forall i j, P i j = P' i j) -> rcd_confounded n cp P = rcd_confounded n cp' P'.
  Proof.
    intros P P' H. unfold rcd_confounded. apply fold_ext_in. intros C [i j] _. rewrite !H.
    rewrite (elems_same (P i) (P' i)) by apply H. rewrite (elems_same (P j) (P' j)) by apply H. rewrite CP by apply elems_NoDup. reflexivity.
  Qed.
  Lemma fit_same : forall coef coef' M B, rcd_fit n maxl ml ng co io im cp cp coef = Ok (M, B) ->
    exists B', rcd_fit n maxl ml ng' co' io' im' cp' cp' coef' = Ok (M, B') /\
      forall i j, (B i j = B' i j /\ (B i j = None \/ B i j = Some 0%Qc)) \/ exists ps, NoDup ps /\ (forall p, In p ps -> p < n) /\ (j < n -> In j ps) /\ B i j = Some (coef i ps j) /\ B' i j = Some (coef' i ps j).
  Proof.
    intros coef coef' M B. unfold rcd_fit. destruct (maxl =? 0); [discriminate|]. unfold rcd_ancestors. rewrite (loop_ext _ _ _ _ (rcd_fuel n maxl) (no_sets, [], 1) step_same).
    destruct (loop _ _ _) as [|M0]; [discriminate|]. intro E. injection E as <- <-. eexists. split; [reflexivity|]. intros i j. unfold rcd_adjacency.
    rewrite (confounded_same _ _ (parents_same M0)). destruct (rcd_confounded n cp' (rcd_parents n cp' M0) i j); [left; split; [reflexivity|left; reflexivity]|].
    rewrite <- (parents_same M0 i j). destruct (rcd_parents n cp M0 i j) eqn:PP; [|left; split; [reflexivity|right; reflexivity]]. right. exists (elems n (rcd_parents n cp M0 i)).
    split; [apply elems_NoDup|]. split; [intros p Hp; apply filter_In in Hp; destruct Hp as [Hp _]; apply in_seq in Hp; lia|].
    split; [intro Hj; apply filter_In; split; [apply in_seq; lia|exact PP]|]. split; [reflexivity|].
    rewrite (elems_same (rcd_parents n cp' M0 i) (rcd_parents n cp M0 i)) by (intro; symmetry; apply parents_same). reflexivity.
  Qed.
End Congruence.

Section Units.
  Variables (N : nat) (s : nat -> nat) (a : nat -> Qc).
  Variable ols : (nat -> sample) -> list nat -> sample -> nat -> Qc.
  Variable icpt : (nat -> sample) -> list nat -> sample -> Qc.
  Hypothesis HN : 0 < N.
  Hypothesis HS : rearranges N s.
  Hypothesis OLS : solves_least_squares N ols.
  Lemma ols_resid_units : forall Y Y' i ps, same_data N s a Y Y' -> NoDup ps -> exists b, in_unit N s (a i) b (ols_resid ols icpt Y i ps) (ols_resid ols icpt Y' i ps).
  Proof.
    intros Y Y' i ps SD ND. destruct (residual_units N s a Y Y' i ps _ _ HN HS SD (OLS Y ps (Y i) ND) (OLS Y' ps (Y' i) ND)) as (b & H).
    exists (b + a i * icpt Y ps (Y i) - icpt Y' ps (Y' i))%Qc. intros r Hr. unfold ols_resid. specialize (H r Hr). cbv beta in H.
    transitivity ((Y' i r - sumf ps (fun p => ols Y' ps (Y' i) p * Y' p r)) - icpt Y' ps (Y' i))%Qc; [ring|]. rewrite H. ring.
  Qed.
  Lemma resid_given_units : forall X X' H, same_data N s a X X' -> NoDup H -> same_data N s a (resid_given ols icpt X H) (resid_given ols icpt X' H).
  Proof.
    intros X X' H SD ND i. split; [apply SD|]. unfold resid_given. destruct H as [|h H]; [apply SD|]. apply ols_resid_units; assumption.
  Qed.
  Lemma ml_resid_units : forall mlcoef Y Y' i ps, same_data N s a Y Y' -> (forall p, In p ps -> mlcoef Y' i ps p = (a i * mlcoef Y i ps p / a p)%Qc) ->
    exists b, in_unit N s (a i) b (ml_resid mlcoef Y i ps) (ml_resid mlcoef Y' i ps).
  Proof.
    intros mlcoef Y Y' i ps SD H. unfold ml_resid. set (c := mlcoef Y i ps) in *. set (c' := mlcoef Y' i ps) in *. clearbody c c'.
    assert (G : forall ps v v' b, (forall p, In p ps -> c' p = (a i * c p / a p)%Qc) -> in_unit N s (a i) b v v' ->
      exists b', in_unit N s (a i) b' (fun r => fold_left (fun v p => (v - c p * Y p r)%Qc) ps (v r)) (fun r => fold_left (fun v p => (v - c' p * Y' p r)%Qc) ps (v' r))).
    { clear H. induction ps0 as [|p ps0 IH]; intros v v' b H I; [exists b; exact I|]. cbn [fold_left]. destruct (SD p) as (Np & bp & Hp).
      apply (IH (fun r => v r - c p * Y p r)%Qc (fun r => v' r - c' p * Y' p r)%Qc (b - a i * c p / a p * bp)%Qc); [intros q Hq; apply H; right; exact Hq|].
      intros r Hr. rewrite (I r Hr), (Hp r Hr), (H p (or_introl eq_refl)). field. exact Np. }
    destruct (SD i) as (_ & b & Hb). apply (G ps (Y i) (Y' i) b H Hb).
  Qed.
End Units.
