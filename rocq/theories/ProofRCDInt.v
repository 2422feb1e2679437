(** * Proofs: two searches for ancestors whose tests agree where it matters *)
From Coq Require Import List Arith Bool ZArith QArith Qcanon Lia.
From Verif Require Import Prelude Loop Spec SpecPop Lib LibMat ModelRCD ProofRCD ProofRCDUnits.
Import ListNotations.
Open Scope nat_scope.

Definition subset (M M' : sets) : Prop := forall i j, M i j = true -> M' i j = true.

Section Agree.
  Variables (n maxl : nat) (ml : bool).
  Variables (ng ng' : list nat -> nat -> bool) (co co' : list nat -> nat -> nat -> bool) (io io' im im' : list nat -> nat -> list nat -> nat -> bool).
  (** The tests of the two searches agree for the conditioning sets in [Q]. *)
  Variable Q : list nat -> Prop.
  Hypothesis NG : forall H j, Q H -> j < n -> ng H j = ng' H j.
  Hypothesis CO : forall H i j, Q H -> i < n -> j < n -> co H i j = co' H i j.
  Hypothesis IO : forall H i xs j, Q H -> i < n -> j < n -> NoDup xs -> (forall x, In x xs -> x < n) -> io H i xs j = io' H i xs j.
  Hypothesis IM : forall H i xs j, Q H -> i < n -> j < n -> NoDup xs -> (forall x, In x xs -> x < n) -> im H i xs j = im' H i xs j.
  Variable F : sets.
  (** Below [F] only such conditioning sets occur. *)
  Hypothesis BQ : forall M U, subset M F -> 2 <= length U -> NoDup U -> (forall u, In u U -> u < n) -> Q (common_ancestors n M U).

  Let v := visit n ml ng co io im.
  Let v' := visit n ml ng' co' io' im'.
  Lemma visit_agree : forall M h c U, subset M F -> 2 <= length U -> NoDup U -> (forall u, In u U -> u < n) -> v (M, h, c) U = v' (M, h, c) U.
  Proof.
    intros M h c U S L ND UB. unfold v, v', visit. pose proof (BQ M U S L ND UB) as QH. set (H := common_ancestors n M U) in *. clearbody H.
    rewrite (forallb_ext_in _ (ng H) (ng' H) U) by (intros x Ix; apply NG; [exact QH|apply UB; exact Ix]).
    rewrite (forallb_ext_in _ (fun p => co H (fst p) (snd p)) (fun p => co' H (fst p) (snd p)) (pairs U)).
    2:{ intros [a b] I. pose proof (pairs_In _ _ _ ND I) as P. destruct P as (l1 & l2 & l3 & E). apply CO; [exact QH| |]; apply UB; rewrite E; cbn; rewrite ?in_app_iff; cbn; rewrite ?in_app_iff; cbn; auto. }
    replace (sinks ml io im M H U) with (sinks ml io' im' M H U); [reflexivity|].
    unfold sinks. apply filter_ext_in. intros x Ix. f_equal. unfold indep_of_resid.
    assert (NX : NoDup (remove_nat x U)) by (apply NoDup_filter; exact ND).
    assert (BX : forall y, In y (remove_nat x U) -> y < n) by (intros y Iy; apply filter_In in Iy; apply UB; apply Iy).
    set (xs := remove_nat x U) in *. clearbody xs.
    rewrite (forallb_ext_in _ (io' H x xs) (io H x xs) xs) by (intros y Iy; symmetry; apply IO; auto).
    rewrite (forallb_ext_in _ (im' H x xs) (im H x xs) xs) by (intros y Iy; symmetry; apply IM; auto). reflexivity.
  Qed.
  Lemma visit_sub : forall M h c U, (forall u, In u U -> u < n) -> subset M (fst (fst (v (M, h, c) U))).
  Proof.
    intros M h c U UB. pose proof (visit_size n ml ng co io im U M h c UB) as V. fold v in V. destruct (v (M, h, c) U) as [[M' h'] c']. cbn. exact (proj1 V).
  Qed.
  Lemma fold_sub : forall us M h c, (forall U, In U us -> forall u, In u U -> u < n) -> subset M (fst (fst (fold_left v us (M, h, c)))).
  Proof.
    induction us as [|U us IH]; intros M h c B; [intros i j H; exact H|]. cbn [fold_left].
    pose proof (visit_sub M h c U (B U (or_introl eq_refl))) as S. destruct (v (M, h, c) U) as [[M1 h1] c1]. cbn [fst] in S.
    intros i j H. apply (IH M1 h1 c1); [intros; eapply B; [right; eassumption|assumption]|apply S; exact H].
  Qed.
  Lemma fold_agree : forall us M h c, (forall U, In U us -> 2 <= length U /\ NoDup U /\ forall u, In u U -> u < n) ->
    subset (fst (fst (fold_left v us (M, h, c)))) F -> fold_left v us (M, h, c) = fold_left v' us (M, h, c).
  Proof.
    induction us as [|U us IH]; intros M h c B S; [reflexivity|]. cbn [fold_left] in *. destruct (B U (or_introl eq_refl)) as (L & ND & UB).
    assert (SM : subset M F).
    { intros i j H. apply S. pose proof (visit_sub M h c U UB i j H) as H1. destruct (v (M, h, c) U) as [[M1 h1] c1]. cbn [fst] in H1.
      apply (fold_sub us M1 h1 c1); [intros V IV; apply (B V (or_intror IV))|exact H1]. }
    rewrite <- (visit_agree M h c U SM L ND UB). destruct (v (M, h, c) U) as [[M1 h1] c1]. apply IH; [intros V IV; apply B; right; exact IV|exact S].
  Qed.
  Lemma combs_good : forall l U, 1 <= l -> In U (combs (S l) (seq 0 n)) -> 2 <= length U /\ NoDup U /\ forall u, In u U -> u < n.
  Proof.
    intros l U Hl I. destruct (combs_In _ _ _ I) as [L B]. split; [lia|]. split; [apply (combs_NoDup_elem _ _ _ (seq_NoDup n 0) I)|].
    intros u Iu. apply B in Iu. apply in_seq in Iu. lia.
  Qed.
  Let f := rcd_step n maxl ml ng co io im.
  Let f' := rcd_step n maxl ml ng' co' io' im'.
  Definition st_sets (s : (sets * list (list nat * list nat) * nat) + sets) : sets := match s with inl (M, _, _) => M | inr M => M end.
  Definition st_ok (s : (sets * list (list nat * list nat) * nat) + sets) : Prop := match s with inl (_, _, l) => 1 <= l | inr _ => True end.
  Lemma step_props : forall M h l, 1 <= l -> st_ok (f (M, h, l)) /\ subset M (st_sets (f (M, h, l))) /\
    (subset (st_sets (f (M, h, l))) F -> f' (M, h, l) = f (M, h, l)).
  Proof.
    intros M h l Hl. pose proof (fold_sub (combs (S l) (seq 0 n)) M h false ltac:(intros U I; apply (combs_good l U Hl I))) as SU.
    pose proof (fold_agree (combs (S l) (seq 0 n)) M h false (fun U => combs_good l U Hl)) as A.
    unfold f, f', rcd_step, pass. fold v v'. destruct (fold_left v (combs (S l) (seq 0 n)) (M, h, false)) as [[M1 h1] c1] eqn:E. cbn [fst] in SU, A.
    destruct c1; [|destruct (l <? maxl) eqn:EL]; cbn [st_ok st_sets]; (split; [try lia; exact I|]); (split; [exact SU|]); intro SF; rewrite <- (A SF), ?EL; reflexivity.
  Qed.
  Lemma loop_props : forall k M h l, 1 <= l -> st_ok (loop f k (M, h, l)) /\ subset M (st_sets (loop f k (M, h, l))) /\
    (subset (st_sets (loop f k (M, h, l))) F -> loop f' k (M, h, l) = loop f k (M, h, l)).
  Proof.
    induction k as [|k IH]; intros M h l Hl; [apply step_props; exact Hl|]. cbn [loop].
    destruct (IH M h l Hl) as (O & S & A). destruct (loop f k (M, h, l)) as [[[M1 h1] l1]|M1].
    - cbn [st_ok st_sets] in *. destruct (IH M1 h1 l1 O) as (O2 & S2 & A2). split; [exact O2|]. split; [intros i j H; apply S2, S, H|].
      intro SF. rewrite (A ltac:(intros i j H; apply SF, S2, H)). apply A2. exact SF.
    - cbn [st_ok st_sets] in *. split; [exact I|]. split; [exact S|]. intro SF. rewrite (A SF). reflexivity.
  Qed.
  Lemma ancestors_agree : forall k, rcd_ancestors n maxl ml ng co io im k = inr F -> rcd_ancestors n maxl ml ng' co' io' im' k = inr F.
  Proof.
    intros k E. unfold rcd_ancestors in *. destruct (loop_props k no_sets [] 1 (le_n 1)) as (_ & _ & A). unfold f, f' in A. rewrite E in A. apply A. intros i j H. exact H.
  Qed.
End Agree.
