(** * While loops.

    [loop k step s] runs at most 2^k iterations of [step], stopping as soon as [step]
    answers [inr].  [inl] as result means that the bound was exhausted; for every modelled
    loop this is proved impossible.  The exponent only keeps the bound small as a numeral. *)
From Coq Require Import List Arith Lia Bool.
From Verif Require Import Prelude.
Import ListNotations.

Section Loop.
  Variables (S R : Type) (step : S -> S + R).

  Fixpoint loop (k : nat) (s : S) : S + R :=
    match k with
    | 0 => step s
    | Datatypes.S k' =>
        match loop k' s with
        | inl s' => loop k' s'
        | inr r => inr r
        end
    end.

  (** Specification: finitely many [inl] steps. *)
  Inductive steps : S -> S -> Prop :=
  | steps_refl : forall s, steps s s
  | steps_cons : forall s s1 s2, step s = inl s1 -> steps s1 s2 -> steps s s2.

  Lemma steps_trans : forall a b c, steps a b -> steps b c -> steps a c.
  Proof. intros a b c H1 H2. induction H1; [exact H2|]. econstructor; eauto. Qed.
  Lemma steps_one : forall a b, step a = inl b -> steps a b.
  Proof. intros. econstructor; [eassumption|constructor]. Qed.

  Lemma loop_inl_steps : forall k s s', loop k s = inl s' -> steps s s'.
  Proof.
    induction k as [|k IH]; intros s s' H; simpl in H.
    - apply steps_one. exact H.
    - destruct (loop k s) as [s1|r] eqn:E; [|discriminate].
      eapply steps_trans; [apply IH; exact E|apply IH; exact H].
  Qed.

  Lemma loop_inr_steps : forall k s r, loop k s = inr r -> exists s', steps s s' /\ step s' = inr r.
  Proof.
    induction k as [|k IH]; intros s r H; simpl in H.
    - exists s. split; [constructor|exact H].
    - destruct (loop k s) as [s1|r1] eqn:E.
      + destruct (IH _ _ H) as [s' [H1 H2]]. exists s'. split; [|exact H2].
        eapply steps_trans; [eapply loop_inl_steps; exact E|exact H1].
      + inversion H. subst. apply IH. exact E.
  Qed.

  Lemma steps_det : forall s a r b r', steps s a -> step a = inr r -> steps s b -> step b = inr r' -> r = r'.
  Proof.
    intros s a r b r' H. revert b. induction H as [s|s s1 s2 E _ IH]; intros b Ha Hb Hr.
    - destruct Hb as [s|s s1 s2 E _]; congruence.
    - destruct Hb as [s|s s1' s2' E' H']; [congruence|].
      rewrite E in E'. inversion E'. subst. eapply IH; eassumption.
  Qed.

  Lemma loop_steps_eq : forall k s a r r', loop k s = inr r -> steps s a -> step a = inr r' -> r = r'.
  Proof.
    intros k s a r r' H H1 H2. destruct (loop_inr_steps _ _ _ H) as [s' [H3 H4]].
    exact (steps_det _ _ _ _ _ H3 H4 H1 H2).
  Qed.

  (** A decreasing measure below 2^k makes the bound sufficient. *)
  Lemma loop_measure_le : forall (Inv : S -> Prop) (mu : S -> nat),
    (forall s s', Inv s -> step s = inl s' -> Inv s' /\ mu s' < mu s) ->
    forall k s s', Inv s -> loop k s = inl s' -> Inv s' /\ mu s' + 2 ^ k <= mu s.
  Proof.
    intros Inv mu H. induction k as [|k IH]; intros s s' I E; simpl in E.
    - destruct (H _ _ I E). simpl. split; [assumption|lia].
    - destruct (loop k s) as [s1|r] eqn:E1; [|discriminate].
      destruct (IH _ _ I E1) as [I1 L1]. destruct (IH _ _ I1 E) as [I2 L2].
      split; [exact I2|]. simpl. lia.
  Qed.
  Lemma loop_terminates : forall (Inv : S -> Prop) (mu : S -> nat),
    (forall s s', Inv s -> step s = inl s' -> Inv s' /\ mu s' < mu s) ->
    forall k s, Inv s -> mu s < 2 ^ k -> exists r, loop k s = inr r.
  Proof.
    intros Inv mu H k s I L. destruct (loop k s) as [s'|r] eqn:E; [|eauto].
    destruct (loop_measure_le Inv mu H _ _ _ I E) as [_ L2]. lia.
  Qed.

  (** A bounded growing quantity serves as well. *)
  Lemma loop_terminates_up : forall (Inv : S -> Prop) (mu : S -> nat) (top : nat),
    (forall s s', Inv s -> step s = inl s' -> Inv s' /\ mu s < mu s') ->
    (forall s, Inv s -> mu s <= top) ->
    forall k s, Inv s -> top < 2 ^ k -> exists r, loop k s = inr r.
  Proof.
    intros Inv mu top H Hb k s I L.
    apply (loop_terminates Inv (fun s => top - mu s)); [|exact I|lia].
    intros s1 s2 I1 E. destruct (H _ _ I1 E) as [I2 L2]. split; [exact I2|].
    pose proof (Hb _ I1). pose proof (Hb _ I2). lia.
  Qed.

  Lemma steps_inv : forall (Inv : S -> Prop),
    (forall s s', Inv s -> step s = inl s' -> Inv s') ->
    forall s s', Inv s -> steps s s' -> Inv s'.
  Proof. intros Inv H s s' I K. induction K; eauto. Qed.

  Lemma loop_inv : forall (Inv : S -> Prop),
    (forall s s', Inv s -> step s = inl s' -> Inv s') ->
    forall k s r, Inv s -> loop k s = inr r -> exists s', Inv s' /\ step s' = inr r.
  Proof.
    intros Inv H k s r I E. destruct (loop_inr_steps _ _ _ E) as [s' [K1 K2]].
    exists s'. split; [|exact K2]. eapply steps_inv; eauto.
  Qed.
End Loop.
Arguments loop {S R} step k s.
Arguments steps {S R} step _ _.
