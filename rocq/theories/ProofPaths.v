(** * Proofs about find_all_paths. *)
From Coq Require Import List Arith Lia Bool ZArith QArith Qcanon Permutation Relations.
From Verif Require Import Prelude Spec SpecPaths Lib Loop ModelPaths.
Import ListNotations.
Open Scope nat_scope.

Lemma has_edge_thr : forall n dag m a b,
  thr_edge n dag m a b <-> a < n /\ b < n /\ has_edge dag m b a = true.
Proof. intros. unfold thr_edge, has_edge. rewrite qltb_lt. tauto. Qed.

Lemma to_indices_In : forall n dag m i b, i < n ->
  (In b (to_indices n dag m i) <-> thr_edge n dag m i b).
Proof.
  intros n dag m i b Hi. unfold to_indices. rewrite filter_In, in_seq, has_edge_thr.
  split; intro H; repeat split; try tauto; lia.
Qed.
Lemma to_indices_NoDup : forall n dag m i, NoDup (to_indices n dag m i).
Proof. intros. apply NoDup_filter, seq_NoDup. Qed.
Lemma to_indices_length : forall n dag m i, length (to_indices n dag m i) <= n.
Proof.
  intros. rewrite <- (seq_length n 0) at 2. unfold to_indices.
  generalize (seq 0 n). intro l. induction l as [|x l IH]; simpl; [lia|].
  destruct (has_edge dag m x i); simpl; lia.
Qed.
Lemma thr_edge_dec : forall n dag m a b, {thr_edge n dag m a b} + {~ thr_edge n dag m a b}.
Proof.
  intros. destruct ((a <? n) && (b <? n) && has_edge dag m b a) eqn:E.
  - left. apply has_edge_thr. rewrite !andb_true_iff, !Nat.ltb_lt in E. tauto.
  - right. intro H. apply has_edge_thr in H. destruct H as [H1 [H2 H3]].
    apply Nat.ltb_lt in H1. apply Nat.ltb_lt in H2. rewrite H1, H2, H3 in E. discriminate.
Qed.

(** ** Termination on every graph *)
Fixpoint wgt (n d : nat) : nat := match d with 0 => 2 | S d' => 2 + n * wgt n d' end.
Definition wgtp (n d : nat) : nat := match d with 0 => 0 | S d' => wgt n d' end.
Fixpoint fap_mu (n : nat) (tos : list (list nat)) : nat :=
  match tos with
  | [] => 0
  | l :: r => 1 + length l * wgtp n (n - length r) + fap_mu n r
  end.
Definition fap_inv (n : nat) (s : fap_state) : Prop :=
  length (fap_stack s) = length (fap_tos s) /\
  (forall l, In l (fap_tos s) -> length l <= n).

Lemma wgt_bound : forall n d, wgt n d <= 2 ^ (n * d + 1) /\ 2 <= wgt n d.
Proof.
  intros n d. assert (N : n + 1 <= 2 ^ n).
  { induction n as [|n IH]; simpl; lia. }
  induction d as [|d [IH1 IH2]]; cbn [wgt].
  - rewrite Nat.mul_0_r. simpl. lia.
  - split; [|lia].
    replace (n * S d + 1) with (n + (n * d + 1)) by lia. rewrite Nat.pow_add_r.
    apply Nat.le_trans with ((n + 1) * wgt n d); [nia|].
    apply Nat.mul_le_mono; assumption.
Qed.

Lemma to_lookup_length : forall n dag m from tos x,
  (forall l, In l tos -> length l <= n) -> length (to_lookup n dag m from tos x) <= n.
Proof.
  intros n dag m from tos x H. unfold to_lookup. destruct (x =? from).
  - destruct tos as [|l tos]; [simpl; lia|].
    apply H. generalize (@app_removelast_last _ (l :: tos) [] ltac:(discriminate)). intro E.
    rewrite E at 2. apply in_or_app. right. left. reflexivity.
  - apply to_indices_length.
Qed.

Lemma fap_step_inv : forall n dag m from to_ s s', fap_inv n s ->
  fap_step n dag m from to_ s = inl s' -> fap_inv n s' /\ fap_mu n (fap_tos s') < fap_mu n (fap_tos s).
Proof.
  intros n dag m from to_ [stk tos ps] s' [HL HI] H. unfold fap_step in H.
  cbn [fap_stack fap_tos fap_paths] in *.
  destruct stk as [|cur stk]; [discriminate|].
  destruct (n <? length (cur :: stk)) eqn:En; [discriminate|].
  apply Nat.ltb_ge in En. cbn [length] in *.
  destruct tos as [|l tos]; [exfalso; cbn in HL; lia|]. cbn [length] in *. cbn [hd tl] in H.
  destruct (cur =? to_) eqn:Et.
  - assert (E : s' = {| fap_stack := stk; fap_tos := tos; fap_paths := ps ++ [rev (cur :: stk)] |})
      by congruence. subst s'. cbn. split.
    + split; cbn; [lia|]. intros l' Hl'. apply HI. right. exact Hl'.
    + nia.
  - destruct l as [|nx l].
    + assert (E : s' = {| fap_stack := stk; fap_tos := tos; fap_paths := ps |})
        by congruence. subst s'. cbn. split.
      * split; cbn; [lia|]. intros l' Hl'. apply HI. right. exact Hl'.
      * lia.
    + remember (to_lookup n dag m from (l :: tos) nx) as l2 eqn:E2.
      assert (E : s' = {| fap_stack := nx :: cur :: stk; fap_tos := l2 :: l :: tos; fap_paths := ps |})
        by congruence. subst s'. cbn [fap_tos fap_stack].
      assert (Hl : forall l', In l' (l :: tos) -> length l' <= n).
      { intros l' [<-|Hl']; [|apply HI; right; exact Hl'].
        specialize (HI (nx :: l) (or_introl eq_refl)). cbn in HI. lia. }
      assert (Hl2 : length l2 <= n) by (subst l2; apply to_lookup_length; exact Hl).
      split.
      * split; cbn; [lia|]. intros l' [<-|Hl']; [exact Hl2|apply Hl; exact Hl'].
      * cbn [fap_mu length]. remember (n - length tos) as d eqn:Ed.
        destruct d as [|d]; [lia|].
        replace (n - S (length tos)) with d by lia. cbn [wgtp].
        assert (1 + length l2 * wgtp n d < wgt n d).
        { destruct d as [|d']; cbn [wgtp wgt]; nia. }
        nia.
Qed.

Lemma fap_loop_terminates : forall n dag m from to_, from < n ->
  exists r, loop (fap_step n dag m from to_) (n * n + 2) (fap_init n dag m from) = inr r.
Proof.
  intros n dag m from to_ Hf.
  apply (loop_terminates _ _ _ (fap_inv n) (fun s => fap_mu n (fap_tos s))).
  - apply fap_step_inv.
  - split; [reflexivity|]. cbn. intros l [<-|[]]. apply to_indices_length.
  - cbn [fap_init fap_tos fap_mu length]. rewrite Nat.sub_0_r.
    destruct n as [|n]; [lia|]. cbn [wgtp].
    pose proof (to_indices_length (S n) dag m from). pose proof (wgt_bound (S n) n) as [B1 B2].
    pose proof (wgt_bound (S n) (S n)) as [B3 _]. cbn [wgt] in B3.
    replace (S n * S n + 2) with (S (S n * S n + 1)) by lia.
    rewrite Nat.pow_succ_r'. nia.
Qed.

(** ** Exactness *)

(** Walks from [x] that reach [to_] for the first time at their end. *)
Definition upath (E : graph) (to_ x : nat) (p : list nat) : Prop :=
  walk (stop_at to_ E) p /\ hd_error p = Some x /\ last p x = to_.

Lemma walk_cons : forall E x q c, walk E (x :: q) -> hd_error q = Some c -> E x c /\ walk E q.
Proof. intros E x [|d q] c H Hc; [discriminate|]. cbn in *. inversion Hc. subst. tauto. Qed.
Lemma last_cons_ne : forall (q : list nat) x d, q <> [] -> last (x :: q) d = last q d.
Proof. intros [|a q] x d H; [congruence|reflexivity]. Qed.
Lemma last_default : forall (q : list nat) d d', q <> [] -> last q d = last q d'.
Proof.
  induction q as [|a q IH]; intros d d' H; [congruence|].
  destruct q as [|b q]; [reflexivity|]. change (last (b :: q) d = last (b :: q) d').
  apply IH. discriminate.
Qed.

Lemma upath_to : forall E to_ p, upath E to_ to_ p <-> p = [to_].
Proof.
  intros E to_ p. split.
  - intros [W [H L]]. destruct p as [|a [|b p]]; [discriminate|inversion H; reflexivity|].
    cbn in H. inversion H. subst a. cbn in W. destruct W as [[W _] _]. congruence.
  - intros ->. repeat split.
Qed.
Lemma upath_cons : forall E to_ x p, x <> to_ ->
  (upath E to_ x p <-> exists c q, p = x :: q /\ E x c /\ upath E to_ c q).
Proof.
  intros E to_ x p D. split.
  - intros [W [H L]]. destruct p as [|a [|b p]]; [discriminate| |].
    + cbn in H, L. inversion H. congruence.
    + cbn in H. inversion H. subst a. exists b, (b :: p). split; [reflexivity|].
      destruct (walk_cons _ _ _ b W eq_refl) as [[_ E1] W1]. split; [exact E1|].
      split; [exact W1|]. split; [reflexivity|]. rewrite last_cons_ne in L by discriminate.
      rewrite <- L. apply last_default. discriminate.
  - intros [c [q [-> [Hc [W [H L]]]]]]. destruct q as [|b q]; [discriminate|].
    cbn in H. inversion H. subst b. split; [|split; [reflexivity|]].
    + cbn. split; [split; assumption|exact W].
    + rewrite last_cons_ne by discriminate. rewrite <- L. apply last_default. discriminate.
Qed.

Section Exact.
  Variables (n : nat) (dag : mat num) (m : Qc) (from to_ : nat).
  Let E := thr_edge n dag m.
  Let E' := stop_at to_ E.
  Let step := fap_step n dag m from to_.
  Hypothesis Hfrom : from < n.
  Hypothesis Hnoret : ~ clos_trans nat E' from from.

  Definition mk (stk : list nat) (tos : list (list nat)) (ps : list (list nat)) : fap_state :=
    {| fap_stack := stk; fap_tos := tos; fap_paths := ps |}.

  (** [x]'s list has been cut to [l]; [P] are the paths found through [l]. *)
  Definition explored (x : nat) (l : list nat) (P : list (list nat)) : Prop :=
    (forall p, In p P <-> exists c q, p = x :: q /\ In c l /\ upath E to_ c q) /\ NoDup P.
  (** No walk with more than [d] nodes starts in a member of [l]. *)
  Definition short (d : nat) (x : nat) : Prop :=
    forall p, walk E' p -> hd_error p = Some x -> length p <= d.
  Definition raises (s : fap_state) : Prop :=
    exists s', steps step s s' /\ step s' = inr (Err ValueError).
  Definition long_walk (d x : nat) : Prop :=
    exists p, walk E' p /\ hd_error p = Some x /\ length p = d.

  Lemma reach_ne : forall x c, x = from \/ clos_trans nat E' from x -> E' x c -> c <> from.
  Proof.
    intros x c [->|R] H ->; apply Hnoret.
    - apply t_step. exact H.
    - eapply t_trans; [exact R|apply t_step; exact H].
  Qed.
  Lemma reach_step : forall x c, x = from \/ clos_trans nat E' from x -> E' x c ->
    clos_trans nat E' from c.
  Proof.
    intros x c [->|R] H; [apply t_step; exact H|eapply t_trans; [exact R|apply t_step; exact H]].
  Qed.

  Lemma explore : forall d x stk tos ps,
    length stk + d = n -> (x = from \/ clos_trans nat E' from x) -> x < n ->
    forall l, NoDup l -> (forall c, In c l -> E x c) ->
    (raises (mk (x :: stk) (l :: tos) ps) /\ long_walk (S d) x) \/
    exists P, steps step (mk (x :: stk) (l :: tos) ps)
                         (mk stk tos (ps ++ map (fun p => rev stk ++ p) P)) /\
      NoDup P /\
      (forall p, In p P <->
         if x =? to_ then p = [to_] else exists c q, p = x :: q /\ In c l /\ upath E to_ c q) /\
      (forall c, x <> to_ -> In c l -> short (d - 1) c) /\ 1 <= d.
  Proof.
    induction d as [|d IHd]; intros x stk tos ps HL HR Hx l NDl Hl.
    - left. split.
      + exists (mk (x :: stk) (l :: tos) ps). split; [constructor|].
        unfold step, fap_step, mk. cbn [fap_stack length].
        replace (n <? S (length stk)) with true by (symmetry; apply Nat.ltb_lt; lia). reflexivity.
      + exists [x]. repeat split.
    - assert (Hlen : (n <? length (x :: stk)) = false) by (apply Nat.ltb_ge; cbn [length]; lia).
      destruct (Nat.eqb_spec x to_) as [Et|Et].
      + right. exists [[to_]]. split; [|split; [|split]].
        * apply steps_one. unfold step, fap_step, mk. cbn [fap_stack fap_tos fap_paths].
          rewrite Hlen. subst x. rewrite Nat.eqb_refl. cbn [tl map].
          replace (rev stk ++ [to_]) with (rev (to_ :: stk)) by reflexivity. reflexivity.
        * constructor; [intros []|constructor].
        * intro p. cbn. split; [intros [H|[]]; congruence|intro H; left; congruence].
        * split; [intros c H; congruence|lia].
      + revert ps. induction l as [|c l IHl]; intro ps.
        * right. exists []. split; [|split; [constructor|split]].
          -- apply steps_one. unfold step, fap_step, mk. cbn [fap_stack fap_tos fap_paths].
             rewrite Hlen. destruct (Nat.eqb_spec x to_) as [F|_]; [congruence|]. cbn [hd tl map].
             rewrite app_nil_r. reflexivity.
          -- intro p. split; [intros []|]. intros [c [q [_ [[] _]]]].
          -- split; [intros c _ []|lia].
        * apply NoDup_cons_iff in NDl. destruct NDl as [Hc NDl].
          assert (Ec : E x c) by (apply Hl; left; reflexivity).
          assert (Ec' : E' x c) by (split; assumption).
          assert (Hcn : c < n) by (unfold E, thr_edge in Ec; tauto).
          assert (Cne : c <> from) by (eapply reach_ne; eassumption).
          assert (Cre : clos_trans nat E' from c) by (eapply reach_step; eassumption).
          (* push c *)
          assert (S1 : steps step (mk (x :: stk) ((c :: l) :: tos) ps)
                        (mk (c :: x :: stk) (to_indices n dag m c :: l :: tos) ps)).
          { apply steps_one. unfold step, fap_step, mk. cbn [fap_stack fap_tos fap_paths].
            rewrite Hlen. destruct (Nat.eqb_spec x to_) as [F|_]; [congruence|]. cbn [hd tl].
            unfold to_lookup. destruct (Nat.eqb_spec c from) as [F|_]; [congruence|]. reflexivity. }
          destruct (IHd c (x :: stk) (l :: tos) ps) with (l := to_indices n dag m c)
            as [[[s' [R1 R2]] [w [W1 [W2 W3]]]]|[P [S2 [ND2 [P2 [Sh2 D1]]]]]].
          -- cbn. lia.
          -- right. exact Cre.
          -- exact Hcn.
          -- apply to_indices_NoDup.
          -- intros b Hb. apply to_indices_In in Hb; assumption.
          -- left. split.
             ++ exists s'. split; [|exact R2]. eapply steps_trans; eassumption.
             ++ exists (x :: w). split; [|split; [reflexivity|cbn; lia]].
                destruct w as [|b w]; [discriminate|]. cbn in W2. inversion W2. subst b.
                cbn. split; [exact Ec'|exact W1].
          -- destruct (IHl NDl) with (ps := ps ++ map (fun p => rev (x :: stk) ++ p) P)
               as [[[s' [R1 R2]] LW]|[P' [S3 [ND3 [P3 [Sh3 D3]]]]]].
             { intros b Hb. apply Hl. right. exact Hb. }
             ++ left. split; [|exact LW]. exists s'. split; [|exact R2].
                eapply steps_trans; [exact S1|]. eapply steps_trans; eassumption.
             ++ right.
                assert (P2' : forall p, In p P <-> upath E to_ c p).
                { intro p. rewrite P2. destruct (Nat.eqb_spec c to_) as [->|Hct].
                  - symmetry. apply upath_to.
                  - rewrite (upath_cons E to_ c p Hct). split.
                    + intros [b [q [-> [Hb Hq]]]]. exists b, q. repeat split; try apply Hq.
                      apply to_indices_In in Hb; [apply Hb|exact Hcn]. apply to_indices_In in Hb; [apply Hb|exact Hcn].
                      apply to_indices_In in Hb; [apply Hb|exact Hcn].
                    + intros [b [q [-> [Hb Hq]]]]. exists b, q. repeat split; try apply Hq.
                      apply to_indices_In; assumption. }
                exists (map (cons x) P ++ P'). split; [|split; [|split]].
                ** eapply steps_trans; [exact S1|]. eapply steps_trans; [exact S2|].
                   rewrite map_app, app_assoc, map_map.
                   replace (map (fun p => rev (x :: stk) ++ p) P)
                     with (map (fun p => rev stk ++ x :: p) P) in S3.
                   2:{ apply map_ext. intro p. cbn [rev]. rewrite <- app_assoc. reflexivity. }
                   replace (map (fun p => rev (x :: stk) ++ p) P)
                     with (map (fun p => rev stk ++ x :: p) P).
                   2:{ apply map_ext. intro p. cbn [rev]. rewrite <- app_assoc. reflexivity. }
                   exact S3.
                ** apply NoDup_app_iff'. split; [|split].
                   --- apply FinFun.Injective_map_NoDup; [|exact ND2]. intros a b H. congruence.
                   --- exact ND3.
                   --- intros p Hp Hp'. apply in_map_iff in Hp. destruct Hp as [q [<- Hq]].
                       apply P2' in Hq. apply P3 in Hp'.
                       destruct (Nat.eqb_spec x to_) as [F|_]; [congruence|].
                       destruct Hp' as [b [q' [Eq [Hb Hq']]]]. inversion Eq. subst q'.
                       destruct Hq as [_ [Hq _]]. destruct Hq' as [_ [Hq' _]].
                       assert (b = c) by congruence. subst b. contradiction.
                ** intro p. rewrite in_app_iff, P3, in_map_iff.
                   destruct (Nat.eqb_spec x to_) as [F|_]; [congruence|]. split.
                   --- intros [[q [<- Hq]]|[b [q [-> [Hb Hq]]]]].
                       +++ exists c, q. split; [reflexivity|]. split; [left; reflexivity|].
                           apply P2'. exact Hq.
                       +++ exists b, q. split; [reflexivity|]. split; [right; exact Hb|exact Hq].
                   --- intros [b [q [-> [[<-|Hb] Hq]]]].
                       +++ left. exists q. split; [reflexivity|]. apply P2'. exact Hq.
                       +++ right. exists b, q. tauto.
                ** split; [|lia]. intros b Hxt [<-|Hb].
                   --- intros w W1 W2. destruct w as [|b w]; [discriminate|].
                       cbn in W2. inversion W2. subst b. destruct w as [|b w]; [cbn; lia|].
                       cbn in W1. destruct W1 as [[Hct Eb] W1].
                       assert (G := Sh2 b Hct ltac:(apply to_indices_In; assumption) (b :: w) W1 eq_refl).
                       cbn in G |- *. lia.
                   --- apply Sh3; assumption.
  Qed.
End Exact.

(** ** From walks to the specification *)
Lemma walk_In_reach : forall E p x, walk E p -> hd_error p = Some x ->
  forall v, In v p -> v = x \/ clos_trans nat E x v.
Proof.
  intros E p. induction p as [|a p IH]; intros x W H v Hv; [contradiction|].
  cbn in H. inversion H. subst a. destruct Hv as [->|Hv]; [left; reflexivity|].
  right. destruct p as [|b p]; [contradiction|]. cbn in W. destruct W as [Eb W].
  destruct (IH b W eq_refl v Hv) as [->|R]; [apply t_step; exact Eb|].
  eapply t_trans; [apply t_step; exact Eb|exact R].
Qed.

Lemma repeat_reaches_cycle : forall E p x, walk E p -> hd_error p = Some x -> ~ NoDup p ->
  reaches_cycle E x.
Proof.
  intros E p x W H ND. destruct (walk_repeat_cycle E p W ND) as [v [Hv C]].
  exists v. split; [|exact C]. eapply walk_In_reach; eassumption.
Qed.

Lemma clos_trans_first : forall (E : graph) x v, clos_trans nat E x v ->
  exists y, E x y /\ (y = v \/ clos_trans nat E y v).
Proof.
  intros E x v H. apply clos_trans_t1n in H. destruct H as [v H|y v H R].
  - exists v. split; [exact H|left; reflexivity].
  - exists y. split; [exact H|right; apply clos_t1n_trans; exact R].
Qed.
Lemma reaches_cycle_step : forall E x, reaches_cycle E x -> exists y, E x y /\ reaches_cycle E y.
Proof.
  intros E x [v [R C]].
  assert (R' : clos_trans nat E x v) by (destruct R as [->|R]; assumption).
  destruct (clos_trans_first E x v R') as [y [H Y]]. exists y. split; [exact H|].
  exists v. split; [|exact C]. destruct Y as [->|Y]; [left; reflexivity|right; exact Y].
Qed.
Lemma reaches_cycle_long : forall E k x, reaches_cycle E x ->
  exists p, walk E p /\ hd_error p = Some x /\ length p = S k.
Proof.
  intros E. induction k as [|k IH]; intros x R.
  - exists [x]. repeat split.
  - destruct (reaches_cycle_step E x R) as [y [H R']].
    destruct (IH y R') as [p [W [Hd L]]]. exists (x :: p).
    destruct p as [|b p]; [discriminate|]. cbn in Hd. inversion Hd. subst b.
    split; [cbn; split; assumption|]. split; [reflexivity|cbn in *; lia].
Qed.

Lemma walk_stop_bound : forall n dag m t p, walk (stop_at t (thr_edge n dag m)) p ->
  2 <= length p -> forall v, In v p -> v < n.
Proof.
  intros n dag m t p. induction p as [|a p IH]; intros W L v Hv; [contradiction|].
  destruct p as [|b p]; [cbn in L; lia|]. cbn in W. destruct W as [[_ [Ha [Hb _]]] W].
  destruct Hv as [<-|Hv]; [exact Ha|]. destruct p as [|c p].
  - destruct Hv as [<-|[]]. exact Hb.
  - apply IH; [exact W|cbn; lia|exact Hv].
Qed.

Lemma NoDup_bound_length : forall n (p : list nat), NoDup p -> (forall v, In v p -> v < n) -> length p <= n.
Proof.
  intros n p ND H. rewrite <- (seq_length n 0). apply NoDup_incl_length; [exact ND|].
  intros v Hv. apply in_seq. specialize (H v Hv). lia.
Qed.

Lemma NoDup_dec_nat : forall p : list nat, {NoDup p} + {~ NoDup p}.
Proof. apply ListDec.NoDup_dec. exact Nat.eq_dec. Qed.

Lemma dpath_upath : forall E t x p, ~ reaches_cycle (stop_at t E) x ->
  (upath E t x p <-> dpath E x t p).
Proof.
  intros E t x p NC. split.
  - intros [W [H L]].
    assert (WE : walk E p).
    { clear H L NC. induction p as [|a p IH]; [exact I|]. destruct p as [|b p]; [exact I|].
      cbn in W |- *. destruct W as [[_ W1] W2]. split; [exact W1|apply IH; exact W2]. }
    split.
    + split; [exact H|]. split; [exact L|]. split; [destruct p; [discriminate|congruence]|exact WE].
    + destruct (NoDup_dec_nat p) as [D|D]; [exact D|]. exfalso. apply NC.
      eapply repeat_reaches_cycle; eassumption.
  - intros [[H [L [NE W]]] ND]. split; [|split; assumption].
    clear NC H. revert x L. induction p as [|a p IH]; intros x L; [exact I|].
    destruct p as [|b p]; [exact I|]. cbn in W |- *. destruct W as [W1 W2].
    apply NoDup_cons_iff in ND. destruct ND as [Ha ND].
    assert (L' : last (b :: p) x = t) by exact L.
    split; [split; [|exact W1]|].
    + intro F. subst a. apply Ha. rewrite <- L'.
      generalize (@app_removelast_last _ (b :: p) x ltac:(discriminate)). intro Q.
      rewrite Q at 2. apply in_or_app. right. left. reflexivity.
    + apply (IH ltac:(discriminate) W2 ND x L').
Qed.

Lemma fap_loop_noret : forall n dag m from to_, from < n ->
  ~ clos_trans nat (stop_at to_ (thr_edge n dag m)) from from ->
  (reaches_cycle (stop_at to_ (thr_edge n dag m)) from /\
   fap_loop n dag m from to_ = Err ValueError) \/
  (~ reaches_cycle (stop_at to_ (thr_edge n dag m)) from /\
   exists P, fap_loop n dag m from to_ = Ok P /\ NoDup P /\
             forall p, In p P <-> dpath (thr_edge n dag m) from to_ p).
Proof.
  intros n dag m from to_ Hf NR.
  destruct (fap_loop_terminates n dag m from to_ Hf) as [r Hr].
  unfold fap_loop. rewrite Hr.
  destruct (explore n dag m from to_ Hf NR n from [] [] [] eq_refl (or_introl eq_refl) Hf
             (to_indices n dag m from) (to_indices_NoDup _ _ _ _))
    as [[[s' [R1 R2]] [w [W1 [W2 W3]]]]|[P [S1 [ND [HP [Sh D]]]]]].
  - intros c Hc. apply to_indices_In in Hc; assumption.
  - left. split.
    + eapply repeat_reaches_cycle; [exact W1|exact W2|]. intro ND.
      assert (length w <= n); [|lia].
      apply NoDup_bound_length; [exact ND|]. eapply walk_stop_bound; [exact W1|lia].
    + eapply loop_steps_eq; [exact Hr|exact R1|exact R2].
  - right.
    assert (NC : ~ reaches_cycle (stop_at to_ (thr_edge n dag m)) from).
    { intro RC. destruct (reaches_cycle_long _ n _ RC) as [w [W1 [W2 W3]]].
      destruct w as [|a [|b w]]; [discriminate|cbn in W3; lia|].
      cbn in W2. inversion W2. subst a. cbn in W1. destruct W1 as [[N1 E1] W1].
      assert (G := Sh b N1 ltac:(apply to_indices_In; assumption) (b :: w) W1 eq_refl).
      cbn in G, W3. lia. }
    split; [exact NC|]. exists P. split; [|split; [exact ND|]].
    + eapply loop_steps_eq; [exact Hr|exact S1|].
      cbn. rewrite map_id. reflexivity.
    + intro p. rewrite HP, <- dpath_upath by exact NC.
      destruct (Nat.eqb_spec from to_) as [->|Hft].
      * symmetry. apply upath_to.
      * rewrite (upath_cons _ to_ from p Hft). split.
        -- intros [c [q [-> [Hc Hq]]]]. exists c, q. split; [reflexivity|]. split; [|exact Hq].
           apply to_indices_In in Hc; assumption.
        -- intros [c [q [-> [Hc Hq]]]]. exists c, q. split; [reflexivity|]. split; [|exact Hq].
           apply to_indices_In; assumption.
Qed.

(** Effects of the found paths. *)
Lemma nprod_acc : forall l a, fold_left nmul l a = nmul a (fold_left nmul l (Some 1%Qc)).
Proof.
  induction l as [|x l IH]; intro a; cbn [fold_left].
  - destruct a as [a|]; cbn; [|reflexivity]. f_equal. ring.
  - rewrite (IH (nmul a x)), (IH (nmul (Some 1%Qc) x)).
    destruct a as [a|]; destruct x as [x|]; cbn; try reflexivity;
      destruct (fold_left nmul l (Some 1%Qc)); cbn; try reflexivity. f_equal. ring.
Qed.
Lemma nprod_walk_weight : forall dag p, nprod (path_coefs dag p) = walk_weight_num dag p.
Proof.
  intros dag. induction p as [|a p IH]; [reflexivity|]. destruct p as [|b p]; [reflexivity|].
  change (path_coefs dag (a :: b :: p)) with (dag b a :: path_coefs dag (b :: p)).
  change (walk_weight_num dag (a :: b :: p)) with (nmul (dag b a) (walk_weight_num dag (b :: p))).
  rewrite <- IH. unfold nprod. cbn [fold_left]. rewrite nprod_acc. f_equal.
  destruct (dag b a) as [x|]; cbn; [|reflexivity]. f_equal. ring.
Qed.
Lemma path_effects_ok : forall dag ps, (forall p, In p ps -> 2 <= length p) ->
  path_effects dag ps = Ok (map (walk_weight_num dag) ps).
Proof.
  intros dag. induction ps as [|p ps IH]; intro H; [reflexivity|].
  cbn [path_effects map]. rewrite IH by (intros q Hq; apply H; right; exact Hq).
  specialize (H p (or_introl eq_refl)). destruct p as [|a [|b p]]; cbn in H; try lia.
  unfold path_effect. rewrite <- nprod_walk_weight. reflexivity.
Qed.
Lemma path_effects_cases : forall dag ps,
  (exists es, path_effects dag ps = Ok es) \/ path_effects dag ps = Err IndexError.
Proof.
  intros dag. induction ps as [|p ps IH]; [left; exists []; reflexivity|]. cbn.
  unfold path_effect. destruct (path_coefs dag p); [right; reflexivity|]. cbn.
  destruct IH as [[es ->]| ->]; cbn; eauto.
Qed.

Lemma dpath_length2 : forall E a b p, a <> b -> dpath E a b p -> 2 <= length p.
Proof.
  intros E a b p D [[H [L [NE _]]] _]. destruct p as [|x [|y p]]; [congruence| |cbn; lia].
  cbn in *. congruence.
Qed.
Lemma dpath_same : forall E a p, dpath E a a p -> p = [a].
Proof.
  intros E a p [[H [L [NE _]]] ND]. destruct p as [|x p]; [discriminate|].
  cbn in H. inversion H. subst x. destruct p as [|y p]; [reflexivity|].
  exfalso. apply NoDup_cons_iff in ND. destruct ND as [ND _]. apply ND.
  rewrite last_cons_ne in L by discriminate. rewrite <- L at 1.
  generalize (@app_removelast_last _ (y :: p) a ltac:(discriminate)). intro Q.
  rewrite Q at 2. apply in_or_app. right. left. reflexivity.
Qed.

Lemma find_all_paths_noret : forall n dag from to_ m, from < n -> from <> to_ ->
  ~ clos_trans nat (stop_at to_ (thr_edge n dag m)) from from ->
  (reaches_cycle (stop_at to_ (thr_edge n dag m)) from /\
   find_all_paths n dag from to_ m = Err ValueError) \/
  (~ reaches_cycle (stop_at to_ (thr_edge n dag m)) from /\
   exists P, find_all_paths n dag from to_ m = Ok (P, map (walk_weight_num dag) P) /\ NoDup P /\
             forall p, In p P <-> dpath (thr_edge n dag m) from to_ p).
Proof.
  intros n dag from to_ m Hf D NR. unfold find_all_paths.
  destruct (Nat.leb_spec n from) as [L|L]; [lia|].
  destruct (fap_loop_noret n dag m from to_ Hf NR) as [[RC ->]|[NC [P [-> [ND HP]]]]].
  - left. split; [exact RC|reflexivity].
  - right. split; [exact NC|]. exists P. split; [|split; assumption]. cbn.
    rewrite path_effects_ok; [reflexivity|]. intros p Hp. apply HP in Hp.
    eapply dpath_length2; eassumption.
Qed.

Lemma stop_at_trans : forall t E a b, clos_trans nat (stop_at t E) a b -> clos_trans nat E a b.
Proof.
  intros t E a b H. induction H as [a b [_ H]|a b c _ IH1 _ IH2]; [apply t_step; exact H|].
  eapply t_trans; eassumption.
Qed.

Lemma find_all_paths_acyclic : forall n dag from to_ m, from < n -> from <> to_ ->
  acyclic (thr_edge n dag m) ->
  exists P, find_all_paths n dag from to_ m = Ok (P, map (walk_weight_num dag) P) /\ NoDup P /\
            forall p, In p P <-> dpath (thr_edge n dag m) from to_ p.
Proof.
  intros n dag from to_ m Hf D A.
  destruct (find_all_paths_noret n dag from to_ m Hf D) as [[[v [_ C]] _]|[_ H]]; [| |exact H].
  - intro C. apply stop_at_trans in C. exact (A _ C).
  - exfalso. apply stop_at_trans in C. exact (A _ C).
Qed.

Lemma fap_paths_long : forall n dag m from to_ k r P, from <> to_ ->
  loop (fap_step n dag m from to_) k (fap_init n dag m from) = inr r -> r = Ok P ->
  forall p, In p P -> 2 <= length p.
Proof.
  intros n dag m from to_ k r P D H Hr.
  apply (loop_inv _ _ _ (fun s => (fap_stack s = [] \/ last (fap_stack s) to_ = from) /\
          forall p, In p (fap_paths s) -> 2 <= length p)) in H.
  - destruct H as [s' [[_ I] Hs]]. unfold fap_step in Hs.
    destruct (fap_stack s') as [|c st].
    + assert (E : P = fap_paths s') by congruence. subst P. exact I.
    + destruct (n <? length (c :: st)); [congruence|].
      destruct (c =? to_); [discriminate|]. destruct (hd [] (fap_tos s')); discriminate.
  - clear H. intros [stk tos ps] s' [I1 I2] Hs. unfold fap_step in Hs.
    cbn [fap_stack fap_tos fap_paths] in *. destruct stk as [|c st]; [discriminate|].
    destruct (n <? length (c :: st)); [congruence|].
    destruct I1 as [I1|I1]; [discriminate|].
    assert (TL : st = [] \/ last st to_ = from).
    { destruct st as [|d st]; [left; reflexivity|right]. exact I1. }
    destruct (Nat.eqb_spec c to_) as [->|Hc]; [|destruct (hd [] tos) as [|nx rest]];
      inversion Hs; subst s'; cbn [fap_stack fap_paths].
    + split; [exact TL|]. intros p Hp. apply in_app_iff in Hp. destruct Hp as [Hp|[<-|[]]]; [auto|].
      rewrite app_length, rev_length. destruct st as [|d st]; [cbn in I1; congruence|cbn; lia].
    + split; assumption.
    + split; [right; exact I1|exact I2].
  - cbn. split; [right; reflexivity|intros p []].
Qed.

Lemma find_all_paths_total : forall n dag from to_ m, from < n -> from <> to_ ->
  (exists P, find_all_paths n dag from to_ m = Ok (P, map (walk_weight_num dag) P)) \/
  find_all_paths n dag from to_ m = Err ValueError.
Proof.
  intros n dag from to_ m Hf D. unfold find_all_paths.
  destruct (Nat.leb_spec n from) as [L|L]; [lia|]. unfold fap_loop.
  destruct (fap_loop_terminates n dag m from to_ Hf) as [r Hr]. rewrite Hr.
  destruct (loop_inr_steps _ _ _ _ _ _ Hr) as [s' [_ Hs]].
  unfold fap_step in Hs. destruct (fap_stack s') as [|c st].
  - inversion Hs. subst r. cbn.
    rewrite path_effects_ok; [left; eexists; reflexivity|].
    eapply fap_paths_long; [exact D|exact Hr|reflexivity].
  - destruct (n <? length (c :: st)); [inversion Hs; subst r; cbn; tauto|].
    destruct (c =? to_); [discriminate|]. destruct (hd [] (fap_tos s')); discriminate.
Qed.

Lemma find_all_paths_same : forall n dag a m, a < n -> find_all_paths n dag a a m = Err IndexError.
Proof.
  intros n dag a m Ha. unfold find_all_paths. destruct (Nat.leb_spec n a) as [L|L]; [lia|].
  assert (NE : forall v, ~ clos_trans nat (stop_at a (thr_edge n dag m)) a v).
  { intros v C. destruct (clos_trans_first _ _ _ C) as [y [[H _] _]]. congruence. }
  destruct (fap_loop_noret n dag m a a Ha (NE a)) as [[[v [R C]] _]|[_ [P [-> [ND HP]]]]].
  - exfalso. destruct R as [->|R]; [exact (NE a C)|exact (NE v R)].
  - assert (I : In [a] P).
    { apply HP. split; [repeat split; discriminate|constructor; [intros []|constructor]]. }
    destruct P as [|p P]; [contradiction|].
    assert (p = [a]) by (eapply dpath_same; apply HP; left; reflexivity). subst p. reflexivity.
Qed.
