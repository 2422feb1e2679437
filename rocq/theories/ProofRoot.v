(** * Lemmas about calculate_distance_from_root_nodes *)
From Coq Require Import List Arith Bool ZArith QArith Qcanon Lia Relations.
From Verif Require Import Prelude Spec Lib LibMat ModelRoot.
Import ListNotations.
Open Scope nat_scope.

Fixpoint steps (E : graph) (s : nat) (k : nat) (v : nat) : Prop :=
  match k with 0 => v = s | S k => exists u, steps E s k u /\ E u v end.
Definition minimal (E : graph) (s k v : nat) : Prop := steps E s k v /\ forall j, j < k -> ~ steps E s j v.

Lemma walk_snoc : forall E p a b, walk E (p ++ [a]) -> E a b -> walk E (p ++ [a; b]).
Proof.
  intros E p a b. induction p as [|x p IH]; intros W H; [cbn; tauto|]. destruct p as [|y p]; cbn in *; [tauto|].
  destruct W as [W1 W2]. split; [exact W1|apply IH; assumption].
Qed.
Lemma steps_walk : forall E s k v, steps E s k v <-> exists p, walk_from_to E s v p /\ length p = S k.
Proof.
  intros E s k. induction k as [|k IH]; intro v; cbn [steps].
  - split.
    + intros ->. exists [s]. split; [|reflexivity]. split; [reflexivity|]. split; [reflexivity|]. split; [discriminate|exact Logic.I].
    + intros (p & (H1 & H2 & H3 & _) & L). destruct p as [|a [|b p]]; cbn in L; try lia. cbn in H1, H2. congruence.
  - split.
    + intros (u & U & H). apply IH in U. destruct U as (p & (H1 & H2 & H3 & H4) & L).
      exists (p ++ [v]). split; [|rewrite app_length; cbn; lia].
      split; [destruct p; [congruence|exact H1]|]. split; [apply last_last|]. split; [intro Q; apply app_eq_nil in Q; destruct Q; discriminate|].
      destruct (exists_last H3) as (q & x & Q). subst p. rewrite last_last in H2. subst x. rewrite <- app_assoc. apply walk_snoc; assumption.
    + intros (p & (H1 & H2 & H3 & H4) & L). destruct (exists_last H3) as (q & x & Q). subst p. rewrite last_last in H2. subst x.
      rewrite app_length in L. cbn in L. assert (NQ : q <> []) by (intros ->; cbn in L; lia).
      destruct (exists_last NQ) as (q' & u & Q). subst q. exists u. split.
      * apply IH. exists (q' ++ [u]). split; [|lia]. split; [destruct q'; cbn in *; exact H1|]. split; [apply last_last|]. split; [exact NQ|].
        apply walk_app_inv in H4. tauto.
      * rewrite <- app_assoc in H4. apply walk_app_inv in H4. destruct H4 as [_ H4]. cbn in H4. tauto.
Qed.

Lemma visit_spec : forall l seen acc,
  let r := fold_left visit l (seen, acc) in
  (forall w, In w (fst r) <-> In w seen \/ In w l) /\
  (forall w, In w (snd r) <-> In w acc \/ (In w l /\ ~ In w seen)) /\
  (NoDup seen -> NoDup (fst r)) /\ length (fst r) + length acc = length seen + length (snd r).
Proof.
  induction l as [|x l IH]; intros seen acc r; unfold r; cbn [fold_left].
  - cbn. split; [tauto|]. split; [tauto|]. split; [tauto|lia].
  - unfold visit at 2 4 6 8 10. cbn [fst snd]. destruct (memb x seen) eqn:E.
    + assert (Hx : In x seen) by (unfold memb in E; apply existsb_exists in E; destruct E as (y & Hy & Q); apply Nat.eqb_eq in Q; subst y; exact Hy).
      destruct (IH seen acc) as (A & B & C & D). split; [|split; [|split; [exact C|exact D]]].
      * intro w. rewrite A. cbn [In]. split; [tauto|]. intros [H|[<-|H]]; tauto.
      * intro w. rewrite B. cbn [In]. split; [tauto|]. intros [H|[[<-|H] N]]; tauto.
    + assert (Hx : ~ In x seen) by (intro H; unfold memb in E; assert (T : existsb (Nat.eqb x) seen = true) by (apply existsb_exists; exists x; split; [exact H|apply Nat.eqb_refl]); congruence).
      destruct (IH (x :: seen) (acc ++ [x])) as (A & B & C & D). split; [|split; [|split]].
      * intro w. rewrite A. cbn [In]. tauto.
      * intro w. rewrite B, in_app_iff. cbn [In]. destruct (Nat.eq_dec x w) as [->|N]; tauto.
      * intro ND. apply C. constructor; assumption.
      * rewrite app_length in D. cbn [length] in D |- *. lia.
Qed.

Section Bfs.
  Variables (n : nat) (E : graph) (adj : nat -> list nat) (s : nat).
  Hypothesis adj_ok : forall v w, In w (adj v) <-> E v w.
  Hypothesis bound : forall v w, E v w -> w < n.
  Lemma minimal_pred : forall d v L, minimal E s d v -> L <= d -> exists u, minimal E s L u.
  Proof.
    induction d as [|d IH]; intros v L M HL.
    - exists v. replace L with 0 by lia. exact M.
    - destruct (Nat.eq_dec L (S d)) as [->|N]; [exists v; exact M|]. destruct M as [(u & U & H) M].
      apply (IH u); [|lia]. split; [exact U|]. intros j Hj Q. apply (M (S j)); [lia|]. exists u. tauto.
  Qed.
  Lemma bfs_spec : forall fuel seen this L,
    (forall v, In v seen <-> exists k, k <= L /\ steps E s k v) ->
    (forall v, In v this <-> minimal E s L v) ->
    NoDup seen -> (forall v, In v seen -> v < n) -> (this <> [] -> n < fuel + length seen) ->
    forall v d, In (v, d) (bfs fuel adj seen this L) <-> L <= d /\ minimal E s d v.
  Proof.
    induction fuel as [|fuel IH]; intros seen this L HS HT ND HB HF v d.
    - destruct this as [|t this].
      + cbn [bfs]. split; [intros []|]. intros [HL M]. destruct (minimal_pred d v L M HL) as [u Hu]. apply HT in Hu. destruct Hu.
      + exfalso. assert (Q : length seen <= n) by (apply NoDup_bounded; assumption). specialize (HF ltac:(discriminate)). lia.
    - destruct this as [|t this].
      + cbn [bfs]. split; [intros []|]. intros [HL M]. destruct (minimal_pred d v L M HL) as [u Hu]. apply HT in Hu. destruct Hu.
      + set (th := t :: this) in *.
        change (bfs (S fuel) adj seen th L) with (map (fun v => (v, L)) th ++ let '(seen, next) := fold_left visit (flat_map adj th) (seen, []) in bfs fuel adj seen next (S L)).
        destruct (visit_spec (flat_map adj th) seen []) as (A & B & C & D).
        destruct (fold_left visit (flat_map adj th) (seen, [])) as [seen' next]. cbn [fst snd length] in *.
        assert (FM : forall w, In w (flat_map adj th) <-> exists u, minimal E s L u /\ E u w).
        { intro w. rewrite in_flat_map. split; intros (u & U & W); exists u; (split; [apply HT; exact U|apply adj_ok; exact W]). }
        assert (HN : forall w, In w next <-> minimal E s (S L) w).
        { intro w. rewrite B, FM. split.
          - intros [[]|[(u & [U _] & H) N]]. split; [exists u; tauto|]. intros j Hj Q. apply N. apply HS. exists j. split; [lia|exact Q].
          - intros [(u & U & H) M]. right. split.
            + exists u. split; [|exact H]. split; [exact U|]. intros j Hj Q. apply (M (S j)); [lia|]. exists u. tauto.
            + intro Q. apply HS in Q. destruct Q as (k & Hk & Q). apply (M k); [lia|exact Q]. }
        rewrite in_app_iff, in_map_iff, (IH seen' next (S L)).
        * split.
          -- intros [(u & Q & U)|[HL M]]; [injection Q as -> ->; split; [lia|apply HT; exact U]|split; [lia|exact M]].
          -- intros [HL M]. destruct (Nat.eq_dec L d) as [->|N]; [left; exists v; split; [reflexivity|apply HT; exact M]|right; split; [lia|exact M]].
        * intro w. rewrite A, HS, FM. split.
          -- intros [(k & Hk & Q)|(u & [U _] & H)]; [exists k; split; [lia|exact Q]|exists (S L); split; [lia|exists u; tauto]].
          -- intros (k & Hk & Q). destruct (Nat.eq_dec k (S L)) as [->|N]; [|left; exists k; split; [lia|exact Q]].
             destruct (in_dec Nat.eq_dec w seen) as [I|I]; [left; apply HS; exact I|]. right.
             destruct Q as (u & U & H). exists u. split; [|exact H]. split; [exact U|]. intros j Hj Q. apply I. apply HS. exists (S j). split; [lia|]. exists u. tauto.
        * exact HN.
        * apply C. exact ND.
        * intros w Hw. apply A in Hw. destruct Hw as [Hw|Hw]; [apply HB; exact Hw|]. apply FM in Hw. destruct Hw as (u & _ & H). apply bound in H. exact H.
        * intro NE. specialize (HF ltac:(discriminate)). destruct next; [congruence|]. cbn [length] in D. lia.
  Qed.
End Bfs.

(** ** The result *)
Lemma succs_In : forall n A v w, v < n -> (In w (succs n A v) <-> edge_of n A v w).
Proof.
  intros n A v w Hv. unfold succs, edge_of. rewrite filter_In, in_seq, negb_true_iff, qeqb_neq. split; [intros [H1 H2]; repeat split; [lia|exact Hv|exact H2]|].
  intros (H1 & _ & H2). split; [lia|exact H2].
Qed.
(** the same edges without the bound on the source *)
Lemma path_lengths_spec : forall n A s v d, s < n ->
  (In (v, d) (path_lengths n A s) <-> minimal (edge_of n A) s d v).
Proof.
  intros n A s v d Hs. set (E' := fun v w => w < n /\ A w v <> 0%Qc).
  assert (ST : forall k u, steps (edge_of n A) s k u <-> steps E' s k u).
  { assert (B : forall k u, steps E' s k u -> u < n) by (intros [|k] u; cbn; [intros ->; exact Hs|intros (x & _ & H & _); exact H]).
    induction k as [|k IH]; intro u; cbn [steps]; [tauto|]. split; intros (x & X & H); exists x.
    - split; [apply IH; exact X|]. destruct H as (H1 & _ & H2). split; assumption.
    - split; [apply IH; exact X|]. destruct H as (H1 & H2). split; [exact H1|]. split; [apply (B k); exact X|exact H2]. }
  assert (M : minimal (edge_of n A) s d v <-> minimal E' s d v).
  { unfold minimal. rewrite ST. split; intros [H1 H2]; (split; [exact H1|]); intros j Hj Q; apply (H2 j Hj); apply ST; exact Q. }
  rewrite M. unfold path_lengths. rewrite (bfs_spec n E' (succs n A) s).
  - split; [tauto|intro H; split; [lia|exact H]].
  - intros a w. unfold succs, E'. rewrite filter_In, in_seq, negb_true_iff, qeqb_neq. split; intros [H1 H2]; (split; [lia|exact H2]).
  - intros a w H. apply H.
  - intro w. cbn [In]. split; [intros [<-|[]]; exists 0; split; [lia|reflexivity]|]. intros (k & Hk & Q). replace k with 0 in Q by lia. left. symmetry. exact Q.
  - intro w. cbn [In]. unfold minimal. cbn [steps]. split; [intros [<-|[]]; split; [reflexivity|intros; lia]|]. intros [-> _]. tauto.
  - constructor; [intros []|constructor].
  - intros w [<-|[]]. exact Hs.
  - intros _. cbn [length]. lia.
Qed.
Lemma fold_min : forall l x, (fold_left Nat.min l x = x \/ In (fold_left Nat.min l x) l) /\
  fold_left Nat.min l x <= x /\ (forall y, In y l -> fold_left Nat.min l x <= y).
Proof.
  induction l as [|a l IH]; intro x; cbn [fold_left]; [split; [tauto|split; [lia|intros y []]]|].
  destruct (IH (Nat.min x a)) as (A & B & C). split; [|split].
  - destruct A as [A|A]; [|right; right; exact A]. rewrite A. destruct (Nat.min_dec x a) as [Q|Q]; rewrite Q; [left; reflexivity|right; left; reflexivity].
  - lia.
  - intros y [<-|Hy]; [lia|apply C; exact Hy].
Qed.
Lemma min_list_spec : forall l m, min_list l = Some m <-> In m l /\ forall y, In y l -> m <= y.
Proof.
  intros [|x l] m; cbn [min_list]; [split; [discriminate|intros [[] _]]|]. destruct (fold_min l x) as (A & B & C). split.
  - intro E. injection E as <-. split.
    + destruct A as [A|A]; [left; symmetry; exact A|right; exact A].
    + intros y [<-|Hy]; [exact B|apply C; exact Hy].
  - intros [H1 H2]. f_equal. assert (Q : m <= fold_left Nat.min l x) by (apply H2; destruct A as [->|A]; [left; reflexivity|right; exact A]).
    assert (fold_left Nat.min l x <= m) by (destruct H1 as [<-|H1]; [exact B|apply C; exact H1]). lia.
Qed.
Lemma min_list_none : forall l, min_list l = None <-> l = [].
Proof. intros [|x l]; cbn; split; congruence. Qed.
(** Smallest distance of [v] from one of the nodes of [R]. *)
Definition from_some (E : graph) (R : nat -> Prop) (v d : nat) : Prop := exists r, R r /\ steps E r d v.
Lemma node_dist_list : forall n A v d,
  In d (flat_map (fun r => map snd (filter (fun vd => fst vd =? v) (path_lengths n A r))) (root_list n A)) <->
  exists r, In r (root_list n A) /\ minimal (edge_of n A) r d v.
Proof.
  intros n A v d. rewrite in_flat_map. split.
  - intros (r & Hr & H). exists r. split; [exact Hr|]. apply in_map_iff in H. destruct H as ((v', d') & E & H). cbn in E. subst d'.
    apply filter_In in H. destruct H as [H Q]. apply Nat.eqb_eq in Q. cbn in Q. subst v'.
    apply path_lengths_spec in H; [exact H|]. unfold root_list in Hr. apply filter_In in Hr. destruct Hr as [Hr _]. apply in_seq in Hr. lia.
  - intros (r & Hr & M). exists r. split; [exact Hr|]. apply in_map_iff. exists (v, d). split; [reflexivity|]. apply filter_In. split; [|apply Nat.eqb_refl].
    apply path_lengths_spec; [|exact M]. unfold root_list in Hr. apply filter_In in Hr. destruct Hr as [Hr _]. apply in_seq in Hr. lia.
Qed.
Lemma node_dist_spec : forall n A v d, node_dist n A v = Some d <->
  from_some (edge_of n A) (fun r => In r (root_list n A)) v d /\
  forall d', d' < d -> ~ from_some (edge_of n A) (fun r => In r (root_list n A)) v d'.
Proof.
  intros n A v d. unfold node_dist. rewrite min_list_spec. split.
  - intros [H1 H2]. apply node_dist_list in H1. destruct H1 as (r & Hr & [S M]). split; [exists r; tauto|].
    intros d' Hd (r' & Hr' & S').
    assert (K : forall d', d' < d -> ~ steps (edge_of n A) r' d' v).
    { intro k. induction k as [k IHk] using lt_wf_ind. intros Hk Q.
      assert (I : In k (flat_map (fun r => map snd (filter (fun vd => fst vd =? v) (path_lengths n A r))) (root_list n A))).
      { apply node_dist_list. exists r'. split; [exact Hr'|]. split; [exact Q|]. intros j Hj. apply IHk; lia. }
      apply H2 in I. lia. }
    exact (K d' Hd S').
  - intros [(r & Hr & S) M]. split.
    + apply node_dist_list. exists r. split; [exact Hr|]. split; [exact S|]. intros j Hj Q. apply (M j Hj). exists r. tauto.
    + intros y Hy. apply node_dist_list in Hy. destruct Hy as (r' & Hr' & [S' _]). destruct (le_lt_dec d y) as [H|H]; [exact H|].
      exfalso. apply (M y H). exists r'. tauto.
Qed.
Lemma uniq_In : forall l x, In x (uniq l) <-> In x l.
Proof.
  induction l as [|a l IH]; intro x; [tauto|]. cbn [uniq In]. rewrite filter_In, IH, negb_true_iff, Nat.eqb_neq.
  destruct (Nat.eq_dec a x) as [->|N]; [tauto|]. split; [tauto|]. intros [H|H]; [tauto|]. right. split; [exact H|congruence].
Qed.
Lemma uniq_NoDup : forall l, NoDup (uniq l).
Proof.
  induction l as [|a l IH]; cbn [uniq]; constructor.
  - intro H. apply filter_In in H. destruct H as [_ H]. rewrite Nat.eqb_refl in H. discriminate.
  - apply NoDup_filter. exact IH.
Qed.
Lemma dist_series_In : forall n A m v d, In (v, d) (dist_series n A m) <-> v < n /\ node_dist n A v = Some d /\ within m d = true.
Proof.
  intros n A m v d. unfold dist_series. rewrite in_flat_map. split.
  - intros (u & Hu & H). apply in_seq in Hu. destruct (node_dist n A u) as [e|] eqn:E; [|destruct H]. destruct (within m e) eqn:W; [|destruct H].
    destruct H as [H|[]]. injection H as -> ->. repeat split; [lia|exact E|exact W].
  - intros (Hv & E & W). exists v. split; [apply in_seq; lia|]. rewrite E, W. left. reflexivity.
Qed.
Lemma dist_series_nodes : forall n A m, NoDup (map fst (dist_series n A m)).
Proof.
  intros n A m. unfold dist_series. assert (G : forall l, NoDup l -> NoDup (map fst (flat_map (fun v => match node_dist n A v with Some d => if within m d then [(v, d)] else [] | None => [] end) l)) /\
    forall v, In v (map fst (flat_map (fun v => match node_dist n A v with Some d => if within m d then [(v, d)] else [] | None => [] end) l)) -> In v l).
  { induction l as [|a l IH]; intro ND; [split; [constructor|intros v []]|]. apply NoDup_cons_iff in ND. destruct ND as [N ND]. destruct (IH ND) as [I1 I2].
    cbn [flat_map]. rewrite map_app. destruct (node_dist n A a) as [d|]; [destruct (within m d)|]; cbn [map app fst].
    - split; [constructor; [intro Q; apply N; apply I2; exact Q|exact I1]|]. intros v [<-|H]; [left; reflexivity|right; apply I2; exact H].
    - split; [exact I1|]. intros v H. right. apply I2. exact H.
    - split; [exact I1|]. intros v H. right. apply I2. exact H. }
  apply G. apply seq_NoDup.
Qed.
