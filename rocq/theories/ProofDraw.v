(** * Lemmas about the drawings *)
From Coq Require Import List Arith Bool ZArith QArith Qcanon Lia Relations Sorted Ascii String DecimalString DecimalNat.
From Verif Require Import Prelude Spec SpecDraw Lib LibMat ModelRoot ProofRoot ModelDraw.
Import ListNotations.
Open Scope nat_scope.

Lemma default_name_inj : forall i j, default_name i = default_name j -> i = j.
Proof.
  intros i j H. unfold default_name in H. injection H as H. apply Unsigned.to_uint_inj.
  pose proof (NilEmpty.usu (Nat.to_uint i)) as A. pose proof (NilEmpty.usu (Nat.to_uint j)) as B. rewrite H in A. congruence.
Qed.

Lemma Forall2_impl : forall {A B} (P Q : A -> B -> Prop), (forall a b, P a b -> Q a b) -> forall l l', Forall2 P l l' -> Forall2 Q l l'.
Proof. intros A B P Q H l l' F. induction F; constructor; auto. Qed.
(** ** mapM *)
Lemma mapM_ok : forall {A B} (f : A -> result B) l ys, mapM f l = Ok ys <-> Forall2 (fun x y => f x = Ok y) l ys.
Proof.
  intros A B f l. induction l as [|x l IH]; intro ys; cbn [mapM].
  - split; [intros [= <-]; constructor|]. inversion 1. reflexivity.
  - destruct (f x) as [y|e] eqn:E; cbn [bind].
    + destruct (mapM f l) as [zs|e] eqn:F; cbn [bind].
      * split; [intros [= <-]; constructor; [exact E|apply IH; reflexivity]|]. inversion 1 as [|? ? ? ? H1 H2]; subst.
        apply IH in H2. congruence.
      * split; [discriminate|]. inversion 1 as [|? ? ? ? H1 H2]; subst. apply IH in H2. discriminate.
    + split; [discriminate|]. inversion 1; subst. congruence.
Qed.
Lemma mapM_total : forall {A B} (f : A -> result B) l, (forall x, In x l -> exists y, f x = Ok y) -> exists ys, mapM f l = Ok ys.
Proof.
  intros A B f l. induction l as [|x l IH]; intro H; [eexists; reflexivity|]. destruct (H x (or_introl eq_refl)) as [y E].
  destruct IH as [ys F]; [intros; apply H; right; assumption|]. exists (y :: ys). cbn [mapM]. rewrite E. cbn [bind]. rewrite F. reflexivity.
Qed.
Lemma mapM_length : forall {A B} (f : A -> result B) l ys, mapM f l = Ok ys -> length ys = length l.
Proof. intros A B f l ys H. apply mapM_ok in H. induction H; cbn; congruence. Qed.
Lemma mapM_err : forall {A B} (f : A -> result B) l e, mapM f l = Err e -> exists x, In x l /\ f x = Err e.
Proof.
  intros A B f l. induction l as [|x l IH]; intro e; cbn [mapM]; [discriminate|]. destruct (f x) as [y|e0] eqn:E; cbn [bind].
  - destruct (mapM f l) as [ys|e1]; cbn [bind]; [discriminate|]. intro H. destruct (IH e) as (z & I & Z); [congruence|].
    exists z. split; [right; exact I|exact Z].
  - intros [= <-]. exists x. split; [left; reflexivity|exact E].
Qed.
Lemma mapM_exists_err : forall {A B} (f : A -> result B) l e, (exists x, In x l /\ exists e', f x = Err e') ->
  (forall x e', In x l -> f x = Err e' -> e' = e) -> mapM f l = Err e.
Proof.
  intros A B f l. induction l as [|x l IH]; intros e (z & I & e' & Z) H; [destruct I|]. cbn [mapM].
  destruct (f x) as [y|e0] eqn:E; cbn [bind].
  - rewrite (IH e); [reflexivity| |intros; eapply H; [right; eassumption|eassumption]].
    destruct I as [->|I]; [congruence|]. exists z. split; [exact I|]. exists e'. exact Z.
  - f_equal. apply (H x); [left; reflexivity|exact E].
Qed.
Lemma get_name_ok : forall names i s, get_name names i = Ok s <-> i < length names /\ s = nth i names EmptyString.
Proof.
  intros names i s. unfold get_name. destruct (nth_error names i) as [t|] eqn:E.
  - pose proof (nth_error_nth names i EmptyString E) as N. assert (L : i < length names) by (apply nth_error_Some; congruence).
    split; [intros [= <-]; auto|]. intros [_ ->]. congruence.
  - apply nth_error_None in E. split; [discriminate|]. intros [H _]. lia.
Qed.
Lemma get_name_err : forall names i e, get_name names i = Err e <-> length names <= i /\ e = IndexError.
Proof.
  intros names i e. unfold get_name. destruct (nth_error names i) as [t|] eqn:E.
  - assert (L : i < length names) by (apply nth_error_Some; congruence). split; [discriminate|]. intros [H _]. lia.
  - apply nth_error_None in E. split; [intros [= <-]; auto|intros [_ ->]; reflexivity].
Qed.

(** ** Positions *)
Lemma positions_In : forall r c i j, In (i, j) (positions r c) <-> i < r /\ j < c.
Proof. intros r c i j. unfold positions. rewrite in_prod_iff, !in_seq. lia. Qed.
Lemma SS_app : forall {A} (R : A -> A -> Prop) l1 l2, StronglySorted R l1 -> StronglySorted R l2 ->
  (forall a b, In a l1 -> In b l2 -> R a b) -> StronglySorted R (l1 ++ l2).
Proof.
  intros A R l1 l2 S1 S2 H. induction S1 as [|x l S IH F]; [exact S2|]. cbn [app]. constructor.
  - apply IH. intros; apply H; [right|]; assumption.
  - apply Forall_app. split; [exact F|]. apply Forall_forall. intros b Hb. apply H; [left; reflexivity|exact Hb].
Qed.
Lemma SS_filter : forall {A} (R : A -> A -> Prop) f l, StronglySorted R l -> StronglySorted R (filter f l).
Proof.
  intros A R f l S. induction S as [|x l S IH F]; [constructor|]. cbn [filter]. destruct (f x); [|exact IH]. constructor; [exact IH|].
  apply Forall_forall. intros y Hy. apply filter_In in Hy. destruct Hy as [Hy _]. rewrite Forall_forall in F. apply F. exact Hy.
Qed.
Lemma SS_seq : forall n s, StronglySorted lt (seq s n).
Proof.
  induction n as [|n IH]; intro s; [constructor|]. cbn [seq]. constructor; [apply IH|]. apply Forall_forall. intros y Hy. apply in_seq in Hy. lia.
Qed.
Lemma positions_sorted : forall r c, StronglySorted row_major (positions r c).
Proof.
  intros r c. unfold positions. pose proof (SS_seq r 0) as S. revert S. generalize (seq 0 r). intros l S. induction S as [|x l S IH F]; [constructor|].
  cbn [list_prod]. apply SS_app; [|exact IH|].
  - pose proof (SS_seq c 0) as T. revert T. generalize (seq 0 c). intros l' T. induction T as [|y l' T IHT FT]; [constructor|].
    cbn [map]. constructor; [exact IHT|]. apply Forall_forall. intros z Hz. apply in_map_iff in Hz. destruct Hz as (w & <- & Hw).
    right. rewrite Forall_forall in FT. split; [reflexivity|]. apply FT. exact Hw.
  - intros a b Ha Hb. apply in_map_iff in Ha. destruct Ha as (y & <- & _). destruct b as [b1 b2]. apply in_prod_iff in Hb. left.
    rewrite Forall_forall in F. apply F. apply Hb.
Qed.

(** ** Steps of paths and cycles *)
Lemma path_pairs_takes : forall p u v, In (u, v) (path_pairs p) <-> takes p u v.
Proof.
  intros p u v. unfold path_pairs, takes. induction p as [|a p IH]; [split; [intros []|intros ([|? ?] & ? & D); discriminate]|].
  cbn [tl] in *. destruct p as [|b p].
  - cbn. split; [intros []|]. intros ([|? [|? ?]] & ? & D); discriminate.
  - cbn [combine In]. cbn [tl] in IH. rewrite IH. split.
    + intros [[= <- <-]|(l1 & l2 & E)]; [exists [], p; reflexivity|]. exists (a :: l1), l2. rewrite E. reflexivity.
    + intros ([|x l1] & l2 & E); cbn in E; [injection E as -> -> ->; left; reflexivity|]. injection E as -> E. right. exists l1, l2. exact E.
Qed.
Lemma cycle_pairs_takes : forall c u v, c <> [] -> (In (u, v) (cycle_pairs c) <-> takes (closed c) u v).
Proof.
  intros c u v NE. rewrite <- path_pairs_takes. unfold cycle_pairs, path_pairs, closed.
  assert (Q : forall (l : list nat) x, l <> [] -> combine (l ++ [x]) (tl (l ++ [x])) = combine l (tl l ++ [x])).
  { intros l x. induction l as [|a l IH]; intro N; [congruence|]. destruct l as [|b l]; [reflexivity|].
    specialize (IH ltac:(discriminate)). cbn [app tl combine] in *. f_equal. exact IH. }
  rewrite (Q c (hd 0 c) NE). reflexivity.
Qed.
Lemma edge_mem_iff : forall e l, edge_mem e l = true <-> In e l.
Proof.
  intros [a b] l. unfold edge_mem. rewrite existsb_exists. split.
  - intros ([x y] & I & E). cbn in E. apply andb_prop in E. destruct E as [E1 E2]. apply Nat.eqb_eq in E1, E2. subst. exact I.
  - intro I. exists (a, b). split; [exact I|]. cbn. rewrite !Nat.eqb_refl. reflexivity.
Qed.
Lemma takes_walk : forall E p u v, walk E p -> takes p u v -> E u v.
Proof. intros E p u v W (l1 & l2 & ->). apply walk_app_inv in W. destruct W as [_ W]. cbn in W. tauto. Qed.
Lemma walk_reach : forall E p a, walk E (a :: p) -> clos_refl_trans nat E a (last (a :: p) a).
Proof.
  intros E p. induction p as [|b p IH]; intros a W; [apply rt_refl|]. destruct W as [H W]. apply rt_trans with b; [apply rt_step; exact H|].
  specialize (IH b W). replace (last (a :: b :: p) a) with (last (b :: p) b); [exact IH|].
  cbn [last]. clear. revert a b. induction p as [|c p IHp]; intros a b; [reflexivity|]. cbn [last] in *. destruct p; [reflexivity|]. apply IHp.
Qed.
(** Reachable nodes are joined by a path without repetition. *)
Lemma reach_dpath : forall E a b, clos_refl_trans nat E a b -> exists p, dpath E a b p.
Proof.
  intros E a b H. apply clos_rt_rt1n in H. induction H as [x|x y z H R (p & (P1 & P2 & P3 & P4) & ND)].
  - exists [x]. split; [|repeat constructor; intros []]. split; [reflexivity|]. split; [reflexivity|]. split; [discriminate|exact I].
  - destruct (in_dec Nat.eq_dec x p) as [Hx|Hx].
    + apply in_split in Hx. destruct Hx as (l1 & l2 & ->). exists (x :: l2). split.
      * split; [reflexivity|]. split; [|split; [discriminate|apply walk_app_inv in P4; apply P4]].
        rewrite <- P2. destruct l2 as [|w l2]; [cbn; symmetry; apply last_last|].
        rewrite (app_removelast_last 0 (l := w :: l2)) by discriminate. rewrite !app_comm_cons, app_assoc, !last_last. reflexivity.
      * clear - ND. induction l1 as [|y l1 IH]; [exact ND|]. apply IH. cbn [app] in ND. inversion ND. assumption.
    + exists (x :: p). split; [|constructor; assumption]. destruct p as [|w p]; [congruence|]. cbn in P1. injection P1 as ->.
      split; [reflexivity|]. split; [|split; [discriminate|split; assumption]]. rewrite <- P2. cbn [last].
      clear. destruct p as [|q p]; [reflexivity|]. generalize x y. clear. revert q. induction p as [|c p IH]; intros q x y; [reflexivity|]. apply (IH c).
Qed.
Lemma on_cycle_listed : forall f n G u v, lists_simple_cycles f ->
  (In (u, v) (flat_map cycle_pairs (f n G)) <-> on_cycle (bgraph n G) u v).
Proof.
  intros f n G u v HF. destruct (HF n G) as [S C]. rewrite in_flat_map. split.
  - intros (c & I & P). destruct (S c I) as (NE & ND & W). apply (cycle_pairs_takes c u v NE) in P.
    split; [eapply takes_walk; eassumption|]. destruct P as (l1 & l2 & E).
    (* the rest of the cycle leads back from v to u *)
    assert (R1 : clos_refl_trans nat (bgraph n G) v (hd 0 c)).
    { rewrite E in W. apply walk_app_inv in W. destruct W as [_ W]. cbn in W. destruct W as [_ W]. apply walk_reach in W.
      replace (last (v :: l2) v) with (hd 0 c) in W; [exact W|].
      assert (Q : last (closed c) 0 = last (v :: l2) v).
      { rewrite E. rewrite (app_removelast_last 0 (l := v :: l2)) by discriminate. rewrite app_comm_cons, app_assoc, last_last.
        rewrite (app_removelast_last 0 (l := v :: l2)) at 2 by discriminate. rewrite last_last. reflexivity. }
      rewrite <- Q. unfold closed. symmetry. apply last_last. }
    assert (R2 : clos_refl_trans nat (bgraph n G) (hd 0 c) u).
    { destruct c as [|a c]; [congruence|]. cbn [hd] in *. unfold closed in E, W. cbn [hd app] in E, W. destruct l1 as [|x l1].
      - cbn in E. injection E as -> _. apply rt_refl.
      - cbn [app] in E. injection E as -> E. rewrite E in W. replace (x :: l1 ++ u :: v :: l2) with ((x :: l1 ++ [u]) ++ v :: l2) in W by (cbn; rewrite <- app_assoc; reflexivity).
        apply walk_app_inv in W. destruct W as [W _]. apply walk_reach in W. rewrite app_comm_cons, last_last in W. exact W. }
    eapply rt_trans; eassumption.
  - intros [H R]. apply reach_dpath in R. destruct R as (p & (P1 & P2 & P3 & P4) & ND).
    destruct p as [|w p]; [congruence|]. cbn in P1. injection P1 as ->.
    assert (CY : cycle_of (bgraph n G) (v :: p)).
    { split; [discriminate|]. split; [exact ND|]. unfold closed. cbn [hd]. destruct (exists_last (l := v :: p) ltac:(discriminate)) as (q & x & Q).
      rewrite Q in *. rewrite last_last in P2. subst x. rewrite <- app_assoc. apply walk_snoc; assumption. }
    destruct (C _ CY) as (c' & I & T). exists c'. split; [exact I|]. apply cycle_pairs_takes; [destruct (S c' I); assumption|]. apply T.
    unfold closed. cbn [hd]. destruct (exists_last (l := v :: p) ltac:(discriminate)) as (q & x & Q). rewrite Q in P2 |- *. rewrite last_last in P2. subst x.
    exists q, []. rewrite <- app_assoc. reflexivity.
Qed.
Lemma on_path_listed : forall f n G s t u v, lists_simple_paths f -> s < n -> t < n ->
  (In (u, v) (flat_map path_pairs (f n G s t)) <-> exists p, dpath (bgraph n G) s t p /\ takes p u v).
Proof.
  intros f n G s t u v HF Hs Ht. destruct (HF n G s t Hs Ht) as [S C]. rewrite in_flat_map. split.
  - intros (p & I & P). apply path_pairs_takes in P. exists p. auto.
  - intros (p & D & T). exists p. split; [|apply path_pairs_takes; exact T]. apply C; [exact D|].
    destruct T as (l1 & l2 & ->). rewrite app_length. cbn. lia.
Qed.
Lemma str_mem_iff : forall s l, str_mem s l = true <-> In s l.
Proof.
  intros s l. unfold str_mem. rewrite existsb_exists. split.
  - intros (x & I & E). apply String.eqb_eq in E. subst x. exact I.
  - intro I. exists s. split; [exact I|]. apply String.eqb_refl.
Qed.
Lemma takes_In : forall p x, 2 <= length p -> (In x p <-> exists y, takes p x y \/ takes p y x).
Proof.
  intros p x L. split.
  - intro I. apply in_split in I. destruct I as (l1 & l2 & ->). destruct l2 as [|y l2]; [|exists y; left; exists l1, l2; reflexivity].
    destruct l1 as [|z l1]; [cbn in L; lia|]. destruct (exists_last (l := z :: l1) ltac:(discriminate)) as (q & y & Q).
    exists y. right. rewrite Q. exists q, []. rewrite <- app_assoc. reflexivity.
  - intros (y & [(l1 & l2 & ->)|(l1 & l2 & ->)]); apply in_app_iff; right; cbn; auto.
Qed.

(** ** Distances *)
Lemma minimal_distance : forall E s d v, minimal E s d v <-> distance E s v d.
Proof.
  intros E s d v. unfold minimal, distance. rewrite steps_walk. split; intros [H1 H2]; (split; [exact H1|]).
  - intros p P. destruct (Nat.le_gt_cases (length p) d) as [Hl|Hl]; [|exact Hl]. exfalso.
    destruct p as [|a p]; [destruct P as (_ & _ & P & _); congruence|]. apply (H2 (length p)); [cbn in Hl; lia|]. apply steps_walk. exists (a :: p). split; [exact P|reflexivity].
  - intros j Hj Q. apply steps_walk in Q. destruct Q as (p & P & L). specialize (H2 p P). lia.
Qed.
Lemma distances_In : forall n (adj : nat -> list nat) (E : graph) s cut v d, s < n ->
  (forall a b, In b (adj a) <-> E a b) -> (forall a b, E a b -> b < n) ->
  (In (v, d) (distances n adj s cut) <-> v <> s /\ within cut d = true /\ distance E s v d).
Proof.
  intros n adj E s cut v d Hs HA HB. unfold distances. rewrite filter_In. cbn [fst snd]. rewrite andb_true_iff, negb_true_iff, Nat.eqb_neq.
  rewrite (bfs_spec n E adj s HA HB).
  - rewrite <- minimal_distance. split; [tauto|]. intros (H1 & H2 & H3). split; [split; [lia|exact H3]|]. tauto.
  - intro w. cbn [In]. split; [intros [<-|[]]; exists 0; split; [lia|reflexivity]|]. intros (k & Hk & Q). replace k with 0 in Q by lia. left. symmetry. exact Q.
  - intro w. cbn [In]. unfold minimal. cbn [steps]. split; [intros [<-|[]]; split; [reflexivity|intros; lia]|]. intros [-> _]. tauto.
  - constructor; [intros []|constructor].
  - intros w [<-|[]]. exact Hs.
  - intros _. cbn [length]. lia.
Qed.

(** ** The promises of networkx can be kept: a brute-force search *)
Fixpoint nodup_lists (k : nat) (pool : list nat) : list (list nat) :=
  match k with
  | 0 => [[]]
  | S k => [] :: flat_map (fun x => map (cons x) (nodup_lists k (remove_nat x pool))) pool
  end.
Fixpoint walkb (n : nat) (G : nat -> nat -> bool) (p : list nat) : bool :=
  match p with
  | a :: ((b :: _) as r) => (a <? n) && (b <? n) && G a b && walkb n G r
  | _ => true
  end.
Definition brute_paths (n : nat) (G : nat -> nat -> bool) (s t : nat) : list (list nat) :=
  filter (fun p => match p with [] => false | a :: _ => (a =? s) && (last p a =? t) && walkb n G p end) (nodup_lists n (seq 0 n)).
Definition brute_cycles (n : nat) (G : nat -> nat -> bool) : list (list nat) :=
  filter (fun c => match c with [] => false | _ => walkb n G (closed c) end) (nodup_lists n (seq 0 n)).
Lemma nodup_lists_In : forall k pool p, In p (nodup_lists k pool) <-> NoDup p /\ incl p pool /\ length p <= k.
Proof.
  induction k as [|k IH]; intros pool p; cbn [nodup_lists In].
  - split; [intros [<-|[]]; split; [constructor|]; split; [intros x []|cbn; lia]|]. intros (_ & _ & L). destruct p; [auto|cbn in L; lia].
  - rewrite in_flat_map. split.
    + intros [<-|(x & Hx & I)]; [split; [constructor|]; split; [intros y []|cbn; lia]|]. apply in_map_iff in I. destruct I as (q & <- & I). apply IH in I.
      destruct I as (ND & IC & L). split; [|split; [|cbn; lia]].
      * constructor; [|exact ND]. intro Q. apply IC in Q. unfold remove_nat in Q. apply filter_In in Q. destruct Q as [_ Q]. rewrite Nat.eqb_refl in Q. discriminate.
      * intros y [<-|Q]; [exact Hx|]. apply IC in Q. apply filter_In in Q. apply Q.
    + intros (ND & IC & L). destruct p as [|x p]; [auto|]. right. exists x. split; [apply IC; left; reflexivity|]. apply in_map_iff. exists p. split; [reflexivity|].
      apply IH. inversion ND as [|? ? N1 N2]; subst. split; [exact N2|]. split; [|cbn in L; lia]. intros y Hy. apply filter_In. split; [apply IC; right; exact Hy|].
      apply negb_true_iff, Nat.eqb_neq. intros ->. contradiction.
Qed.
Lemma walkb_iff : forall n G p, walkb n G p = true <-> walk (bgraph n G) p.
Proof.
  intros n G p. induction p as [|a p IH]; [cbn; tauto|]. destruct p as [|b p]; [cbn; tauto|].
  cbn [walkb walk] in *. rewrite !andb_true_iff, !Nat.ltb_lt, IH. unfold bgraph. tauto.
Qed.
Lemma walk_bound : forall n G p, walk (bgraph n G) p -> 2 <= length p -> forall x, In x p -> x < n.
Proof.
  intros n G p W L x I. apply takes_In in I; [|exact L]. destruct I as (y & [T|T]); apply (takes_walk _ _ _ _ W) in T; unfold bgraph in T; tauto.
Qed.
Lemma brute_paths_ok : lists_simple_paths brute_paths.
Proof.
  intros n G s t Hs Ht. split.
  - intros p I. unfold brute_paths in I. apply filter_In in I. destruct I as [I C]. apply nodup_lists_In in I. destruct I as (ND & _ & _).
    destruct p as [|a p]; [discriminate|]. rewrite !andb_true_iff, !Nat.eqb_eq in C. destruct C as [[-> L] W]. split; [|exact ND].
    split; [reflexivity|]. split; [exact L|]. split; [discriminate|]. apply walkb_iff. exact W.
  - intros p [(H1 & H2 & H3 & H4) ND] L2. unfold brute_paths. apply filter_In. split.
    + apply nodup_lists_In. split; [exact ND|]. assert (B : forall x, In x p -> x < n) by (apply (walk_bound n G p H4 L2)). split.
      * intros x Hx. apply in_seq. specialize (B x Hx). lia.
      * replace n with (length (seq 0 n)) by apply seq_length. apply NoDup_incl_length; [exact ND|]. intros x Hx. apply in_seq. specialize (B x Hx). lia.
    + destruct p as [|a p]; [congruence|]. cbn in H1. injection H1 as ->. rewrite !andb_true_iff, !Nat.eqb_eq. split; [auto|]. apply walkb_iff. exact H4.
Qed.
Lemma brute_cycles_ok : lists_simple_cycles brute_cycles.
Proof.
  intros n G. split.
  - intros c I. unfold brute_cycles in I. apply filter_In in I. destruct I as [I C]. apply nodup_lists_In in I. destruct I as (ND & _ & _).
    destruct c as [|a c]; [discriminate|]. split; [discriminate|]. split; [exact ND|]. apply walkb_iff. exact C.
  - intros c (NE & ND & W). exists c. split; [|auto]. unfold brute_cycles. apply filter_In. split.
    + apply nodup_lists_In. split; [exact ND|]. assert (B : forall x, In x c -> x < n).
      { intros x Hx. apply (walk_bound n G (closed c) W); [|unfold closed; apply in_app_iff; auto]. unfold closed. rewrite app_length. destruct c; [congruence|cbn; lia]. }
      split; [intros x Hx; apply in_seq; specialize (B x Hx); lia|]. replace n with (length (seq 0 n)) by apply seq_length.
      apply NoDup_incl_length; [exact ND|]. intros x Hx. apply in_seq. specialize (B x Hx). lia.
    + destruct c as [|a c]; [congruence|]. apply walkb_iff. exact W.
Qed.
(** ** Every node is reached once *)
Lemma visit_next : forall l st, NoDup (snd st) -> incl (snd st) (fst st) ->
  NoDup (snd (fold_left visit l st)) /\ incl (snd (fold_left visit l st)) (fst (fold_left visit l st)).
Proof.
  induction l as [|w l IH]; intros st ND IC; [auto|]. cbn [fold_left]. apply IH; unfold visit; destruct (memb w (fst st)) eqn:M; cbn [fst snd]; try assumption.
  - apply NoDup_app_iff'. split; [exact ND|]. split; [constructor; [intros []|constructor]|]. intros x I [<-|[]]. apply IC, memb_In in I. congruence.
  - intros x I. apply in_app_iff in I. destruct I as [I|[<-|[]]]; [right; auto|left; reflexivity].
Qed.
Lemma bfs_level : forall fuel adj seen this L v d, In (v, d) (bfs fuel adj seen this L) -> L <= d.
Proof.
  induction fuel as [|fuel IH]; intros adj seen th L v d I; (destruct th as [|x th]; [destruct I|]).
  - cbn [bfs] in I. rewrite app_nil_r in I. apply in_map_iff in I. destruct I as (y & [= _ <-] & _). lia.
  - remember (x :: th) as th' eqn:TE.
    assert (I' : In (v, d) (map (fun v => (v, L)) th' ++ let '(seen, next) := fold_left visit (flat_map adj th') (seen, []) in bfs fuel adj seen next (S L)))
      by (rewrite TE in *; exact I). apply in_app_iff in I'. destruct I' as [I'|I'].
    + apply in_map_iff in I'. destruct I' as (y & [= _ <-] & _). lia.
    + destruct (fold_left visit (flat_map adj th') (seen, [])) as [s nx]. apply IH in I'. lia.
Qed.
Lemma bfs_NoDup : forall fuel adj seen this L, NoDup this -> NoDup (bfs fuel adj seen this L).
Proof.
  induction fuel as [|fuel IH]; intros adj seen th L ND; (destruct th as [|x th]; [constructor|]).
  - cbn [bfs]. rewrite app_nil_r. apply FinFun.Injective_map_NoDup; [intros a b [= E]; exact E|exact ND].
  - remember (x :: th) as th' eqn:TE. replace (bfs (S fuel) adj seen th' L) with (map (fun v => (v, L)) th' ++ let '(seen, next) := fold_left visit (flat_map adj th') (seen, []) in bfs fuel adj seen next (S L))
      by (rewrite TE; reflexivity).
    destruct (visit_next (flat_map adj th') (seen, [])) as [N1 _]; [constructor|intros y []|].
    destruct (fold_left visit (flat_map adj th') (seen, [])) as [s nx]. cbn [snd] in N1. apply NoDup_app_iff'. split; [|split].
    + apply FinFun.Injective_map_NoDup; [intros a b [= E]; exact E|exact ND].
    + apply IH. exact N1.
    + intros [v d] I1 I2. apply in_map_iff in I1. destruct I1 as (y & [= _ <-] & _). apply bfs_level in I2. lia.
Qed.
Lemma distances_NoDup : forall n adj s cut, NoDup (distances n adj s cut).
Proof. intros. unfold distances. apply NoDup_filter, bfs_NoDup. constructor; [intros []|constructor]. Qed.
