(** * Proofs about the bootstrap summaries. *)
From Coq Require Import List Arith Lia Bool ZArith QArith Qcanon Permutation Sorted.
From Verif Require Import Prelude Spec SpecPaths SpecBootstrap Lib LibMat Loop ModelPaths ModelBootstrap
  ProofPaths ProofTotal.
Import ListNotations.
Open Scope nat_scope.

(** ** Counting *)
Lemma selects_length : forall P N a b, selects P N a -> selects P N b -> length a = length b.
Proof.
  intros P N a b [Na Ha] [Nb Hb]. apply Permutation_length. apply NoDup_Permutation; auto.
  intro x. rewrite Ha, Hb. reflexivity.
Qed.
Lemma number_of_unique : forall P N c d, number_of P N c -> number_of P N d -> c = d.
Proof. intros P N c d [a [Sa <-]] [b [Sb <-]]. eapply selects_length; eassumption. Qed.
Lemma number_of_le : forall P N c, number_of P N c -> c <= N.
Proof.
  intros P N c [idx [[ND H] <-]]. rewrite <- (seq_length N 0). apply NoDup_incl_length; auto.
  intros k I. apply in_seq. apply H in I. lia.
Qed.
Lemma number_of_mono : forall (P Q : nat -> Prop) N c d, (forall k, k < N -> P k -> Q k) ->
  number_of P N c -> number_of Q N d -> c <= d.
Proof.
  intros P Q N c d H [a [[Na Ha] <-]] [b [[Nb Hb] <-]]. apply NoDup_incl_length; auto.
  intros k I. apply Hb. apply Ha in I. destruct I. split; auto.
Qed.
Lemma number_of_iff : forall (P Q : nat -> Prop) N c, (forall k, k < N -> (P k <-> Q k)) ->
  number_of P N c -> number_of Q N c.
Proof.
  intros P Q N c H [a [[Na Ha] E]]. exists a. split; [|exact E]. split; [exact Na|].
  intro k. rewrite Ha. split; intros [L X]; (split; [exact L|]); apply (H k L); exact X.
Qed.

(** Positions of a list at which [f] holds. *)
Definition positions {A} (f : A -> bool) (d : A) (l : list A) : list nat :=
  filter (fun k => f (nth k l d)) (seq 0 (length l)).
Lemma positions_selects : forall A (f : A -> bool) d l,
  selects (fun k => f (nth k l d) = true) (length l) (positions f d l).
Proof.
  intros A f d l. split; [apply NoDup_filter; apply seq_NoDup|].
  intro k. unfold positions. rewrite filter_In, in_seq. split; intros [H1 H2]; split; auto; lia.
Qed.
Lemma filter_map_comm : forall A B (f : B -> bool) (g : A -> B) l,
  filter f (map g l) = map g (filter (fun x => f (g x)) l).
Proof.
  intros A B f g. induction l as [|x l IH]; [reflexivity|]. cbn [map filter].
  destruct (f (g x)); cbn [map]; rewrite IH; reflexivity.
Qed.
Lemma map_nth_seq : forall A (d : A) l, map (fun k => nth k l d) (seq 0 (length l)) = l.
Proof.
  intros A d l. induction l as [|x l IH]; [reflexivity|]. cbn [length seq map nth]. f_equal.
  rewrite <- seq_shift, map_map. exact IH.
Qed.
Lemma positions_map : forall A (f : A -> bool) d l,
  map (fun k => nth k l d) (positions f d l) = filter f l.
Proof.
  intros A f d l. unfold positions.
  transitivity (filter f (map (fun k => nth k l d) (seq 0 (length l)))).
  - rewrite filter_map_comm. reflexivity.
  - rewrite map_nth_seq. reflexivity.
Qed.
Lemma positions_length : forall A (f : A -> bool) d l, length (positions f d l) = length (filter f l).
Proof. intros. rewrite <- (positions_map _ f d l), map_length. reflexivity. Qed.
Lemma number_of_filter : forall A (f : A -> bool) d l,
  number_of (fun k => f (nth k l d) = true) (length l) (length (filter f l)).
Proof.
  intros. exists (positions f d l). split; [apply positions_selects|apply positions_length].
Qed.

(** ** Multiplicities *)
Lemma unique_counts_fst : forall A dec (l : list A), map fst (unique_counts dec l) = nodup dec l.
Proof. intros. unfold unique_counts. rewrite map_map. cbn [fst]. apply map_id. Qed.
Lemma unique_counts_NoDup : forall A dec (l : list A), NoDup (map fst (unique_counts dec l)).
Proof. intros. rewrite unique_counts_fst. apply NoDup_nodup. Qed.
Lemma unique_counts_In : forall A dec (l : list A) x c,
  In (x, c) (unique_counts dec l) <-> In x l /\ c = count_occ dec l x.
Proof.
  intros. unfold unique_counts. rewrite in_map_iff. split.
  - intros [y [E H]]. inversion E; subst. apply nodup_In in H. auto.
  - intros [H ->]. exists x. split; [reflexivity|apply nodup_In; exact H].
Qed.
Lemma count_occ_filter : forall A dec (l : list A) x,
  count_occ dec l x = length (filter (fun y => if dec y x then true else false) l).
Proof.
  intros A dec l x. induction l as [|y l IH]; [reflexivity|]. cbn [count_occ filter].
  destruct (dec y x); cbn [length]; rewrite IH; reflexivity.
Qed.
Lemma count_occ_app' : forall A dec (l1 l2 : list A) x,
  count_occ dec (l1 ++ l2) x = count_occ dec l1 x + count_occ dec l2 x.
Proof. intros. rewrite !count_occ_filter, filter_app, app_length. reflexivity. Qed.
Lemma count_occ_flat_map : forall A B dec (f : A -> list B) l x, (forall a, In a l -> NoDup (f a)) ->
  count_occ dec (flat_map f l) x = length (filter (fun a => if in_dec dec x (f a) then true else false) l).
Proof.
  intros A B dec f l x. induction l as [|a l IH]; intro ND; [reflexivity|].
  cbn [flat_map filter]. rewrite count_occ_app', IH by (intros; apply ND; right; assumption).
  destruct (in_dec dec x (f a)) as [i|i]; cbn [length].
  - rewrite (proj1 (NoDup_count_occ' dec (f a)) (ND a (or_introl eq_refl)) x i). reflexivity.
  - rewrite (proj1 (count_occ_not_In dec (f a) x) i). reflexivity.
Qed.
Lemma count_sum : forall A dec (l : list A),
  list_sum (map snd (unique_counts dec l)) = length l.
Proof.
  intros A dec l. unfold unique_counts. rewrite map_map. cbn [snd].
  assert (forall u, NoDup u -> list_sum (map (count_occ dec l) u)
            = length (filter (fun y => if in_dec dec y u then true else false) l)) as G.
  { clear. intros u. revert l. intros l. induction l as [|x l IH]; intro ND.
    - cbn. clear. induction u; cbn; auto.
    - cbn [filter]. destruct (in_dec dec x u) as [i|i]; cbn [length].
      + rewrite <- IH by exact ND. clear IH. revert i. induction u as [|y u IHu]; intro i; [contradiction|].
        inversion ND; subst. cbn [map list_sum fold_right]. fold (list_sum (map (count_occ dec (x :: l)) u)).
        fold (list_sum (map (count_occ dec l) u)).
        destruct i as [->|i].
        * rewrite count_occ_cons_eq by reflexivity.
          replace (map (count_occ dec (x :: l)) u) with (map (count_occ dec l) u); [lia|].
          apply map_ext_in. intros z Hz. rewrite count_occ_cons_neq; [reflexivity|]. intros ->. contradiction.
        * rewrite IHu by assumption. rewrite count_occ_cons_neq; [lia|]. intros ->. contradiction.
      + rewrite <- IH by exact ND. f_equal. apply map_ext_in. intros z Hz.
        rewrite count_occ_cons_neq; [reflexivity|]. intros ->. contradiction. }
  rewrite G by apply NoDup_nodup.
  assert (forall l', (forall x, In x l' -> In x l) ->
     filter (fun y => if in_dec dec y (nodup dec l) then true else false) l' = l') as F.
  { induction l' as [|x l' IH]; intro H; [reflexivity|]. cbn [filter].
    destruct (in_dec dec x (nodup dec l)) as [_|n].
    - rewrite IH; [reflexivity|]. intros; apply H; right; assumption.
    - exfalso. apply n. apply nodup_In. apply H. left. reflexivity. }
  rewrite F by auto. reflexivity.
Qed.

(** ** Sorting *)
Lemma StronglySorted_map : forall A B (g : A -> B) (R : B -> B -> Prop) l,
  StronglySorted R (map g l) <-> StronglySorted (fun a b => R (g a) (g b)) l.
Proof.
  intros A B g R. induction l as [|x l IH]; cbn [map]; split; intro H; try constructor;
    inversion H; subst; try (apply IH; assumption); rewrite Forall_map in *; assumption.
Qed.
Lemma take_order_all : forall A (d : A) order l, Permutation order (seq 0 (length l)) ->
  Permutation (take_order d order l) l.
Proof.
  intros A d order l H. unfold take_order.
  transitivity (map (fun k => nth k l d) (seq 0 (length l))); [apply Permutation_map; exact H|].
  rewrite map_nth_seq. reflexivity.
Qed.
Lemma take_order_sorted : forall argsort, argsort_ok argsort ->
  forall A (d : A) (key : A -> Qc) u,
  Permutation (take_order d (argsort (map key u)) u) u /\
  StronglySorted (fun a b => (key a <= key b)%Qc) (take_order d (argsort (map key u)) u).
Proof.
  intros argsort OK A d key u. destruct (OK (map key u)) as [P S]. rewrite map_length in P.
  split; [apply take_order_all; exact P|].
  rewrite <- (StronglySorted_map _ _ key Qcle).
  replace (map key (take_order d (argsort (map key u)) u))
    with (map (fun k => nth k (map key u) 0%Qc) (argsort (map key u))); [exact S|].
  unfold take_order. rewrite map_map. apply map_ext_in. intros k Hk.
  assert (k < length u).
  { assert (In k (seq 0 (length u))) as I by (eapply Permutation_in; eassumption).
    apply in_seq in I. lia. }
  rewrite (nth_indep _ 0%Qc (key d)) by (rewrite map_length; assumption). apply map_nth.
Qed.
Lemma qn_le : forall a b, (qn a <= qn b)%Qc <-> a <= b.
Proof.
  intros a b. unfold qn, qz, Qcle. cbn [this Q2Qc]. rewrite !Qred_correct. rewrite <- Zle_Qle. lia.
Qed.
Lemma qn_lt : forall a b, (qn a < qn b)%Qc <-> a < b.
Proof.
  intros a b. unfold qn, qz, Qclt. cbn [this Q2Qc]. rewrite !Qred_correct. rewrite <- Zlt_Qlt. lia.
Qed.
Lemma StronglySorted_impl : forall A (R R' : A -> A -> Prop) l, (forall a b, R a b -> R' a b) ->
  StronglySorted R l -> StronglySorted R' l.
Proof.
  intros A R R' l H S. induction S as [|a l S IH F]; constructor; [exact IH|].
  eapply Forall_impl; [|exact F]. intro; apply H.
Qed.
Lemma counts_sorted : forall argsort, argsort_ok argsort -> forall A (d : A * nat) u,
  Permutation (take_order d (argsort (map (fun p => - qn (snd p))%Qc u)) u) u /\
  StronglySorted (fun a b => snd b <= snd a) (take_order d (argsort (map (fun p => - qn (snd p))%Qc u)) u).
Proof.
  intros argsort OK A d u.
  destruct (take_order_sorted argsort OK _ d (fun p => - qn (snd p))%Qc u) as [P S].
  split; [exact P|]. eapply StronglySorted_impl; [|exact S]. cbn beta. intros a b H.
  apply qn_le. revert H. generalize (qn (snd a)) (qn (snd b)). intros x y H. qclra.
Qed.

(** ** Thresholds *)
Lemma check_min_ok : forall m, valid_threshold m -> check_min m = Ok (threshold m).
Proof.
  intros [v|] H; [|reflexivity]. cbn in *. apply qltb_lt in H. rewrite H. reflexivity.
Qed.
Lemma check_min_bad : forall m, ~ valid_threshold m -> check_min m = Err ValueError.
Proof.
  intros [v|] H; [|exfalso; apply H; exact I]. cbn in *.
  destruct (qltb 0 v) eqn:E; [|reflexivity]. apply qltb_lt in E. contradiction.
Qed.
Lemma threshold_nonneg : forall m, valid_threshold m -> (0 <= threshold m)%Qc.
Proof. intros [v|] H; cbn in *; [apply Qclt_le_weak; exact H|apply Qcle_refl]. Qed.
Lemma check_top_ok : forall k, (match k with Some z => 0 < z | None => True end)%Z ->
  check_top k = Ok (option_map Z.to_nat k).
Proof.
  intros [z|] H; [|reflexivity]. cbn. apply Z.ltb_lt in H. rewrite H. reflexivity.
Qed.

Lemma above_exceeds : forall m (ams : list (mat num)) i j k, (0 <= m)%Qc ->
  above m (nth k ams (fun _ _ => None)) i j = true <-> exceeds m ams i j k.
Proof.
  intros m ams i j k Hm. unfold above, exceeds. rewrite qltb_lt.
  destruct (nth k ams (fun _ _ => None) i j) as [v|]; cbn [nan_to_num].
  - split; [intro H; exists v; split; [reflexivity|exact H]|]. intros [w X]. destruct X as [E L]. assert (F : v = w) by congruence. rewrite F. exact L.
  - split.
    + intro H. exfalso. replace (qabs 0) with 0%Qc in H by reflexivity.
      exact (Qclt_not_le _ _ H Hm).
    + intros [w [E _]]. discriminate.
Qed.
Lemma above_NaN : forall (m : Qc) i j, (0 <= m)%Qc -> above m (fun _ _ => None) i j = false.
Proof.
  intros m i j H. unfold above. cbn [nan_to_num]. apply qltb_nlt. exact H.
Qed.
Lemma sgn_pos : forall v, sgn v = 1%Z <-> (0 < v)%Qc.
Proof.
  intro v. unfold sgn. destruct (qltb 0 v) eqn:E.
  - apply qltb_lt in E. tauto.
  - apply qltb_nlt in E. destruct (qltb v 0); split; try discriminate;
      intro H; exfalso; exact (Qclt_not_le _ _ H E).
Qed.
Lemma sgn_neg : forall v, sgn v = (-1)%Z <-> (v < 0)%Qc.
Proof.
  intro v. unfold sgn. destruct (qltb 0 v) eqn:E.
  - apply qltb_lt in E. split; [discriminate|].
    intro H; exfalso. apply (Qclt_not_le _ _ H). apply Qclt_le_weak. exact E.
  - destruct (qltb v 0) eqn:F; [apply qltb_lt in F; tauto|]. apply qltb_nlt in F.
    split; [discriminate|]. intro H. exfalso. exact (Qclt_not_le _ _ H F).
Qed.

(** ** Direction counts *)
Lemma list_prod_NoDup : forall A B (l : list A) (l' : list B), NoDup l -> NoDup l' ->
  NoDup (list_prod l l').
Proof.
  intros A B l l' H H'. induction H as [|x l Hx H IH]; [constructor|]. cbn [list_prod].
  apply NoDup_app_iff'. repeat split.
  - apply FinFun.Injective_map_NoDup; [|exact H']. intros a b E. congruence.
  - exact IH.
  - intros [a b] I1 I2. apply in_map_iff in I1. destruct I1 as [y [E _]]. inversion E; subst.
    apply in_prod_iff in I2. tauto.
Qed.
Lemma directions_In : forall nr nc m split am i j s,
  In (i, j, s) (directions_of nr nc m split am) <->
  i < nr /\ j < nc /\ above m am i j = true /\
  s = (if split then sgn (nan_to_num (am i j)) else 0%Z).
Proof.
  intros. unfold directions_of. rewrite in_map_iff. split.
  - intros [[a b] [E H]]. cbn [fst snd] in E, H. apply filter_In in H. cbn [fst snd] in H. destruct H as [I H].
    apply in_prod_iff in I. rewrite !in_seq in I. inversion E; subst. repeat split; auto; lia.
  - intros [Hi [Hj [H ->]]]. exists (i, j). cbn [fst snd]. split; [reflexivity|]. apply filter_In. split; [|exact H].
    apply in_prod_iff. rewrite !in_seq. lia.
Qed.
Lemma directions_NoDup : forall nr nc m split am, NoDup (directions_of nr nc m split am).
Proof.
  intros. unfold directions_of. apply FinFun.Injective_map_NoDup.
  - intros a b E. congruence.
  - apply NoDup_filter. apply list_prod_NoDup; apply seq_NoDup.
Qed.

Definition dir_count (nr nc : nat) (m : Qc) (split : bool) (ams : list (mat num)) (d : direction) : nat :=
  count_occ direction_dec (flat_map (directions_of nr nc m split) ams) d.
Lemma dir_count_number : forall nr nc m (split : bool) (ams : list (mat num)) i j s, (0 <= m)%Qc -> i < nr -> j < nc ->
  number_of (fun k => exceeds m ams i j k /\
    s = (if split then sgn (nan_to_num (nth k ams (fun _ _ => None) i j)) else 0%Z))
    (length ams) (dir_count nr nc m split ams (i, j, s)).
Proof.
  intros nr nc m split ams i j s Hm Hi Hj. unfold dir_count.
  rewrite count_occ_flat_map by (intros; apply directions_NoDup).
  eapply number_of_iff; [|apply (number_of_filter _ _ ((fun _ _ => None) : mat num))].
  intros k Hk. cbn beta. rewrite <- above_exceeds by exact Hm.
  destruct (in_dec direction_dec (i, j, s) _) as [I|I]; rewrite directions_In in I.
  - split; [intros _; tauto|reflexivity].
  - split; [discriminate|]. intros. exfalso. apply I. tauto.
Qed.

Lemma direction_rows : forall argsort nr nc ams min_ce split,
  valid_threshold min_ce ->
  get_causal_direction_counts argsort nr nc ams None min_ce split =
  Ok (let u := unique_counts direction_dec (flat_map (directions_of nr nc (threshold min_ce) split) ams) in
      match flat_map (directions_of nr nc (threshold min_ce) split) ams with
      | [] => []
      | _ => take_order ((0, 0, 0%Z), 0) (argsort (map (fun p => - qn (snd p))%Qc u)) u
      end).
Proof.
  intros. unfold get_causal_direction_counts. cbn [check_top bind]. rewrite check_min_ok by assumption.
  cbn [bind truncate]. destruct (flat_map _ ams) as [|d r]; reflexivity.
Qed.

Lemma direction_counts_gen : forall argsort nr nc ams min_ce split,
  argsort_ok argsort -> valid_threshold min_ce ->
  exists rows,
    get_causal_direction_counts argsort nr nc ams None min_ce split = Ok rows /\
    NoDup (map fst rows) /\
    StronglySorted (fun a b => snd b <= snd a) rows /\
    (forall i j s c, In ((i, j, s), c) rows <->
       i < nr /\ j < nc /\ 0 < c /\ c = dir_count nr nc (threshold min_ce) split ams (i, j, s)).
Proof.
  intros argsort nr nc ams min_ce split OK V. rewrite direction_rows by exact V. cbv zeta.
  set (dirs := flat_map (directions_of nr nc (threshold min_ce) split) ams).
  assert (forall i j s c, In (i, j, s, c) (unique_counts direction_dec dirs) <->
       i < nr /\ j < nc /\ 0 < c /\ c = dir_count nr nc (threshold min_ce) split ams (i, j, s)) as G.
  { intros i j s c. rewrite unique_counts_In. unfold dir_count. fold dirs. split.
    - intros [I ->]. assert (H := I). unfold dirs in H. apply in_flat_map in H.
      destruct H as [am [_ H]]. apply directions_In in H. destruct H as [Hi [Hj _]].
      repeat split; auto. apply (count_occ_In direction_dec) in I. exact I.
    - intros [_ [_ [P ->]]]. split; [|reflexivity]. apply (count_occ_In direction_dec). exact P. }
  destruct dirs as [|d r] eqn:ED.
  - eexists. split; [reflexivity|]. split; [constructor|]. split; [constructor|].
    intros i j s c. rewrite <- G. unfold unique_counts. cbn [nodup map]. reflexivity.
  - destruct (counts_sorted argsort OK _ ((0, 0, 0%Z), 0) (unique_counts direction_dec (d :: r))) as [P S].
    eexists. split; [reflexivity|]. split; [|split; [exact S|]].
    + eapply Permutation_NoDup; [apply Permutation_sym; apply Permutation_map; exact P|].
      apply unique_counts_NoDup.
    + intros i j s c. rewrite <- G. split; apply Permutation_in; [|apply Permutation_sym]; exact P.
Qed.

Lemma direction_counts_unsplit : forall argsort nr nc ams min_ce,
  argsort_ok argsort -> valid_threshold min_ce ->
  exists rows,
    get_causal_direction_counts argsort nr nc ams None min_ce false = Ok rows /\
    NoDup (map fst rows) /\
    StronglySorted (fun a b => snd b <= snd a) rows /\
    (forall i j s c, In ((i, j, s), c) rows <->
       s = 0%Z /\ i < nr /\ j < nc /\ 0 < c /\
       number_of (exceeds (threshold min_ce) ams i j) (length ams) c).
Proof.
  intros argsort nr nc ams min_ce OK V.
  destruct (direction_counts_gen argsort nr nc ams min_ce false OK V) as [rows [E [ND [S H]]]].
  exists rows. repeat (split; [assumption|]). intros i j s c. rewrite H.
  assert (M := threshold_nonneg _ V). split.
  - intros [Hi [Hj [Hc ->]]].
    assert (N := dir_count_number nr nc (threshold min_ce) false ams i j s M Hi Hj). cbn [negb] in N.
    assert (s = 0%Z) as ->.
    { destruct N as [idx [[_ X] L]]. destruct idx as [|k idx]; [cbn in L; lia|].
      destruct (proj1 (X k) (or_introl eq_refl)) as [_ [_ Y]]. exact Y. }
    repeat split; auto. eapply number_of_iff; [|exact N]. intros k _. tauto.
  - intros [-> [Hi [Hj [Hc N]]]]. repeat split; auto.
    eapply number_of_unique; [exact N|].
    eapply number_of_iff; [|apply dir_count_number; assumption]. intros k _. tauto.
Qed.

Lemma exceeds_sign : forall m (ams : list (mat num)) i j k s, (0 <= m)%Qc ->
  (exceeds m ams i j k /\ s = sgn (nan_to_num (nth k ams (fun _ _ => None) i j))) <->
  (s = 1%Z /\ exceeds_pos m ams i j k) \/ (s = (-1)%Z /\ exceeds_neg m ams i j k).
Proof.
  intros m ams i j k s Hm. unfold exceeds, exceeds_pos, exceeds_neg. split.
  - intros [[v [E H]] ->]. rewrite E. cbn [nan_to_num].
    assert (v <> 0%Qc).
    { intros ->. replace (qabs 0) with 0%Qc in H by reflexivity. exact (Qclt_not_le _ _ H Hm). }
    destruct (Qc_dec v 0) as [[L|G]|Z]; [right|left|contradiction].
    + split; [apply sgn_neg; exact L|]. exists v. auto.
    + split; [apply sgn_pos; exact G|]. exists v. auto.
  - intros [[-> [v [E [H L]]]]|[-> [v [E [H L]]]]]; rewrite E; cbn [nan_to_num]; split; eauto;
      symmetry; [apply sgn_pos|apply sgn_neg]; exact L.
Qed.

Lemma direction_counts_split : forall argsort nr nc ams min_ce,
  argsort_ok argsort -> valid_threshold min_ce ->
  exists rows,
    get_causal_direction_counts argsort nr nc ams None min_ce true = Ok rows /\
    NoDup (map fst rows) /\
    StronglySorted (fun a b => snd b <= snd a) rows /\
    (forall i j s c, In ((i, j, s), c) rows <->
       i < nr /\ j < nc /\ 0 < c /\
       ((s = 1%Z /\ number_of (exceeds_pos (threshold min_ce) ams i j) (length ams) c) \/
        (s = (-1)%Z /\ number_of (exceeds_neg (threshold min_ce) ams i j) (length ams) c))).
Proof.
  intros argsort nr nc ams min_ce OK V.
  destruct (direction_counts_gen argsort nr nc ams min_ce true OK V) as [rows [E [ND [S H]]]].
  exists rows. repeat (split; [assumption|]). intros i j s c. rewrite H.
  assert (M := threshold_nonneg _ V). split.
  - intros [Hi [Hj [Hc ->]]].
    assert (N := dir_count_number nr nc (threshold min_ce) true ams i j s M Hi Hj). cbn iota in N.
    repeat (split; [assumption|]).
    assert (s = 1%Z \/ s = (-1)%Z) as [-> | ->].
    { destruct N as [idx [[_ X] L]]. destruct idx as [|k idx]; [cbn in L; lia|].
      destruct (proj1 (X k) (or_introl eq_refl)) as [_ Y]. apply exceeds_sign in Y; tauto. }
    + left. split; [reflexivity|]. eapply number_of_iff; [|exact N]. intros k _.
      rewrite exceeds_sign by exact M. split; [intros [[_ X]|[X _]]; [exact X|discriminate]|tauto].
    + right. split; [reflexivity|]. eapply number_of_iff; [|exact N]. intros k _.
      rewrite exceeds_sign by exact M. split; [intros [[X _]|[_ X]]; [discriminate|exact X]|tauto].
  - intros [Hi [Hj [Hc N]]]. repeat (split; [assumption|]).
    destruct N as [[-> N]|[-> N]]; (eapply number_of_unique; [exact N|]);
      (eapply number_of_iff; [|apply dir_count_number; assumption]); intros k _;
      cbn beta iota; rewrite exceeds_sign by exact M.
    + split; [intros [[_ X]|[X _]]; [exact X|discriminate]|tauto].
    + split; [intros [[X _]|[_ X]]; [discriminate|exact X]|tauto].
Qed.

Lemma exceeds_split_counts : forall m ams i j c p q, (0 <= m)%Qc ->
  number_of (exceeds m ams i j) (length ams) c ->
  number_of (exceeds_pos m ams i j) (length ams) p ->
  number_of (exceeds_neg m ams i j) (length ams) q -> c = p + q.
Proof.
  intros m ams i j c p q Hm N [a [[NDa Ha] <-]] [b [[NDb Hb] <-]].
  eapply number_of_unique; [exact N|]. exists (a ++ b). rewrite app_length. split; [|reflexivity].
  split.
  - apply NoDup_app_iff'. repeat split; auto. intros k I J. apply Ha in I. apply Hb in J.
    destruct I as [_ [v [E [_ L]]]]. destruct J as [_ [w [E' [_ L']]]].
    assert (v = w) by congruence. subst. apply (Qclt_not_le _ _ L). apply Qclt_le_weak. exact L'.
  - intro k. rewrite in_app_iff, Ha, Hb. split.
    + intros [[L [v [E [H _]]]]|[L [v [E [H _]]]]]; split; auto; exists v; auto.
    + intros [L X]. assert (exceeds m ams i j k /\ sgn (nan_to_num (nth k ams (fun _ _ => None) i j))
        = sgn (nan_to_num (nth k ams (fun _ _ => None) i j))) as Y by (split; [exact X|reflexivity]).
      apply exceeds_sign in Y; [|exact Hm]. tauto.
Qed.

Lemma take_order_firstn : forall A (d : A) order l k,
  take_order d (firstn k order) l = firstn k (take_order d order l).
Proof. intros. unfold take_order. symmetry. apply firstn_map. Qed.
Lemma direction_counts_top : forall argsort nr nc ams z min_ce split rows, (0 < z)%Z ->
  get_causal_direction_counts argsort nr nc ams None min_ce split = Ok rows ->
  get_causal_direction_counts argsort nr nc ams (Some z) min_ce split = Ok (firstn (Z.to_nat z) rows).
Proof.
  intros argsort nr nc ams z min_ce split rows Hz. unfold get_causal_direction_counts.
  rewrite (check_top_ok (Some z)) by exact Hz. cbn [check_top bind option_map].
  destruct (check_min min_ce) as [m|e]; cbn [bind]; [|discriminate].
  destruct (flat_map _ ams) as [|d r].
  - intro E. inversion E. rewrite firstn_nil. reflexivity.
  - intro E. cbn [truncate] in *. inversion E. rewrite take_order_firstn. reflexivity.
Qed.
Lemma direction_counts_invalid : forall argsort nr nc ams k min_ce split,
  (exists z, k = Some z /\ (z <= 0)%Z) \/ ~ valid_threshold min_ce ->
  get_causal_direction_counts argsort nr nc ams k min_ce split = Err ValueError.
Proof.
  intros argsort nr nc ams k min_ce split [[z [-> H]]|H]; unfold get_causal_direction_counts.
  - cbn [check_top]. destruct (Z.ltb_spec 0 z); [lia|reflexivity].
  - rewrite check_min_bad by exact H. destruct (check_top k) as [a|e] eqn:E; [reflexivity|].
    destruct k as [z|]; [|discriminate]. cbn in E. destruct (0 <? z)%Z; [discriminate|]. inversion E. reflexivity.
Qed.

(** ** Graph counts *)
Lemma dag_code_length : forall nr nc m split am,
  length (dag_code nr nc m split am) = length (list_prod (seq 0 nr) (seq 0 nc)).
Proof. intros. apply map_length. Qed.
Lemma combine_map_r : forall A B (f : A -> B) l, combine l (map f l) = map (fun x => (x, f x)) l.
Proof. induction l as [|x l IH]; [reflexivity|]. cbn. rewrite IH. reflexivity. Qed.
Lemma dag_edges_code : forall nr nc m split am i j s, (0 <= m)%Qc ->
  In (i, j, s) (dag_edges nr nc (dag_code nr nc m split am)) <->
  i < nr /\ j < nc /\ above m am i j = true /\
  s = (if split then sgn (nan_to_num (am i j)) else 1%Z).
Proof.
  intros nr nc m split am i j s Hm. unfold dag_edges, dag_code. rewrite combine_map_r, filter_In, in_map_iff. cbn [snd].
  split.
  - intros [[[a b] [E I]] N]. cbn [fst snd] in E. inversion E; subst; clear E.
    apply in_prod_iff in I. rewrite !in_seq in I.
    destruct (above m am i j); [|discriminate]. repeat split; auto; lia.
  - intros [Hi [Hj [H ->]]]. split.
    + exists (i, j). cbn [fst snd]. rewrite H. split; [reflexivity|]. apply in_prod_iff. rewrite !in_seq. lia.
    + destruct split; [|reflexivity]. apply negb_true_iff, Z.eqb_neq.
      unfold above in H. apply qltb_lt in H. unfold sgn.
      destruct (qltb 0 _) eqn:E1; [discriminate|]. destruct (qltb _ 0) eqn:E2; [discriminate|].
      apply qltb_nlt in E1. apply qltb_nlt in E2. exfalso.
      assert (nan_to_num (am i j) = 0%Qc) as Z by (apply Qcle_antisym; assumption).
      rewrite Z in H. exact (Qclt_not_le _ _ H Hm).
Qed.
Lemma dag_edges_inj : forall nr nc m split am am', (0 <= m)%Qc ->
  (forall e, In e (dag_edges nr nc (dag_code nr nc m split am)) <->
             In e (dag_edges nr nc (dag_code nr nc m split am'))) ->
  dag_code nr nc m split am = dag_code nr nc m split am'.
Proof.
  intros nr nc m split am am' Hm H. unfold dag_code. apply map_ext_in. intros [i j] I.
  apply in_prod_iff in I. rewrite !in_seq in I. cbn [fst snd].
  assert (forall s, (above m am i j = true /\ s = (if split then sgn (nan_to_num (am i j)) else 1%Z)) <->
                    (above m am' i j = true /\ s = (if split then sgn (nan_to_num (am' i j)) else 1%Z))) as G.
  { intro s. specialize (H (i, j, s)). rewrite !dag_edges_code in H by exact Hm.
    split; intro X; [apply proj1 in H|apply proj2 in H]; destruct H as [_ [_ Y]]; try tauto;
      repeat split; try tauto; lia. }
  destruct (above m am i j) eqn:E1.
  - destruct (proj1 (G _) (conj eq_refl eq_refl)) as [E2 E3]. rewrite E2. exact E3.
  - destruct (above m am' i j) eqn:E2; [|reflexivity].
    destruct (proj2 (G _) (conj eq_refl eq_refl)) as [E3 _]. discriminate.
Qed.
Lemma dag_edges_NoDup : forall nr nc code, NoDup (map fst (dag_edges nr nc code)).
Proof.
  intros nr nc code. unfold dag_edges.
  assert (forall (l : list (nat * nat)) (c : list Z), NoDup l ->
     NoDup (map fst (filter (fun e => negb (snd e =? 0)%Z) (combine l c)))) as G.
  { induction l as [|x l IH]; intros c ND; [constructor|]. destruct c as [|z c]; [constructor|].
    inversion ND; subst. cbn [combine filter]. destruct (negb _); [|apply IH; assumption].
    cbn [map fst]. constructor; [|apply IH; assumption]. intro I. apply in_map_iff in I.
    destruct I as [[y w] [E I]]. cbn [fst] in E. subst. apply filter_In in I. destruct I as [I _].
    apply in_combine_l in I. contradiction. }
  apply G. apply list_prod_NoDup; apply seq_NoDup.
Qed.

Lemma dag_describes : forall nr nc m split ams k, (0 <= m)%Qc ->
  describes nr nc m split ams (dag_edges nr nc (dag_code nr nc m split (nth k ams (fun _ _ => None)))) k.
Proof.
  intros nr nc m split ams k Hm i j s. rewrite dag_edges_code by exact Hm.
  rewrite above_exceeds by exact Hm. destruct split; [|tauto].
  assert (X := exceeds_sign m ams i j k s Hm). tauto.
Qed.
Lemma describes_unique : forall nr nc m split ams E E' k,
  describes nr nc m split ams E k -> describes nr nc m split ams E' k -> forall e, In e E <-> In e E'.
Proof. intros nr nc m split ams E E' k H H' [[i j] s]. rewrite (H i j s), (H' i j s). reflexivity. Qed.

Lemma dag_counts_spec : forall argsort nr nc ams min_ce split,
  argsort_ok argsort -> valid_threshold min_ce ->
  exists rows,
    get_directed_acyclic_graph_counts argsort nr nc ams None min_ce split = Ok rows /\
    list_sum (map snd rows) = length ams /\
    StronglySorted (fun a b => snd b <= snd a) rows /\
    (forall E c, In (E, c) rows ->
       NoDup (map fst E) /\ 0 < c /\
       number_of (describes nr nc (threshold min_ce) split ams E) (length ams) c) /\
    (forall k, k < length ams ->
       exists E c, In (E, c) rows /\ describes nr nc (threshold min_ce) split ams E k) /\
    (forall p q E c E' c', nth_error rows p = Some (E, c) -> nth_error rows q = Some (E', c') ->
       (forall e, In e E <-> In e E') -> p = q).
Proof.
  intros argsort nr nc ams min_ce split OK V. assert (M := threshold_nonneg _ V).
  unfold get_directed_acyclic_graph_counts. cbn [check_top bind].
  rewrite check_min_ok by exact V. cbn [bind truncate].
  set (m := threshold min_ce) in *.
  set (codes := map (dag_code nr nc m split) ams).
  set (u := unique_counts (list_eq_dec Z.eq_dec) codes).
  destruct (counts_sorted argsort OK _ ([], 0) u) as [P S].
  set (v := take_order ([], 0) (argsort (map (fun p => - qn (snd p))%Qc u)) u) in *.
  assert (forall code c, In (code, c) v -> exists am, In am ams /\ code = dag_code nr nc m split am /\
             c = count_occ (list_eq_dec Z.eq_dec) codes code) as Hv.
  { intros code c I. eapply Permutation_in in I; [|exact P]. apply unique_counts_In in I.
    destruct I as [I ->]. assert (J := I). unfold codes in J. apply in_map_iff in J.
    destruct J as [am [<- J]]. exists am. auto. }
  eexists. split; [reflexivity|]. split; [|split; [|split; [|split]]].
  - rewrite map_map. cbn [snd].
    replace (map (fun x : list Z * nat => snd x) v) with (map snd v) by (apply map_ext; reflexivity).
    rewrite (Permutation_list_sum (Permutation_map snd P)). unfold u. rewrite count_sum.
    unfold codes. apply map_length.
  - apply StronglySorted_map. exact S.
  - intros E c I. apply in_map_iff in I. destruct I as [[code c'] [X I]]. cbn [fst snd] in X.
    inversion X; subst E c'; clear X. split; [apply dag_edges_NoDup|].
    destruct (Hv code c I) as [am [Ham [Ec ->]]]. split.
    + apply (count_occ_In (list_eq_dec Z.eq_dec)). unfold codes. rewrite Ec. apply in_map. exact Ham.
    + rewrite count_occ_filter. unfold codes. rewrite filter_map_comm, map_length.
      eapply number_of_iff; [|apply (number_of_filter _ _ ((fun _ _ => None) : mat num))].
      intros k Hk. cbn beta. split.
      * destruct (list_eq_dec Z.eq_dec _ code) as [e|]; [intros _|discriminate].
        rewrite <- e. apply dag_describes. exact M.
      * intro D. destruct (list_eq_dec Z.eq_dec _ code) as [e|e]; [reflexivity|]. exfalso. apply e.
        rewrite Ec. apply dag_edges_inj; [exact M|]. rewrite <- Ec.
        eapply describes_unique; [apply dag_describes; exact M|exact D].
  - intros k Hk. set (am := nth k ams (fun _ _ => None)).
    exists (dag_edges nr nc (dag_code nr nc m split am)),
      (count_occ (list_eq_dec Z.eq_dec) codes (dag_code nr nc m split am)).
    split; [|apply dag_describes; exact M].
    apply in_map_iff. exists (dag_code nr nc m split am, count_occ (list_eq_dec Z.eq_dec) codes (dag_code nr nc m split am)).
    split; [reflexivity|]. eapply Permutation_in; [apply Permutation_sym; exact P|].
    apply unique_counts_In. split; [|reflexivity]. apply in_map. apply nth_In. exact Hk.
  - intros p q E c E' c' Hp Hq X.
    rewrite nth_error_map in Hp, Hq.
    destruct (nth_error v p) as [[cp np]|] eqn:Ep; [|discriminate].
    destruct (nth_error v q) as [[cq nq]|] eqn:Eq; [|discriminate]. cbn in Hp, Hq.
    inversion Hp; subst. inversion Hq; subst. clear Hp Hq.
    destruct (Hv _ _ (nth_error_In _ _ Ep)) as [am [_ [-> _]]].
    destruct (Hv _ _ (nth_error_In _ _ Eq)) as [am' [_ [-> _]]].
    apply dag_edges_inj in X; [|exact M].
    assert (NoDup (map fst v)) as ND.
    { eapply Permutation_NoDup; [apply Permutation_sym; apply Permutation_map; exact P|apply unique_counts_NoDup]. }
    rewrite NoDup_nth_error in ND. apply ND.
    + rewrite map_length. apply nth_error_Some. rewrite Ep. discriminate.
    + rewrite !nth_error_map, Ep, Eq. cbn. rewrite X. reflexivity.
Qed.
