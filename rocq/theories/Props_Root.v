(** * calculate_distance_from_root_nodes: C60, C97 *)
From Coq Require Import List Arith Bool ZArith QArith Qcanon Lia Relations.
From Verif Require Import Prelude Spec Lib LibMat ModelRoot ProofRoot.
Import ListNotations.
Open Scope nat_scope.

(** A directed walk with [d] edges leads from a variable without parents to [v]. *)
Definition reached_from_root (n : nat) (A : mat Qc) (v d : nat) : Prop :=
  exists r p, r < n /\ (forall j, j < n -> A r j = 0%Qc) /\ walk_from_to (edge_of n A) r v p /\ length p = S d.
Definition root_distance (n : nat) (A : mat Qc) (v d : nat) : Prop :=
  reached_from_root n A v d /\ forall d', d' < d -> ~ reached_from_root n A v d'.

Definition mk (l : list (list Z)) : mat num := fun i j => Some (qz (nth j (nth i l []) 0%Z)).
(** 0 -> 1 -> 2 -> 3 and 0 -> 3, 4 isolated *)
Definition ex_g : mat num := mk [[0;0;0;0;0]; [2;0;0;0;0]; [0;3;0;0;0]; [1;0;1;0;0]; [0;0;0;0;0]]%Z.

(** C60 fails when the weights of the parents of a variable cancel: variable 2 below has the parents
    0 and 1, but it is reported as a root (distance 0). *)
Definition cancel : mat num := mk [[0;0;0]; [0;0;0]; [1;-1;0]]%Z.
Theorem C60_shortest_distance_refuted : exists n A res,
  root_distances n A None = Ok res /\ In (0, [0; 1; 2]) res /\
  ~ reached_from_root n (fun i j => nan_to_num (A i j)) 2 0.
Proof.
  exists 3, cancel. eexists. split; [vm_compute; reflexivity|]. split; [left; reflexivity|].
  intros (r & p & Hr & Z & (H1 & H2 & H3 & _) & L). destruct p as [|a [|b p]]; cbn in L; try lia. cbn in H1, H2. injection H1 as ->. subst r.
  specialize (Z 0 ltac:(lia)). apply (f_equal this) in Z. vm_compute in Z. discriminate.
Qed.
Print Assumptions C60_shortest_distance_refuted.

(** When no variable has parents whose weights sum to (nearly) zero, the result lists every variable
    under exactly its distance, as far as max_distance allows. *)
Definition no_cancellation (n : nat) (A : mat Qc) : Prop :=
  forall i, i < n -> (qabs (sumn n (fun j => A i j)) <= qf 1 100000000)%Qc -> forall j, j < n -> A i j = 0%Qc.
Theorem C60_shortest_distance_partial : forall n A m res, let A' := fun i j => nan_to_num (A i j) in
  no_cancellation n A' -> root_distances n A m = Ok res ->
  forall v d, v < n ->
    ((exists vs, In (d, vs) res /\ In v vs) <-> root_distance n A' v d /\ match m with Some k => d <= k | None => True end).
Proof.
  intros n A m res A' NC. unfold root_distances. destruct (n <? 2); [discriminate|]. fold A'.
  destruct (match m with Some 0 => true | _ => false end); [discriminate|].
  destruct (root_list n A') as [|r0 rs] eqn:ER; [discriminate|]. cbv zeta. intro E. injection E as <-. intros v d Hv.
  assert (RL : forall r, In r (root_list n A') <-> r < n /\ forall j, j < n -> A' r j = 0%Qc).
  { intro r. unfold root_list. rewrite filter_In, in_seq, qleb_le. split.
    - intros [H1 H2]. split; [lia|]. apply NC; [lia|exact H2].
    - intros [H1 H2]. split; [lia|]. rewrite sumn_zero by exact H2. vm_compute. discriminate. }
  assert (FS : forall e, from_some (edge_of n A') (fun r => In r (root_list n A')) v e <-> reached_from_root n A' v e).
  { intro e. unfold from_some, reached_from_root. split.
    - intros (r & Hr & S). apply RL in Hr. apply steps_walk in S. destruct S as (p & W & L). exists r, p. tauto.
    - intros (r & p & Hr & Z & W & L). exists r. split; [apply RL; tauto|]. apply steps_walk. exists p. tauto. }
  assert (ND : node_dist n A' v = Some d <-> root_distance n A' v d).
  { rewrite node_dist_spec. unfold root_distance. rewrite FS. split; intros [H1 H2]; (split; [exact H1|]); intros e He Q; apply (H2 e He); apply FS; exact Q. }
  assert (W : within m d = true <-> match m with Some k => d <= k | None => True end) by (destruct m; cbn; [apply Nat.leb_le|tauto]).
  rewrite <- ND, <- W. split.
  - intros (vs & H & Hvs). apply in_map_iff in H. destruct H as (e & Q & _). injection Q as -> <-.
    apply in_map_iff in Hvs. destruct Hvs as ((v', d') & Q & Hs). cbn in Q. subst v'. apply filter_In in Hs. destruct Hs as [Hs Q]. apply Nat.eqb_eq in Q. cbn in Q. subst d'.
    apply dist_series_In in Hs. tauto.
  - intros [H1 H2]. assert (I : In (v, d) (dist_series n A' m)) by (apply dist_series_In; tauto).
    eexists. split; [apply in_map_iff; exists d; split; [reflexivity|apply uniq_In; apply in_map_iff; exists (v, d); split; [reflexivity|exact I]]|].
    apply in_map_iff. exists (v, d). split; [reflexivity|]. apply filter_In. split; [exact I|apply Nat.eqb_refl].
Qed.
Print Assumptions C60_shortest_distance_partial.
Example C60_example : root_distances 5 ex_g None = Ok [(0, [0; 4]); (1, [1; 3]); (2, [2])] /\ root_distances 5 ex_g (Some 1) = Ok [(0, [0; 4]); (1, [1; 3])].
Proof. split; vm_compute; reflexivity. Qed.
Example C60_example_hypothesis : no_cancellation 5 (fun i j => nan_to_num (ex_g i j)).
Proof.
  intros i Hi H. destruct i as [|[|[|[|[|i]]]]]; try lia; try (exfalso; vm_compute in H; apply H; reflexivity);
    (intros j Hj; destruct j as [|[|[|[|[|j]]]]]; try lia; apply Qc_is_canon; reflexivity).
Qed.

(** C97: in an acyclic graph every variable is listed, once. *)
Lemma parent_dec : forall n (A : mat Qc) v, v < n -> (forall j, j < n -> A v j = 0%Qc) \/ exists j, edge_of n A j v.
Proof.
  intros n A v Hv. destruct (existsb (fun j => negb (qeqb (A v j) 0)) (seq 0 n)) eqn:E.
  - right. apply existsb_exists in E. destruct E as (j & Hj & Q). apply in_seq in Hj. apply negb_true_iff, qeqb_neq in Q. exists j. repeat split; [exact Hv|lia|exact Q].
  - left. intros j Hj. apply qeqb_eq. destruct (qeqb (A v j) 0) eqn:Q; [reflexivity|]. exfalso.
    assert (T : existsb (fun j => negb (qeqb (A v j) 0)) (seq 0 n) = true) by (apply existsb_exists; exists j; split; [apply in_seq; lia|rewrite Q; reflexivity]). congruence.
Qed.
Lemma acyclic_reached : forall n A v, acyclic (edge_of n A) -> v < n -> exists d, reached_from_root n A v d.
Proof.
  intros n A v AC Hv.
  assert (G : forall k, (exists d, reached_from_root n A v d) \/ exists u p, u < n /\ walk_from_to (edge_of n A) u v p /\ length p = S k).
  { induction k as [|k [IH|(u & p & Hu & W & L)]].
    - right. exists v, [v]. split; [exact Hv|]. split; [|reflexivity]. split; [reflexivity|]. split; [reflexivity|]. split; [discriminate|exact Logic.I].
    - left. exact IH.
    - destruct (parent_dec n A u Hu) as [Z|[j Hj]].
      + left. exists k, u, p. tauto.
      + right. exists j, (j :: p). destruct Hj as (J1 & J2 & J3). split; [exact J2|]. split; [|cbn; lia].
        destruct W as (H1 & H2 & H3 & H4). split; [reflexivity|]. destruct p as [|x p]; [congruence|]. cbn in H1. injection H1 as ->. split.
        * rewrite <- H2. clear. cbn [last]. destruct p as [|y p]; [reflexivity|]. revert y. induction p as [|z p IH]; intro y; [reflexivity|]. cbn [last] in *. apply (IH z).
        * split; [discriminate|]. cbn [walk]. split; [repeat split; assumption|exact H4]. }
  destruct (G n) as [H|(u & p & Hu & W & L)]; [exact H|]. exfalso.
  destruct W as (H1 & H2 & H3 & H4). pose proof (acyclic_walk_NoDup _ _ AC H4) as ND.
  assert (Q : length p <= n); [|lia]. apply NoDup_bounded; [exact ND|].
  intros x Hx. apply (walk_edge_bound n A p H4); [lia|exact Hx].
Qed.
Theorem C97_every_variable_once : forall n A res, let A' := fun i j => nan_to_num (A i j) in
  no_cancellation n A' -> acyclic (edge_of n A') -> root_distances n A None = Ok res ->
  NoDup (map fst res) /\
  (forall v, v < n -> exists d vs, In (d, vs) res /\ In v vs) /\
  (forall d vs d' vs' v, In (d, vs) res -> In (d', vs') res -> In v vs -> In v vs' -> d = d' /\ vs = vs') /\
  (forall d vs, In (d, vs) res -> NoDup vs /\ vs <> [] /\ forall v, In v vs -> v < n).
Proof.
  intros n A res A' NC AC HR. pose proof (C60_shortest_distance_partial n A None res NC HR) as C60. fold A' in C60.
  unfold root_distances in HR. destruct (n <? 2) eqn:N2; [discriminate|]. fold A' in HR. cbv zeta in HR.
  destruct (root_list n A') as [|r0 rs] eqn:ER; [discriminate|]. injection HR as HR.
  set (s := dist_series n A' None) in *.
  assert (K : map fst res = uniq (map snd s)) by (rewrite <- HR, map_map; apply map_id).
  split; [rewrite K; apply uniq_NoDup|]. split; [|split].
  - intros v Hv. destruct (acyclic_reached n A' v AC Hv) as [d Hd].
    assert (M : exists e, node_dist n A' v = Some e).
    { destruct (node_dist n A' v) as [e|] eqn:E; [exists e; reflexivity|]. exfalso.
      unfold node_dist in E. apply min_list_none in E. destruct Hd as (r & p & Hr & Z & W & L).
      assert (Rr : In r (root_list n A')). { unfold root_list. apply filter_In. split; [apply in_seq; lia|]. apply qleb_le. rewrite sumn_zero by exact Z. vm_compute. discriminate. }
      assert (G : forall k, ~ steps (edge_of n A') r k v).
      { intro k. induction k as [k IHk] using lt_wf_ind. intro Q.
        assert (I : In k (flat_map (fun r => map snd (filter (fun vd => fst vd =? v) (path_lengths n A' r))) (root_list n A'))).
        { apply node_dist_list. exists r. split; [exact Rr|]. split; [exact Q|]. intros j Hj. apply IHk. exact Hj. }
        rewrite E in I. destruct I. }
      apply (G d). apply steps_walk. exists p. tauto. }
    destruct M as [e He]. assert (I : In (v, e) s) by (apply dist_series_In; tauto).
    exists e. eexists. rewrite <- HR. split; [apply in_map_iff; exists e; split; [reflexivity|apply uniq_In; apply in_map_iff; exists (v, e); split; [reflexivity|exact I]]|].
    apply in_map_iff. exists (v, e). split; [reflexivity|]. apply filter_In. split; [exact I|apply Nat.eqb_refl].
  - intros d vs d' vs' v H1 H2 I1 I2. rewrite <- HR in H1, H2. apply in_map_iff in H1, H2. destruct H1 as (e & Q1 & _). destruct H2 as (e' & Q2 & _).
    injection Q1 as -> <-. injection Q2 as -> <-. apply in_map_iff in I1, I2.
    destruct I1 as ((v1, d1) & E1 & I1). destruct I2 as ((v2, d2) & E2 & I2). cbn in E1, E2. subst v1 v2. apply filter_In in I1, I2.
    destruct I1 as [I1 P1]. destruct I2 as [I2 P2]. apply Nat.eqb_eq in P1, P2. cbn in P1, P2. subst d1 d2.
    apply dist_series_In in I1, I2. assert (d = d') by (destruct I1 as (_ & A1 & _); destruct I2 as (_ & A2 & _); congruence). subst d'. tauto.
  - intros d vs H. rewrite <- HR in H. apply in_map_iff in H. destruct H as (e & Q & U). injection Q as -> <-. split; [|split].
    + assert (G : forall l, NoDup (map fst l) -> NoDup (map fst (filter (fun vd : nat * nat => snd vd =? d) l))).
      { induction l as [|[a b] l IH]; intro ND; [constructor|]. cbn [map fst] in ND. apply NoDup_cons_iff in ND. destruct ND as [N ND]. cbn [filter snd].
        destruct (b =? d); [|apply IH; exact ND]. cbn [map fst]. constructor; [|apply IH; exact ND]. intro I. apply N. apply in_map_iff in I. destruct I as (x & E & I).
        apply filter_In in I. apply in_map_iff. exists x. tauto. }
      apply G. apply dist_series_nodes.
    + apply (proj1 (uniq_In _ _)) in U. apply in_map_iff in U. destruct U as ((v, b) & E & I). cbn in E. subst b. intro Q.
      assert (J : In v (map fst (filter (fun vd : nat * nat => snd vd =? d) s))) by (apply in_map_iff; exists (v, d); split; [reflexivity|apply filter_In; split; [exact I|apply Nat.eqb_refl]]).
      rewrite Q in J. destruct J.
    + intros v Hv. apply in_map_iff in Hv. destruct Hv as ((v', b) & E & I). cbn in E. subst v'. apply filter_In in I. destruct I as [I _]. apply dist_series_In in I. tauto.
Qed.
Print Assumptions C97_every_variable_once.
Example C97_example : acyclic (edge_of 5 (fun i j => nan_to_num (ex_g i j))).
Proof.
  intros v C. assert (G : forall a b, clos_trans nat (edge_of 5 (fun i j => nan_to_num (ex_g i j))) a b -> a < b).
  { intros a b H. induction H as [a b (H1 & H2 & H3)|a b c _ I1 _ I2]; [|lia].
    destruct b as [|[|[|[|[|b]]]]]; try lia; destruct a as [|[|[|[|[|a]]]]]; try lia; exfalso; apply H3; apply Qc_is_canon; reflexivity. }
  specialize (G v v C). lia.
Qed.
