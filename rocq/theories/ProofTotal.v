(** * Total effects equal the entries of (I - B)^-1. *)
From Coq Require Import List Arith Lia Bool ZArith QArith Qcanon Permutation Relations.
From Verif Require Import Prelude Spec SpecPaths Lib LibMat Loop ModelPaths ProofPaths.
Import ListNotations.
Open Scope nat_scope.

(** NaN entries count as 0. *)
Definition denan (B : mat num) : mat Qc := fun i j => nan_to_num (B i j).

Lemma thr_edge_0 : forall n dag a b, thr_edge n dag 0%Qc a b <-> edge_of n (denan dag) a b.
Proof.
  intros. unfold thr_edge, edge_of, denan. rewrite qabs_pos. tauto.
Qed.

Lemma acyclic_iff : forall E E' : graph, (forall a b, E a b <-> E' a b) -> acyclic E <-> acyclic E'.
Proof.
  intros E E' H. split; apply acyclic_sub; intros a b; apply H.
Qed.
Lemma walk_iff : forall (E E' : graph) p, (forall a b, E a b <-> E' a b) -> walk E p <-> walk E' p.
Proof. intros E E' p H. split; apply walk_mono; intros a b; apply H. Qed.

Lemma dpath_iff : forall (E E' : graph) a b p, (forall a b, E a b <-> E' a b) ->
  dpath E a b p <-> dpath E' a b p.
Proof.
  intros E E' a b p H. unfold dpath, walk_from_to. rewrite (walk_iff E E' p H). tauto.
Qed.

Lemma walk_weight_num_denan : forall n dag p, walk (thr_edge n dag 0%Qc) p ->
  walk_weight_num dag p = Some (walk_weight (denan dag) p).
Proof.
  intros n dag. induction p as [|a p IH]; intro W; [reflexivity|].
  destruct p as [|b p]; [reflexivity|]. cbn [walk] in W. destruct W as [[_ [_ E]] W].
  change (walk_weight_num dag (a :: b :: p)) with (nmul (dag b a) (walk_weight_num dag (b :: p))).
  rewrite IH by exact W.
  change (walk_weight (denan dag) (a :: b :: p))
    with (denan dag b a * walk_weight (denan dag) (b :: p))%Qc.
  unfold denan at 2. destruct (dag b a) as [x|]; [reflexivity|].
  exfalso. apply qabs_pos in E. apply E. reflexivity.
Qed.

Lemma nsum_map_Some : forall A (f : A -> num) (g : A -> Qc) l,
  (forall x, In x l -> f x = Some (g x)) -> nsum (map f l) = Some (sumf l g).
Proof.
  intros A f g. induction l as [|x l IH]; intro H; [reflexivity|].
  cbn [map nsum fold_right]. fold (nsum (map f l)).
  rewrite IH by (intros; apply H; right; assumption).
  rewrite (H x (or_introl eq_refl)). reflexivity.
Qed.

(** The sum of the weights of all directed paths a -> b is the entry [b,a] of I + B + B^2 + ... *)
Lemma dpath_sum : forall n B a b P, acyclic (edge_of n B) -> a < n -> b < n ->
  NoDup P -> (forall p, In p P <-> dpath (edge_of n B) a b p) ->
  sumf P (walk_weight B) = neumann n B b a.
Proof.
  intros n B a b P A Ha Hb ND HP.
  rewrite (sumf_perm _ _ P (flat_map (fun k => walks n (nzb B) k a b) (seq 0 n))).
  - rewrite sumf_flat_map. unfold neumann, geom, sumn. apply sumf_ext. intros k _.
    apply walks_sum; assumption.
  - apply NoDup_Permutation; [exact ND| |].
    + apply NoDup_flat_map; [apply seq_NoDup|intros; apply walks_NoDup|].
      intros x y z _ _ H1 H2. apply walks_In in H1; [|exact Ha]. apply walks_In in H2; [|exact Ha].
      destruct H1 as [_ H1]. destruct H2 as [_ H2]. lia.
    + intro p. rewrite HP, in_flat_map. split.
      * intros [[H [L [NE W]]] NDp]. exists (length p - 1).
        assert (Lp : length p <= n).
        { destruct p as [|x [|y p]]; [congruence|cbn; lia|].
          apply NoDup_bounded; [exact NDp|]. apply (walk_edge_bound n B); [exact W|cbn; lia]. }
        assert (1 <= length p) by (destruct p; [congruence|cbn; lia]).
        split; [apply in_seq; lia|]. apply walks_In; [exact Ha|]. split; [|lia].
        split; [exact H|]. split; [exact L|]. split; [exact NE|].
        apply (walk_mono (edge_of n B)); [|exact W]. intros x y. apply rel_of_nzb.
      * intros [k [_ Hp]]. apply walks_In in Hp; [|exact Ha]. destruct Hp as [[H [L [NE W]]] _].
        apply (walk_mono _ (edge_of n B)) in W; [|intros x y; apply rel_of_nzb].
        split; [repeat split; assumption|]. eapply acyclic_walk_NoDup; eassumption.
Qed.

Lemma total_effect_neumann : forall n dag from to_,
  2 <= n -> from < n -> to_ < n -> from <> to_ ->
  acyclic (edge_of n (denan dag)) ->
  calculate_total_effect n dag from to_ None = Ok (Some (neumann n (denan dag) to_ from)).
Proof.
  intros n dag from to_ Hn Hf Ht D A. unfold calculate_total_effect.
  destruct (Nat.ltb_spec n 2); [lia|]. destruct (Nat.leb_spec n from); [lia|].
  destruct (Nat.leb_spec n to_); [lia|]. destruct (Nat.eqb_spec from to_); [congruence|].
  destruct (find_all_paths_acyclic n dag from to_ 0%Qc Hf D) as [P [-> [ND HP]]].
  { apply (acyclic_iff _ (edge_of n (denan dag))); [intros a b; apply thr_edge_0|exact A]. }
  cbn [bind fst snd].
  replace (forallb (nodes_continuous None) P) with true
    by (symmetry; apply forallb_forall; reflexivity).
  rewrite (nsum_map_Some _ _ (walk_weight (denan dag))).
  - f_equal. f_equal. apply dpath_sum; try assumption. intro p. rewrite HP.
    apply dpath_iff. intros a b. apply thr_edge_0.
  - intros p Hp. apply (walk_weight_num_denan n). apply HP in Hp. apply Hp.
Qed.

(** With a list of types the answer is the same or a ValueError, the latter iff some path
    enters a discrete variable. *)
Lemma total_effect_discrete : forall n dag from to_ l,
  2 <= n -> from < n -> to_ < n -> from <> to_ -> n <= length l ->
  acyclic (edge_of n (denan dag)) ->
  (calculate_total_effect n dag from to_ (Some l) = Err ValueError <->
   exists p v, dpath (edge_of n (denan dag)) from to_ p /\ In v (tl p) /\ nth v l true = false) /\
  (forall e, calculate_total_effect n dag from to_ (Some l) = Ok e ->
     calculate_total_effect n dag from to_ None = Ok e).
Proof.
  intros n dag from to_ l Hn Hf Ht D Hl A. unfold calculate_total_effect.
  destruct (Nat.ltb_spec n 2); [lia|]. destruct (Nat.leb_spec n from); [lia|].
  destruct (Nat.leb_spec n to_); [lia|]. destruct (Nat.eqb_spec from to_); [congruence|].
  destruct (Nat.ltb_spec (length l) n); [lia|].
  destruct (find_all_paths_acyclic n dag from to_ 0%Qc Hf D) as [P [-> [ND HP]]].
  { apply (acyclic_iff _ (edge_of n (denan dag))); [intros a b; apply thr_edge_0|exact A]. }
  cbn [bind fst snd].
  replace (forallb (nodes_continuous None) P) with true
    by (symmetry; apply forallb_forall; reflexivity).
  destruct (forallb (nodes_continuous (Some l)) P) eqn:F.
  - split; [|intros e H4; exact H4]. split; [discriminate|].
    intros [p [v [Hp [Hv Hd]]]]. rewrite forallb_forall in F.
    assert (Hin : In p P).
    { apply HP. apply (dpath_iff _ (edge_of n (denan dag))); [intros; apply thr_edge_0|exact Hp]. }
    specialize (F p Hin). cbn in F. rewrite forallb_forall in F. specialize (F v Hv). congruence.
  - split; [|discriminate]. split; [|reflexivity]. intros _.
    assert (G : exists p, In p P /\ nodes_continuous (Some l) p = false).
    { clear -F. induction P as [|p P IH]; [discriminate|]. cbn [forallb] in F.
      apply andb_false_iff in F. destruct F as [F|F].
      - exists p. split; [left; reflexivity|exact F].
      - destruct (IH F) as [q [Hq1 Hq2]]. exists q. split; [right; exact Hq1|exact Hq2]. }
    destruct G as [p [Hp Hc]]. exists p. cbn in Hc.
    assert (G : exists v, In v (tl p) /\ nth v l true = false).
    { clear -Hc. induction (tl p) as [|v q IH]; [discriminate|]. cbn [forallb] in Hc.
      apply andb_false_iff in Hc. destruct Hc as [F|F].
      - exists v. split; [left; reflexivity|exact F].
      - destruct (IH F) as [w [Hq1 Hq2]]. exists w. split; [right; exact Hq1|exact Hq2]. }
    destruct G as [v [Hv1 Hv2]]. exists v. split; [|split; assumption].
    apply HP in Hp. apply (dpath_iff _ _ _ _ _ (fun a b => thr_edge_0 n dag a b)) in Hp. exact Hp.
Qed.

(** Earlier variables receive no effect from later ones. *)
Lemma total_effect_zero_before : forall n B K i j,
  is_order n K -> topological (edge_of n B) K -> i < n -> j < n ->
  precedes K i j -> neumann n B i j = 0%Qc.
Proof.
  intros n B K i j HK T Hi Hj P.
  assert (ND := is_order_NoDup n K HK).
  unfold neumann, geom. apply sumn_zero. intros k Hk.
  rewrite <- (walks_sum n B k j i Hj Hi).
  destruct (walks n (nzb B) k j i) as [|p l] eqn:E; [reflexivity|]. exfalso.
  assert (Hp : In p (walks n (nzb B) k j i)) by (rewrite E; left; reflexivity).
  apply walks_In in Hp; [|exact Hj]. destruct Hp as [[H [L [NE W]]] _].
  apply (walk_mono _ (edge_of n B)) in W; [|intros a b; apply rel_of_nzb].
  assert (In i p).
  { rewrite <- L. generalize (@app_removelast_last _ p j NE). intro Q. rewrite Q at 2.
    apply in_or_app. right. left. reflexivity. }
  destruct (walk_In_reach _ p j W H i H0) as [->|C].
  - exact (precedes_irrefl K j ND P).
  - assert (G : forall a b, clos_trans nat (edge_of n B) a b -> precedes K a b).
    { intros a b Q. induction Q as [a b Q|a b c _ IH1 _ IH2]; [apply T; exact Q|].
      eapply precedes_trans; eassumption. }
    apply (precedes_asym K i j ND P). apply G. exact C.
Qed.

Lemma total_effect_spec : forall n dag from to_,
  2 <= n -> from < n -> to_ < n -> from <> to_ ->
  acyclic (edge_of n (denan dag)) ->
  exists t, calculate_total_effect n dag from to_ None = Ok (Some t) /\
    t = sumn n (fun k => mpow n (denan dag) k to_ from) /\
    (forall T, meq n (mmul n (msub midn (denan dag)) T) midn -> t = T to_ from) /\
    (forall K, is_order n K -> topological (edge_of n (denan dag)) K ->
       precedes K to_ from -> t = 0%Qc).
Proof.
  intros n dag from to_ Hn Hf Ht D A. eexists. split; [apply total_effect_neumann; assumption|].
  split; [reflexivity|]. split.
  - intros T HT. symmetry. apply right_inverse_unique; assumption.
  - intros K HK T P. eapply total_effect_zero_before; eassumption.
Qed.

Lemma total_effect_same : forall n dag a cont, a < n ->
  calculate_total_effect n dag a a cont = Err ValueError.
Proof.
  intros n dag a cont Ha. unfold calculate_total_effect.
  destruct (n <? 2); [reflexivity|]. destruct (n <=? a); [reflexivity|].
  rewrite Nat.eqb_refl. reflexivity.
Qed.
