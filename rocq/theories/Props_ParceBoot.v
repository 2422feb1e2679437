(** * Property theorems: BottomUpParceLiNGAM.bootstrap. *)
From Coq Require Import List Arith Lia Bool ZArith QArith Qcanon Permutation Relations.
From Verif Require Import Prelude Spec SpecPop Lib LibMat ModelPaths ModelParce Props_Parce ModelTotal ProofTotal ProofPop2 ProofPop3 ModelQuery ProofQuery Props_Query ModelParceBoot.
Import ListNotations.
Open Scope nat_scope.

(** Two variables in the list of unknown order. *)
Definition unknown_pair (order : list item) (a b : nat) : Prop := exists l, In (Block l) order /\ In a l /\ In b l.
Definition in_unknown (order : list item) (a : nat) : Prop := exists l, In (Block l) order /\ In a l.
(** What is recorded for an estimate (order, B): [T] are the total effects of the matrix with zeros for NaN. *)
Definition records (n : nat) (order : list item) (B te : mat num) : Prop :=
  forall from to, from < n -> to < n ->
    (from = to -> te to from = Some 0%Qc) /\
    (unknown_pair order from to -> te to from = Some 0%Qc) /\
    (in_unknown order from -> ~ in_unknown order to -> te to from = None) /\
    (~ in_unknown order from -> from <> to -> forall T, total_effects n (denan B) T -> te to from = Some (T to from)).

Lemma precedes_cons v K a b : precedes (v :: K) a b <-> (a = v /\ In b K) \/ precedes K a b.
Proof.
  split.
  - intros ([|x l1] & l2 & l3 & E); cbn [app] in E; injection E as -> E.
    + left. split; [reflexivity|]. rewrite E. apply in_or_app. right. left. reflexivity.
    + right. exists l1, l2, l3. exact E.
  - intros [[-> I]|(l1 & l2 & l3 & ->)].
    + apply in_split in I. destruct I as (l2 & l3 & ->). exists [], l2, l3. reflexivity.
    + exists (v :: l1), l2, l3. reflexivity.
Qed.
Lemma pairs_singles : forall K it j, In (it, j) (parce_boot_pairs (map Single K)) <-> exists i, it = Single i /\ precedes K j i.
Proof.
  induction K as [|v K IH]; intros it j; cbn [map parce_boot_pairs].
  - split; [intros []|]. intros (i & _ & P). apply precedes_In in P. destruct P as [[] _].
  - rewrite in_app_iff, IH, in_flat_map. split.
    + intros [(x & Hx & [Q|[] ])|(i & -> & P)].
      * injection Q as -> ->. apply in_map_iff in Hx. destruct Hx as (i & <- & Hi). exists i. split; [reflexivity|]. apply precedes_cons. left. auto.
      * exists i. split; [reflexivity|]. apply precedes_cons. right. exact P.
    + intros (i & -> & P). apply precedes_cons in P. destruct P as [[-> I]|P].
      * left. exists (Single i). split; [apply in_map; exact I|left; reflexivity].
      * right. exists i. split; [reflexivity|exact P].
Qed.
Definition head (block : list nat) : list item := match block with [] => [] | _ => [Block block] end.
Lemma pairs_order block K it j : In (it, j) (parce_boot_pairs (head block ++ map Single K)) <->
  exists i, it = Single i /\ ((In j block /\ In i K) \/ precedes K j i).
Proof.
  destruct block as [|b0 bl].
  - cbn [head app]. rewrite pairs_singles. split; intros (i & -> & P); exists i; (split; [reflexivity|]); [right; exact P|destruct P as [[[] _]|P]; exact P].
  - cbn [head app parce_boot_pairs]. rewrite in_app_iff, pairs_singles, in_flat_map. split.
    + intros [(x & Hx & Q)|(i & -> & P)]; [|exists i; auto]. apply in_map_iff in Q. destruct Q as (y & Q & Iy). injection Q as -> ->.
      apply in_map_iff in Hx. destruct Hx as (i & <- & Hi). exists i. auto.
    + intros (i & -> & [[I1 I2]|P]); [|right; exists i; auto]. left. exists (Single i). split; [apply in_map; exact I2|]. apply in_map. exact I1.
Qed.
Lemma store_ok n order B : forall l te, (forall it j, In (it, j) l -> exists i v w, it = Single i /\ parce_estimate_total_effect2 n order B j i = Ok (v, w)) ->
  exists te', parce_boot_store n order B l te = Ok te' /\
    forall i j, (In (Single i, j) l -> exists w, parce_estimate_total_effect2 n order B j i = Ok (te' i j, w)) /\ (~ In (Single i, j) l -> te' i j = te i j).
Proof.
  induction l as [|[it j0] l IH]; intros te H.
  - exists te. split; [reflexivity|]. intros i j. split; [intros []|reflexivity].
  - destruct (H it j0 (or_introl eq_refl)) as (i0 & v & w & -> & E). cbn [parce_boot_store]. rewrite E. cbn [bind fst].
    destruct (IH (upd2 te i0 j0 v)) as (te' & S1 & S2); [intros a b I; apply H; right; exact I|]. exists te'. split; [exact S1|].
    intros i j. destruct (S2 i j) as [A C].
    assert (DEC : {In (Single i, j) l} + {~ In (Single i, j) l}).
    { apply in_dec. intros [x1 y1] [x2 y2]. assert (DI : {x1 = x2} + {x1 <> x2}) by (decide equality; [apply Nat.eq_dec|apply list_eq_dec, Nat.eq_dec]).
      destruct DI; [|right; congruence]. destruct (Nat.eq_dec y1 y2); [left|right]; congruence. }
    destruct DEC as [I|I].
    + split; [intros _; exact (A I)|]. intro N. exfalso. apply N. right. exact I.
    + rewrite (C I). unfold upd2. destruct ((i =? i0) && (j =? j0)) eqn:Q.
      * apply andb_true_iff in Q. destruct Q as [Q1 Q2]. apply Nat.eqb_eq in Q1, Q2. subst i j. split; [intros _; exists w; exact E|].
        intro N. exfalso. apply N. left. reflexivity.
      * split; [|reflexivity]. intros [K|K]; [|contradiction]. injection K as -> ->. rewrite !Nat.eqb_refl in Q. discriminate.
Qed.
Lemma head_block block K l : In (Block l) (head block ++ map Single K) <-> l = block /\ block <> [].
Proof.
  rewrite in_app_iff. split.
  - intros [I|I].
    + destruct block as [|b bl]; [destruct I|]. destruct I as [I|[] ]. injection I as <-. split; [reflexivity|discriminate].
    + apply in_map_iff in I. destruct I as (x & Q & _). discriminate.
  - intros [-> N]. left. destruct block; [contradiction|]. left. reflexivity.
Qed.
Lemma flatten_order block K : flatten (head block ++ map Single K) = block ++ K.
Proof.
  assert (S : flatten (map Single K) = K) by (induction K as [|v K IH]; [reflexivity|cbn [map flatten flat_map app] in *; unfold flatten in *; rewrite IH; reflexivity]).
  unfold flatten in *. rewrite flat_map_app, S. f_equal. destruct block; [reflexivity|]. cbn [head flat_map]. apply app_nil_r.
Qed.

Lemma nodup_left (a b : list nat) : NoDup (a ++ b) -> NoDup a.
Proof.
  induction a as [|x a IH]; [constructor|]. cbn [app]. intro H. inversion H as [|? ? N1 N2]; subst. constructor; [|exact (IH N2)].
  intro I. apply N1. apply in_or_app. left. exact I.
Qed.
Lemma nodup_right (a b : list nat) : NoDup (a ++ b) -> NoDup b.
Proof. induction a as [|x a IH]; [auto|]. cbn [app]. intro H. inversion H; subst. auto. Qed.

Section Shape.
  Variables (n : nat) (block K : list nat) (order : list item) (B : mat num).
  Hypothesis Hn : 2 <= n.
  Hypothesis HB : block = [] \/ 2 <= length block.
  Hypothesis HO : order = head block ++ map Single K.
  Hypothesis PO : is_order n (block ++ K).
  Hypothesis HN : forall i j, i < n -> j < n -> (B i j = None <-> i <> j /\ In i block /\ In j block).
  Hypothesis HE : forall i j, i < n -> j < n -> B i j <> None -> B i j <> Some 0%Qc -> In i K /\ precedes (block ++ K) j i.

  Lemma shape_nodup : NoDup (block ++ K).
  Proof. apply (Permutation_NoDup (Permutation_sym PO)), seq_NoDup. Qed.
  Lemma shape_in i : i < n <-> In i block \/ In i K.
  Proof.
    rewrite <- in_app_iff. split; intro H.
    - apply (Permutation_in _ (Permutation_sym PO)), in_seq. lia.
    - apply (Permutation_in _ PO), in_seq in H. lia.
  Qed.
  Lemma shape_disj i : In i block -> In i K -> False.
  Proof.
    intros I1 I2. apply in_split in I1. destruct I1 as (l1 & l2 & E). pose proof shape_nodup as ND. rewrite E in ND. rewrite <- app_assoc in ND. cbn [app] in ND.
    apply NoDup_remove_2 in ND. apply ND. rewrite app_assoc. apply in_or_app. right. exact I2.
  Qed.
  Lemma shape_topo : topological (edge_of n (denan B)) (block ++ K).
  Proof.
    intros a b (Hb & Ha & N). unfold denan in N. destruct (B b a) as [w|] eqn:E; cbn [nan_to_num] in N; [|congruence].
    apply (HE b a Hb Ha); congruence.
  Qed.
  Lemma shape_acyclic : acyclic (edge_of n (denan B)).
  Proof. exact (topological_acyclic _ _ shape_nodup shape_topo). Qed.
  Lemma shape_flat : is_order n (flatten order).
  Proof. rewrite HO, flatten_order. exact PO. Qed.
  Lemma shape_unknown i : in_unknown order i <-> In i block.
  Proof.
    unfold in_unknown. rewrite HO. split; [intros (l & I & J); apply head_block in I; destruct I as [-> _]; exact J|].
    intro I. exists block. split; [|exact I]. apply head_block. split; [reflexivity|]. intros ->. destruct I.
  Qed.
  Lemma shape_nan i : In i block -> exists j, j < n /\ B i j = None.
  Proof.
    intro I. destruct HB as [->|L]; [destruct I|].
    assert (ND : NoDup block) by (apply (nodup_left _ _ shape_nodup)).
    assert (exists j, In j block /\ j <> i) as (j & J & N).
    { clear - I L ND. destruct block as [|x [|y r] ]; [cbn in L; lia|cbn in L; lia|]. destruct (Nat.eq_dec x i) as [->|N].
      - exists y. split; [right; left; reflexivity|]. inversion ND as [|? ? N1 _]; subst. intros ->. apply N1. left. reflexivity.
      - exists x. split; [left; reflexivity|exact N]. }
    exists j. assert (j < n) by (apply shape_in; auto). split; [assumption|]. apply HN; [apply shape_in; auto|assumption|]. repeat split; auto.
  Qed.
  Lemma shape_known i : ~ In i block -> forall j, j < n -> i < n -> B i j <> None.
  Proof. intros N j Hj Hi E. apply HN in E; [|exact Hi|exact Hj]. tauto. Qed.

  Lemma shape_store : exists te, parce_boot_store n order B (parce_boot_pairs order) (fun _ _ => Some 0%Qc) = Ok te /\ records n order B te.
  Proof.
    destruct (store_ok n order B (parce_boot_pairs order) (fun _ _ => Some 0%Qc)) as (te & S1 & S2).
    - intros it j I. rewrite HO in I. apply pairs_order in I. destruct I as (i & -> & I). exists i.
      assert (Hij : j < n /\ i < n /\ j <> i).
      { destruct I as [[I1 I2]|P].
        - repeat split; [apply shape_in; auto|apply shape_in; auto|]. intros ->. exact (shape_disj _ I1 I2).
        - pose proof (precedes_In _ _ _ P) as [I1 I2]. repeat split; [apply shape_in; auto|apply shape_in; auto|]. intros ->.
          apply (precedes_irrefl K i); [apply (nodup_right _ _ shape_nodup)|exact P]. }
      destruct Hij as (A1 & A2 & A3). destruct (C115_parce_effect_by_paths n B order j i Hn shape_flat A1 A2 A3 shape_acyclic) as (v & w & E & _). exists v, w. auto.
    - exists te. split; [exact S1|]. intros from to Hf Ht. destruct (S2 to from) as [ST UN]. rewrite HO in ST, UN. rewrite pairs_order in ST, UN. rewrite <- HO in ST.
      assert (NS : ~ ((In from block /\ In to K) \/ precedes K from to) -> te to from = Some 0%Qc).
      { intro N. apply UN. intros (i & Q & R). injection Q as ->. exact (N R). }
      split; [|split; [|split] ].
      + intros ->. apply NS. intros [[I1 I2]|P]; [exact (shape_disj _ I1 I2)|]. apply (precedes_irrefl K to); [apply (nodup_right _ _ shape_nodup)|exact P].
      + intros (l & I & I1 & I2). rewrite HO in I. apply head_block in I. destruct I as [-> _]. apply NS. intros [[_ I3]|P]; [exact (shape_disj _ I2 I3)|].
        apply precedes_In in P. exact (shape_disj _ I1 (proj1 P)).
      + intros I1 I2. rewrite shape_unknown in I1, I2. assert (I3 : In to K) by (apply shape_in in Ht; tauto).
        destruct ST as [w E]; [exists to; auto|]. assert (D : from <> to) by (intros ->; contradiction).
        destruct (C115_parce_effect_by_paths n B order from to Hn shape_flat Hf Ht D shape_acyclic) as (v & w' & E' & NV & _). rewrite E in E'. injection E' as -> _. apply NV. apply shape_nan. exact I1.
      + intros N D T HT. rewrite shape_unknown in N. assert (If : In from K) by (apply shape_in in Hf; tauto).
        destruct (C115_parce_effect_by_paths n B order from to Hn shape_flat Hf Ht D shape_acyclic) as (v & w' & E' & _ & VT & _).
        specialize (VT ltac:(intros j Hj; apply shape_known; assumption) T HT).
        destruct (proj1 (shape_in to) Ht) as [It|It].
        * assert (Z : T to from = 0%Qc).
          { destruct (total_effect_spec n B from to Hn Hf Ht D shape_acyclic) as (t & _ & Et & _ & TP).
            specialize (TP _ PO shape_topo (precedes_app_cross _ _ _ _ It If)). transitivity t; [|exact TP]. rewrite (left_inverse_unique n (denan B) T shape_acyclic HT to from Ht Hf). symmetry. exact Et. }
          rewrite Z. apply NS. intros [[I1 _]|P]; [contradiction|]. apply precedes_In in P. exact (shape_disj _ It (proj2 P)).
        * destruct (precedes_total K from to If It D) as [P|P].
          -- destruct ST as [w E]; [exists to; auto|]. rewrite E in E'. injection E' as -> _. exact VT.
          -- assert (Z : T to from = 0%Qc).
             { destruct (total_effect_spec n B from to Hn Hf Ht D shape_acyclic) as (t & _ & Et & _ & TP).
               specialize (TP _ PO shape_topo (precedes_app_r _ _ _ _ P)). transitivity t; [|exact TP]. rewrite (left_inverse_unique n (denan B) T shape_acyclic HT to from Ht Hf). symmetry. exact Et. }
             rewrite Z. apply NS. intros [[I1 _]|P2]; [contradiction|]. apply (precedes_asym K from to); [apply (nodup_right _ _ shape_nodup)|exact P2|exact P].
  Qed.
End Shape.

(** ** C237 *)
(** The statistics and the lasso are functions of the resample.  If every fit succeeds, so does bootstrap: one pair per
    resample, in order, with the matrix of the fit and the effects of [records]. *)
Theorem C237_bootstrap_partial :
  forall (D : Type) (hsic2 : D -> nat -> list nat -> nat -> num * num) fcorr m2log sf thr ind_corr mode lasso n pk ok z (resample : nat -> D),
  (0 < z)%Z -> 2 <= n -> (forall x ps t p, lasso x ps t p <> None) ->
  let fit := fun x => parce_fit (hsic2 x) (fcorr x) m2log sf thr ind_corr mode (lasso x) n pk ok in
  (forall k, k < Z.to_nat z -> exists r, fit (resample k) = Ok r) ->
  exists l, parce_bootstrap n fit z resample = Ok l /\ length l = Z.to_nat z /\
    forall k, k < Z.to_nat z -> exists order B te, fit (resample k) = Ok (order, B) /\ nth_error l k = Some (B, te) /\ records n order B te.
Proof.
  intros D hsic2 fcorr m2log sf thr ind_corr mode lasso n pk ok z resample Hz Hn HL fit HF. unfold parce_bootstrap. rewrite (proj2 (Z.ltb_lt 0 z) Hz).
  assert (G : forall m a, (forall k, k < m -> exists r, fit (resample (a + k)) = Ok r) ->
    exists l, parce_boot_loop n fit (map resample (seq a m)) = Ok l /\ length l = m /\
      forall k, k < m -> exists order B te, fit (resample (a + k)) = Ok (order, B) /\ nth_error l k = Some (B, te) /\ records n order B te).
  { clear HF. induction m as [|m IH]; intros a H.
    - exists []. split; [reflexivity|]. split; [reflexivity|]. intros k Hk. lia.
    - cbn [seq map parce_boot_loop]. destruct (H 0 ltac:(lia)) as ([order B] & F). rewrite Nat.add_0_r in F. rewrite F. cbn [bind].
      destruct (C38_parce_order_structure (hsic2 (resample a)) (fcorr (resample a)) m2log sf thr ind_corr mode (lasso (resample a)) n pk ok order B ltac:(lia) (HL _) F)
        as (block & K & H1 & H2 & H3 & H4 & H5).
      destruct (shape_store n block K order B Hn H1 H2 H3 H4 H5) as (te & ST & R). rewrite ST. cbn [bind].
      destruct (IH (S a)) as (l & E & L & A); [intros k Hk; replace (S a + k) with (a + S k) by lia; apply H; lia|]. rewrite E. cbn [bind].
      exists ((B, te) :: l). split; [reflexivity|]. split; [cbn [length]; lia|]. intros [|k] Hk.
      + exists order, B, te. rewrite Nat.add_0_r. auto.
      + replace (a + S k) with (S a + k) by lia. apply A. lia. }
  destruct (G (Z.to_nat z) 0 HF) as (l & E & L & A). exists l. auto.
Qed.
Print Assumptions C237_bootstrap_partial.

(** The recorded effects are not those the fitted object itself reports: for two variables of unknown order
    estimate_total_effect2 is NaN, and zero is recorded, in both directions. *)
Theorem C237_unknown_order_recorded_as_zero_refuted :
  forall (D : Type) (hsic2 : D -> nat -> list nat -> nat -> num * num) fcorr m2log sf thr ind_corr mode lasso n pk ok z (resample : nat -> D),
  (0 < z)%Z -> 2 <= n -> (forall x ps t p, lasso x ps t p <> None) ->
  let fit := fun x => parce_fit (hsic2 x) (fcorr x) m2log sf thr ind_corr mode (lasso x) n pk ok in
  (forall k, k < Z.to_nat z -> exists r, fit (resample k) = Ok r) ->
  exists l, parce_bootstrap n fit z resample = Ok l /\
    forall k order B a b, k < Z.to_nat z -> fit (resample k) = Ok (order, B) -> a < n -> b < n -> a <> b -> unknown_pair order a b ->
      exists te w, nth_error l k = Some (B, te) /\ te b a = Some 0%Qc /\ B b a = None /\ parce_estimate_total_effect2 n order B a b = Ok (None, w).
Proof.
  intros D hsic2 fcorr m2log sf thr ind_corr mode lasso n pk ok z resample Hz Hn HL fit HF.
  destruct (C237_bootstrap_partial D hsic2 fcorr m2log sf thr ind_corr mode lasso n pk ok z resample Hz Hn HL HF) as (l & E & L & A).
  exists l. split; [exact E|]. intros k order B a b Hk F Ha Hb N U. destruct (A k Hk) as (order' & B' & te & F' & Q & R).
  assert (EQ : (order', B') = (order, B)) by (fold (fit (resample k)) in F'; congruence). injection EQ as -> ->.
  destruct (C38_parce_order_structure (hsic2 (resample k)) (fcorr (resample k)) m2log sf thr ind_corr mode (lasso (resample k)) n pk ok order B ltac:(lia) (HL _) F)
    as (block & K & H1 & H2 & H3 & H4 & H5).
  change (order = head block ++ map Single K) in H2.
  pose proof U as U0. destruct U0 as (l0 & I & I1 & I2). rewrite H2 in I. apply (head_block block K) in I. destruct I as [-> _].
  assert (FL : is_order n (flatten order)) by (apply (shape_flat n block K order); assumption).
  assert (AC : acyclic (edge_of n (denan B))) by (apply (shape_acyclic n block K B); assumption).
  assert (NA : exists j, j < n /\ B a j = None) by (apply (shape_nan n block K order B); assumption).
  destruct (C115_parce_effect_by_paths n B order a b Hn FL Ha Hb N AC) as (v & w & Ev & NV & _).
  rewrite (NV NA) in Ev. exists te, w. split; [exact Q|]. split; [exact (proj1 (proj2 (R a b Ha Hb)) U)|]. split; [|exact Ev].
  apply (proj2 (H4 b a Hb Ha)). repeat split; [congruence|exact I2|exact I1].
Qed.
Print Assumptions C237_unknown_order_recorded_as_zero_refuted.

(** Wrong numbers of samplings and failing fits raise. *)
Theorem C237_errors : forall (D : Type) n (fit : D -> result (list item * mat num)) z resample,
  ((z <= 0)%Z -> parce_bootstrap n fit z resample = Err ValueError) /\
  (forall e, (0 < z)%Z -> fit (resample 0) = Err e -> parce_bootstrap n fit z resample = Err e).
Proof.
  intros D n fit z resample. unfold parce_bootstrap. split.
  - intro H. rewrite (proj2 (Z.ltb_ge 0 z) H). reflexivity.
  - intros e H F. rewrite (proj2 (Z.ltb_lt 0 z) H). destruct (Z.to_nat z) as [|m] eqn:Q; [lia|]. cbn [seq map parce_boot_loop]. rewrite F. reflexivity.
Qed.
Print Assumptions C237_errors.
(** Four variables, the first three of unknown order: NaN for their effects on the fourth, zero among them. *)
Example C237_example :
  match parce_bootstrap 4 (fun _ : nat => parce_fit ex_hsic2 (fun _ _ _ => None) ex_m2log ex_sf (qf 1 30) (qf 1 2) Hsic ex_plasso 4 None true) 2 (fun k => k) with
  | Ok l => map (fun r => (fst r 1 0, snd r 1 0, snd r 3 0, snd r 0 3)) l
  | Err _ => [] end = let r := (None, Some 0%Qc, None, Some 0%Qc) in [r; r].
Proof. vm_compute. reflexivity. Qed.
Example C237_hypotheses : (forall (x : nat) ps t p, ex_plasso ps t p <> None) /\
  forall k : nat, exists order B, parce_fit ex_hsic2 (fun _ _ _ => None) ex_m2log ex_sf (qf 1 30) (qf 1 2) Hsic ex_plasso 4 None true = Ok (order, B) /\ unknown_pair order 0 1.
Proof.
  split; [discriminate|]. intros _. destruct C38_example as (order & B & E & -> & _). do 2 eexists. split; [exact E|].
  exists [0; 1; 2]. split; [left; reflexivity|]. split; [left; reflexivity|right; left; reflexivity].
Qed.
