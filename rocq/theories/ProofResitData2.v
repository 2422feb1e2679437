(** * RESIT on several independent causes of one effect *)
From Coq Require Import Reals Arith List Lia Lra Bool Permutation QArith Qcanon.
From Verif Require Import Prelude Spec Lib LibR SpecMeasure SpecResit ModelResit ModelResitData ProofKernelMI ProofResit ProofResit2 ProofResitData.
Import ListNotations.
Open Scope R_scope.

Lemma value_at : forall X M s j, In j M -> nth (position j M) (values X M s) 0 = X j s.
Proof.
  intros X M s j Hj. pose proof (pick_values X M [j] s) as P. unfold pick, values in P. cbn [map] in P. injection P; [|intros y [<-|[]]; exact Hj]. intro E. exact E.
Qed.

Section Rounds.
  Variable stat : list nat -> nat -> num.
  Open Scope nat_scope.
  Lemma remove_head : forall i d, remove_nat i (seq i (S d)) = seq (S i) d.
  Proof. intros. cbn [seq]. unfold remove_nat. cbn [filter]. rewrite Nat.eqb_refl. cbn [negb]. apply (remove_nat_notin i (seq (S i) d)). rewrite in_seq. lia. Qed.
  Lemma remove_last : forall i d, remove_nat (i + d) (seq i (S d)) = seq i d.
  Proof.
    intros. rewrite seq_S. unfold remove_nat. rewrite filter_app. cbn [filter]. rewrite Nat.eqb_refl. cbn [negb]. rewrite app_nil_r.
    apply (remove_nat_notin (i + d) (seq i d)). rewrite in_seq. lia.
  Qed.
  Lemma loop_S : forall d s, order_loop stat (S d) s = let* s' := order_step stat s in order_loop stat d s'.
  Proof. reflexivity. Qed.
  Lemma heads_first : forall d i pa pi, 0 < d ->
    (forall j e k, i <= j -> j + e = i + d -> In k (seq j e) -> exists q, stat (remove_nat k (seq j e)) k = Some q /\ (0 <= q)%Qc /\ (k = j -> q = 0%Qc)) ->
    exists pa', order_loop stat d (seq i d, pa, pi) = Ok ([i + d - 1], pa', rev (seq i d) ++ pi) /\
      forall v, pa' v = if (i <=? v) && (v <? i + d) then Some (seq (S v) (i + d - 1 - v)) else pa v.
  Proof.
    induction d as [|d IH]; intros i pa pi Hd H; [lia|]. destruct d as [|d].
    - cbn [seq order_loop order_step bind rev app]. eexists. split; [replace (i + 1 - 1) with i by lia; reflexivity|].
      intro v. unfold upd. destruct (v =? i) eqn:E.
      + apply Nat.eqb_eq in E. subst v. replace (i <=? i) with true by (symmetry; apply Nat.leb_le; lia). replace (i <? i + 1) with true by (symmetry; apply Nat.ltb_lt; lia).
        replace (i + 1 - 1 - i) with 0 by lia. reflexivity.
      + apply Nat.eqb_neq in E. destruct (i <=? v) eqn:A; [|reflexivity]. apply Nat.leb_le in A. replace (v <? i + 1) with false by (symmetry; apply Nat.ltb_ge; lia). reflexivity.
    - rewrite loop_S. set (U := seq i (S (S d))). assert (L2 : 2 <= length U) by (unfold U; rewrite seq_length; lia).
      destruct (order_step_zero stat U pa pi L2 (seq_NoDup _ _)) as (k & l1 & l2 & EU & Ez & F & Es).
      { intros k Hk. destruct (H i (S (S d)) k (le_n i) eq_refl Hk) as (q & A & B & _). eauto. }
      { exists i. assert (Hi : In i U) by (apply in_seq; lia). split; [exact Hi|]. destruct (H i (S (S d)) i (le_n i) eq_refl Hi) as (q & A & B & C). rewrite (C eq_refl) in A. exact A. }
      assert (Ek : k = i).
      { destruct l1 as [|x l1]; [unfold U in EU; cbn [seq app] in EU; injection EU as <- _; reflexivity|]. exfalso. unfold U in EU. cbn [seq app] in EU. injection EU as <- _.
        apply (F i (or_introl eq_refl)). destruct (H i (S (S d)) i (le_n i) eq_refl ltac:(apply in_seq; lia)) as (q & A & B & C). rewrite (C eq_refl) in A. exact A. }
      subst k. rewrite Es. cbn [bind]. unfold U. rewrite remove_head.
      destruct (IH (S i) (upd pa i (Some (seq (S i) (S d)))) (i :: pi)) as (pa' & El & Ep); [lia|intros j e k Hj He; apply H; lia|].
      exists pa'. split.
      + etransitivity; [exact El|]. replace (S i + S d - 1) with (i + S (S d) - 1) by lia. f_equal. f_equal. change (seq i (S (S d))) with (i :: seq (S i) (S d)). cbn [rev]. rewrite <- app_assoc. reflexivity.
      + intro v. rewrite Ep. unfold upd. destruct (Nat.eqb_spec v i) as [->|N].
        * replace (S i <=? i) with false by (symmetry; apply Nat.leb_gt; lia). replace (i <=? i) with true by (symmetry; apply Nat.leb_le; lia). replace (i <? i + S (S d)) with true by (symmetry; apply Nat.ltb_lt; lia).
          cbn [andb]. do 2 f_equal. lia.
        * replace (i + S (S d)) with (S i + S d) by lia. destruct (Nat.leb_spec (S i) v), (Nat.leb_spec i v); try lia; reflexivity.
  Qed.
End Rounds.

Section Star.
  Context (reg : nat -> (nat -> list R) -> (nat -> R) -> list R -> R) (hs hp : nat -> (nat -> R) -> (nat -> list R) -> num) (alpha : Qc).
  Context (n m : nat) (f : nat -> R -> R) (U X : nat -> nat -> R).
  Context (Hn : (0 < n)%nat) (Hm : (2 <= m)%nat) (HR : exact_regressor reg) (HS : exact_statistic hs) (HP : exact_p_value alpha hp).
  Context (MI : mutually_independent n (S m) U) (EX : forall i s, (i < m)%nat -> (s < n)%nat -> X i s = U i s).
  Context (EY : forall s, (s < n)%nat -> X m s = rsum m (fun i => f i (U i s)) + U m s).
  Let causes (k : nat) : list nat := if (k =? m)%nat then seq 0 m else [].
  Let fs (k : nat) (l : list R) : R := if (k =? m)%nat then rsum m (fun i => f i (nth i l 0)) else 0.
  Lemma star_model : additive_noise_model n (S m) causes fs U X.
  Proof.
    split; [exact MI|]. intros k s Hk Hs. unfold fs, causes. destruct (Nat.eqb_spec k m) as [->|N]; [|rewrite EX by lia; ring].
    rewrite EY by exact Hs. f_equal. apply rsum_ext. intros i Hi. f_equal. unfold values. rewrite <- (EX i s Hi Hs).
    rewrite (nth_indep _ 0 (X 0%nat s)) by (rewrite map_length, seq_length; exact Hi). change (X 0%nat s) with ((fun j => X j s) 0%nat). rewrite map_nth, seq_nth by exact Hi. reflexivity.
  Qed.
  Lemma star_graph : forall a b, cause_graph (S m) causes a b -> (a < m)%nat /\ b = m.
  Proof. intros a b [Hb Ha]. unfold causes in Ha. destruct (Nat.eqb_spec b m) as [->|N]; [apply in_seq in Ha; lia|destruct Ha]. Qed.
  Lemma star_topological : topological (cause_graph (S m) causes) (seq 0 (S m)).
  Proof.
    intros a b G. apply star_graph in G. destruct G as [Ha ->]. rewrite seq_S. apply precedes_app_cross; [apply in_seq; lia|left; reflexivity].
  Qed.
  Let st := data_stat reg hs n X.
  Lemma sink_zero : forall V k, closed (cause_graph (S m) causes) V -> (forall x, In x V -> (x < S m)%nat) -> In k V -> sink_in (cause_graph (S m) causes) V k -> st (remove_nat k V) k = Some 0%Qc.
  Proof.
    intros V k Cl Rg Hk Sk. unfold st, data_stat. destruct (HS n (residual reg n X (remove_nat k V) k) (columns X (remove_nat k V)) Hn) as (q & E & _ & Z). rewrite E. f_equal. apply Z.
    apply (sink_residual n (S m) causes fs U X (seq 0 (S m)) Hn star_model (Permutation_refl _) star_topological V k (reg n (columns X (remove_nat k V)) (X k)) Cl Rg Hk Sk).
    apply (HR n _ (X k) Hn).
  Qed.
  Lemma st_some : forall L k, exists q, st L k = Some q /\ (0 <= q)%Qc.
  Proof. intros L k. unfold st, data_stat. destruct (HS n (residual reg n X L k) (columns X L) Hn) as (q & E & P & _). eauto. Qed.
  (** the tests of the pruning step *)
  Lemma block_eq : forall Q s, (s < n)%nat -> (forall x, In x Q -> (x < m)%nat) -> values X Q s = values U Q s.
  Proof. intros Q s Hs H. unfold values. apply map_ext_in. intros j Hj. apply EX; [apply H; exact Hj|exact Hs]. Qed.
  Lemma accepted : forall k Q, independent n (residual reg n X Q k) (columns X Q) -> data_accepts reg hp alpha n X k Q = true.
  Proof. intros k Q I. unfold data_accepts. destruct (HP n (residual reg n X Q k) (columns X Q) Hn) as (q & E & Z). rewrite E. apply qltb_lt. apply Z. exact I. Qed.
  Lemma accepts_effect : forall Q, NoDup Q -> (forall x, In x Q -> (x < m)%nat) -> data_accepts reg hp alpha n X m Q = true.
  Proof.
    intros Q ND HQ. apply accepted. set (L := filter (fun j => negb (memb j Q)) (seq 0 (S m))).
    assert (InL : forall j, In j L <-> (j < S m)%nat /\ ~ In j Q). { intro j. unfold L. rewrite filter_In, in_seq, negb_true_iff, <- memb_In. destruct (memb j Q); [intuition (lia || discriminate)|intuition (lia || discriminate)]. }
    assert (HmQ : ~ In m Q) by (intro C; apply HQ in C; lia).
    set (e := fun s => rsum m (fun i => if memb i Q then 0 else f i (U i s)) + U m s).
    apply (additive_residual_independent n (columns X Q) (X m) e (reg n (columns X Q) (X m)) (fun w => rsum m (fun i => if memb i Q then f i (nth (position i Q) w 0) else 0)) Hn).
    - intros s Hs. rewrite (EY s Hs). unfold e. rewrite <- Rplus_assoc, <- rsum_plus. f_equal. apply rsum_ext. intros i Hi. destruct (memb i Q) eqn:Em; [|ring].
      apply memb_In in Em. change (columns X Q s) with (values X Q s). rewrite (value_at X Q s i Em), (EX i s Hi Hs). ring.
    - apply (independent_comp n (values U L) (values U Q) (fun l => rsum m (fun i => if memb i Q then 0 else f i (nth (position i L) l 0)) + nth (position m L) l 0) (fun w => w)).
      + apply independent_sym. apply (blocks_independent n (S m) U Q L Hn MI ND).
        * intros x Hx. apply HQ in Hx. lia.
        * intros x Hx. apply InL in Hx. tauto.
        * intros x Hx Hl. apply InL in Hl. tauto.
      + intros s Hs. unfold e. rewrite (value_at U L s m) by (apply InL; split; [lia|exact HmQ]). f_equal. apply rsum_ext. intros i Hi. destruct (memb i Q) eqn:Em; [reflexivity|].
        rewrite (value_at U L s i); [reflexivity|]. apply InL. split; [lia|]. rewrite <- memb_In, Em. discriminate.
      + intros s Hs. apply block_eq; assumption.
    - apply (HR n _ (X m) Hn).
  Qed.
  Lemma accepts_cause : forall i Q, (i < m)%nat -> NoDup Q -> (forall x, In x Q -> (x < m)%nat) -> ~ In i Q -> data_accepts reg hp alpha n X i Q = true.
  Proof.
    intros i Q Hi ND HQ Ni. apply accepted. apply (additive_residual_independent n (columns X Q) (X i) (U i) (reg n (columns X Q) (X i)) (fun _ => 0) Hn).
    - intros s Hs. rewrite EX by assumption. ring.
    - apply (independent_comp n (values U [i]) (values U Q) (fun l => nth 0 l 0) (fun w => w)).
      + apply (blocks_independent n (S m) U [i] Q Hn MI); [constructor; [intros []|constructor]|intros x [<-|[]]; lia|intros x Hx; apply HQ in Hx; lia|intros x [<-|[]]; exact Ni].
      + reflexivity.
      + intros s Hs. apply block_eq; assumption.
    - apply (HR n _ (X i) Hn).
  Qed.
  Hypothesis dependent : forall i h, (i < m)%nat -> conditional_mean n (values X (remove_nat i (seq 0 (S m)))) (X i) h ->
    ~ independent n (residual_of X (remove_nat i (seq 0 (S m))) i h) (values X (remove_nat i (seq 0 (S m)))).
  Lemma star_result : exists B, resit_data reg hs hp alpha n X (S m) = Ok (rev (seq 0 m) ++ [m], B) /\
    forall i j, (i <= m)%nat -> B i j = if ((j =? m - 1) && negb (i =? m - 1))%nat then 1%Qc else 0%Qc.
  Proof.
    unfold resit_data, resit_fit, estimate_order. fold st. cbn [order_loop].
    assert (NDs : NoDup (seq 0 (S m))) by apply seq_NoDup.
    assert (Sm : sink_in (cause_graph (S m) causes) (seq 0 (S m)) m) by (intros b _ G; apply star_graph in G; lia).
    assert (Cf : closed (cause_graph (S m) causes) (seq 0 (S m))) by (intros a b G _; apply star_graph in G; apply in_seq; lia).
    assert (Zm : st (remove_nat m (seq 0 (S m))) m = Some 0%Qc) by (apply sink_zero; [exact Cf|intros x Hx; apply in_seq in Hx; lia|apply in_seq; lia|exact Sm]).
    destruct (order_step_zero st (seq 0 (S m)) no_keys [] ltac:(rewrite seq_length; lia) NDs) as (k & l1 & l2 & EU & Ez & _ & Es).
    { intros k _. apply st_some. }
    { exists m. split; [apply in_seq; lia|exact Zm]. }
    assert (Ek : k = m).
    { assert (Hk : In k (seq 0 (S m))) by (rewrite EU; apply in_or_app; right; left; reflexivity). apply in_seq in Hk. destruct (Nat.eq_dec k m) as [E|N]; [exact E|exfalso].
      apply (dependent k (reg n (columns X (remove_nat k (seq 0 (S m)))) (X k)) ltac:(lia) (HR n _ (X k) Hn)).
      unfold st, data_stat in Ez. destruct (HS n (residual reg n X (remove_nat k (seq 0 (S m))) k) (columns X (remove_nat k (seq 0 (S m)))) Hn) as (q & E & _ & Z). rewrite E in Ez. injection Ez as ->. apply Z. reflexivity. }
    subst k. rewrite Es. cbn [bind]. replace (remove_nat m (seq 0 (S m))) with (seq 0 m) by (symmetry; exact (remove_last 0 m)).
    destruct (heads_first st m 0 (upd no_keys m (Some (seq 0 m))) [m]) as (pa & El & Ep); [lia| |].
    { intros j e k Hj He Hk. destruct (st_some (remove_nat k (seq j e)) k) as (q & E & P). exists q. split; [exact E|]. split; [exact P|]. intros ->.
      assert (Z : st (remove_nat j (seq j e)) j = Some 0%Qc).
      { apply sink_zero; [|intros x Hx; apply in_seq in Hx; lia|exact Hk|].
        - intros a b G Hb. apply star_graph in G. apply in_seq in Hb. lia.
        - intros b Hb G. apply star_graph in G. apply in_seq in Hb. lia. }
      rewrite E in Z. injection Z as ->. reflexivity. }
    replace (order_loop st m _) with (Ok ([0 + m - 1], pa, rev (seq 0 m) ++ [m]))%nat by (symmetry; exact El). cbn [bind]. rewrite Nat.add_0_l in Ep.
    assert (Epi : tl (rev (seq 0 m) ++ [m]) = rev (seq 0 (m - 1)) ++ [m]).
    { replace m with (S (m - 1)) at 1 by lia. rewrite seq_S, rev_app_distr. reflexivity. }
    rewrite Epi.
    destruct (remove_edges_ok (data_accepts reg hp alpha n X) (rev (seq 0 (m - 1)) ++ [m]) pa) as (pa2 & E2 & P2).
    { apply NoDup_app_iff'. split; [apply NoDup_rev, seq_NoDup|]. split; [constructor; [intros []|constructor]|]. intros x Hx [<-|[]]. apply in_rev in Hx. apply in_seq in Hx. lia. }
    { intros v Hv. rewrite Ep. unfold upd. destruct ((0 <=? v)%nat && (v <? m)%nat)%bool eqn:A; [eauto|]. destruct (Nat.eqb_spec v m); [eauto|]. exfalso. 
      apply in_app_or in Hv. destruct Hv as [Hv|[Hv|[]]]; [apply in_rev in Hv; apply in_seq in Hv|congruence].
      apply andb_false_iff in A. destruct A as [A|A]; [apply Nat.leb_gt in A; lia|apply Nat.ltb_ge in A; lia]. }
    rewrite E2. cbn [bind]. eexists. split; [reflexivity|]. intros i j Hi. unfold resit_matrix. rewrite P2.
    assert (Mi : memb i (rev (seq 0 (m - 1)) ++ [m]) = negb (i =? m - 1)%nat).
    { destruct (Nat.eqb_spec i (m - 1)) as [->|N]; cbn [negb].
      - apply memb_notIn. intro C. apply in_app_or in C. destruct C as [C|[C|[]]]; [apply in_rev in C; apply in_seq in C; lia|lia].
      - apply memb_In. apply in_or_app. destruct (Nat.eq_dec i m) as [->|]; [right; left; reflexivity|left; apply -> in_rev; apply in_seq; lia]. }
    rewrite Mi, Ep. unfold upd. destruct (Nat.eqb_spec i (m - 1)) as [->|N]; cbn [negb].
    - replace ((0 <=? m - 1)%nat && (m - 1 <? m)%nat)%bool with true by (symmetry; apply andb_true_iff; split; [reflexivity|apply Nat.ltb_lt; lia]).
      replace (m - 1 - (m - 1))%nat with 0%nat by lia. cbn [seq memb existsb]. rewrite andb_false_r. reflexivity.
    - assert (R : prune_parents (data_accepts reg hp alpha n X) i (if (i =? m)%nat then seq 0 m else seq (S i) (m - 1 - i)) = [m - 1]%nat).
      { destruct (Nat.eqb_spec i m) as [->|N'].
        - assert (Es1 : seq 0 (m - 1) ++ [m - 1]%nat = seq 0 m) by (replace m with (S (m - 1)) at 3 by lia; rewrite seq_S; reflexivity).
          rewrite <- Es1. apply prune_accepting.
          + rewrite Es1. apply seq_NoDup.
          + intros Q _ IQ NQ. rewrite Es1 in IQ. apply accepts_effect; [exact NQ|]. intros x Hx. apply IQ in Hx. apply in_seq in Hx. lia.
        - replace (seq (S i) (m - 1 - i)) with (seq (S i) (m - 2 - i) ++ [m - 1]%nat) by (replace (m - 1 - i)%nat with (S (m - 2 - i)) by lia; rewrite seq_S; f_equal; f_equal; lia).
          assert (Es2 : seq (S i) (m - 2 - i) ++ [m - 1]%nat = seq (S i) (S (m - 2 - i))) by (rewrite seq_S; f_equal; f_equal; lia).
          apply prune_accepting.
          + rewrite Es2. apply seq_NoDup.
          + intros Q _ IQ NQ. rewrite Es2 in IQ. apply accepts_cause; [lia|exact NQ| |].
            * intros x Hx. apply IQ in Hx. apply in_seq in Hx. lia.
            * intro C. apply IQ in C. apply in_seq in C. lia. }
      destruct (Nat.eqb_spec i m) as [->|N'].
      + replace ((0 <=? m)%nat && (m <? m)%nat)%bool with false by (rewrite Nat.ltb_irrefl, andb_false_r; reflexivity). cbn [option_map]. rewrite R. cbn [memb existsb]. rewrite orb_false_r, andb_true_r. reflexivity.
      + replace ((0 <=? i)%nat && (i <? m)%nat)%bool with true by (symmetry; apply andb_true_iff; split; [reflexivity|apply Nat.ltb_lt; lia]). cbn [option_map]. rewrite R. cbn [memb existsb]. rewrite orb_false_r, andb_true_r. reflexivity.
  Qed.
End Star.
