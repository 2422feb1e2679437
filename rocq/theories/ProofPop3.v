(** * Correctness on data from a linear acyclic model: the two measures, and the whole estimator *)
From Coq Require Import List Arith Bool ZArith QArith Qcanon Lia Permutation Relations.
From Verif Require Import Prelude Spec Lib LibMat SpecDirect SpecPop ModelDirect ProofDirect ProofDirect2 ModelTotal ProofEffect ProofPop ProofPop2.
Import ListNotations.
Open Scope nat_scope.

(** ** Sums of non-negative terms built by a loop that skips one index *)
Lemma fold_skip_sum : forall (f : nat -> num) (sk : nat -> bool) (g : nat -> Qc) l a,
  (forall i, In i l -> sk i = false -> f i = Some (g i)) ->
  fold_left (fun T i => if sk i then T else nadd T (f i)) l (Some a) = Some (a + sumf (filter (fun i => negb (sk i)) l) g)%Qc.
Proof.
  intros f sk g l. induction l as [|y l IH]; intros a H; cbn [fold_left filter].
  - rewrite sumf_nil. f_equal. ring.
  - destruct (sk y) eqn:E; cbn [negb].
    + apply IH. intros; apply H; [right|]; assumption.
    + rewrite (H y (or_introl eq_refl) E). cbn [nadd]. rewrite IH by (intros; apply H; [right|]; assumption). rewrite sumf_cons. f_equal. ring.
Qed.
Lemma choice_list : forall (l : list nat) (P : nat -> Qc -> Prop), (forall i, In i l -> exists v, P i v) -> exists g, forall i, In i l -> P i (g i).
Proof.
  intros l P. induction l as [|y l IH]; intro H; [exists (fun _ => 0%Qc); intros i []|].
  destruct IH as [g G]; [intros; apply H; right; assumption|]. destruct (H y (or_introl eq_refl)) as [v V].
  exists (fun i => if i =? y then v else g i). intros i [<-|Hi]; [rewrite Nat.eqb_refl; exact V|]. destruct (Nat.eqb_spec i y) as [->|]; [exact V|apply G; exact Hi].
Qed.
Lemma sumf_pos : forall (g : nat -> Qc) l y, (forall i, In i l -> (0 <= g i)%Qc) -> In y l -> (0 < g y)%Qc -> (0 < sumf l g)%Qc.
Proof. intros g l y H Hy P. apply Qclt_le_trans with (g y); [exact P|]. apply sumf_in_le; assumption. Qed.

Lemma kernel_separates : forall N n B e mi, detects_dependence (np_residual N) mi N n B e ->
  separates (better Kernel) N n B e (kernel_score N mi).
Proof.
  intros N n B e mi D U x Uc ND HU S Inc.
  assert (SC : forall j, In j U -> exists g, kernel_score N mi x U Uc [] j = Some (sumf (filter (fun i => negb (i =? j)) U) g) /\
     forall i, In i U -> i <> j -> mi (x j) (np_residual N (x i) (x j)) = Some (g i) /\ (0 <= g i)%Qc /\ (exogenous_in B U j -> g i = 0%Qc)).
  { intros j Hj. destruct (D U x j ND HU S Hj) as [D1 _].
    destruct (choice_list (filter (fun i => negb (i =? j)) U) (fun i v => mi (x j) (np_residual N (x i) (x j)) = Some v /\ (0 <= v)%Qc /\ (exogenous_in B U j -> v = 0%Qc))) as [g G].
    { intros i Hi. apply filter_In in Hi. destruct Hi as [Hi Nij]. apply negb_true_iff, Nat.eqb_neq in Nij. apply (D1 i Hi Nij). }
    assert (G' : forall i, In i U -> i <> j -> mi (x j) (np_residual N (x i) (x j)) = Some (g i) /\ (0 <= g i)%Qc /\ (exogenous_in B U j -> g i = 0%Qc)).
    { intros i Hi Nij. apply G. apply filter_In. split; [exact Hi|]. apply negb_true_iff, Nat.eqb_neq. exact Nij. }
    exists g. split; [|exact G']. unfold kernel_score. rewrite (fold_skip_sum _ (fun i => i =? j) g).
    - f_equal. ring.
    - intros i Hi E. apply Nat.eqb_neq in E. cbn [memb existsb andb]. apply (G' i Hi E). }
  split.
  - intros i Hi. destruct (SC i (Inc i Hi)) as (g & E & _). eexists. exact E.
  - intros i j v w Hi Hj Ei Ej Vi Wj. cbn.
    destruct (SC i (Inc i Hi)) as (g & E1 & G). destruct (SC j (Inc j Hj)) as (h & E2 & H).
    rewrite Vi in E1. injection E1 as ->. rewrite Wj in E2. injection E2 as ->.
    rewrite (sumf_zero _ g).
    + destruct (D U x j ND HU S (Inc j Hj)) as [_ D2]. destruct (D2 Ej) as (k & u & Hk & Nk & Ek & Pk).
      destruct (H k Hk Nk) as (Q & _ & _). rewrite Q in Ek. injection Ek as Ek.
      apply (sumf_pos h _ k); [intros a Ha; apply filter_In in Ha; destruct Ha as [Ha Na]; apply negb_true_iff, Nat.eqb_neq in Na; apply (H a Ha Na)|apply filter_In; split; [exact Hk|apply negb_true_iff, Nat.eqb_neq; exact Nk]|rewrite Ek; exact Pk].
    + intros a Ha. apply filter_In in Ha. destruct Ha as [Ha Na]. apply negb_true_iff, Nat.eqb_neq in Na. apply (G a Ha Na). exact Ei.
Qed.

Definition min0 (v : Qc) : Qc := if qltb v 0 then v else 0%Qc.
Lemma pwling_separates : forall N n B e std dmi,
  detects_direction (fun a b => dmi (std a) (std b) (np_residual N (std a) (std b)) (np_residual N (std b) (std a))) N n B e ->
  separates (better Pwling) N n B e (pwling_score sample (np_residual N) std dmi).
Proof.
  intros N n B e std dmi D U x Uc ND HU S Inc.
  set (df := fun a b => dmi (std a) (std b) (np_residual N (std a) (std b)) (np_residual N (std b) (std a))) in *.
  assert (SC : forall i, In i U -> exists g, pwling_score sample (np_residual N) std dmi x U Uc [] i = Some (- sumf (filter (fun j => negb (i =? j)) U) (fun j => min0 (g j) * min0 (g j)))%Qc /\
     forall j, In j U -> j <> i -> df (x i) (x j) = Some (g j) /\ (exogenous_in B U i -> (0 <= g j)%Qc)).
  { intros i Hi. destruct (D U x i ND HU S Hi) as [D1 _].
    destruct (choice_list (filter (fun j => negb (j =? i)) U) (fun j v => df (x i) (x j) = Some v /\ (exogenous_in B U i -> (0 <= v)%Qc))) as [g G].
    { intros j Hj. apply filter_In in Hj. destruct Hj as [Hj Nij]. apply negb_true_iff, Nat.eqb_neq in Nij. apply (D1 j Hj Nij). }
    assert (G' : forall j, In j U -> j <> i -> df (x i) (x j) = Some (g j) /\ (exogenous_in B U i -> (0 <= g j)%Qc)).
    { intros j Hj Nij. apply G. apply filter_In. split; [exact Hj|]. apply negb_true_iff, Nat.eqb_neq. exact Nij. }
    exists g. split; [|exact G']. unfold pwling_score.
    rewrite (fold_skip_sum (fun j => min0_sq (df (x i) (x j))) (fun j => i =? j) (fun j => min0 (g j) * min0 (g j))%Qc).
    - cbn [nopp option_map]. f_equal. ring.
    - intros j Hj E. apply Nat.eqb_neq in E. destruct (G' j Hj ltac:(congruence)) as [Q _]. rewrite Q. reflexivity. }
  split.
  - intros i Hi. destruct (SC i (Inc i Hi)) as (g & E & _). eexists. exact E.
  - intros i j v w Hi Hj Ei Ej Vi Wj. cbn.
    destruct (SC i (Inc i Hi)) as (g & E1 & G). destruct (SC j (Inc j Hj)) as (h & E2 & H).
    rewrite Vi in E1. injection E1 as ->. rewrite Wj in E2. injection E2 as ->.
    rewrite (sumf_zero _ (fun j0 => min0 (g j0) * min0 (g j0))%Qc).
    + destruct (D U x j ND HU S (Inc j Hj)) as [_ D2]. destruct (D2 Ej) as (k & u & Hk & Nk & Ek & Pk).
      destruct (H k Hk Nk) as (Q & _). unfold df in *. rewrite Q in Ek. injection Ek as Ek.
      assert (P : (0 < sumf (filter (fun j0 => negb (j =? j0)%nat) U) (fun j0 => min0 (h j0) * min0 (h j0)))%Qc).
      { apply (sumf_pos _ _ k); [intros; apply Qcsq_nonneg|apply filter_In; split; [exact Hk|apply negb_true_iff, Nat.eqb_neq; congruence]|].
        rewrite Ek. unfold min0. rewrite (proj2 (qltb_lt u 0) Pk). destruct (Qcle_lt_or_eq _ _ (Qcsq_nonneg u)) as [L|L]; [exact L|]. symmetry in L. apply Qcmult_integral in L. destruct L as [L|L]; rewrite L in Pk; discriminate. }
      revert P. generalize (sumf (filter (fun j0 => negb (j =? j0)%nat) U) (fun j0 => min0 (h j0) * min0 (h j0)))%Qc. intros s P. qclra.
    + intros a Ha. apply filter_In in Ha. destruct Ha as [Ha Na]. apply negb_true_iff, Nat.eqb_neq in Na.
      destruct (G a Ha ltac:(congruence)) as [_ Q]. unfold min0. rewrite (proj2 (qltb_nlt (g a) 0) (Q Ei)). ring.
Qed.

(** ** The whole estimator *)
(** Knowledge that is true of [B]: none, or strong knowledge obeyed by a topological order of [B]. *)
Definition mode_fits (n : nat) (B : mat Qc) (ok : bool) (mode : pk_mode) (l : list nat) : Prop :=
  match mode with NoPK => True | Strong pk => ok = true /\ respects n pk l | Soft _ => False end.

Lemma lm_submodel : forall N n B e x, linear_model N n B e x -> submodel N B e (seq 0 n) x.
Proof. intros N n B e x M i r Hi Hr. apply in_seq in Hi. apply (lm_equation N n B e x M i r); [lia|exact Hr]. Qed.
Lemma lm_rows : forall N n B e x i, linear_model N n B e x -> i < n -> 0 < N.
Proof.
  intros N n B e x i M Hi. destruct N; [|lia]. pose proof (lm_variance 0 n B e x M i Hi) as V. unfold var, cov in V.
  replace (sumn 0 (fun r => (e i r - mean 0 (e i)) * (e i r - mean 0 (e i))) / qn 0)%Qc with 0%Qc in V; [discriminate|].
  unfold sumn. cbn [seq]. rewrite sumf_nil. unfold Qcdiv. ring.
Qed.
Lemma fit_order_correct : forall N n B e x ms score ok mode l, linear_model N n B e x -> separates (better ms) N n B e score ->
  is_order n l -> topological (edge_of n B) l -> mode_fits n B ok mode l ->
  exists K, fit_order sample (np_residual N) score (argsel_of ms) n ok mode x = Ok K /\ is_order n K /\ topological (edge_of n B) K.
Proof.
  intros N n B e x ms score ok mode l M SEP OL TL MF.
  assert (G : forall po, po_agrees l mode po (seq 0 n) ->
    exists K, fit_loop sample (np_residual N) score (argsel_of ms) n mode po x (seq 0 n) [] = Ok K /\ is_order n K /\ topological (edge_of n B) K).
  { intros po A. destruct (loop_exogenous N n B e (lm_variance N n B e x M) (lm_uncorrelated N n B e x M) l OL TL ms score) with (s := n) (mode := mode) (po := po) (X := x) (U := seq 0 n) (K := @nil nat) as (t & E & Q & P).
    - intros U y Uc i ND HU S Inc Hi. apply (proj1 (SEP U y Uc ND HU S Inc) i Hi).
    - intros U y Uc i j v w ND HU S Inc Hi Hj Ei Ej Vi Wj. apply (proj2 (SEP U y Uc ND HU S Inc) i j v w); assumption.
    - apply seq_NoDup.
    - intros i Hi. apply in_seq in Hi. lia.
    - apply seq_length.
    - apply (lm_submodel N n B e x M).
    - exact A.
    - exists t. split; [exact E|]. split; [exact P|]. intros a b (Hb & Ha & Nz).
      apply (exo_sequence_topological B t (seq 0 n) (seq_NoDup _ _) Q P); [apply in_seq; lia|apply in_seq; lia|exact Nz]. }
  destruct mode as [|pk|pk]; cbn [fit_order]; [apply G; exact I| |contradiction].
  destruct MF as [-> R]. destruct (extract_cases n pk) as [[po E]|E].
  - rewrite E. cbn [bind]. apply G. intros a b Hab. apply (proj1 (extract_ok n pk po E a b)) in Hab. destruct Hab as (Ha & Hb & MP).
    split; [apply R; assumption|apply in_seq; lia].
  - exfalso. apply extract_inconsistent in E. destruct E as (i & j & Hi & Hj & P1 & P2).
    assert (ND : NoDup l) by (apply (Permutation_NoDup (Permutation_sym OL)), seq_NoDup).
    apply (precedes_asym l i j ND); apply R; try assumption; left; assumption.
Qed.
Lemma direct_fit_correct : forall N n B e x ms score lasso ok mode l, linear_model N n B e x -> separates (better ms) N n B e score ->
  exact_regression N n x lasso ->
  is_order n l -> topological (edge_of n B) l -> mode_fits n B ok mode l ->
  (forall m i j, pk_of_mode mode = Some m -> m i j = Some 0%Qc -> B i j = 0%Qc) ->
  exists K A, direct_fit (np_residual N) score ms lasso n ok mode x = Ok (K, A) /\ is_order n K /\ topological (edge_of n B) K /\
    forall i j, i < n -> j < n -> A i j = Some (B i j).
Proof.
  intros N n B e x ms score lasso ok mode l M SEP REG OL TL MF PK.
  destruct (fit_order_correct N n B e x ms score ok mode l M SEP OL TL MF) as (K & E & OK & TK).
  exists K, (estimate_adjacency_matrix lasso (pk_of_mode mode) K). unfold direct_fit. rewrite E. cbn [bind]. split; [reflexivity|]. split; [exact OK|]. split; [exact TK|].
  intros i j Hi Hj. apply (adjacency_exact N n B e x (lm_rows N n B e x i M Hi) M K OK TK); [exact PK| |exact Hi|exact Hj].
  intros ps k Hk _ HR ND NE. apply (REG ps k Hk HR ND NE).
Qed.
Lemma base_total_correct : forall N n B e x K A T ols from to_, linear_model N n B e x -> is_order n K -> topological (edge_of n B) K ->
  (forall j, j < n -> A from j <> Some 0%Qc -> precedes K j from) -> (forall j, j < n -> B from j <> 0%Qc -> A from j <> Some 0%Qc /\ A from j <> None) ->
  exact_regression N n x ols -> total_effects n B T -> from < n -> to_ < n ->
  exists w, base_total_effect ols n K A from to_ = Ok (Some (T to_ from), w) /\ (w = true <-> precedes K to_ from).
Proof.
  intros N n B e x K A T ols f t M OK TK A1 A2 REG HT Hf Ht.
  assert (NDK : NoDup K) by (apply (Permutation_NoDup (Permutation_sym OK)), seq_NoDup).
  assert (IK : forall i, i < n -> In i K) by (intros i Hi; apply (Permutation_in _ (Permutation_sym OK)), in_seq; lia).
  unfold base_total_effect.
  destruct (index_of f K) as [a|] eqn:Ea; [|apply index_of_none in Ea; contradiction (Ea (IK f Hf))].
  destruct (index_of t K) as [b|] eqn:Eb; [|apply index_of_none in Eb; contradiction (Eb (IK t Ht))].
  pose proof (index_of_some f K a Ea) as Na. pose proof (index_of_some t K b Eb) as Nb.
  set (ps := filter (fun j => match A f j with Some w => qltb 0 (qabs w) | None => false end) (seq 0 n)).
  assert (PS : forall j, In j ps <-> j < n /\ A f j <> Some 0%Qc /\ A f j <> None).
  { intro j. unfold ps. rewrite filter_In, in_seq. destruct (A f j) as [w|].
    - rewrite qltb_lt. split.
      + intros [H P]. split; [lia|]. split; [|discriminate]. intro Z. injection Z as ->. discriminate P.
      + intros (H & Nz & _). split; [lia|]. apply qabs_pos. intros ->. apply Nz. reflexivity.
    - split; [intros [_ H]; discriminate|intros (_ & _ & H); congruence]. }
  assert (PRE : forall p, In p ps -> precedes K p f) by (intros p Hp; apply PS in Hp; apply A1; apply Hp).
  destruct (REG (f :: ps) t Ht) as (c & LS & C).
  - intros p [<-|Hp]; [exact Hf|]. apply PS in Hp. apply Hp.
  - constructor; [|unfold ps; apply NoDup_filter, seq_NoDup]. intro H. apply PRE in H. exact (precedes_irrefl K f NDK H).
  - discriminate.
  - exists (b <? a). split.
    + rewrite (C f (or_introl eq_refl)). do 3 f_equal.
      apply (total_exact N n B e x (lm_rows N n B e x f M Hf) M K OK TK T f t ps c HT Hf Ht); [unfold ps; apply NoDup_filter, seq_NoDup|exact PRE| |exact LS].
      intros j Hj Nz. apply PS. split; [exact Hj|]. apply (A2 j Hj Nz).
    + rewrite Nat.ltb_lt. split; intro H.
      * apply precedes_nth. exists b, a. split; [exact H|]. split; assumption.
      * apply precedes_nth in H. destruct H as (i & j & L & Hi & Hj).
        assert (i = b) by (eapply NoDup_nth_inj; eassumption). assert (j = a) by (eapply NoDup_nth_inj; eassumption). lia.
Qed.
