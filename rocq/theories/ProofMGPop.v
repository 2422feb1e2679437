(** * MultiGroupDirectLiNGAM on data from linear models with a common order: proofs *)
From Coq Require Import List Arith Bool ZArith QArith Qcanon Lia Permutation Relations.
From Verif Require Import Prelude Spec Lib LibMat SpecDirect SpecPop ModelDirect ProofDirect ProofDirect2 ModelTotal ModelMGPop ProofEffect ProofPop ProofPop2 ProofPop3.
From Verif Require ProofBootstrap ProofLim.
Import ListNotations.
Open Scope nat_scope.

Lemma Qcinv_pos : forall b, (0 < b)%Qc -> (0 < / b)%Qc.
Proof.
  intros b H. destruct (Qcle_lt_or_eq 0 (/ b)%Qc (ProofLim.Qcinv_pos b H)) as [L|L]; [exact L|]. exfalso.
  assert (Q : (b * / b)%Qc = 1%Qc) by (apply Qcmult_inv_r; intros ->; discriminate). rewrite <- L in Q. rewrite Qcmult_0_r in Q. discriminate.
Qed.
(** The comparison of one data set, as a function of two samples with [N] rows. *)
Definition g_diff (std : gcol -> gcol) (dmi : gcol -> gcol -> gcol -> gcol -> num) (N : nat) (a b : sample) : num :=
  let sa := std (N, a) in let sb := std (N, b) in dmi sa sb (g_residual sa sb) (g_residual sb sa).

(** A data set in the loop: [N] rows in every remaining column, and the equations hold on the remaining variables. *)
Definition group_ok (N : nat) (B : mat Qc) (e : nat -> sample) (U : list nat) (X : nat -> gcol) : Prop :=
  (forall i, In i U -> fst (X i) = N) /\ submodel N B e U (fun i => snd (X i)).

Lemma mg_M_spec : forall std dmi N n B e U Uc X i, detects_direction (g_diff std dmi N) N n B e ->
  NoDup U -> (forall i, In i U -> i < n) -> group_ok N B e U X -> In i U ->
  exists v, mg_M std dmi X U Uc [] i = Some v /\ (0 <= v)%Qc /\
    (exogenous_in B U i -> v = 0%Qc) /\ (~ exogenous_in B U i -> (0 < v)%Qc).
Proof.
  intros std dmi N n B e U Uc X i D ND HU [FN S] Hi.
  destruct (D U (fun i => snd (X i)) i ND HU S Hi) as [D1 D2]. cbn beta in *.
  set (df := g_diff std dmi N) in *.
  destruct (choice_list (filter (fun j => negb (j =? i)) U) (fun j v => df (snd (X i)) (snd (X j)) = Some v /\ (exogenous_in B U i -> (0 <= v)%Qc))) as [g G0].
  { intros j Hj. apply filter_In in Hj. destruct Hj as [Hj Nij]. apply negb_true_iff, Nat.eqb_neq in Nij. apply (D1 j Hj Nij). }
  assert (G : forall j, In j U -> j <> i -> df (snd (X i)) (snd (X j)) = Some (g j) /\ (exogenous_in B U i -> (0 <= g j)%Qc)).
  { intros j Hj Nij. apply G0. apply filter_In. split; [exact Hj|]. apply negb_true_iff, Nat.eqb_neq. exact Nij. }
  clear G0.
  exists (0 + sumf (filter (fun j => negb (i =? j)) U) (fun j => min0 (g j) * min0 (g j)))%Qc.
  assert (EM : mg_M std dmi X U Uc [] i = Some (0 + sumf (filter (fun j => negb (i =? j)) U) (fun j => min0 (g j) * min0 (g j)))%Qc).
  { unfold mg_M.
    rewrite (fold_skip_sum (fun j => min0_sq (dmi (std (X i)) (std (X j)) (g_residual (std (X i)) (std (X j))) (if memb j [] && memb i Uc then std (X j) else g_residual (std (X j)) (std (X i)))))
               (fun j => i =? j) (fun j => min0 (g j) * min0 (g j))%Qc).
    - reflexivity.
    - intros j Hj E. apply Nat.eqb_neq in E. destruct (G j Hj ltac:(congruence)) as [Q _]. cbn [memb existsb andb].
      assert (P : forall k, In k U -> X k = (N, snd (X k))) by (intros k Hk; rewrite <- (FN k Hk); destruct (X k); reflexivity).
      unfold df, g_diff in Q. cbv zeta in Q. rewrite <- (P i Hi), <- (P j Hj) in Q. rewrite Q. reflexivity. }
  split; [exact EM|]. assert (NN : (0 <= sumf (filter (fun j => negb (i =? j)) U) (fun j => min0 (g j) * min0 (g j)))%Qc).
  { clear. induction (filter (fun j => negb (i =? j)) U) as [|y l IH]; [rewrite sumf_nil; apply Qcle_refl|]. rewrite sumf_cons.
    pose proof (Qcsq_nonneg (min0 (g y))) as Q. apply (Qcle_trans _ (0 + 0)%Qc); [replace (0 + 0)%Qc with 0%Qc by ring; apply Qcle_refl|apply Qcplus_le_compat; assumption]. }
  rewrite Qcplus_0_l. split; [exact NN|]. split.
  - intro Ei. apply sumf_zero. intros a Ha. apply filter_In in Ha. destruct Ha as [Ha Na]. apply negb_true_iff, Nat.eqb_neq in Na.
    destruct (G a Ha ltac:(congruence)) as [_ Q]. unfold min0. rewrite (proj2 (qltb_nlt (g a) 0) (Q Ei)). ring.
  - intro Ei. destruct (D2 Ei) as (k & u & Hk & Nk & Ek & Pk). destruct (G k Hk Nk) as (Q & _). rewrite Q in Ek. injection Ek as Ek.
    apply (sumf_pos _ _ k); [intros; apply Qcsq_nonneg|apply filter_In; split; [exact Hk|apply negb_true_iff, Nat.eqb_neq; congruence]|].
    rewrite Ek. unfold min0. rewrite (proj2 (qltb_lt u 0) Pk). destruct (Qcle_lt_or_eq _ _ (Qcsq_nonneg u)) as [L|L]; [exact L|]. symmetry in L. apply Qcmult_integral in L. destruct L as [L|L]; rewrite L in Pk; discriminate.
Qed.

Section Groups.
  Variables (G n : nat) (N : nat -> nat) (B : nat -> mat Qc) (e : nat -> nat -> sample).
  Variables (std : gcol -> gcol) (dmi : gcol -> gcol -> gcol -> gcol -> num).
  Hypothesis rows : forall g, g < G -> 0 < N g.
  Hypothesis variance : forall g i, g < G -> i < n -> (0 < var (N g) (e g i))%Qc.
  Hypothesis uncorrelated : forall g i j, g < G -> i < n -> j < n -> i <> j -> cov (N g) (e g i) (e g j) = 0%Qc.
  Hypothesis detects : forall g, g < G -> detects_direction (g_diff std dmi (N g)) (N g) n (B g) (e g).
  Variable l : list nat.
  Hypothesis order : is_order n l.
  Hypothesis topo : forall g, g < G -> topological (edge_of n (B g)) l.

  Definition all_exo (U : list nat) (i : nat) : Prop := forall g, g < G -> exogenous_in (B g) U i.
  Lemma all_exo_dec : forall U i, all_exo U i \/ exists g, g < G /\ ~ exogenous_in (B g) U i.
  Proof.
    intros U i. unfold all_exo. clear. induction G as [|k IH]; [left; intros; lia|].
    destruct IH as [IH|(g & Hg & H)]; [|right; exists g; split; [lia|exact H]].
    destruct (exo_dec (B k) U i) as [E|E]; [left|right; exists k; split; [lia|exact E]].
    intros g Hg. destruct (Nat.eq_dec g k) as [->|D]; [exact E|apply IH; lia].
  Qed.
  Definition groups_ok (U : list nat) (Y : nat -> nat -> gcol) : Prop := forall g, g < G -> group_ok (N g) (B g) (e g) U (Y g).
  Definition sets (Y : nat -> nat -> gcol) : list (nat * (nat -> gcol)) := map (fun g => (N g, Y g)) (seq 0 G).

  Lemma mg_fold : forall (f : nat -> Qc) (h : nat -> num) (t : Qc) gs a, (forall g, In g gs -> h g = Some (f g)) ->
    fold_left (fun MG g => nadd MG (nmul (h g) (Some (qn (N g) / t)%Qc))) gs (Some a) = Some (a + sumf gs (fun g => f g * (qn (N g) / t)))%Qc.
  Proof.
    intros f h t gs. induction gs as [|y gs IH]; intros a H; cbn [fold_left].
    - rewrite sumf_nil. f_equal. ring.
    - rewrite (H y (or_introl eq_refl)). cbn [nmul nadd]. rewrite IH by (intros; apply H; right; assumption). rewrite sumf_cons. f_equal. ring.
  Qed.
  Lemma fold_left_map' : forall A C D (f : D -> C -> D) (h : A -> C) xs a, fold_left f (map h xs) a = fold_left (fun d x => f d (h x)) xs a.
  Proof. intros A C D f h xs. induction xs as [|y xs IH]; intro a; [reflexivity|]. cbn. apply IH. Qed.

  Lemma mg_score_spec : forall U Uc Y i, NoDup U -> (forall i, In i U -> i < n) -> groups_ok U Y -> In i U ->
    exists v, mg_score (mg_M std dmi) (sets Y) U Uc [] i = Some v /\ (all_exo U i -> v = 0%Qc) /\ (~ all_exo U i -> (v < 0)%Qc).
  Proof.
    intros U Uc Y i ND HU OK Hi.
    destruct (choice_list (seq 0 G) (fun g v => mg_M std dmi (Y g) U Uc [] i = Some v /\ (0 <= v)%Qc /\
       (exogenous_in (B g) U i -> v = 0%Qc) /\ (~ exogenous_in (B g) U i -> (0 < v)%Qc))) as [f F].
    { intros g Hg. apply in_seq in Hg. apply (mg_M_spec std dmi (N g) n (B g) (e g) U Uc (Y g) i); try assumption; [apply detects; lia|apply OK; lia]. }
    unfold mg_score, sets. rewrite fold_left_map'. cbn [fst snd]. set (t := qsum _).
    assert (T : G <> 0 -> (0 < t)%Qc).
    { intro NG. unfold t. rewrite map_map. cbn [fst]. change (0 < sumf (seq 0 G) (fun g => qn (N g)))%Qc.
      apply (sumf_pos _ _ 0); [intros; apply (proj2 (ProofBootstrap.qn_le 0 _)); lia|apply in_seq; lia|]. apply (proj2 (ProofBootstrap.qn_lt 0 (N 0))). apply rows. lia. }
    rewrite (mg_fold f (fun g => mg_M std dmi (Y g) U Uc [] i) t (seq 0 G) 0%Qc) by (intros g Hg; apply F; exact Hg).
    cbn [nopp option_map]. eexists. split; [reflexivity|]. split.
    - intro A. rewrite sumf_zero; [ring|]. intros g Hg. destruct (F g Hg) as (_ & _ & Z & _). rewrite Z by (apply A; apply in_seq in Hg; lia). ring.
    - intro NA. destruct (all_exo_dec U i) as [A|(g & Hg & Ng)]; [contradiction|].
      assert (Pg : (0 < sumf (seq 0 G) (fun g => f g * (qn (N g) / t)))%Qc).
      { assert (TP : (0 < / t)%Qc) by (apply Qcinv_pos; apply T; lia).
        apply (sumf_pos _ _ g); [|apply in_seq; lia|].
        - intros k Hk. destruct (F k Hk) as (_ & Nk & _). unfold Qcdiv.
          apply ProofLim.Qcmult_nonneg; [exact Nk|]. apply ProofLim.Qcmult_nonneg; [apply (proj2 (ProofBootstrap.qn_le 0 _)); lia|apply Qclt_le_weak; exact TP].
        - destruct (F g ltac:(apply in_seq; lia)) as (_ & _ & _ & P). unfold Qcdiv. apply ProofLim.Qcmult_pos; [apply P; exact Ng|].
          apply ProofLim.Qcmult_pos; [apply (proj2 (ProofBootstrap.qn_lt 0 (N g))); apply rows; exact Hg|exact TP]. }
      revert Pg. generalize (sumf (seq 0 G) (fun g0 => f g0 * (qn (N g0) / t)))%Qc. intros s Pg. qclra.
  Qed.

  Lemma first_all_exo : forall U, (forall i, In i U -> i < n) -> U <> [] -> exists x, In x U /\ (forall y, In y U -> ~ precedes l y x) /\ all_exo U x.
  Proof.
    intros U HU NE. destruct (exists_first l U) as (x & Hx & F); [apply (Permutation_NoDup (Permutation_sym order)), seq_NoDup| |exact NE|].
    { intros y Hy. apply (Permutation_in _ (Permutation_sym order)). apply in_seq. specialize (HU y Hy). lia. }
    exists x. split; [exact Hx|]. split; [exact F|]. intros g Hg y Hy. destruct (Qc_eq_dec (B g x y) 0) as [Z|Z]; [exact Z|].
    exfalso. apply (F y Hy). apply (topo g Hg). split; [apply HU; exact Hx|]. split; [apply HU; exact Hy|exact Z].
  Qed.
  Lemma groups_step : forall U Y m, NoDup U -> (forall i, In i U -> i < n) -> In m U -> all_exo U m -> groups_ok U Y ->
    groups_ok (remove_nat m U) (fun g => regress_out gcol g_residual (Y g) U m).
  Proof.
    intros U Y m ND HU Hm Ex OK g Hg. destruct (OK g Hg) as [FN S].
    assert (R : forall i, snd (regress_out gcol g_residual (Y g) U m i) = regress_out sample (np_residual (N g)) (fun i => snd (Y g i)) U m i).
    { intro i. rewrite !regress_out_at by exact ND. destruct (memb i U && negb (i =? m)) eqn:E; [|reflexivity].
      unfold g_residual. cbn [snd]. apply andb_true_iff in E. destruct E as [E _]. apply existsb_exists in E. destruct E as (y & Hy & E). apply Nat.eqb_eq in E. subst y.
      rewrite (FN i Hy). reflexivity. }
    split.
    - intros i Hi. apply remove_nat_In in Hi. destruct Hi as [Hi Ni]. rewrite regress_out_at by exact ND.
      destruct (memb i U && negb (i =? m)); [unfold g_residual; cbn [fst]|]; apply FN; exact Hi.
    - pose proof (submodel_step (N g) n (B g) (e g) (fun i => variance g i Hg) (fun i j => uncorrelated g i j Hg) U (fun i => snd (Y g i)) m ND HU Hm (Ex g Hg) S) as Q.
      intros i r Hi Hr. rewrite R. rewrite (Q i r Hi Hr). f_equal. apply sumf_ext. intros j Hj. rewrite R. reflexivity.
  Qed.
  Fixpoint all_exo_sequence (U t : list nat) : Prop :=
    match t with [] => True | m :: t => In m U /\ all_exo U m /\ all_exo_sequence (remove_nat m U) t end.
  Lemma all_exo_sequence_at : forall g t U, g < G -> all_exo_sequence U t -> exo_sequence (B g) U t.
  Proof. intros g t. induction t as [|m t IH]; intros U Hg H; [exact Logic.I|]. destruct H as (H1 & H2 & H3). split; [exact H1|]. split; [apply H2; exact Hg|apply IH; assumption]. Qed.

  Lemma mg_loop_exogenous : forall s mode po Y U K, NoDup U -> (forall i, In i U -> i < n) -> length U = s -> groups_ok U Y -> po_agrees l mode po U ->
    exists t, mg_loop g_residual (mg_M std dmi) s mode po (sets Y) U K = Ok (K ++ t) /\ all_exo_sequence U t /\ Permutation t U.
  Proof.
    induction s as [|s IH]; intros mode po Y U K ND HU LU OK A.
    - destruct U; [|discriminate]. exists []. rewrite app_nil_r. split; [reflexivity|]. split; [exact Logic.I|constructor].
    - cbn [mg_loop]. destruct (first_all_exo U HU ltac:(destruct U; [discriminate|congruence])) as (x & Hx & F & Ex).
      pose proof (candidates_first l mode po U x A Hx F) as Cx. pose proof (candidates_Vj l mode po U A) as V.
      pose proof (candidate_incl mode po U) as Inc. destruct (search_candidate mode po U) as [Uc Vj]. cbn [fst snd] in *. subst Vj.
      assert (Gm : exists m, match Uc with [x] => Ok x
                | _ => match np_argmax (map (mg_score (mg_M std dmi) (sets Y) U Uc []) Uc) with None => Err ValueError
                       | Some k => match nth_error Uc k with Some x => Ok x | None => Err IndexError end end end = Ok m /\ In m U /\ all_exo U m).
      { destruct (argsel_best Pwling (mg_score (mg_M std dmi) (sets Y) U Uc []) (all_exo U) Uc) as (k & m & G1 & G2 & G3).
        - intros i Hi. destruct (mg_score_spec U Uc Y i ND HU OK (Inc i Hi)) as (v & E & _). exists v. exact E.
        - intros i _. destruct (all_exo_dec U i) as [H|(g & Hg & H)]; [left; exact H|right; intro Q; exact (H (Q g Hg))].
        - intros i j v w Hi Hj Pi Pj Si Sj. cbn.
          destruct (mg_score_spec U Uc Y i ND HU OK (Inc i Hi)) as (v' & E1 & Z & _). destruct (mg_score_spec U Uc Y j ND HU OK (Inc j Hj)) as (w' & E2 & _ & L).
          rewrite Si in E1. injection E1 as ->. rewrite Sj in E2. injection E2 as ->. rewrite (Z Pi). apply L. exact Pj.
        - exists x. split; assumption.
        - destruct Uc as [|y [|z Uc]]; [contradiction| |].
          + exists y. destruct Cx as [->|[]]. split; [reflexivity|]. split; assumption.
          + cbn [argsel_of] in G1. rewrite G1, G2. exists m. split; [reflexivity|]. split; [apply Inc; eapply nth_error_In; exact G2|exact G3]. }
      destruct Gm as (m & Em & Hm & Exm). rewrite Em. cbn [bind].
      change (match mode with Strong _ => filter (fun p => negb (fst p =? m)) po | _ => po end) with (po_step mode m po).
      assert (EQ : map (fun d => (fst d, regress_out gcol g_residual (snd d) U m)) (sets Y) = sets (fun g => regress_out gcol g_residual (Y g) U m)) by (unfold sets; rewrite map_map; reflexivity).
      rewrite EQ. destruct (IH mode (po_step mode m po) (fun g => regress_out gcol g_residual (Y g) U m) (remove_nat m U) (K ++ [m])) as (t & E2 & Q & P).
      + apply remove_nat_NoDup. exact ND.
      + intros i Hi. apply remove_nat_In in Hi. apply HU. apply Hi.
      + apply remove_nat_length in Hm; [lia|exact ND].
      + apply groups_step; assumption.
      + apply po_agrees_step. exact A.
      + exists (m :: t). rewrite E2, <- app_assoc. split; [reflexivity|]. split; [cbn; auto|].
        apply Permutation_trans with (m :: remove_nat m U); [constructor; exact P|apply Permutation_sym, remove_nat_perm; assumption].
  Qed.
End Groups.

Lemma mg_order_correct : forall G n N B e x std dmi ok mode l,
  (forall g, g < G -> linear_model (N g) n (B g) (e g) (x g)) ->
  (forall g, g < G -> detects_direction (g_diff std dmi (N g)) (N g) n (B g) (e g)) ->
  is_order n l -> (forall g, g < G -> topological (edge_of n (B g)) l) ->
  match mode with NoPK => True | Strong pk => ok = true /\ respects n pk l | Soft _ => False end ->
  exists K, mg_fit_order g_residual (mg_M std dmi) n ok mode (mg_data G N x) = Ok K /\ is_order n K /\
    forall g, g < G -> topological (edge_of n (B g)) K.
Proof.
  intros G n N B e x std dmi ok mode l M D OL TL MF.
  assert (W : forall po, po_agrees l mode po (seq 0 n) ->
    exists K, mg_loop g_residual (mg_M std dmi) n mode po (mg_data G N x) (seq 0 n) [] = Ok K /\ is_order n K /\ forall g, g < G -> topological (edge_of n (B g)) K).
  { intros po A. destruct (Nat.eq_dec n 0) as [->|Nn].
    { exists []. split; [reflexivity|]. split; [constructor|]. intros g Hg a b (Hb & _). lia. }
    destruct (mg_loop_exogenous G n N B e std dmi) with (l := l) (s := n) (mode := mode) (po := po) (Y := fun g i => (N g, x g i)) (U := seq 0 n) (K := @nil nat) as (t & E & Q & P).
    - intros g Hg. apply (lm_rows (N g) n (B g) (e g) (x g) 0 (M g Hg)). lia.
    - intros g i Hg Hi. apply (lm_variance _ _ _ _ _ (M g Hg) i Hi).
    - intros g i j Hg Hi Hj. apply (lm_uncorrelated _ _ _ _ _ (M g Hg) i j Hi Hj).
    - exact D.
    - exact OL.
    - exact TL.
    - apply seq_NoDup.
    - intros i Hi. apply in_seq in Hi. lia.
    - apply seq_length.
    - intros g Hg. split; [reflexivity|]. apply (lm_submodel _ _ _ _ _ (M g Hg)).
    - exact A.
    - exists t. split; [exact E|]. split; [exact P|]. intros g Hg a b (Hb & Ha & Nz).
      apply (exo_sequence_topological (B g) t (seq 0 n) (seq_NoDup _ _) (all_exo_sequence_at G B g t _ Hg Q) P); [apply in_seq; lia|apply in_seq; lia|exact Nz]. }
  destruct mode as [|pk|pk]; cbn [mg_fit_order]; [apply W; exact Logic.I| |contradiction].
  destruct MF as [-> R]. destruct (extract_cases n pk) as [[po E]|E].
  - rewrite E. cbn [bind]. apply W. intros a b Hab. apply (proj1 (extract_ok n pk po E a b)) in Hab. destruct Hab as (Ha & Hb & MP).
    split; [apply R; assumption|apply in_seq; lia].
  - exfalso. apply extract_inconsistent in E. destruct E as (i & j & Hi & Hj & P1 & P2).
    assert (ND : NoDup l) by (apply (Permutation_NoDup (Permutation_sym OL)), seq_NoDup).
    apply (precedes_asym l i j ND); apply R; try assumption; left; assumption.
Qed.
