(** * Property theorems: MultiGroupDirectLiNGAM on data generated by linear acyclic models (C139) *)
From Coq Require Import List Arith Bool ZArith QArith Qcanon Lia Permutation Relations.
From Verif Require Import Prelude Spec Lib LibMat SpecDirect SpecPop ModelDirect ModelTotal ModelQuery ModelMGPop ProofDirect ProofDirect2 ProofEffect
  ProofPop ProofPop2 ProofPop3 ProofMGPop Props_Pop.
Import ListNotations.
Open Scope nat_scope.

(** [std], [dmi]: standardisation and difference of mutual information.  In data set [g] they tell directions. *)
Definition group_detects (std : gcol -> gcol) (dmi : gcol -> gcol -> gcol -> gcol -> num) (N n : nat) (B : mat Qc) (e : nat -> sample) : Prop :=
  detects_direction (fun a b => let sa := std (N, a) in let sb := std (N, b) in
                                dmi sa sb (g_residual sa sb) (g_residual sb sa)) N n B e.

(** ** C139 *)
(** The groups may differ in size, coefficients, errors and edges, as long as one order suits them all. *)
Theorem C139_shared_order_is_causal_in_every_group :
  forall G n N B e x std dmi ok mode l,
  (forall g, g < G -> linear_model (N g) n (B g) (e g) (x g)) ->
  (forall g, g < G -> group_detects std dmi (N g) n (B g) (e g)) ->
  is_order n l -> (forall g, g < G -> topological (edge_of n (B g)) l) ->
  match mode with NoPK => True | Strong pk => ok = true /\ respects n pk l | Soft _ => False end ->
  exists K, mg_fit_order g_residual (mg_M std dmi) n ok mode (mg_data G N x) = Ok K /\
    is_order n K /\ forall g, g < G -> topological (edge_of n (B g)) K.
Proof. exact mg_order_correct. Qed.
Print Assumptions C139_shared_order_is_causal_in_every_group.

Theorem C139_fit_then_effects :
  forall G n N B e x std dmi lasso ols T ok mode l,
  (forall g, g < G -> linear_model (N g) n (B g) (e g) (x g)) ->
  (forall g, g < G -> group_detects std dmi (N g) n (B g) (e g)) ->
  (forall g, g < G -> exact_regression (N g) n (x g) (lasso g)) ->
  (forall g, g < G -> exact_regression (N g) n (x g) (ols g)) ->
  (forall g, g < G -> total_effects n (B g) (T g)) ->
  is_order n l -> (forall g, g < G -> topological (edge_of n (B g)) l) ->
  match mode with NoPK => True | Strong pk => ok = true /\ respects n pk l | Soft _ => False end ->
  (forall g m i j, g < G -> pk_of_mode mode = Some m -> m i j = Some 0%Qc -> B g i j = 0%Qc) ->
  exists K As, mg_direct_fit std dmi lasso n ok mode G N x = Ok (K, As) /\
    is_order n K /\ (forall g, g < G -> topological (edge_of n (B g)) K) /\
    length As = G /\
    (forall g i j, g < G -> i < n -> j < n -> exists A, nth_error As g = Some A /\ A i j = Some (B g i j)) /\
    (forall from to_, from < n -> to_ < n ->
       exists w, mgd_estimate_total_effect n K (combine (map ols (seq 0 G)) As) from to_
                 = Ok (map (fun g => Some (T g to_ from)) (seq 0 G), w) /\ (w = true <-> precedes K to_ from)).
Proof.
  intros G n N B e x std dmi lasso ols T ok mode l M D REG REG2 HT OL TL MF PK.
  destruct (mg_order_correct G n N B e x std dmi ok mode l M D OL TL MF) as (K & E & OK & TK).
  exists K, (map (mg_adjacency lasso (pk_of_mode mode) K) (seq 0 G)). unfold mg_direct_fit. rewrite E. cbn [bind].
  assert (EA : forall g i j, g < G -> i < n -> j < n -> mg_adjacency lasso (pk_of_mode mode) K g i j = Some (B g i j)).
  { intros g i j Hg Hi Hj. unfold mg_adjacency. apply (C106_coefficients_recovered (N g) n (B g) (e g) (x g) K (lasso g)); try assumption; auto.
    intros m a b. apply (PK g m a b Hg). }
  split; [reflexivity|]. split; [exact OK|]. split; [exact TK|]. split; [rewrite map_length; apply seq_length|]. split.
  - intros g i j Hg Hi Hj. exists (mg_adjacency lasso (pk_of_mode mode) K g). split; [|apply EA; assumption].
    rewrite nth_error_map, (nth_error_nth' _ 0) by (rewrite seq_length; exact Hg). rewrite seq_nth by exact Hg. reflexivity.
  - intros f t Hf Ht.
    assert (NDK : NoDup K) by (apply (Permutation_NoDup (Permutation_sym OK)), seq_NoDup).
    assert (IK : forall i, i < n -> In i K) by (intros i Hi; apply (Permutation_in _ (Permutation_sym OK)), in_seq; lia).
    unfold mgd_estimate_total_effect.
    destruct (index_of f K) as [a|] eqn:Ea; [|apply index_of_none in Ea; contradiction (Ea (IK f Hf))].
    destruct (index_of t K) as [b|] eqn:Eb; [|apply index_of_none in Eb; contradiction (Eb (IK t Ht))].
    exists (b <? a). split.
    + f_equal. f_equal.
      assert (CM : forall gs, combine (map ols gs) (map (mg_adjacency lasso (pk_of_mode mode) K) gs) = map (fun g => (ols g, mg_adjacency lasso (pk_of_mode mode) K g)) gs)
        by (induction gs as [|y gs IH]; [reflexivity|cbn; rewrite IH; reflexivity]).
      rewrite CM, map_map. apply map_ext_in. intros g Hg. apply in_seq in Hg. cbn [fst snd].
      assert (Lg : g < G) by lia.
      destruct (C107_total_effect_exact (N g) n (B g) (e g) (x g) K (mg_adjacency lasso (pk_of_mode mode) K g) (T g) (ols g) f t (M g Lg) OK (TK g Lg)) as (w & Ew & _); auto.
      * intros j Hj NA. apply (TK g Lg). split; [exact Hf|]. split; [exact Hj|]. intro Z. apply NA. rewrite (EA g f j Lg Hf Hj), Z. reflexivity.
      * intros j Hj Nz. rewrite (EA g f j Lg Hf Hj). split; congruence.
      * unfold base_total_effect in Ew. rewrite Ea, Eb in Ew. injection Ew as Ew _. unfold effect_predictors. exact Ew.
    + rewrite Nat.ltb_lt. pose proof (index_of_some f K a Ea) as Na. pose proof (index_of_some t K b Eb) as Nb. split; intro H.
      * apply precedes_nth. exists b, a. split; [exact H|]. split; assumption.
      * apply precedes_nth in H. destruct H as (i & j & L & Hi & Hj).
        assert (i = b) by (eapply NoDup_nth_inj; eassumption). assert (j = a) by (eapply NoDup_nth_inj; eassumption). lia.
Qed.
Print Assumptions C139_fit_then_effects.
(** A common order is needed: groups whose edges oppose each other are fitted without complaint, but the shared
    order then contradicts one of them. *)
Theorem C139_common_order_needed :
  forall G n B K, (forall g, g < G -> topological (edge_of n (B g)) K) -> NoDup K ->
  acyclic (fun a b => exists g, g < G /\ edge_of n (B g) a b).
Proof.
  intros G n B K T ND. apply (topological_acyclic _ K ND). intros a b (g & Hg & E). apply (T g Hg). exact E.
Qed.
Print Assumptions C139_common_order_needed.

(** Two groups.  Group 0: four rows, x0 and x1 unrelated.  Group 1: nine rows, x0 -> x1. *)
Definition g0_e (i : nat) : sample := fun r => if i =? 0 then (if r / 2 =? 0 then 1%Qc else qz (-1)) else (if r mod 2 =? 0 then 1%Qc else qz (-1)).
Definition g0_B : mat Qc := fun _ _ => 0%Qc.
Definition gx_N (g : nat) : nat := if g =? 0 then 4 else 9.
Definition gx_B (g : nat) : mat Qc := if g =? 0 then g0_B else ex_B.
Definition gx_e (g : nat) : nat -> sample := if g =? 0 then g0_e else ex_e.
Definition gx_x (g : nat) : nat -> sample := if g =? 0 then g0_e else ex_x.
Definition gx_dmi (xi xj ri rj : gcol) : num :=
  let N := fst xi in
  let a := cov N (snd xj) (fun r => snd ri r * snd ri r)%Qc in let b := cov N (snd xi) (fun r => snd rj r * snd rj r)%Qc in Some (a * a - b * b)%Qc.
Definition g0_reg (ps : list nat) (i p : nat) : num := if p =? i then Some 1%Qc else Some 0%Qc.
Definition gx_reg (g : nat) : list nat -> nat -> nat -> num := if g =? 0 then g0_reg else ex_reg.

Lemma g0_model : linear_model 4 2 g0_B g0_e g0_e.
Proof.
  constructor.
  - apply (topological_acyclic _ [0; 1]); [repeat constructor; cbn; intuition discriminate|]. intros a b (_ & _ & Nz). contradiction Nz. reflexivity.
  - intros i r Hi Hr. rewrite sumn_zero; [ring|]. intros; unfold g0_B; ring.
  - intros i Hi. destruct i as [|[|i]]; [| |lia]; vm_compute; reflexivity.
  - intros i j Hi Hj D. destruct i as [|[|i]]; [| |lia]; destruct j as [|[|j]]; try lia; apply Qc_is_canon; vm_compute; reflexivity.
Qed.
Lemma g0_detects : group_detects (fun c => c) gx_dmi 4 2 g0_B g0_e.
Proof.
  intros U x i ND HU S Hi.
  assert (EX : forall j, exogenous_in g0_B U j) by (intros j k _; reflexivity).
  split; [|intro NX; contradiction (NX (EX i))].
  assert (X : forall k r, In k U -> r < 4 -> x k r = g0_e k r).
  { intros k r Hk Hr. rewrite (S k r Hk Hr). rewrite sumf_zero; [ring|]. intros; unfold g0_B; ring. }
  intros j Hj Nij. cbv zeta. unfold gx_dmi, g_residual. cbn [fst snd]. cbv zeta.
  assert (XI : forall r, r < 4 -> x i r = g0_e i r) by (intros r Hr; apply X; assumption).
  assert (XJ : forall r, r < 4 -> x j r = g0_e j r) by (intros r Hr; apply X; assumption).
  rewrite (cov_ext 4 (x j) (g0_e j) (fun r => np_residual 4 (x i) (x j) r * np_residual 4 (x i) (x j) r)%Qc (fun r => np_residual 4 (g0_e i) (g0_e j) r * np_residual 4 (g0_e i) (g0_e j) r)%Qc XJ)
    by (intros r Hr; rewrite (np_residual_ext 4 _ (g0_e i) _ (g0_e j) XI XJ r Hr); reflexivity).
  rewrite (cov_ext 4 (x i) (g0_e i) (fun r => np_residual 4 (x j) (x i) r * np_residual 4 (x j) (x i) r)%Qc (fun r => np_residual 4 (g0_e j) (g0_e i) r * np_residual 4 (g0_e j) (g0_e i) r)%Qc XI)
    by (intros r Hr; rewrite (np_residual_ext 4 _ (g0_e j) _ (g0_e i) XJ XI r Hr); reflexivity).
  eexists. split; [reflexivity|]. intros _. pose proof (HU i Hi). pose proof (HU j Hj).
  destruct i as [|[|i]]; [| |lia]; (destruct j as [|[|j]]; [| |lia]); try congruence; vm_compute; discriminate.
Qed.
Lemma g0_regression : exact_regression 4 2 g0_e g0_reg.
Proof.
  intros ps i Hi HP ND NE. exists (fun p => if p =? i then 1%Qc else 0%Qc). split; [|intros p Hp; unfold g0_reg; destruct (p =? i); reflexivity].
  intros q Hq. destruct (in_dec Nat.eq_dec i ps) as [I|I].
  - rewrite (cov_ext 4 _ (fun _ => 0%Qc) _ (g0_e q)); [apply cov_zero| |reflexivity]. intros r Hr.
    rewrite (sumf_split ps i _ ND I). rewrite Nat.eqb_refl. rewrite sumf_zero; [ring|]. intros j Hj. apply remove_nat_In in Hj. destruct Hj as [_ Nj]. destruct (Nat.eqb_spec j i); [contradiction|ring].
  - rewrite (cov_ext 4 _ (g0_e i) _ (g0_e q)); [| |reflexivity].
    + apply (lm_uncorrelated _ _ _ _ _ g0_model); [exact Hi|apply HP; exact Hq|intros ->; contradiction].
    + intros r Hr. rewrite sumf_zero; [ring|]. intros j Hj. destruct (Nat.eqb_spec j i) as [->|]; [contradiction|ring].
Qed.
Example C139_example :
  (forall g, g < 2 -> linear_model (gx_N g) 2 (gx_B g) (gx_e g) (gx_x g)) /\
  (forall g, g < 2 -> group_detects (fun c => c) gx_dmi (gx_N g) 2 (gx_B g) (gx_e g)) /\
  (forall g, g < 2 -> exact_regression (gx_N g) 2 (gx_x g) (gx_reg g)) /\
  (forall g, g < 2 -> topological (edge_of 2 (gx_B g)) [0; 1]) /\
  mg_fit_order g_residual (mg_M (fun c => c) gx_dmi) 2 true NoPK (mg_data 2 gx_N gx_x) = Ok [0; 1] /\
  (* the edge of group 1 alone decides, also when it runs against the numbering *)
  mg_fit_order g_residual (mg_M (fun c => c) gx_dmi) 2 true NoPK (mg_data 2 gx_N (fun g i => gx_x g (1 - i))) = Ok [1; 0] /\
  mg_fit_order g_residual (mg_M (fun c => c) gx_dmi) 2 true NoPK (mg_data 1 gx_N (fun g i => gx_x g (1 - i))) = Ok [0; 1] /\
  (* opposite edges: fitted all the same *)
  mg_fit_order g_residual (mg_M (fun c => c) gx_dmi) 2 true NoPK (mg_data 2 (fun _ => 9) (fun g i => if g =? 0 then ex_x i else ex_x (1 - i))) = Ok [0; 1].
Proof.
  split; [|split; [|split; [|split; [|split; [|split; [|split]]]]]].
  - intros g Hg. destruct g as [|[|g]]; [exact g0_model|exact ex_model|lia].
  - intros g Hg. destruct g as [|[|g]]; [exact g0_detects|exact (proj1 C105_pairwise_example)|lia].
  - intros g Hg. destruct g as [|[|g]]; [exact g0_regression|exact ex_regression|lia].
  - intros g Hg. destruct g as [|[|g]]; [|exact ex_topo|lia]. intros a b (_ & _ & Nz). contradiction Nz. reflexivity.
  - vm_compute. reflexivity.
  - vm_compute. reflexivity.
  - vm_compute. reflexivity.
  - vm_compute. reflexivity.
Qed.
