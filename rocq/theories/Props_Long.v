(** * LongitudinalLiNGAM: C50, C51, C81-C83.  Every theorem is followed by its assumptions. *)
From Coq Require Import List Arith Lia Bool ZArith QArith Qcanon Permutation Relations.
From Verif Require Import Prelude Spec Lib LibMat ModelPaths ProofPaths ProofTotal ModelVAR ProofVAR Props_VAR ModelLong ProofLong.
Import ListNotations.
Open Scope nat_scope.

(** ** C50 *)
(** The structural equation documented for [adj]: with errors [e],
    X_t = adj[t,0] X_t + sum_{tau = 1..L} adj[t,tau] X_{t - tau} + e_t. *)
Definition documented_equation (p L : nat) (X : panel) (adj : nat -> nat -> mat num) (t : nat) (e : mat Qc) : Prop :=
  forall s i, i < p ->
  X t s i = (sumn p (fun j => nan_to_num (adj t 0%nat i j) * X t s j) +
             sumn L (fun l => sumn p (fun j => nan_to_num (adj t (l + 1)%nat i j) * X (t - (l + 1))%nat s j)) + e i s)%Qc.
(** The errors of the instantaneous model: (I - B(t,t)) times the residuals [N]. *)
Definition inst_errors (p : nat) (B N : mat Qc) : mat Qc := fun i s => sumn p (fun j => msub midn B i j * N j s)%Qc.

(** What the code computes, for every number of lags: the matrix stored at lag [tau] belongs to
    time t - (L + 1 - tau). *)
Theorem C50_actual_lags_partial :
  forall reg lingam p L X t, 1 <= L -> L <= t -> forall s i, i < p ->
  let adj := long_adj reg lingam p L X in
  X t s i = (sumn p (fun j => nan_to_num (adj t 0%nat i j) * X t s j) +
             sumn L (fun l => sumn p (fun j => nan_to_num (adj t (l + 1)%nat i j) * X (t - (L - l))%nat s j)) +
             inst_errors p (B_t reg lingam p L X t) (N_t reg p L X t) i s)%Qc.
Proof.
  intros reg lingam p L X t HL Ht s i Hi adj. unfold inst_errors. rewrite (long_structural reg lingam p L X t s i Ht Hi).
  assert (E0 : forall j, nan_to_num (adj t 0 i j) = B_t reg lingam p L X t i j).
  { intro j. unfold adj, long_adj. destruct (Nat.ltb_spec t L); [lia|reflexivity]. }
  assert (E1 : forall l j, nan_to_num (adj t (l + 1) i j) = B_tau reg lingam p L X t l i j).
  { intros l j. unfold adj, long_adj. destruct (Nat.ltb_spec t L); [lia|]. rewrite Nat.add_1_r. reflexivity. }
  rewrite (sumn_ext p (fun j => nan_to_num (adj t 0%nat i j) * X t s j)%Qc (fun j => B_t reg lingam p L X t i j * X t s j)%Qc)
    by (intros; rewrite E0; reflexivity).
  rewrite (sumn_ext L (fun l => sumn p (fun j => nan_to_num (adj t (l + 1)%nat i j) * X (t - (L - l))%nat s j))%Qc
    (fun l => sumn p (fun j => B_tau reg lingam p L X t l i j * X (t - L + l)%nat s j))%Qc).
  - ring.
  - intros l Hl. apply sumn_ext. intros j Hj. rewrite E1. replace (t - (L - l)) with (t - L + l) by lia. reflexivity.
Qed.
Print Assumptions C50_actual_lags_partial.
(** With one lag this is the documented equation. *)
Theorem C50_one_lag_partial :
  forall reg lingam p X t, 1 <= t ->
  documented_equation p 1 X (long_adj reg lingam p 1 X) t (inst_errors p (B_t reg lingam p 1 X t) (N_t reg p 1 X t)).
Proof.
  intros reg lingam p X t Ht s i Hi. exact (C50_actual_lags_partial reg lingam p 1 X t (Nat.le_refl 1) Ht s i Hi).
Qed.
Print Assumptions C50_one_lag_partial.
(** Three samples of one variable with X_2 = 2 X_0 + 3 X_1 exactly; the regression finds exactly
    these coefficients and leaves no residual. *)
Definition panel_of (l : list (list (list Z))) : panel := fun t s i => qz (nth i (nth s (nth t l []) []) 0%Z).
Definition ex_panel : panel := panel_of [[[1]; [0]; [0]]; [[0]; [1]; [0]]; [[2]; [3]; [0]]]%Z.
Definition ex_reg : mat Qc -> mat Qc -> mat Qc := fun _ _ _ c => qz (nth c [2; 3]%Z 0%Z).
Definition one_lingam : mat Qc -> list nat * mat Qc := fun _ => ([0], fun _ _ => 0%Qc).
Theorem C50_lag_axis_refuted :
  (forall s, s < 3 -> N_t ex_reg 1 2 ex_panel 2 0 s = 0%Qc) /\
  ~ documented_equation 1 2 ex_panel (long_adj ex_reg one_lingam 1 2 ex_panel) 2
      (inst_errors 1 (B_t ex_reg one_lingam 1 2 ex_panel 2) (N_t ex_reg 1 2 ex_panel 2)).
Proof.
  split.
  - intros s Hs. apply Qc_is_canon. destruct s as [|[|[|s]]]; [vm_compute; reflexivity..|lia].
  - intro H. specialize (H 0 0 Nat.lt_0_1). apply (f_equal this) in H. vm_compute in H. discriminate.
Qed.
Print Assumptions C50_lag_axis_refuted.
(** With prior knowledge the same reversal is applied on purpose (line 171): the matrix stored at
    [tau >= 1] is the block of the global matrix for time t - (L + 1 - tau). *)
Theorem C50_prior_knowledge_partial :
  forall p L G t tau i j, 1 <= tau -> tau <= L -> L <= t ->
  long_adj_pk p L G t 0 i j = Some (G (t * p + i) (t * p + j)) /\
  long_adj_pk p L G t tau i j = Some (G (t * p + i) ((t - (L + 1 - tau)) * p + j)) /\
  (L = 1 -> long_adj_pk p L G t tau i j = Some (G (t * p + i) ((t - tau) * p + j))).
Proof.
  intros p L G t tau i j H1 H2 Ht. unfold long_adj_pk. destruct (Nat.ltb_spec t L); [lia|]. rewrite Nat.sub_0_r.
  destruct tau as [|tau]; [lia|]. split; [reflexivity|]. split; [reflexivity|]. intro E. subst L.
  replace (1 + 1 - S tau) with (S tau) by lia. reflexivity.
Qed.
Print Assumptions C50_prior_knowledge_partial.
Theorem C50_prior_knowledge_refuted :
  ~ forall p L G t tau i j, tau <= L -> L <= t -> i < p -> j < p ->
    long_adj_pk p L G t tau i j = Some (G (t * p + i) ((t - tau) * p + j)).
Proof.
  intro H. specialize (H 1 2 (fun r c => qz (Z.of_nat c)) 2 1 0 0 ltac:(lia) ltac:(lia) Nat.lt_0_1 Nat.lt_0_1).
  assert (E : nan_to_num (long_adj_pk 1 2 (fun r c => qz (Z.of_nat c)) 2 1 0 0) = nan_to_num (Some (qz 1))) by (rewrite H; reflexivity).
  apply (f_equal this) in E. vm_compute in E. discriminate.
Qed.
Print Assumptions C50_prior_knowledge_refuted.
Example C50_example : (* the coefficient 2 of X_{t-2} is reported at lag 1 *)
  map (fun tau => this (nan_to_num (long_adj ex_reg one_lingam 1 2 ex_panel 2 tau 0 0))) [0; 1; 2] = [0; 2; 3]%Q /\
  long_adj ex_reg one_lingam 1 2 ex_panel 1 0 0 0 = None.
Proof. split; vm_compute; reflexivity. Qed.

(** ** C51 *)
(** Two or more lags and the default [start_from_t] = 1: TypeError, for every estimator and data. *)
Theorem C51_default_start_refuted :
  forall reg lingam p L X T, 2 <= L -> 1 <= p -> 2 <= T -> 2 <= p \/ 3 <= T ->
  (forall N, is_order p (fst (lingam N))) ->
  long_boot_effects p L (long_adj reg lingam p L X) (long_orders reg lingam p L X) T 1 = Err TypeError.
Proof.
  intros reg lingam p L X T HL Hp HT HD HO. apply long_boot_nan; [exact Hp|exact HT| |].
  - destruct HD as [HD|HD]; [left; exact HD|right; split; [exact HD|]]. unfold long_orders. destruct (2 <? L).
    + destruct p; [lia|discriminate].
    + pose proof (Permutation_length (HO (N_t reg p L X 2))) as E. rewrite seq_length in E.
      destruct (fst (lingam (N_t reg p L X 2))); cbn [length] in E; [lia|discriminate].
  - unfold long_orders. destruct (Nat.ltb_spec 1 L); [reflexivity|lia].
Qed.
Print Assumptions C51_default_start_refuted.
Example C51_refuted_example :
  long_boot_effects 1 2 (long_adj ex_reg one_lingam 1 2 ex_panel) (long_orders ex_reg one_lingam 1 2 ex_panel) 3 1 = Err TypeError.
Proof.
  apply C51_default_start_refuted; try lia. intro N. apply Permutation_refl.
Qed.
(** Started at n_lags or later (the default 1 when n_lags = 1) every total effect is computed:
    exactly the pairs "from before to in the order of the same time, or to at a later time". *)
Theorem C51_start_partial :
  forall reg lingam p L X T start, L <= start ->
  (forall N, is_order p (fst (lingam N)) /\ acyclic (edge_of p (snd (lingam N)))) ->
  let adj := long_adj reg lingam p L X in
  let orders := long_orders reg lingam p L X in
  exists es, long_boot_effects p L adj orders T start = Ok es /\
    forall x, In x es <-> exists from_t from to_t to_ e, start <= from_t /\ from_t <= to_t /\ to_t < T /\ from < p /\ to_ < p /\
      (to_t = from_t -> precedes (fst (lingam (N_t reg p L X from_t))) from to_) /\
      long_effect2 p L adj orders from_t (Some from) to_t (Some to_) = Ok e /\ x = (to_t, Some to_, (from_t, Some from), e).
Proof.
  intros reg lingam p L X T start HS HL adj orders.
  apply (long_boot_ok p L adj orders T start (fun t => fst (lingam (N_t reg p L X t)))).
  intros t H1 H2. destruct (HL (N_t reg p L X t)) as [O A]. split; [|split; [exact O|]].
  - unfold orders, long_orders. destruct (Nat.ltb_spec t L); [lia|reflexivity].
  - eapply acyclic_sub; [|exact A]. intros a b (Ha & Hb & E). split; [exact Ha|]. split; [exact Hb|].
    unfold denan, adj, long_adj in E. destruct (Nat.ltb_spec t L); [lia|exact E].
Qed.
Print Assumptions C51_start_partial.
Example C51_example : exists es,
  long_boot_effects 1 2 (long_adj ex_reg one_lingam 1 2 ex_panel) (long_orders ex_reg one_lingam 1 2 ex_panel) 3 2 = Ok es.
Proof.
  destruct (C51_start_partial ex_reg one_lingam 1 2 ex_panel 3 2 (Nat.le_refl 2)) as [es [E _]].
  - intro N. split; [apply Permutation_refl|]. intros v C. apply clos_trans_t1n in C. destruct C as [? (_ & _ & E)|? ? (_ & _ & E)]; apply E; reflexivity.
  - exists es. exact E.
Qed.

(** ** C81 *)
(** The constraint matrix given to DirectLiNGAM: entry ((t,i),(s,j)) is the user's knowledge about
    the effect of variable j at time s on variable i at time t if t - L <= s <= t (anything but 0
    and 1 meaning unknown), and "no effect" for all later or more distant s. *)
Theorem C81_prior_knowledge_blocks :
  forall p L T A t s i j, i < p -> j < p -> t < T -> s < T ->
  (t < s \/ s + L < t -> long_pk p L T A (t * p + i) (s * p + j) = 0%Z) /\
  (s <= t -> t <= s + L ->
     (A t (t - s) i j = 0%Z -> long_pk p L T A (t * p + i) (s * p + j) = 0%Z) /\
     (A t (t - s) i j = 1%Z -> long_pk p L T A (t * p + i) (s * p + j) = 1%Z) /\
     (A t (t - s) i j <> 0%Z -> A t (t - s) i j <> 1%Z -> long_pk p L T A (t * p + i) (s * p + j) = (-1)%Z)).
Proof.
  intros p L T A t s i j Hi Hj Ht Hs. rewrite (long_pk_spec p L T A t s i j Hi Hj Ht Hs). split.
  - intro H. destruct (Nat.leb_spec s t); destruct (Nat.leb_spec (t - s) L); cbn [andb]; try reflexivity; lia.
  - intros H1 H2. destruct (Nat.leb_spec s t); [|lia]. destruct (Nat.leb_spec (t - s) L); [|lia]. cbn [andb]. cbv zeta.
    destruct (Z.eqb_spec (A t (t - s) i j) 0); [repeat split; intros; congruence|].
    destruct (Z.eqb_spec (A t (t - s) i j) 1); repeat split; intros; congruence.
Qed.
Print Assumptions C81_prior_knowledge_blocks.
Example C81_example : (* two time points, one lag, two variables; everything unknown except X0(t0) -> X1(t1) *)
  let A := fun t tau i j => if (t =? 1) && (tau =? 1) && (i =? 1) && (j =? 0) then 1%Z else if (tau =? 0) && (i =? j) then 0%Z else (-1)%Z in
  map (fun r => map (long_pk 2 1 2 A r) (seq 0 4)) (seq 0 4) = [[0; -1; 0; 0]; [-1; 0; 0; 0]; [-1; -1; 0; -1]; [1; -1; -1; 0]]%Z.
Proof. vm_compute. reflexivity. Qed.

(** ** C82 *)
Theorem C82_orders_with_prior_knowledge :
  forall p T order t, 0 < p -> t < T -> is_order (T * p) order ->
  is_order p (long_order_pk p order t) /\
  forall i j, i < p -> j < p -> (precedes (long_order_pk p order t) i j <-> precedes order (t * p + i) (t * p + j)).
Proof.
  intros p T order t Hp Ht HO. destruct (long_order_pk_spec p T order t Hp Ht HO) as [H1 H2]. split; [exact H1|].
  intros i j Hi Hj. split; [|apply H2; assumption]. intro P.
  assert (ND : NoDup (long_order_pk p order t)) by (eapply Permutation_NoDup; [symmetry; exact H1|apply seq_NoDup]).
  assert (NE : i <> j) by (intro E; subst j; eapply precedes_irrefl; eassumption).
  assert (I1 : In (t * p + i) order) by (eapply Permutation_in; [symmetry; exact HO|apply in_seq; nia]).
  assert (I2 : In (t * p + j) order) by (eapply Permutation_in; [symmetry; exact HO|apply in_seq; nia]).
  destruct (precedes_total order _ _ I1 I2 ltac:(lia)) as [Q|Q]; [exact Q|]. exfalso.
  eapply precedes_asym; [exact ND|exact P|]. apply H2; assumption.
Qed.
Print Assumptions C82_orders_with_prior_knowledge.
Example C82_example : long_order_pk 2 [1; 3; 0; 2] 1 = [1; 0] /\ is_order (2 * 2) [1; 3; 0; 2].
Proof.
  split; [reflexivity|]. apply NoDup_Permutation_bis; [repeat (constructor; [cbn; intuition lia|]); constructor|reflexivity|].
  intros x H. cbn in H. apply in_seq. intuition lia.
Qed.

(** ** C83 *)
(** estimate_total_effect2 is the entry of the inverse of I - E, where E is the unrolled matrix
    over the time points from_t .. to_t with the block adj[i, i - j] from time j to time i. *)
Theorem C83_total_effect2 :
  forall p L adj orders from_t f to_t g, from_t <= to_t -> f < p -> g < p ->
  (to_t = from_t -> f <> g /\ In (Some f) (orders from_t) /\ In (Some g) (orders from_t)) ->
  (forall t, from_t <= t -> t <= to_t -> acyclic (edge_of p (denan (adj t 0)))) ->
  let n_t := to_t - from_t + 1 in
  exists e, long_effect2 p L adj orders from_t (Some f) to_t (Some g) = Ok (Some e) /\
    forall E T, (forall i j a b, i < n_t -> j < n_t -> a < p -> b < p ->
        E (p * i + a)%nat (p * j + b)%nat =
        (if (j <=? i) && (i - j <=? L) then nan_to_num (adj (i + from_t) (i - j) a b) else 0%Qc)) ->
      meq (p * n_t) (mmul (p * n_t) (msub midn E) T) midn ->
      e = T (p * (to_t - from_t) + g) f.
Proof. exact long_effect2_spec. Qed.
Print Assumptions C83_total_effect2.
Example C83_example : (* one variable, one lag: 2 then 3 along the times *)
  let adj := fun t tau _ _ => if tau =? 1 then Some (qz (Z.of_nat (t + 1))) else Some 0%Qc in
  match long_effect2 1 1 adj (fun _ => [Some 0]) 0 (Some 0) 2 (Some 0) with Ok (Some q) => this q | _ => 99%Q end = 6%Q.
Proof. vm_compute. reflexivity. Qed.
(** Together with C50: for n_lags >= 2 this "total effect" uses the lags in reverse order, so it is
    not the total effect of the fitted equation X_t = 2 X_{t-2} + 3 X_{t-1}, whose unrolled matrix
    over three time points is [law]. *)
Definition law : mat Qc := fun r c => if r =? c + 1 then qz 3 else if r =? c + 2 then qz 2 else 0%Qc.
Theorem C83_reversed_lags_refuted :
  let adj := long_adj ex_reg one_lingam 1 2 (fun t => ex_panel (Nat.min t 2)) in
  exists e, long_effect2 1 2 adj (fun _ => [Some 0]) 2 (Some 0) 4 (Some 0) = Ok (Some e) /\
    forall T, meq 3 (mmul 3 (msub midn law) T) midn -> e <> T 2 0.
Proof.
  cbn zeta. set (adj := long_adj _ _ _ _ _).
  destruct (C83_total_effect2 1 2 adj (fun _ => [Some 0]) 2 0 4 0) as [e [E U]]; try lia.
  - intros t H1 H2 v C. apply clos_trans_t1n in C.
    assert (Z : forall a b, ~ edge_of 1 (denan (adj t 0)) a b).
    { intros a b (_ & _ & N). apply N. unfold denan, adj, long_adj. destruct (t <? 2); reflexivity. }
    destruct C as [? H|? ? H]; eapply Z; eassumption.
  - exists e. split; [exact E|].
    assert (G : match long_effect2 1 2 adj (fun _ => [Some 0]) 2 (Some 0) 4 (Some 0) with Ok (Some q) => this q | _ => 99%Q end = 7%Q) by (vm_compute; reflexivity).
    rewrite E in G. intros T HT Z.
    pose proof (HT 0 0 ltac:(lia) ltac:(lia)) as H0. pose proof (HT 1 0 ltac:(lia) ltac:(lia)) as H1. pose proof (HT 2 0 ltac:(lia) ltac:(lia)) as H2.
    unfold mmul, msub, midn, law in H0, H1, H2. rewrite !sumn_S in H0, H1, H2. cbn [Nat.eqb Nat.add] in H0, H1, H2.
    assert (S0 : forall f, sumn 0 f = 0%Qc) by reflexivity. rewrite S0 in H0, H1, H2.
    assert (T0 : T 0 0 = 1%Qc) by (rewrite <- H0; ring).
    assert (T1 : T 1 0 = qz 3) by (transitivity (0 + qz 3 * T 0%nat 0%nat)%Qc; [rewrite <- H1; ring|rewrite T0; ring]).
    assert (T2 : T 2 0 = (qz 3 * qz 3 + qz 2)%Qc) by (transitivity (0 + qz 3 * T 1%nat 0%nat + qz 2 * T 0%nat 0%nat)%Qc; [rewrite <- H2; ring|rewrite T0, T1; ring]).
    rewrite Z, T2 in G. vm_compute in G. discriminate.
Qed.
Print Assumptions C83_reversed_lags_refuted.
