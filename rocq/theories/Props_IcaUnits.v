(** * Properties of ICALiNGAM: units, signs and order of the components (C172-C173) *)
From Coq Require Import List Arith Bool ZArith QArith Qcanon Lia Permutation Relations Sorted.
From Verif Require Import Prelude Spec Lib LibMat ModelDirect ModelOrder ProofDirect ProofOrder ProofEffect ProofIca ProofLim ProofIcaUnits Props_Pop.
Import ListNotations.
Open Scope nat_scope.

(** C172, refuted.  In other units x_j -> c_j x_j the same components are computed by the unmixing matrix W_rj / c_j.
    For every unmixing matrix without zero entries and every order of the variables there are units in which
    ICALiNGAM returns this order, whatever assignment of rows to variables is used. *)
Theorem C172_every_order_in_some_units_refuted :
  forall n W K, 2 <= n -> (forall i j, i < n -> j < n -> W i j <> 0%Qc) -> is_order n K ->
  exists c, (forall j, (0 < c j)%Qc) /\
    forall cinv pos, (forall i, i < n -> cinv i < n) -> Permutation pos (list_prod (seq 0 n) (seq 0 n)) ->
    let M := fun i j => Some (ica_B (fun r j => (W r j / c j)%Qc) cinv i j) in
    sorted_pos M pos -> fst (ica_estimate_order n pos M) = Some K.
Proof. intros n W K Hn HW O. destruct (any_order n W K Hn HW O) as (c & Hc & H). exists c. split; [exact Hc|]. intros cinv pos RI P M S. apply H; assumption. Qed.
Print Assumptions C172_every_order_in_some_units_refuted.
(** An unmixing matrix close to that of x1 = x0 + e1, x2 = x1 + e2 (hundredths). *)
Definition nearW : mat Qc := fun r j => qf (nth j (nth r [[100; 1; 2]; [-100; 100; 1]; [2; -99; 101]]%Z []) 0%Z) 100.
Example C172_example_hypotheses : (forall i j, i < 3 -> j < 3 -> nearW i j <> 0%Qc) /\ is_order 3 [2; 1; 0].
Proof.
  split; [|unfold is_order; exact (Permutation_sym (Permutation_rev [0; 1; 2]))].
  intros i j Hi Hj Z. apply (f_equal this) in Z. destruct i as [|[|[|i]]]; try lia; destruct j as [|[|[|j]]]; try lia; vm_compute in Z; discriminate Z.
Qed.
(** as measured: 0, 1, 2; with x1 in units 1/200 and x0 in units 1/40000: 2, 1, 0 *)
Example C172_example_orders :
  let M1 := fun i j => Some (ica_B nearW (fun i => i) i j) in
  let M2 := fun i j => Some (ica_B (fun r j => nearW r j / nth j [qz 40000; qz 200; 1] 1)%Qc (fun i => i) i j) in
  let p1 := [(0, 0); (1, 1); (2, 2); (1, 2); (0, 1); (2, 0); (0, 2); (2, 1); (1, 0)] in
  let p2 := [(0, 0); (1, 1); (2, 2); (2, 0); (2, 1); (1, 0); (0, 1); (1, 2); (0, 2)] in
  sorted_pos M1 p1 /\ Permutation p1 (list_prod (seq 0 3) (seq 0 3)) /\ fst (ica_estimate_order 3 p1 M1) = Some [0; 1; 2] /\
  sorted_pos M2 p2 /\ Permutation p2 (list_prod (seq 0 3) (seq 0 3)) /\ fst (ica_estimate_order 3 p2 M2) = Some [2; 1; 0].
Proof.
  cbv zeta.
  assert (PP : forall p : list (nat * nat), NoDup p -> length p = 9 -> incl p (list_prod (seq 0 3) (seq 0 3)) -> Permutation p (list_prod (seq 0 3) (seq 0 3))) by (intros p N L I; apply NoDup_Permutation_bis; [exact N|rewrite L; cbn; lia|exact I]).
  assert (DI : forall p q : nat * nat, {p = q} + {p <> q}) by (decide equality; apply Nat.eq_dec).
  split; [unfold sorted_pos; repeat constructor; cbn [fst snd nle_abs]; vm_compute; discriminate|].
  split; [apply PP; [repeat constructor; cbn; intuition discriminate|reflexivity|intros q Hq; cbn in Hq; cbn; intuition (subst; auto 12)]|]. split; [vm_compute; reflexivity|].
  split; [unfold sorted_pos; repeat constructor; cbn [fst snd nle_abs]; vm_compute; discriminate|].
  split; [apply PP; [repeat constructor; cbn; intuition discriminate|reflexivity|intros q Hq; cbn in Hq; cbn; intuition (subst; auto 12)]|]. vm_compute; reflexivity.
Qed.

(** C172, the part that holds: from an exact unmixing matrix of an acyclic model the order is a causal order in all
    units, and the estimate is the model in these units. *)
Theorem C172_exact_partial :
  forall n B W u c cinv pos, 2 <= n -> acyclic (edge_of n B) -> scaled_permuted_model n B W -> (forall j, u j <> 0%Qc) ->
  let W' := fun r j => (W r j / u j)%Qc in assignment_without_zeros n W' c cinv ->
  Permutation pos (list_prod (seq 0 n) (seq 0 n)) -> sorted_pos (fun i j => Some (ica_B W' cinv i j)) pos ->
  (forall i j, i < n -> j < n -> ica_B W' cinv i j = (u i * B i j / u j)%Qc) /\
  exists K, fst (ica_estimate_order n pos (fun i j => Some (ica_B W' cinv i j))) = Some K /\ is_order n K /\ topological (edge_of n B) K.
Proof.
  intros n B W u c cinv pos Hn A SP Hu W' AS P S.
  assert (NZ : forall r, r < n -> W r (c r) <> 0%Qc). { intros r Hr Z. destruct (AS r Hr) as (_ & _ & _ & _ & N). apply N. unfold W'. rewrite Z. unfold Qcdiv. ring. }
  assert (AW : assignment_without_zeros n W c cinv). { intros r Hr. destruct (AS r Hr) as (A1 & A2 & A3 & A4 & _). repeat split; try assumption. apply NZ. exact Hr. }
  assert (EB := C109_ica_estimate_exact n B W c cinv A SP AW).
  assert (E : forall i j, i < n -> j < n -> ica_B W' cinv i j = (u i * B i j / u j)%Qc).
  { intros i j Hi Hj. rewrite <- (EB i j Hi Hj). apply (ica_units_entry W u cinv i j Hu). destruct (AW (cinv i)) as (_ & _ & _ & _ & N); [apply (AW i Hi)|].
    destruct (AW i Hi) as (_ & _ & A3 & _ & _). rewrite A3 in N. exact N. }
  split; [exact E|].
  assert (EQ : forall a b, edge_of n (ica_B W' cinv) a b <-> edge_of n B a b).
  { intros a b. unfold edge_of. split; intros (Hb & Ha & Nz); (split; [exact Hb|]; split; [exact Ha|]); rewrite E in * by assumption.
    - intro Z. apply Nz. rewrite Z. unfold Qcdiv. ring.
    - intro Z. apply Nz. transitivity (u b * B b a / u a * u a / u b)%Qc; [field; split; apply Hu|rewrite Z; unfold Qcdiv; ring]. }
  destruct (ica_order_exact n pos (ica_B W' cinv) Hn P S) as (K & EK & O & T).
  { apply (acyclic_sub _ (edge_of n B)); [intros a b; apply EQ|exact A]. }
  exists K. split; [exact EK|]. split; [exact O|]. intros a b H. apply T, EQ, H.
Qed.
Print Assumptions C172_exact_partial.
Example C172_example_exact : acyclic (edge_of 2 ex_B) /\ scaled_permuted_model 2 ex_B ex_W /\
  assignment_without_zeros 2 (fun r j => ex_W r j / (if (j =? 0)%nat then qz 1000 else qz (-3)))%Qc (fun r => 1 - r) (fun r => 1 - r).
Proof.
  split; [apply (topological_acyclic _ [0; 1]); [repeat constructor; cbn; intuition discriminate|exact ex_topo]|]. split; [apply C109_example|].
  intros r Hr. destruct r as [|[|r]]; [| |lia]; repeat split; cbn; try lia; intro Z; apply (f_equal this) in Z; vm_compute in Z; discriminate Z.
Qed.

(** C173.  Signs and order of the components do not matter: with components s_r y_(p r) instead of y_r the assignments
    of minimal cost correspond to each other and give the same estimate. *)
Definition assignment_cost (n : nat) (W : mat Qc) (c : nat -> nat) : Qc := sumn n (fun r => / qabs (W r (c r)))%Qc.
Definition bijection (n : nat) (c cinv : nat -> nat) : Prop := forall r, r < n -> c r < n /\ cinv r < n /\ c (cinv r) = r /\ cinv (c r) = r.
Definition optimal_assignment (n : nat) (W : mat Qc) (c cinv : nat -> nat) : Prop :=
  bijection n c cinv /\ forall d dinv, bijection n d dinv -> (assignment_cost n W c <= assignment_cost n W d)%Qc.
Lemma bijection_perm : forall n p pinv, bijection n p pinv -> Permutation (map p (seq 0 n)) (seq 0 n).
Proof.
  intros n p pinv H. apply NoDup_Permutation_bis.
  - assert (G : forall l, NoDup l -> (forall r, In r l -> r < n) -> NoDup (map p l)).
    { induction l as [|x l IH]; intros ND I; [constructor|]. inversion ND as [|? ? NI ND']; subst. cbn. constructor; [|apply IH; [exact ND'|intros r Hr; apply I; right; exact Hr]].
      intro Q. apply in_map_iff in Q. destruct Q as (y & E & Hy). apply NI. replace x with y; [exact Hy|].
      destruct (H x (I x (or_introl eq_refl))) as (_ & _ & _ & Q1). destruct (H y (I y (or_intror Hy))) as (_ & _ & _ & Q2). congruence. }
    apply G; [apply seq_NoDup|]. intros r Hr. apply in_seq in Hr. lia.
  - rewrite map_length. apply Nat.le_refl.
  - intros r Hr. apply in_map_iff in Hr. destruct Hr as (y & <- & Hy). apply in_seq in Hy. apply in_seq. destruct (H y ltac:(lia)). lia.
Qed.
Lemma qabs_sign : forall s x, (s = 1 \/ s = - (1))%Qc -> qabs (s * x) = qabs x.
Proof. intros s x [-> | ->]; rewrite qabs_mult; [replace (qabs 1) with 1%Qc by reflexivity|replace (qabs (- (1))) with 1%Qc by reflexivity]; ring. Qed.
Lemma cost_permuted : forall n W p pinv s d, bijection n p pinv -> (forall r, (s r = 1 \/ s r = - (1))%Qc) ->
  assignment_cost n (fun r j => s r * W (p r) j)%Qc (fun r => d (p r)) = assignment_cost n W d.
Proof.
  intros n W p pinv s d HP HS. unfold assignment_cost. unfold sumn. rewrite <- (sumf_perm _ (fun r => / qabs (W r (d r)))%Qc _ _ (bijection_perm n p pinv HP)).
  unfold sumf. rewrite map_map. f_equal. apply map_ext. intro r. rewrite qabs_sign by apply HS. reflexivity.
Qed.
Theorem C173_signs_and_order_of_components :
  forall n W p pinv s c cinv, (forall r j, r < n -> j < n -> W r j <> 0%Qc) -> bijection n p pinv -> (forall r, (s r = 1 \/ s r = - (1))%Qc) -> optimal_assignment n W c cinv ->
  let W' := fun r j => (s r * W (p r) j)%Qc in
  optimal_assignment n W' (fun r => c (p r)) (fun i => pinv (cinv i)) /\
  forall i j, i < n -> j < n -> ica_B W' (fun i => pinv (cinv i)) i j = ica_B W cinv i j.
Proof.
  intros n W p pinv s c cinv NW HP HS [HC OPT] W'. split; [split|].
  - intros r Hr. destruct (HP r Hr) as (A1 & A2 & A3 & A4). destruct (HC r Hr) as (B1 & B2 & B3 & B4).
    destruct (HC (p r) A1) as (C1 & C2 & C3 & C4). destruct (HP (cinv r) B2) as (D1 & D2 & D3 & D4). repeat split; try assumption; congruence.
  - intros d dinv HD. unfold W'. rewrite (cost_permuted n W p pinv s c HP HS).
    assert (Q : assignment_cost n (fun r j => s r * W (p r) j)%Qc d = assignment_cost n W (fun r => d (pinv r))).
    { rewrite <- (cost_permuted n W p pinv s (fun r => d (pinv r)) HP HS). unfold assignment_cost. apply sumn_ext. intros r Hr. destruct (HP r Hr) as (_ & _ & _ & E). rewrite E. reflexivity. }
    rewrite Q. apply (OPT _ (fun i => p (dinv i))). intros r Hr. destruct (HP r Hr) as (A1 & A2 & A3 & A4). destruct (HD r Hr) as (B1 & B2 & B3 & B4).
    destruct (HD (pinv r) A2) as (C1 & C2 & C3 & C4). destruct (HP (dinv r) B2) as (D1 & D2 & D3 & D4). repeat split; try assumption; congruence.
  - intros i j Hi Hj. unfold ica_B, W'. cbv zeta. destruct (HC i Hi) as (_ & B2 & _). destruct (HP (cinv i) B2) as (_ & _ & E & _). rewrite E.
    assert (NZ : s (pinv (cinv i)) <> 0%Qc) by (destruct (HS (pinv (cinv i))) as [-> | ->]; discriminate).
    replace (s (pinv (cinv i)) * W (cinv i) j / (s (pinv (cinv i)) * W (cinv i) i))%Qc with (W (cinv i) j / W (cinv i) i)%Qc; [reflexivity|]. field. split; [apply NW; assumption|exact NZ].
Qed.
Print Assumptions C173_signs_and_order_of_components.
(** In particular, when the assignment of minimal cost is unique, fit returns the same. *)
Theorem C173_same_fit :
  forall n W p pinv s c cinv c' cinv', (forall r j, r < n -> j < n -> W r j <> 0%Qc) -> bijection n p pinv -> (forall r, (s r = 1 \/ s r = - (1))%Qc) ->
  (forall d dinv e einv, optimal_assignment n W d dinv -> optimal_assignment n W e einv -> forall r, r < n -> dinv r = einv r) ->
  optimal_assignment n W c cinv -> optimal_assignment n (fun r j => s r * W (p r) j)%Qc c' cinv' ->
  forall i j, i < n -> j < n -> ica_B (fun r j => s r * W (p r) j)%Qc cinv' i j = ica_B W cinv i j.
Proof.
  intros n W p pinv s c cinv c' cinv' NW HP HS U O O' i j Hi Hj.
  assert (NW' : forall r j, r < n -> j < n -> (s r * W (p r) j)%Qc <> 0%Qc).
  { intros r q Hr Hq Z. destruct (HP r Hr) as (A1 & _). apply (NW (p r) q A1 Hq). destruct (HS r) as [E|E]; rewrite E in Z; [rewrite <- Z; ring|]. transitivity (- (- (1) * W (p r) q))%Qc; [ring|rewrite Z; reflexivity]. }
  assert (HP' : bijection n pinv p) by (intros r Hr; destruct (HP r Hr) as (A1 & A2 & A3 & A4); repeat split; assumption).
  assert (S2 : forall r, (s (pinv r) = 1 \/ s (pinv r) = - (1))%Qc) by (intro; apply HS).
  destruct (C173_signs_and_order_of_components n (fun r j => s r * W (p r) j)%Qc pinv p (fun r => s (pinv r)) c' cinv' NW' HP' S2 O') as [O2 E2].
  assert (WW : forall r j, r < n -> (s (pinv r) * (s (pinv r) * W (p (pinv r)) j) = W r j)%Qc).
  { intros r q Hr. destruct (HP r Hr) as (_ & _ & E & _). rewrite E. destruct (HS (pinv r)) as [-> | ->]; ring. }
  assert (O3 : optimal_assignment n W (fun r => c' (pinv r)) (fun i => p (cinv' i))).
  { destruct O2 as [B2 M2]. split; [exact B2|]. intros d dinv HD. specialize (M2 d dinv HD). unfold assignment_cost in *.
    rewrite (sumn_ext n _ (fun r => / qabs (W r (c' (pinv r))))%Qc) in M2 by (intros r Hr; rewrite WW by exact Hr; reflexivity).
    rewrite (sumn_ext n (fun r => / qabs (s (pinv r) * (s (pinv r) * W (p (pinv r)) (d r))))%Qc (fun r => / qabs (W r (d r)))%Qc) in M2 by (intros r Hr; rewrite WW by exact Hr; reflexivity). exact M2. }
  rewrite <- (E2 i j Hi Hj). assert (Q := U _ _ _ _ O3 O i Hi). cbv beta in Q. unfold ica_B. cbv zeta. rewrite Q.
  assert (CI : cinv i < n) by (destruct O as [BB _]; apply (BB i Hi)). rewrite !WW by exact CI. reflexivity.
Qed.
Print Assumptions C173_same_fit.
(** The three components of the example in another order, one of them with the opposite sign. *)
Definition nearW' : mat Qc := fun r j => ((if r =? 1 then - (1) else 1) * nearW (nth r [2; 0; 1]%nat 0%nat) j)%Qc.
Example C173_example :
  optimal_assignment 3 nearW (fun i => i) (fun i => i) /\ bijection 3 (fun r => nth r [2; 0; 1] 0) (fun r => nth r [1; 2; 0] 0) /\
  forall i j, i < 3 -> j < 3 -> ica_B nearW' (fun i => nth i [1; 2; 0] 0) i j = ica_B nearW (fun i => i) i j.
Proof.
  assert (BJ : bijection 3 (fun r => nth r [2; 0; 1] 0) (fun r => nth r [1; 2; 0] 0)) by (intros r Hr; destruct r as [|[|[|r]]]; try lia; cbn; repeat split; lia).
  assert (OP : optimal_assignment 3 nearW (fun i => i) (fun i => i)).
  { split; [intros r Hr; repeat split; assumption|]. intros d dinv HD. destruct (HD 0 ltac:(lia)) as (A0 & _ & _ & B0). destruct (HD 1 ltac:(lia)) as (A1 & _ & _ & B1). destruct (HD 2 ltac:(lia)) as (A2 & _ & _ & B2).
    unfold assignment_cost, sumn, sumf. cbn [seq map qsum fold_right].
    destruct (d 0) as [|[|[|d0]]]; try lia; destruct (d 1) as [|[|[|d1]]]; try lia; destruct (d 2) as [|[|[|d2]]]; try lia; try (exfalso; congruence); vm_compute; discriminate. }
  split; [exact OP|]. split; [exact BJ|].
  apply (C173_signs_and_order_of_components 3 nearW _ _ (fun r => if r =? 1 then (- (1))%Qc else 1%Qc) (fun i => i) (fun i => i) (proj1 C172_example_hypotheses) BJ); [|exact OP].
  intro r. destruct (r =? 1); [right|left]; reflexivity.
Qed.
