(** * C189: interventions on a causal model whose variables are measured in other units. *)
From Coq Require Import List Arith Lia Bool ZArith QArith Qcanon Permutation Relations.
From Verif Require Import Prelude Spec SpecEffect Lib LibMat ModelEffect ProofEffect.
From Verif Require ModelOrder Props_Effect.
Import ListNotations.
Open Scope nat_scope.

(** Measuring variable j as [a j * x j + t j] turns the coefficient of k on j into
    [a j / a k * B j k]. *)
Definition rescaled (a : nat -> Qc) (B : mat Qc) : mat Qc := fun j k => (a j / a k * B j k)%Qc.
Definition measured (a t x : nat -> Qc) : nat -> Qc := fun j => (a j * x j + t j)%Qc.

Lemma rescaled_edge n B a : (forall j, j < n -> a j <> 0%Qc) -> forall u v, edge_of n (rescaled a B) u v <-> edge_of n B u v.
Proof.
  intros A u v. unfold edge_of, rescaled. split; intros [H1 [H2 H3]]; repeat split; try assumption; intro E; apply H3.
  - rewrite E. ring.
  - assert (a v * B v u = 0)%Qc as Z.
    { transitivity (a u * (a v / a u * B v u))%Qc; [field; apply A; assumption|]. rewrite E. ring. }
    destruct (Qcmult_integral _ _ Z) as [F|F]; [|exact F]. exfalso. revert F. apply A; assumption.
Qed.
Lemma rescaled_topological n B a K : (forall j, j < n -> a j <> 0%Qc) ->
  topological (edge_of n B) K -> topological (edge_of n (rescaled a B)) K.
Proof. intros A T u v E. apply T. apply (rescaled_edge n B a A). exact E. Qed.

Lemma rescaled_noise n B a t Ex j : (forall j, j < n -> a j <> 0%Qc) ->
  noise_means n (rescaled a B) (measured a t Ex) j
  = (a j * noise_means n B Ex j + t j - a j * sumn n (fun k => B j k * (t k / a k)))%Qc.
Proof.
  intros A. unfold noise_means, dot.
  assert (sumn n (fun k => rescaled a B j k * measured a t Ex k) =
          a j * sumn n (fun k => B j k * Ex k) + a j * sumn n (fun k => B j k * (t k / a k)))%Qc as E.
  { rewrite <- !sumn_scal, <- sumn_plus. apply sumn_ext. intros k Hk. unfold rescaled, measured. field. apply A; exact Hk. }
  rewrite E. unfold measured. ring.
Qed.
Lemma rescaled_do n B a t Ex iv v x : (forall j, j < n -> a j <> 0%Qc) ->
  do_solution n B (noise_means n B Ex) iv v x ->
  do_solution n (rescaled a B) (noise_means n (rescaled a B) (measured a t Ex)) iv (a iv * v + t iv)%Qc (measured a t x).
Proof.
  intros A [H1 H2]. split; [unfold measured; rewrite H1; reflexivity|].
  intros j Hj D. rewrite rescaled_noise by exact A. unfold measured at 1. rewrite (H2 j Hj D).
  assert (sumn n (fun k => rescaled a B j k * measured a t x k) =
          a j * sumn n (fun k => B j k * x k) + a j * sumn n (fun k => B j k * (t k / a k)))%Qc as E.
  { rewrite <- !sumn_scal, <- sumn_plus. apply sumn_ext. intros k Hk. unfold rescaled, measured. field. apply A; exact Hk. }
  rewrite E. ring.
Qed.

Theorem C189_means : forall n B K a t Ex iv v,
  is_order n K -> topological (edge_of n B) K -> iv < n -> (forall j, j < n -> a j <> 0%Qc) ->
  forall j, j < n ->
  propagated n (rescaled a B) K (noise_means n (rescaled a B) (measured a t Ex)) iv (a iv * v + t iv)%Qc j
  = measured a t (propagated n B K (noise_means n B Ex) iv v) j.
Proof.
  intros n B K a t Ex iv v O T Hi A j Hj. symmetry.
  destruct (Props_Effect.C28_do_means n (rescaled a B) K (noise_means n (rescaled a B) (measured a t Ex)) iv (a iv * v + t iv)%Qc O
              (rescaled_topological n B a K A T) Hi) as [_ U].
  apply U; [|exact Hj]. apply rescaled_do; [exact A|].
  apply Props_Effect.C28_do_means; assumption.
Qed.
Print Assumptions C189_means.

Lemma others_ext n target x y : (forall j, j < n -> x j = y j) -> others n target x = others n target y.
Proof.
  intro E. unfold others. apply map_ext_in. intros j Hj. apply E. apply filter_In in Hj. destruct Hj as [Hj _].
  apply in_seq in Hj. lia.
Qed.

(** The effect of moving a variable up by one standard deviation is the same in all units; a variable
    whose scale is turned round exchanges "up" and "down". *)
Theorem C189_effects : forall n B K a t Ex sd target pred pred',
  is_order n K -> topological (edge_of n B) K -> (forall j, j < n -> a j <> 0%Qc) ->
  (forall x, pred' (others n target (measured a t x)) = pred (others n target x)) ->
  forall i, i < n ->
  let '(up, down) := nth i (effects_on_prediction n B K Ex sd target pred) (0, 0)%Qc in
  nth i (effects_on_prediction n (rescaled a B) K (measured a t Ex) (fun j => qabs (a j) * sd j)%Qc target pred') (0, 0)%Qc
  = if qltb 0 (a i) then (up, down) else (down, up).
Proof.
  intros n B K a t Ex sd target pred pred' O T A P i Hi.
  unfold effects_on_prediction.
  assert (forall (f : nat -> Qc * Qc), nth i (map f (seq 0 n)) (0, 0)%Qc = f i) as N.
  { intro f. rewrite (nth_indep _ (0, 0)%Qc (f 0)) by (rewrite map_length, seq_length; exact Hi).
    rewrite map_nth, seq_nth by exact Hi. reflexivity. }
  rewrite !N.
  assert (forall w v, w = (a i * v + t i)%Qc ->
    pred' (others n target (propagated n (rescaled a B) K (noise_means n (rescaled a B) (measured a t Ex)) i w))
    = pred (others n target (propagated n B K (noise_means n B Ex) i v))) as G.
  { intros w v ->. rewrite <- P. f_equal. apply others_ext. intros j Hj. apply C189_means; assumption. }
  rewrite (G (measured a t Ex i) (Ex i)) by reflexivity.
  destruct (qltb 0 (a i)) eqn:S.
  - apply qltb_lt in S.
    assert (qabs (a i) = a i) as Q by (unfold qabs; destruct (qltb (a i) 0) eqn:E; [|reflexivity]; apply qltb_lt in E; exfalso; revert S; apply Qcle_not_lt; apply Qclt_le_weak; exact E).
    rewrite (G _ (Ex i + sd i)%Qc) by (rewrite Q; unfold measured; ring).
    rewrite (G _ (Ex i - sd i)%Qc) by (rewrite Q; unfold measured; ring). reflexivity.
  - apply qltb_nlt in S.
    assert (qabs (a i) = - a i)%Qc as Q.
    { unfold qabs. destruct (qltb (a i) 0) eqn:E; [reflexivity|]. apply qltb_nlt in E. exfalso. apply (A i Hi).
      apply Qcle_antisym; assumption. }
    rewrite (G _ (Ex i - sd i)%Qc) by (rewrite Q; unfold measured; ring).
    rewrite (G (measured a t Ex i - qabs (a i) * sd i)%Qc (Ex i + sd i)%Qc) by (rewrite Q; unfold measured; ring). reflexivity.
Qed.
Print Assumptions C189_effects.

(** ** The optimal intervention *)
Lemma rescaled_total n B a T : (forall j, j < n -> a j <> 0%Qc) ->
  meq n (mmul n (msub midn B) T) midn -> meq n (mmul n (msub midn (rescaled a B)) (rescaled a T)) midn.
Proof.
  intros A H i j Hi Hj. specialize (H i j Hi Hj). unfold mmul, msub in *.
  assert (sumn n (fun k => (midn i k - rescaled a B i k) * rescaled a T k j) =
          a i / a j * sumn n (fun k => (midn i k - B i k) * T k j))%Qc as E.
  { rewrite <- sumn_scal. apply sumn_ext. intros k Hk. unfold rescaled, midn.
    destruct (i =? k) eqn:D; [apply Nat.eqb_eq in D; subst k|]; field; split; apply A; assumption. }
  rewrite E, H. unfold midn. destruct (i =? j) eqn:D; [apply Nat.eqb_eq in D; subst j; field; apply A; assumption|ring].
Qed.
Lemma measured_prediction n target a t (c c' : nat -> Qc) b b' x :
  (forall k, k < n -> k <> target -> (c' k * a k = c k)%Qc) ->
  (b' = b - sumn n (fun k => if k =? target then 0 else c' k * t k))%Qc ->
  lin_pred n target c' b' (measured a t x) = lin_pred n target c b x.
Proof.
  intros C ->. unfold lin_pred.
  assert (sumn n (fun k => if k =? target then 0 else c' k * measured a t x k) =
    sumn n (fun k => if k =? target then 0 else c k * x k) + sumn n (fun k => if k =? target then 0 else c' k * t k))%Qc as E.
  { rewrite <- sumn_plus. apply sumn_ext. intros k Hk. destruct (Nat.eqb_spec k target) as [|D]; [ring|].
    rewrite <- (C k Hk D). unfold measured. ring. }
  rewrite E. ring.
Qed.

(** Where the coefficients of no row cancel, in either unit, the intervention found in the new units is
    the old one expressed in the new units, whatever the draws. *)
Theorem C189_intervention_partial : forall n B T a t Ex target coef coef' b b' iv desired draws draws' c c',
  iv < n -> target < n -> length coef = n - 1 -> length coef' = n - 1 ->
  acyclic (edge_of n B) -> (exists K, is_order n K /\ topological (edge_of n B) K) ->
  meq n (mmul n (msub midn B) T) midn -> (forall j, j < n -> a j <> 0%Qc) ->
  (forall k, k < n -> k <> iv -> sumn n (B k) = 0%Qc \/ sumn n (rescaled a B k) = 0%Qc -> forall q, q < n -> B k q = 0%Qc) ->
  (forall k, k < n -> k <> target -> (coef_at target coef' k * a k = coef_at target coef k)%Qc) ->
  (b' = b - sumn n (fun k => if k =? target then 0 else coef_at target coef' k * t k))%Qc ->
  optimal_intervention n B Ex target {| p_coef := Some coef; p_intercept := Some b; p_proba := false |} iv desired draws
    = Ok (Some (Some c)) ->
  optimal_intervention n (rescaled a B) (measured a t Ex) target
    {| p_coef := Some coef'; p_intercept := Some b'; p_proba := false |} iv desired draws' = Ok (Some (Some c')) ->
  c' = (a iv * c + t iv)%Qc.
Proof.
  intros n B T a t Ex target coef coef' b b' iv desired draws draws' c c' Hi Ht L L' Ac [K [O Tp]] HT A R C Eb E1 E2.
  assert (HT' := rescaled_total n B a T A HT). assert (Tp' := rescaled_topological n B a K A Tp).
  pose proof (Props_Effect.C29_desired_output_is_reached_partial n B Ex target coef b iv desired draws T Hi Ht L Ac
    (fun k Hk D S => R k Hk D (or_introl S)) HT) as S1. cbv zeta in S1. rewrite E1 in S1. destruct S1 as [N1 S1].
  assert (acyclic (edge_of n (rescaled a B))) as Ac' by (apply (topological_acyclic _ K); [apply (is_order_NoDup n); exact O|exact Tp']).
  assert (forall k, k < n -> k <> iv -> sumn n (rescaled a B k) = 0%Qc -> forall q, q < n -> rescaled a B k q = 0%Qc) as R'.
  { intros k Hk D S q Hq. unfold rescaled. rewrite (R k Hk D (or_intror S) q Hq). ring. }
  pose proof (Props_Effect.C29_desired_output_is_reached_partial n (rescaled a B) (measured a t Ex) target coef' b' iv desired draws' (rescaled a T) Hi Ht L' Ac' R' HT') as S2.
  cbv zeta in S2. rewrite E2 in S2. destruct S2 as [N2 S2].
  set (En := noise_means n B Ex) in *. set (En' := noise_means n (rescaled a B) (measured a t Ex)) in *.
  set (w := (a iv * c + t iv)%Qc).
  assert (lin_pred n target (coef_at target coef') b' (propagated n (rescaled a B) K En' iv w) = desired) as P1.
  { rewrite <- (S1 (propagated n B K En iv c)) by (apply Props_Effect.C28_do_means; assumption).
    rewrite <- (measured_prediction n target a t (coef_at target coef) (coef_at target coef') b b' _ C Eb).
    unfold lin_pred. f_equal. apply sumn_ext. intros k Hk. destruct (k =? target); [reflexivity|]. f_equal.
    apply C189_means; assumption. }
  assert (lin_pred n target (coef_at target coef') b' (propagated n (rescaled a B) K En' iv c') = desired) as P2.
  { apply S2. apply Props_Effect.C28_do_means; assumption. }
  assert (lin_pred n target (coef_at target coef') b' (propagated n (rescaled a B) K En' iv c') =
    lin_pred n target (coef_at target coef') b' (propagated n (rescaled a B) K En' iv w) +
    (c' - w) * sumn n (fun j => if j =? target then 0 else coef_at target coef' j * rescaled a T j iv))%Qc as P3.
  { unfold lin_pred. rewrite <- sumn_scal.
    assert (forall x y z : Qc, x + z + y = x + y + z)%Qc as Y by (intros; ring). rewrite <- Y.
    rewrite <- sumn_plus. f_equal. apply sumn_ext. intros k Hk. destruct (k =? target); [ring|].
    replace c' with (w + (c' - w))%Qc at 1 by ring.
    rewrite (propagated_shift n (rescaled a B) K En' iv w (c' - w)%Qc (rescaled a T) O Tp' Hi HT' k Hk). ring. }
  rewrite P1, P2 in P3.
  assert ((c' - w) * sumn n (fun j => if j =? target then 0 else coef_at target coef' j * rescaled a T j iv) = 0)%Qc as Z.
  { match goal with |- ?q = _ => transitivity (desired + q - desired)%Qc; [ring|] end. rewrite <- P3. ring. }
  destruct (Qcmult_integral _ _ Z) as [F|F]; [|contradiction].
  transitivity (c' - w + w)%Qc; [ring|]. rewrite F. ring.
Qed.
Print Assumptions C189_intervention_partial.

(** In general it is not: x2 = x0 - x1 loses its causes, x2 = x0 - x1'/2 with x1' = 2 x1 does not. *)
Definition halved : nat -> Qc := fun j => if j =? 1 then qz 2 else 1%Qc.
Theorem C189_intervention_refuted : exists n B a Ex target coef b iv desired c c',
  acyclic (edge_of n B) /\ (forall j, j < n -> a j <> 0%Qc) /\ a iv = 1%Qc /\
  coef_at target coef 1 = 0%Qc /\ (forall j, j <> 1 -> a j = 1%Qc) /\ Ex 1 = 0%Qc /\
  (forall draws, optimal_intervention n B Ex target {| p_coef := Some coef; p_intercept := Some b; p_proba := false |} iv desired draws = Ok (Some (Some c))) /\
  (exists draws, optimal_intervention n (rescaled a B) Ex target {| p_coef := Some coef; p_intercept := Some b; p_proba := false |} iv desired draws = Ok (Some (Some c'))) /\
  c' <> c.
Proof.
  exists 4, Props_Effect.cancel, halved, (fun _ => 0%Qc), 3, [1; 0; 1]%Qc, 0%Qc, 0, (qz 2), (qz 2), 1%Qc.
  split.
  { destruct Props_Effect.C29_cancelling_row_refuted as [_ [_ [T _]]]. apply (topological_acyclic _ [0; 1; 2; 3]); [|exact T].
    repeat constructor; cbn; intuition discriminate. }
  split; [intros j _; unfold halved; destruct (j =? 1); intro Z; apply (f_equal this) in Z; vm_compute in Z; discriminate Z|].
  split; [reflexivity|]. split; [reflexivity|].
  split; [intros j D; unfold halved; destruct (Nat.eqb_spec j 1); [contradiction|reflexivity]|]. split; [reflexivity|].
  split; [|split].
  - intro draws. unfold optimal_intervention. cbn [p_coef p_intercept p_proba].
    replace (oi_init 4 Props_Effect.cancel (fun _ => 0%Qc) 0) with (@nil nat, upd (fun _ => 0%Qc) 0 0%Qc, upd (fun _ => 0%Qc) 0 1%Qc) by reflexivity.
    destruct draws; (cbn [oi_loop]; cbn [length Nat.leb Nat.eqb andb]; f_equal; f_equal).
    all: match goal with |- (if ?q then _ else _) = _ => replace q with false by reflexivity end; f_equal; apply Qc_is_canon; vm_compute; reflexivity.
  - exists [0]. match goal with |- ?l = _ => let v := eval vm_compute in l in match v with Ok (Some (Some ?q)) => assert (l = Ok (Some (Some q))) as -> by (vm_compute; reflexivity) end end.
    do 3 f_equal. apply Qc_is_canon. reflexivity.
  - intro Z; apply (f_equal this) in Z; vm_compute in Z; discriminate Z.
Qed.
Print Assumptions C189_intervention_refuted.

(** ** Whether a matrix is accepted as acyclic *)
Definition small_cycle : mat Qc := fun i j => match i, j with 0, 1 => 1%Qc | 1, 0 => qf 1 100000000000 | _, _ => 0%Qc end.
Definition other_units : nat -> Qc := fun j => if j =? 0 then qf 1 100000 else 1%Qc.
Theorem C189_acceptance_refuted : exists n B a K,
  (forall j, j < n -> a j <> 0%Qc) /\ ~ acyclic (edge_of n B) /\
  ModelOrder.ce_order n (fun i j => Some (B i j)) = Ok K /\
  ModelOrder.ce_order n (fun i j => Some (rescaled a B i j)) = Err ValueError.
Proof.
  exists 2, small_cycle, other_units, [1; 0].
  split; [intros j _; unfold other_units; destruct (j =? 0); intro Z; apply (f_equal this) in Z; vm_compute in Z; discriminate Z|].
  split; [|split; vm_compute; reflexivity].
  intro Ac. apply (Ac 0). apply t_trans with 1; apply t_step; split; try lia; split; try lia;
    intro Z; apply (f_equal this) in Z; vm_compute in Z; discriminate Z.
Qed.
Print Assumptions C189_acceptance_refuted.

(** ** Example: x0 -> x1 -> x2, x0 -> x2 with x0 measured in thousandths and x1 turned round. *)
Definition ex_units : nat -> Qc := fun j => match j with 0 => qz 1000 | 1 => qz (-1) | _ => 1%Qc end.
Definition ex_origin : nat -> Qc := fun j => match j with 0 => qz 5 | 1 => qz 32 | _ => 0%Qc end.
Definition ex_total : mat Qc := Props_Effect.qmat [[1; 0; 0]; [2; 1; 0]; [7; 3; 1]]%Z.
Example C189_example :
  is_order 3 [0; 1; 2] /\ topological (edge_of 3 Props_Effect.chain3) [0; 1; 2] /\
  (forall j, j < 3 -> ex_units j <> 0%Qc) /\ meq 3 (mmul 3 (msub midn Props_Effect.chain3) ex_total) midn /\
  (forall k, k < 3 -> k <> 0 -> sumn 3 (Props_Effect.chain3 k) = 0%Qc \/ sumn 3 (rescaled ex_units Props_Effect.chain3 k) = 0%Qc ->
     forall q, q < 3 -> Props_Effect.chain3 k q = 0%Qc) /\
  map (fun e => (this (fst e), this (snd e)))
    (effects_on_prediction 3 Props_Effect.chain3 [0; 1; 2] (Props_Effect.qvec [1; 3; 11]%Z) (fun _ => 1%Qc) 2
       (fun l => nth 0 l 0 + nth 1 l 0 * nth 1 l 0)%Qc) = [(17, 9); (7, 5); (0, 0)]%Q /\
  map (fun e => (this (fst e), this (snd e)))
    (effects_on_prediction 3 (rescaled ex_units Props_Effect.chain3) [0; 1; 2] (measured ex_units ex_origin (Props_Effect.qvec [1; 3; 11]%Z))
       (fun j => qabs (ex_units j) * 1)%Qc 2
       (fun l => (nth 0 l 0 - qz 5) / qz 1000 + (qz 32 - nth 1 l 0) * (qz 32 - nth 1 l 0))%Qc) = [(17, 9); (5, 7); (0, 0)]%Q /\
  Props_Effect.shown (optimal_intervention 3 (rescaled ex_units Props_Effect.chain3) (measured ex_units ex_origin (Props_Effect.qvec [1; 3; 11]%Z)) 2
    {| p_coef := Some [qf 1 1000; qz (-1)]; p_intercept := Some (qf 34995 1000); p_proba := false |} 0 (qz 12) [1; 0; 5])
    = Ok (Some (Some (8015 # 3)%Q)).
Proof.
  destruct Props_Effect.C28_example as [O [T _]]. split; [exact O|]. split; [exact T|].
  split; [intros j Hj; destruct j as [|[|[|j]]]; try lia; intro Z; apply (f_equal this) in Z; vm_compute in Z; discriminate Z|].
  split; [intros i j Hi Hj; destruct i as [|[|[|i]]]; try lia; destruct j as [|[|[|j]]]; try lia; apply Qc_is_canon; vm_compute; reflexivity|].
  split; [intros k Hk D [S|S]; exfalso; destruct k as [|[|[|k]]]; try lia; apply (f_equal this) in S; vm_compute in S; discriminate|].
  split; [vm_compute; reflexivity|]. split; vm_compute; reflexivity.
Qed.
