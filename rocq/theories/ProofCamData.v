From Coq Require Import Reals Arith List Lia Lra Bool Permutation Sorted QArith Qcanon.
From Verif Require Import Prelude Lib LibR SpecMeasure SpecResit SpecCam SpecCAMUV ModelRCD ModelCAMUV ModelCamData ProofKernelMI ProofResitData ProofResitData2 Props_CAMUV.
Import ListNotations.
Open Scope R_scope.

Lemma rsum_one : forall n k c, (k < n)%nat -> rsum n (fun i => if (i =? k)%nat then c else 0) = c.
Proof. intros n k c Hk. rewrite (rsum_single n _ k Hk); [rewrite Nat.eqb_refl; reflexivity|]. intros i _ N. apply Nat.eqb_neq in N. rewrite N. reflexivity. Qed.
Lemma rsum_shift : forall n f, rsum (S n) f = f 0%nat + rsum n (fun k => f (S k)).
Proof. intros n f. induction n as [|n IH]; [cbn [rsum]; ring|]. change (rsum (S (S n)) f) with (rsum (S n) f + f (S n)). rewrite IH. cbn [rsum]. ring. Qed.
Lemma average_rsum : forall n m (F : nat -> nat -> R), average n (fun s => rsum m (fun k => F k s)) = rsum m (fun k => average n (F k)).
Proof. intros n m F. unfold average. rewrite rsum_swap. unfold Rdiv. rewrite <- rsum_scal_r. reflexivity. Qed.
Lemma average_zero_sq : forall n x, (0 < n)%nat -> average n (fun s => x s ^ 2) = 0 -> forall s, (s < n)%nat -> x s = 0.
Proof.
  intros n x Hn Z s Hs. assert (N : INR n <> 0) by (apply not_0_INR; lia).
  assert (Z' : rsum n (fun s => x s ^ 2) = 0). { unfold average in Z. apply (Rmult_eq_reg_r (/ INR n)); [|apply Rinv_neq_0_compat; exact N]. unfold Rdiv in Z. rewrite Z. ring. }
  pose proof (rsum_zero_all n _ (fun i _ => pow2_ge_0 _) Z' s Hs) as W. cbv beta in W. destruct (Req_dec (x s) 0) as [|K]; [assumption|exfalso; exact (pow_nonzero _ 2 K W)].
Qed.
Lemma additive_mean_unique : forall n L v y h h', (0 < n)%nat -> (forall s, (s < n)%nat -> length (v s) = L) -> additive_mean n L v y h -> additive_mean n L v y h' ->
  forall s, (s < n)%nat -> h (v s) = h' (v s).
Proof.
  intros n L v y h h' Hn HL [[hk Eh] O] [[hk' Eh'] O'] s Hs.
  enough (Z : h (v s) - h' (v s) = 0) by lra. apply (average_zero_sq n (fun s => h (v s) - h' (v s)) Hn); [|exact Hs].
  rewrite (average_ext n _ (fun s => rsum L (fun k => (y s - h' (v s)) * (hk k (nth k (v s) 0) - hk' k (nth k (v s) 0)) + - (1) * ((y s - h (v s)) * (hk k (nth k (v s) 0) - hk' k (nth k (v s) 0)))))).
  - rewrite (average_rsum n L (fun k s => (y s - h' (v s)) * (hk k (nth k (v s) 0) - hk' k (nth k (v s) 0)) + - (1) * ((y s - h (v s)) * (hk k (nth k (v s) 0) - hk' k (nth k (v s) 0))))).
    apply rsum_0. intros k Hk. rewrite average_plus, average_scal. rewrite (O k (fun z => hk k z - hk' k z) Hk), (O' k (fun z => hk k z - hk' k z) Hk). ring.
  - intros t Ht. rewrite (rsum_ext L _ (fun k => (h (v t) - h' (v t)) * (hk k (nth k (v t) 0) - hk' k (nth k (v t) 0)))) by (intros; ring).
    rewrite rsum_scal, rsum_minus, <- (Eh (v t) (HL t Ht)), <- (Eh' (v t) (HL t Ht)). ring.
Qed.
Lemma additive_fit : forall n L v y e h (f : nat -> R -> R), (0 < n)%nat -> (0 < L)%nat -> (forall s, (s < n)%nat -> length (v s) = L) ->
  (forall s, (s < n)%nat -> y s = rsum L (fun k => f k (nth k (v s) 0)) + e s) -> independent n e v -> additive_mean n L v y h ->
  forall s, (s < n)%nat -> y s - h (v s) = e s - average n e.
Proof.
  intros n L v y e h f Hn HL Hv E I M s Hs.
  assert (M' : additive_mean n L v y (fun w => rsum L (fun k => f k (nth k w 0)) + average n e)).
  { split.
    - exists (fun k x => f k x + if (k =? 0)%nat then average n e else 0). intros w _. rewrite rsum_plus. f_equal.
      symmetry. apply (rsum_one L 0 (average n e) HL).
    - intros k g Hk. rewrite (average_ext n _ (fun s => e s * g (nth k (v s) 0) + - average n e * g (nth k (v s) 0))) by (intros t Ht; rewrite (E t Ht); ring).
      rewrite average_plus, average_scal. pose proof (I (fun x => x) (fun w => g (nth k w 0))) as Q. cbv beta in Q. rewrite Q. change (average n (fun s => e s)) with (average n e). ring. }
  pose proof (additive_mean_unique n L v y _ _ Hn Hv M M' s Hs) as U. cbv beta in U. rewrite U, (E s Hs). ring.
Qed.
Lemma rsum_list : forall m (F : nat -> R) Q, NoDup Q -> (forall x, In x Q -> (x < m)%nat) ->
  rsum m (fun i => if memb i Q then F i else 0) = rsum (length Q) (fun k => F (nth k Q 0%nat)).
Proof.
  intros m F Q. induction Q as [|q Q IH]; intros ND H.
  - cbn [length rsum]. apply rsum_0. reflexivity.
  - inversion ND as [|? ? Nq ND']; subst. cbn [length]. rewrite rsum_shift. cbn [nth]. rewrite <- IH; [|exact ND'|intros x Hx; apply H; right; exact Hx].
    rewrite (rsum_ext m _ (fun i => (if (i =? q)%nat then F q else 0) + (if memb i Q then F i else 0))).
    + rewrite rsum_plus. f_equal. apply (rsum_one m q (F q)). apply H. left. reflexivity.
    + intros i Hi. unfold memb. cbn [existsb]. destruct (Nat.eqb_spec i q) as [->|N]; cbn [orb]; [|unfold memb; ring].
      assert (E : existsb (Nat.eqb q) Q = false) by (change (memb q Q = false); apply memb_notIn; exact Nq). rewrite E. ring.
Qed.

(** ** An effect of independent causes *)
Section Star.
  Context (reg : nat -> (nat -> list R) -> (nat -> R) -> list R -> R) (hp : nat -> (nat -> R) -> (nat -> list R) -> num) (alpha : Qc).
  Context (n m : nat) (f : nat -> R -> R) (U X : nat -> nat -> R).
  Context (Hn : (0 < n)%nat) (Hm : (1 <= m)%nat) (HR : exact_gam reg) (HP : exact_p_value alpha hp) (H0 : (0 <= alpha)%Qc).
  Context (MI : mutually_independent n (S m) U) (EX : forall i s, (i < m)%nat -> (s < n)%nat -> X i s = U i s).
  Context (EY : forall s, (s < n)%nat -> X m s = rsum m (fun i => f i (U i s)) + U m s).
  (** what remains of the effect when the contributions of [Q] are removed *)
  Definition rest (Q : list nat) (s : nat) : R := rsum m (fun i => if memb i Q then 0 else f i (U i s)) + U m s.
  Let G := gam_residual reg n X.
  Lemma rest_independent : forall Q, NoDup Q -> (forall x, In x Q -> (x < m)%nat) -> independent n (rest Q) (values U Q).
  Proof.
    intros Q ND HQ. set (L := filter (fun j => negb (memb j Q)) (seq 0 (S m))).
    assert (InL : forall j, In j L <-> (j < S m)%nat /\ ~ In j Q). { intro j. unfold L. rewrite filter_In, in_seq, negb_true_iff, <- memb_In. destruct (memb j Q); [intuition (lia || discriminate)|intuition (lia || discriminate)]. }
    assert (HmQ : ~ In m Q) by (intro C; apply HQ in C; lia).
    apply (independent_comp n (values U L) (values U Q) (fun l => rsum m (fun i => if memb i Q then 0 else f i (nth (position i L) l 0)) + nth (position m L) l 0) (fun w => w)).
    - apply independent_sym. apply (blocks_independent n (S m) U Q L Hn MI ND).
      + intros x Hx. apply HQ in Hx. lia.
      + intros x Hx. apply InL in Hx. tauto.
      + intros x Hx Hl. apply InL in Hl. tauto.
    - intros s Hs. unfold rest. rewrite (value_at U L s m) by (apply InL; split; [lia|exact HmQ]). f_equal. apply rsum_ext. intros i Hi. destruct (memb i Q) eqn:Em; [reflexivity|].
      rewrite (value_at U L s i); [reflexivity|]. apply InL. split; [lia|]. rewrite <- memb_In, Em. discriminate.
    - reflexivity.
  Qed.
  Lemma block_eq' : forall Q s, (s < n)%nat -> (forall x, In x Q -> (x < m)%nat) -> values X Q s = values U Q s.
  Proof. intros Q s Hs H. unfold values. apply map_ext_in. intros j Hj. apply EX; [apply H; exact Hj|exact Hs]. Qed.
  Lemma effect_residual : forall Q, NoDup Q -> (forall x, In x Q -> (x < m)%nat) -> exists c, forall s, (s < n)%nat -> G m Q s = rest Q s + c.
  Proof.
    intros Q ND HQ. destruct Q as [|q0 Q0].
    - exists 0. intros s Hs. unfold G, gam_residual, rest. rewrite (EY s Hs). cbn. ring.
    - set (Q := q0 :: Q0) in *. exists (- average n (rest Q)). intros s Hs. change (G m Q s) with (X m s - reg n (values X Q) (X m) (values X Q s)).
      assert (LQ : (0 < length Q)%nat) by (cbn; lia). assert (Lv : forall t, (t < n)%nat -> length (values X Q t) = length Q) by (intros; unfold values; apply map_length).
      rewrite (additive_fit n (length Q) (values X Q) (X m) (rest Q) (reg n (values X Q) (X m)) (fun k => f (nth k Q 0%nat)) Hn LQ Lv); [ring| | | |exact Hs].
      + intros t Ht. rewrite (EY t Ht). unfold rest. rewrite <- Rplus_assoc. f_equal.
        rewrite (rsum_ext (length Q) _ (fun k => f (nth k Q 0%nat) (U (nth k Q 0%nat) t))).
        * rewrite <- (rsum_list m (fun i => f i (U i t)) Q ND HQ), <- rsum_plus. apply rsum_ext. intros i Hi. destruct (memb i Q); ring.
        * intros k Hk. f_equal. rewrite (block_eq' Q t Ht HQ). unfold values. rewrite (nth_indep _ 0 (U 0%nat t)) by (rewrite map_length; exact Hk). apply (map_nth (fun j => U j t)).
      + apply (independent_comp n (rest Q) (values U Q) (fun x => x) (fun w => w) _ _ (rest_independent Q ND HQ)); [reflexivity|]. intros t Ht. apply block_eq'; assumption.
      + apply (HR n (length Q) (values X Q) (X m) Hn LQ Lv).
  Qed.
  Lemma rest_dependent : forall Q i, NoDup Q -> (forall x, In x Q -> (x < m)%nat) -> (i < m)%nat -> ~ In i Q ->
    (exists s t, (s < n)%nat /\ (t < n)%nat /\ f i (U i s) <> f i (U i t)) -> ~ independent n (rest Q) (U i).
  Proof.
    intros Q i ND HQ Hi Ni (s & t & Hs & Ht & D) I.
    assert (ND' : NoDup (i :: Q)) by (constructor; assumption). assert (HQ' : forall x, In x (i :: Q) -> (x < m)%nat) by (intros x [<-|Hx]; [exact Hi|apply HQ; exact Hx]).
    pose proof (rest_independent (i :: Q) ND' HQ') as I'. set (W := rest (i :: Q)) in *. set (z := fun s => f i (U i s)).
    assert (E : forall s, rest Q s = z s + W s).
    { intro r. unfold W, rest, z. rewrite <- Rplus_assoc. f_equal. rewrite <- (rsum_one m i (f i (U i r)) Hi), <- rsum_plus. apply rsum_ext. intros k Hk. unfold memb. cbn [existsb].
      destruct (Nat.eqb_spec k i) as [->|N]; cbn [orb]; [|ring]. assert (B : existsb (Nat.eqb i) Q = false) by (change (memb i Q = false); apply memb_notIn; exact Ni). rewrite B. ring. }
    pose proof (I (fun x => x) (f i)) as A. pose proof (I' (fun x => x) (fun l => f i (nth 0 l 0))) as A'. cbv beta in A, A'. cbn [values map nth] in A'.
    change (average n (fun s => f i (U i s))) with (average n z) in A, A'. change (average n (fun s => W s)) with (average n W) in A'.
    rewrite (average_ext n (fun s => rest Q s * f i (U i s)) (fun s => z s * z s + W s * f i (U i s))) in A by (intros; rewrite E; unfold z; ring).
    rewrite (average_ext n (fun s => rest Q s) (fun s => z s + W s)) in A by (intros; apply E). rewrite !average_plus, A' in A.
    assert (V : average n (fun s => (z s - average n z) ^ 2) = 0).
    { rewrite (average_ext n _ (fun s => z s * z s + (- (2) * average n z * z s + average n z * average n z))) by (intros; ring). rewrite !average_plus, average_scal, average_const by exact Hn.
      change (average n (fun s => z s)) with (average n z) in *. change (average n (fun s => W s)) with (average n W) in *. lra. }
    pose proof (average_zero_sq n _ Hn V s Hs) as Zs. pose proof (average_zero_sq n _ Hn V t Ht) as Zt. cbv beta in Zs, Zt. apply D. change (z s = z t). lra.
  Qed.
  Let ind := cam_ind reg hp alpha n X.
  Let value := cam_value reg hp n X.
  Lemma ind_iff : forall i A j B, ind i A j B = true <-> independent n (G i A) (G j B).
  Proof.
    intros i A j B. unfold ind, cam_ind. fold G. destruct (HP n (G i A) (fun s => [G j B s]) Hn) as (q & E & Z). unfold G in E |- *. rewrite E, qltb_lt. fold G. rewrite Z. split; intro I.
    - apply (independent_comp n (G i A) (fun s => [G j B s]) (fun x => x) (fun l => nth 0 l 0) _ _ I); reflexivity.
    - apply (independent_comp n (G i A) (G j B) (fun x => x) (fun x => [x]) _ _ I); reflexivity.
  Qed.
  Lemma value_iff : forall c A qs, exists q, value c A qs = Some q /\ ((alpha < q)%Qc <-> independent n (G c A) (fun s => map (fun q => G (fst q) (snd q) s) qs)).
  Proof. intros c A qs. unfold value, cam_value. apply (HP n _ _ Hn). Qed.
  Context (HD : forall i, (i < m)%nat -> exists s t, (s < n)%nat /\ (t < n)%nat /\ f i (U i s) <> f i (U i t)).
  Context (HW : forall i Q h, (i < m)%nat -> NoDup Q -> (forall x, In x Q -> (x < m)%nat) -> ~ In i Q -> additive_mean n 1 (values X [m]) (X i) h ->
    ~ independent n (residual_of X [m] i h) (rest Q)).
  Lemma causes_independent : forall i j, (i < m)%nat -> (j < m)%nat -> i <> j -> ind i [] j [] = true.
  Proof.
    intros i j Hi Hj N. apply ind_iff. apply (independent_comp n (values U [i]) (values U [j]) (fun l => nth 0 l 0) (fun l => nth 0 l 0)).
    - apply (blocks_independent n (S m) U [i] [j] Hn MI); [constructor; [intros []|constructor]|intros x [<-|[]]; lia|intros x [<-|[]]; lia|intros x [<-|[]] [Hx|[]]; congruence].
    - intros s Hs. cbn. apply EX; assumption.
    - intros s Hs. cbn. apply EX; assumption.
  Qed.
  Lemma effect_dependent : forall Q i, NoDup Q -> (forall x, In x Q -> (x < m)%nat) -> (i < m)%nat -> ~ In i Q -> ind m Q i [] = false /\ ind i [] m Q = false.
  Proof.
    intros Q i ND HQ Hi Ni. destruct (effect_residual Q ND HQ) as (c & Ec).
    assert (A : ~ independent n (G m Q) (G i [])).
    { intro I. apply (rest_dependent Q i ND HQ Hi Ni (HD i Hi)). apply (independent_comp n (G m Q) (G i []) (fun x => x - c) (fun x => x) _ _ I).
      - intros s Hs. rewrite (Ec s Hs). ring.
      - intros s Hs. symmetry. apply EX; assumption. }
    split; (destruct (ind _ _ _ _) eqn:E; [|reflexivity]); apply ind_iff in E; [contradiction|apply independent_sym in E; contradiction].
  Qed.
  Lemma value_effect : forall A qs, NoDup A -> (forall x, In x A -> (x < m)%nat) -> incl qs A -> exists q, value m A (map (fun q => (q, [])) qs) = Some q /\ (alpha < q)%Qc.
  Proof.
    intros A qs ND HA Hq. destruct (value_iff m A (map (fun q => (q, [])) qs)) as (q & E & Z). exists q. split; [exact E|]. apply Z. destruct (effect_residual A ND HA) as (c & Ec).
    apply (independent_comp n (rest A) (values U A) (fun x => x + c) (pick A qs) _ _ (rest_independent A ND HA)).
    - intros s Hs. apply Ec. exact Hs.
    - intros s Hs. rewrite pick_values by exact Hq. rewrite map_map. unfold values. apply map_ext_in. intros j Hj. cbn. apply EX; [apply HA, Hq; exact Hj|exact Hs].
  Qed.
  Lemma value_cause : forall i Q, (i < m)%nat -> NoDup Q -> (forall x, In x Q -> (x < m)%nat) -> ~ In i Q -> exists q, value i [m] [(m, Q)] = Some q /\ ~ (alpha < q)%Qc.
  Proof.
    intros i Q Hi ND HQ Ni. destruct (value_iff i [m] [(m, Q)]) as (q & E & Z). exists q. split; [exact E|]. intro C. apply Z in C. destruct (effect_residual Q ND HQ) as (c & Ec).
    apply (HW i Q (reg n (values X [m]) (X i)) Hi ND HQ Ni).
    - apply (HR n 1%nat (values X [m]) (X i) Hn); [lia|reflexivity].
    - apply (independent_comp n (G i [m]) _ (fun x => x) (fun l => nth 0 l 0 - c) _ _ C).
      + reflexivity.
      + intros s Hs. cbn [map nth fst snd]. rewrite (Ec s Hs). ring.
  Qed.
End Star.
