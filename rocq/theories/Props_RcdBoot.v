(** * Property theorems: RCD.bootstrap and the cycles an estimate may have. *)
From Coq Require Import List Arith Lia Bool ZArith QArith Qcanon Relations.
From Verif Require Import Prelude Spec Lib LibMat ModelPaths ProofTotal ModelRCD Props_RCD ModelRcdBoot.
Import ListNotations.
Open Scope nat_scope.

(** What one round must record for an estimate (M, B): zero off the ancestors, NaN when the row of the cause has a NaN, else
    the entry of the inverse of I - B (NaNs as zeros). *)
Definition records (n : nat) (M : sets) (B te : mat num) : Prop :=
  forall to from, to < n -> from < n ->
    (M to from = false -> te to from = Some 0%Qc) /\
    (M to from = true -> (exists j, j < n /\ B from j = None) -> te to from = None) /\
    (M to from = true -> (forall j, j < n -> B from j <> None) ->
       forall T, meq n (mmul n (msub midn (denan B)) T) midn -> te to from = Some (T to from)).

Lemma nan_row n (B : mat num) from :
  existsb (fun j => match B from j with None => true | _ => false end) (seq 0 n) = true <-> exists j, j < n /\ B from j = None.
Proof.
  rewrite existsb_exists. split; intros (j & A & Q).
  - exists j. apply in_seq in A. split; [lia|]. destruct (B from j); [discriminate|reflexivity].
  - exists j. split; [apply in_seq; lia|]. rewrite Q. reflexivity.
Qed.
Lemma in_pairs n M to from : In (to, from) (rcd_boot_pairs n M) <-> to < n /\ from < n /\ M to from = true.
Proof.
  unfold rcd_boot_pairs. rewrite in_flat_map. split.
  - intros (x & Hx & I). apply in_map_iff in I. destruct I as (y & Q & Iy). injection Q as -> ->. unfold elems in Iy.
    apply filter_In in Iy. destruct Iy as [A C]. apply in_seq in A. apply in_seq in Hx. repeat split; [lia|lia|exact C].
  - intros (A & C & D). exists to. split; [apply in_seq; lia|]. apply in_map_iff. exists from. split; [reflexivity|].
    apply filter_In. split; [apply in_seq; lia|exact D].
Qed.
Lemma store_spec n B : forall l te te', rcd_boot_store n B l te = Ok te' ->
  forall i j, (In (i, j) l -> rcd_effect2 n B j i = Ok (te' i j)) /\ (~ In (i, j) l -> te' i j = te i j).
Proof.
  induction l as [|[to from] l IH]; intros te te' H i j; cbn [rcd_boot_store] in H.
  - injection H as <-. split; [intros []|reflexivity].
  - destruct (rcd_effect2 n B from to) as [e|] eqn:E; cbn [bind] in H; [|discriminate].
    destruct (IH _ _ H i j) as [A C].
    assert (DEC : {In (i, j) l} + {~ In (i, j) l}) by (apply in_dec; intros [a b] [c d]; destruct (Nat.eq_dec a c); destruct (Nat.eq_dec b d); [left; congruence|right; congruence|right; congruence|right; congruence]).
    destruct DEC as [I|I].
    + split; [intros _; exact (A I)|]. intro N. exfalso. apply N. right. exact I.
    + specialize (C I). destruct ((i =? to) && (j =? from)) eqn:Q.
      * apply andb_true_iff in Q. destruct Q as [Q1 Q2]. apply Nat.eqb_eq in Q1, Q2. subst i j. rewrite C. split; [intros _; exact E|].
        intro N. exfalso. apply N. left. reflexivity.
      * split; [|intros _; exact C]. intros [K|K]; [|contradiction]. injection K as -> ->. rewrite !Nat.eqb_refl in Q. discriminate.
Qed.
Lemma store_total n B : forall l te, (forall to from, In (to, from) l -> exists e, rcd_effect2 n B from to = Ok e) ->
  exists te', rcd_boot_store n B l te = Ok te'.
Proof.
  induction l as [|[to from] l IH]; intros te H; cbn [rcd_boot_store]; [eauto|].
  destruct (H to from (or_introl eq_refl)) as [e ->]. cbn [bind]. apply IH. intros a b I. apply (H a b). right. exact I.
Qed.
Lemma effect2_ok n (B : mat num) from to : from < n -> to < n -> from <> to -> acyclic (edge_of n (denan B)) ->
  exists e, rcd_effect2 n B from to = Ok e.
Proof.
  intros Hf Ht N AC. unfold rcd_effect2. destruct (existsb _ _); [eauto|].
  destruct (total_effect_spec n B from to ltac:(lia) Hf Ht N AC) as (t & E & _). eauto.
Qed.
Lemma store_records n M B te : (forall i, M i i = false) -> acyclic (edge_of n (denan B)) ->
  rcd_boot_store n B (rcd_boot_pairs n M) (fun _ _ => Some 0%Qc) = Ok te -> records n M B te.
Proof.
  intros IR AC H to from Ht Hf. destruct (store_spec n B _ _ _ H to from) as [A C]. split; [|split].
  - intro Q. apply C. rewrite in_pairs. intros (_ & _ & K). congruence.
  - intros Q NN. specialize (A (proj2 (in_pairs n M to from) (conj Ht (conj Hf Q)))). unfold rcd_effect2 in A.
    rewrite (proj2 (nan_row n B from) NN) in A. injection A as A. symmetry. exact A.
  - intros Q NN T TI. specialize (A (proj2 (in_pairs n M to from) (conj Ht (conj Hf Q)))). unfold rcd_effect2 in A.
    destruct (existsb _ _) eqn:K; [apply nan_row in K; destruct K as (j & Hj & K); destruct (NN j Hj K)|].
    assert (N : from <> to) by (intros ->; rewrite IR in Q; discriminate).
    destruct (total_effect_spec n B from to ltac:(lia) Hf Ht N AC) as (t & E & _ & U & _). rewrite E in A. injection A as A.
    rewrite <- A. f_equal. apply U. exact TI.
Qed.

(** ** C235 *)
(** [fit] may be any fit whose ancestor sets are irreflexive (RCD's are: C31_ancestor_sets).  If every resample has an
    estimate without cycles, bootstrap returns one pair per resample, in order: the matrix and the effects of [records]; the
    estimator keeps the last estimate. *)
Theorem C235_acyclic_estimates_give_a_result_partial :
  forall (D : Type) n (fit : D -> result (sets * mat num)) z resample o, (0 < z)%Z ->
  (forall k, k < Z.to_nat z -> exists M B, fit (resample k) = Ok (M, B) /\ (forall i, M i i = false) /\ acyclic (edge_of n (denan B))) ->
  exists l, rcd_bootstrap n fit z resample o =
      (match fit (resample (Z.to_nat z - 1)) with Ok r => Some r | Err _ => o end, Ok l) /\
    length l = Z.to_nat z /\
    forall k, k < Z.to_nat z -> exists M B te, fit (resample k) = Ok (M, B) /\ nth_error l k = Some (B, te) /\ records n M B te.
Proof.
  intros D n fit z resample o Hz H. unfold rcd_bootstrap. rewrite (proj2 (Z.ltb_lt 0 z) Hz).
  assert (G : forall m a o, (forall k, k < m -> exists M B, fit (resample (a + k)) = Ok (M, B) /\ (forall i, M i i = false) /\ acyclic (edge_of n (denan B))) ->
    exists l, rcd_boot_loop n fit (map resample (seq a m)) o =
      (match m with 0 => o | S m' => match fit (resample (a + m')) with Ok r => Some r | Err _ => o end end, Ok l) /\ length l = m /\
      forall k, k < m -> exists M B te, fit (resample (a + k)) = Ok (M, B) /\ nth_error l k = Some (B, te) /\ records n M B te).
  { clear. induction m as [|m IH]; intros a o H.
    - exists []. split; [reflexivity|]. split; [reflexivity|]. intros k Hk. lia.
    - cbn [seq map rcd_boot_loop]. destruct (H 0 ltac:(lia)) as (M & B & F & IR & AC). rewrite Nat.add_0_r in F. rewrite F.
      destruct (store_total n B (rcd_boot_pairs n M) (fun _ _ => Some 0%Qc)) as [te T].
      { intros to from I. apply in_pairs in I. destruct I as (A & C & Q). apply effect2_ok; [exact C|exact A| |exact AC].
        intros ->. rewrite IR in Q. discriminate. }
      rewrite T. destruct (IH (S a) (Some (M, B))) as (l & E & L & R).
      { intros k Hk. replace (S a + k) with (a + S k) by lia. apply H. lia. }
      rewrite E. exists ((B, te) :: l). split; [|split].
      + f_equal. destruct m as [|m'].
        * rewrite Nat.add_0_r, F. reflexivity.
        * replace (S a + m') with (a + S m') by lia. destruct (H (S m') ltac:(lia)) as (M2 & B2 & F2 & _). rewrite F2. reflexivity.
      + cbn [length]. lia.
      + intros [|k] Hk.
        * exists M, B, te. rewrite Nat.add_0_r. split; [exact F|]. split; [reflexivity|]. apply store_records; assumption.
        * replace (a + S k) with (S a + k) by lia. apply R. lia. }
  destruct (G (Z.to_nat z) 0 o H) as (l & E & L & R). exists l. rewrite E. split; [|split; [exact L|exact R]].
  destruct (Z.to_nat z) as [|m] eqn:Q; [lia|]. replace (S m - 1) with m by lia. reflexivity.
Qed.
Print Assumptions C235_acyclic_estimates_give_a_result_partial.

(** The number of samplings must be positive, and an estimate that raises is not hidden. *)
Theorem C235_bad_number_of_samplings : forall (D : Type) n (fit : D -> result (sets * mat num)) z resample o, (z <= 0)%Z ->
  rcd_bootstrap n fit z resample o = (o, Err ValueError).
Proof. intros D n fit z resample o H. unfold rcd_bootstrap. rewrite (proj2 (Z.ltb_ge 0 z) H). reflexivity. Qed.
Print Assumptions C235_bad_number_of_samplings.
Theorem C235_first_failing_fit : forall (D : Type) n (fit : D -> result (sets * mat num)) z resample o e, (0 < z)%Z ->
  fit (resample 0) = Err e -> rcd_bootstrap n fit z resample o = (o, Err e).
Proof.
  intros D n fit z resample o e Hz H. unfold rcd_bootstrap. rewrite (proj2 (Z.ltb_lt 0 z) Hz).
  destruct (Z.to_nat z) as [|m] eqn:Q; [lia|]. cbn [seq map rcd_boot_loop]. rewrite H. reflexivity.
Qed.
Print Assumptions C235_first_failing_fit.

(** RCD itself: five variables, and tests that answer so that 1, 2, 3 become ancestors of one another in a circle
    ([C31] only excludes circles of two). *)
Definition circle (_ : nat) : result (sets * mat num) :=
  rcd_fit 5 2 true yes1 yes2 (accept [(1, [0]); (2, [1]); (3, [2]); (1, [3]); (4, [0])]) never4 yesP noP one.
(** The fit of every resample succeeds, and bootstrap raises, for every number of samplings. *)
Theorem C235_bootstrap_completes_when_its_fits_do_refuted : forall z o, (0 < z)%Z ->
  (forall k, exists M B, circle k = Ok (M, B)) /\ snd (rcd_bootstrap 5 circle z (fun k => k) o) = Err ValueError.
Proof.
  intros z o Hz. split.
  - intro k. destruct (circle k) as [[M B]|e] eqn:E; [eauto|]. exfalso.
    assert (K : match circle k with Ok _ => true | Err _ => false end = true) by (vm_compute; reflexivity). rewrite E in K. discriminate.
  - unfold rcd_bootstrap. rewrite (proj2 (Z.ltb_lt 0 z) Hz). destruct (Z.to_nat z) as [|m] eqn:Q; [lia|]. cbn [seq map rcd_boot_loop].
    assert (K : match circle 0 with Ok (M, B) => match rcd_boot_store 5 B (rcd_boot_pairs 5 M) (fun _ _ => Some 0%Qc) with Err ValueError => true | _ => false end | _ => false end = true) by (vm_compute; reflexivity).
    destruct (circle 0) as [[M B]|e]; [|discriminate]. destruct (rcd_boot_store _ _ _ _) as [te|[]]; try discriminate. reflexivity.
Qed.
Print Assumptions C235_bootstrap_completes_when_its_fits_do_refuted.

(** Three variables in a chain: the hypotheses of the positive theorem hold. *)
Definition chain_fit (_ : nat) : result (sets * mat num) :=
  rcd_fit 3 2 true yes1 yes2 (accept [(1, [0]); (2, [1]); (2, [0])]) never4 yesP noP one.
Example C235_chain : match rcd_bootstrap 3 chain_fit 2 (fun k => k) None with
  | (Some _, Ok l) => map (fun r => map (fun i => map (fun j => option_map this (snd r i j)) (seq 0 3)) (seq 0 3)) l
  | _ => [] end = let t := [[Some 0%Q; Some 0%Q; Some 0%Q]; [Some 1%Q; Some 0%Q; Some 0%Q]; [Some 2%Q; Some 1%Q; Some 0%Q]] in [t; t].
Proof. vm_compute. reflexivity. Qed.
Example C235_chain_hypotheses : forall k, exists M B, chain_fit k = Ok (M, B) /\ (forall i, M i i = false) /\ acyclic (edge_of 3 (denan B)).
Proof.
  intro k. assert (K : match chain_fit k with Ok (M, B) => forallb (fun i => forallb (fun j => (j <? i) || qeqb (denan B i j) 0%Qc) (seq 0 3)) (seq 0 3) | _ => false end = true) by (vm_compute; reflexivity).
  destruct (chain_fit k) as [[M B]|e] eqn:E; [|discriminate]. exists M, B. split; [reflexivity|].
  split; [apply (C31_ancestor_sets _ _ _ _ _ _ _ _ _ _ _ _ E)|].
  assert (LT : forall a b, edge_of 3 (denan B) a b -> a < b).
  { intros a b (Ha & Hb & N). rewrite forallb_forall in K. specialize (K b ltac:(apply in_seq; lia)). rewrite forallb_forall in K.
    specialize (K a ltac:(apply in_seq; lia)). apply orb_true_iff in K. destruct K as [K|K]; [apply Nat.ltb_lt; exact K|apply qeqb_eq in K; contradiction]. }
  intros v C. assert (G : forall a b, clos_trans nat (edge_of 3 (denan B)) a b -> a < b).
  { intros a b Q. induction Q as [a b Q|a b c _ I1 _ I2]; [apply LT; exact Q|lia]. }
  specialize (G v v C). lia.
Qed.
