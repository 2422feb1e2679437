(** * Proofs: the order of ICALiNGAM in other units *)
From Coq Require Import List Arith Bool ZArith QArith Qcanon Lia Permutation Relations Sorted.
From Verif Require Import Prelude Spec Lib LibMat ModelDirect ModelOrder ProofDirect ProofOrder ProofEffect ProofIca ProofLim.
From Verif Require ProofMGPop.
Import ListNotations.
Open Scope nat_scope.

Lemma precedes_rev' : forall l a b, precedes l a b -> precedes (rev l) b a.
Proof.
  intros l a b (l1 & l2 & l3 & ->). exists (rev l3), (rev l2), (rev l1). rewrite rev_app_distr. cbn [rev]. rewrite rev_app_distr. cbn [rev]. rewrite <- !app_assoc. reflexivity.
Qed.
Lemma same_order : forall K K', NoDup K -> Permutation K' K -> (forall a b, precedes K a b -> precedes K' a b) -> K' = K.
Proof.
  induction K as [|x K IH]; intros K' ND P H; [apply Permutation_sym, Permutation_nil in P; exact P|].
  assert (ND' : NoDup K') by (apply (Permutation_NoDup (Permutation_sym P)); exact ND).
  destruct K' as [|y K']; [apply Permutation_nil in P; discriminate P|].
  assert (E : y = x).
  { destruct (Nat.eq_dec y x) as [E|E]; [exact E|exfalso]. assert (I : In y K) by (destruct (Permutation_in y P (or_introl eq_refl)) as [Q|Q]; [congruence|exact Q]).
    apply in_split in I. destruct I as (l1 & l2 & ->). assert (Q : precedes (y :: K') x y) by (apply H; exists [], l1, l2; reflexivity).
    apply (precedes_asym _ _ _ ND' Q). assert (I : In x (y :: K')) by (apply (Permutation_in x (Permutation_sym P)); left; reflexivity).
    destruct I as [I|I]; [congruence|]. apply in_split in I. destruct I as (m1 & m2 & ->). exists [], m1, m2. reflexivity. }
  subst y. f_equal. inversion ND; inversion ND'; subst. apply IH; [assumption|apply (Permutation_cons_inv P)|].
  intros a b Q. assert (Q2 : precedes (x :: K') a b) by (apply H; destruct Q as (l1 & l2 & l3 & ->); exists (x :: l1), l2, l3; reflexivity).
  destruct Q2 as (l1 & l2 & l3 & E). destruct l1 as [|z l1]; cbn in E; injection E as E1 E2.
  - subst a. exfalso. apply H2. apply (precedes_In K x b) in Q. tauto.
  - exists l1, l2, l3. exact E2.
Qed.

Lemma dominated_order : forall n K pos B t, 2 <= n -> is_order n K -> Permutation pos (all_pos n) -> sorted_pos (fun i j => Some (B i j)) pos -> (0 < t)%Qc ->
  (forall i, i < n -> B i i = 0%Qc) -> (forall i j, precedes K i j -> (qabs (B i j) < t)%Qc) -> (forall i j, precedes K i j -> (t <= qabs (B j i))%Qc) ->
  fst (ica_estimate_order n pos (fun i j => Some (B i j))) = Some K.
Proof.
  intros n K pos B t Hn O P Srt Ht D SM BG. set (M := fun i j => Some (B i j)) in *.
  pose proof (is_order_NoDup n K O) as ND. assert (IN : forall x, In x K <-> x < n) by (apply is_order_iff in O; apply O).
  destruct (ica_estimate_ok n pos M Hn P) as (K' & Mf & r1 & r2 & E & Ep & Lk & EM & O' & T & MIN).
  { intros i Hi. unfold M. rewrite (D i Hi). reflexivity. }
  rewrite E. cbn [fst]. f_equal. set (k := n * (n + 1) / 2) in *.
  set (big := fun i j => negb (qltb (qabs (B i j)) t)).
  assert (BT : forall i j, big i j = true <-> (t <= qabs (B i j))%Qc) by (intros i j; unfold big; rewrite negb_true_iff; apply qltb_nlt).
  assert (BF : forall i j, big i j = false <-> (qabs (B i j) < t)%Qc) by (intros i j; unfold big; rewrite negb_false_iff; apply qltb_lt).
  assert (BP : forall i j, i < n -> j < n -> (big i j = true <-> precedes K j i)).
  { intros i j Hi Hj. split; intro H; [|apply BT, BG; exact H]. destruct (Nat.eq_dec i j) as [<-|Nij].
    - exfalso. apply BT in H. rewrite (D i Hi) in H. replace (qabs 0) with 0%Qc in H by (symmetry; apply qabs_0; reflexivity). exact (Qclt_not_le _ _ Ht H).
    - destruct (precedes_total K i j) as [Q|Q]; [apply IN; exact Hi|apply IN; exact Hj|exact Nij| |exact Q]. apply SM in Q. apply BT in H. exfalso. exact (Qclt_not_le _ _ Q H). }
  assert (C1 : length (filter (fun q => big (fst q) (snd q)) (all_pos n)) * 2 <= n * (n - 1)).
  { apply (nz_count n K big O). intros i j Hi Hj H. apply (BP i j Hi Hj). exact H. }
  set (off := fun i j => negb (big i j) && negb (i =? j)).
  assert (C2 : length (filter (fun q => off (fst q) (snd q)) (all_pos n)) * 2 <= n * (n - 1)).
  { apply (nz_count n (rev K) off).
    - unfold is_order in *. apply (Permutation_trans (Permutation_sym (Permutation_rev K)) O).
    - intros i j Hi Hj H. unfold off in H. apply andb_prop in H. destruct H as [H1 H2]. apply negb_true_iff in H1. apply negb_true_iff, Nat.eqb_neq in H2. apply precedes_rev'.
      destruct (precedes_total K i j) as [Q|Q]; [apply IN; exact Hi|apply IN; exact Hj|exact H2|exact Q|]. apply (BP i j Hi Hj) in Q. congruence. }
  set (sml := fun q : nat * nat => negb (big (fst q) (snd q))).
  assert (C3 : length (filter sml (all_pos n)) <= length (filter (fun q => off (fst q) (snd q)) (all_pos n)) + n).
  { assert (G : forall l : list (nat * nat), length (filter sml l) <= length (filter (fun q => off (fst q) (snd q)) l) + length (filter (fun q => fst q =? snd q) l)).
    { induction l as [|q l IH]; [cbn; lia|]. cbn [filter]. unfold sml at 1, off at 1. destruct (big (fst q) (snd q)); destruct (fst q =? snd q); cbn [negb andb length]; lia. }
    specialize (G (all_pos n)). assert (L : length (filter (fun q => fst q =? snd q) (all_pos n)) <= n); [|lia].
    rewrite <- (seq_length n 0) at 2. rewrite <- (map_length (fun i => (i, i)) (seq 0 n)). apply NoDup_incl_length.
    - apply NoDup_filter. apply NoDup_list_prod; apply seq_NoDup.
    - intros [i j] H. apply filter_In in H. destruct H as [H1 H2]. cbn in H2. apply Nat.eqb_eq in H2. subst j. apply all_pos_In in H1. apply in_map_iff. exists i. split; [reflexivity|]. apply in_seq. lia. }
  assert (PL : forall A (g : A -> bool) l l', Permutation l l' -> length (filter g l) = length (filter g l')).
  { intros A' g l l' H. induction H; cbn; try (destruct (g x)); try (destruct (g y)); cbn; congruence. }
  assert (K2 : k * 2 = n * (n + 1)).
  { unfold k. assert (EV : Nat.Even (n * (n + 1))). { replace (n + 1) with (S n) by lia. destruct (Nat.Even_or_Odd n) as [[m ->]|[m ->]]; [exists (m * S (2 * m)); lia|exists ((2 * m + 1) * S m); lia]. }
    destruct EV as [m EV]. rewrite EV. rewrite (Nat.mul_comm 2 m), Nat.div_mul by lia. lia. }
  assert (LP : length pos = n * n) by (rewrite (Permutation_length P); apply all_pos_length).
  assert (kn : k <= n * n) by nia.
  set (s1 := firstn k pos). set (s2 := skipn k pos). assert (Es : pos = s1 ++ s2) by (symmetry; apply firstn_skipn).
  assert (L1 : length s1 = k) by (unfold s1; rewrite firstn_length; lia). assert (L2 : length s2 = n * n - k) by (unfold s2; rewrite skipn_length; lia).
  assert (CR : forall x y, In x s1 -> In y s2 -> (qabs (B (fst x) (snd x)) <= qabs (B (fst y) (snd y)))%Qc).
  { intros x y Hx Hy. unfold sorted_pos in Srt. rewrite Es in Srt. exact (StronglySorted_app_cross _ _ _ _ x y Srt Hx Hy). }
  assert (FA : forall (g : nat * nat -> bool) l, (forall q, In q l -> g q = true) -> filter g l = l).
  { intros g. induction l as [|y l IH]; intro I; [reflexivity|]. cbn. rewrite (I y (or_introl eq_refl)). f_equal. apply IH. intros q Hq. apply I. right. exact Hq. }
  rewrite <- (PL _ _ _ _ P), Es, filter_app, app_length in C1. rewrite <- (PL _ sml _ _ P), Es, filter_app, app_length in C3.
  assert (Z1 : forall q, In q s1 -> big (fst q) (snd q) = false).
  { intros q Hq. destruct (big (fst q) (snd q)) eqn:Q; [exfalso|reflexivity].
    rewrite (FA (fun q => big (fst q) (snd q)) s2) in C1 by (intros y Hy; apply BT; apply BT in Q; apply (Qcle_trans _ _ _ Q); apply CR; assumption).
    assert (ONE : 1 <= length (filter (fun q => big (fst q) (snd q)) s1)).
    { assert (Iq : In q (filter (fun q => big (fst q) (snd q)) s1)) by (apply filter_In; split; [exact Hq|exact Q]). destruct (filter _ s1); [contradiction|cbn; lia]. }
    rewrite L2 in C1. clear -C1 ONE K2 Hn. destruct n as [|m]; [lia|]. replace (S m - 1) with m in C1 by lia. nia. }
  assert (Z2 : forall q, In q s2 -> big (fst q) (snd q) = true).
  { intros q Hq. destruct (big (fst q) (snd q)) eqn:Q; [reflexivity|exfalso].
    rewrite (FA sml s1) in C3 by (intros y Hy; unfold sml; rewrite (Z1 y Hy); reflexivity).
    assert (ONE : 1 <= length (filter sml s2)).
    { assert (Iq : In q (filter sml s2)) by (apply filter_In; split; [exact Hq|unfold sml; rewrite Q; reflexivity]). destruct (filter sml s2) as [|z zs]; [destruct Iq|cbn; lia]. }
    rewrite L1 in C3. clear -C2 C3 ONE K2 Hn. destruct n as [|m]; [lia|]. replace (S m - 1) with m in C2 by lia. nia. }
  assert (EDG : forall a b, a < n -> b < n -> (fold_left zero_at s1 M b a <> Some 0%Qc <-> precedes K a b)).
  { intros a b Ha Hb. rewrite zero_at_fold. destruct (existsb _ s1) eqn:X.
    - split; [congruence|]. intro Q. apply (BP b a Hb Ha) in Q. apply existsb_pos in X. apply Z1 in X. cbn in X. congruence.
    - assert (I : In (b, a) pos) by (apply (Permutation_in _ (Permutation_sym P)); apply all_pos_In; tauto). rewrite Es in I. apply in_app_or in I. destruct I as [I|I]; [apply existsb_pos in I; congruence|].
      apply Z2 in I. cbn in I. assert (I' := I). apply (BP b a Hb Ha) in I. apply BT in I'. split; [intros _; exact I|]. intros _ Z. unfold M in Z. injection Z as Z. rewrite Z in I'. replace (qabs 0) with 0%Qc in I' by (symmetry; apply qabs_0; reflexivity). exact (Qclt_not_le _ _ Ht I'). }
  assert (R1 : r1 = s1).
  { assert (F : firstn k r1 = s1) by (unfold s1; rewrite Ep, firstn_app; replace (k - length r1) with 0 by lia; cbn; rewrite app_nil_r; reflexivity).
    destruct (Nat.eq_dec (length r1) k) as [D1|D1]; [rewrite <- F; symmetry; apply firstn_all2; lia|exfalso].
    apply (MIN (firstn k r1) (skipn k r1)); [symmetry; apply firstn_skipn| |rewrite firstn_length; lia|].
    - intro Z. apply (f_equal (@length _)) in Z. rewrite skipn_length in Z. cbn [length] in Z. lia.
    - rewrite F. apply (acyclic_sub _ (precedes K)); [|intros v Q].
      + intros a b (Hb & Ha & Nz). apply (EDG a b Ha Hb). exact Nz.
      + assert (G : forall x y, clos_trans nat (precedes K) x y -> precedes K x y) by (intros x y H; induction H as [x y H|x y z _ I1 _ I2]; [exact H|apply (precedes_trans K x y z ND); assumption]).
        apply G in Q. exact (precedes_irrefl K v ND Q). }
  apply same_order; [exact ND|apply (Permutation_trans O' (Permutation_sym O))|].
  intros a b Q. pose proof (precedes_In _ _ _ Q) as [Ia Ib]. apply IN in Ia. apply IN in Ib. apply T. split; [exact Ib|]. split; [exact Ia|].
  rewrite EM, R1. rewrite <- zero_at_fold. apply (EDG a b Ia Ib). exact Q.
Qed.

(** ** Units that make a given order dominate *)
Definition rank (K : list nat) (j : nat) : nat := match index_of j K with Some i => i | None => 0 end.
Lemma rank_nth : forall K j, NoDup K -> In j K -> nth_error K (rank K j) = Some j.
Proof.
  intros K j ND I. unfold rank. destruct (index_of j K) as [i|] eqn:E; [apply index_of_some; exact E|]. apply index_of_none in E. contradiction.
Qed.
Lemma rank_precedes : forall K i j, NoDup K -> precedes K i j -> rank K i < rank K j.
Proof.
  intros K i j ND (l1 & l2 & l3 & E).
  assert (U : forall a m1 m2, K = m1 ++ a :: m2 -> rank K a = length m1).
  { intros a m1 m2 EK. assert (H1 : nth_error K (length m1) = Some a) by (rewrite EK, nth_error_app2, Nat.sub_diag by lia; reflexivity).
    assert (I : In a K) by (rewrite EK; apply in_app_iff; right; left; reflexivity). pose proof (rank_nth K a ND I) as H2.
    apply (proj1 (NoDup_nth_error K) ND); [apply nth_error_Some; congruence|congruence]. }
  rewrite (U i l1 (l2 ++ j :: l3) E). rewrite (U j (l1 ++ i :: l2) l3) by (rewrite E, <- app_assoc; reflexivity). rewrite app_length. cbn. lia.
Qed.
Definition geometric (m : Qc) (K : list nat) (j : nat) : Qc := (m ^ rank K j)%Qc.
Definition in_units_W (W : mat Qc) (c : nat -> Qc) : mat Qc := fun r j => (W r j / c j)%Qc.

Lemma qabs_mult : forall a b, qabs (a * b) = (qabs a * qabs b)%Qc.
Proof.
  intros a b. unfold qabs. destruct (qltb a 0) eqn:A; destruct (qltb b 0) eqn:B; destruct (qltb (a * b) 0) eqn:C; try ring.
  - apply qltb_lt in A, B, C. assert (P := Qcmult_pos (- a)%Qc (- b)%Qc ltac:(qclra) ltac:(qclra)). exfalso. replace (- a * - b)%Qc with (a * b)%Qc in P by ring. exact (Qclt_not_le _ _ P (Qclt_le_weak _ _ C)).
  - apply qltb_lt in A. apply qltb_nlt in B, C. assert (Z : (0 <= - a * b)%Qc) by (apply Qcmult_nonneg; [qclra|exact B]). assert (Z2 : (a * b = 0)%Qc) by (apply Qcle_antisym; [|exact C]; replace (a * b)%Qc with (- (- a * b))%Qc by ring; qclra). rewrite Z2. replace (- a * b)%Qc with (- (a * b))%Qc by ring. rewrite Z2. reflexivity.
  - apply qltb_nlt in A, C. apply qltb_lt in B. assert (Z : (0 <= a * - b)%Qc) by (apply Qcmult_nonneg; [exact A|qclra]). assert (Z2 : (a * b = 0)%Qc) by (apply Qcle_antisym; [|exact C]; replace (a * b)%Qc with (- (a * - b))%Qc by ring; qclra). rewrite Z2. replace (a * - b)%Qc with (- (a * b))%Qc by ring. rewrite Z2. reflexivity.
  - apply qltb_nlt in A, B. apply qltb_lt in C. exfalso. exact (Qclt_not_le _ _ C (Qcmult_nonneg _ _ A B)).
Qed.
Lemma ica_units_entry : forall W c cinv i j, (forall j, c j <> 0%Qc) -> W (cinv i) i <> 0%Qc -> ica_B (in_units_W W c) cinv i j = (c i * ica_B W cinv i j / c j)%Qc.
Proof.
  intros W c cinv i j Hc HW. unfold ica_B, in_units_W. cbv zeta. destruct (Nat.eqb_spec i j) as [<-|N]; field; repeat split; try apply Hc; exact HW.
Qed.

Lemma pow_mono : forall m a b, (1 <= m)%Qc -> a <= b -> (m ^ a <= m ^ b)%Qc.
Proof.
  intros m a b Hm L. induction L as [|b L IH]; [apply Qcle_refl|]. apply (Qcle_trans _ _ _ IH). cbn [Qcpower].
  assert (P : (0 <= m ^ b)%Qc). { clear -Hm. induction b as [|b IH]; [vm_compute; discriminate|]. cbn [Qcpower]. apply Qcmult_nonneg; [qclra|exact IH]. }
  rewrite <- (Qcmult_1_l (m ^ b)) at 1. apply Qcmult_le_compat_r; assumption.
Qed.
Lemma pow_pos : forall m a, (0 < m)%Qc -> (0 < m ^ a)%Qc.
Proof. intros m a Hm. induction a as [|a IH]; [reflexivity|]. cbn [Qcpower]. apply Qcmult_pos; assumption. Qed.

Lemma any_order : forall n W K, 2 <= n -> (forall i j, i < n -> j < n -> W i j <> 0%Qc) -> is_order n K ->
  exists c, (forall j, (0 < c j)%Qc) /\ forall cinv pos, (forall i, i < n -> cinv i < n) -> Permutation pos (all_pos n) ->
    sorted_pos (fun i j => Some (ica_B (in_units_W W c) cinv i j)) pos ->
    fst (ica_estimate_order n pos (fun i j => Some (ica_B (in_units_W W c) cinv i j))) = Some K.
Proof.
  intros n W K Hn HW O. pose proof (is_order_NoDup n K O) as ND. assert (IN : forall x, In x K <-> x < n) by (apply is_order_iff in O; apply O).
  set (R := sumn n (fun r => sumn n (fun i => sumn n (fun j => qabs (W r j / W r i))))%Qc).
  assert (NN : forall r i j, (0 <= qabs (W r j / W r i))%Qc) by (intros; apply qabs_nonneg).
  assert (LE1 : forall (f : nat -> Qc) k, (forall x, (0 <= f x)%Qc) -> k < n -> (f k <= sumn n f)%Qc).
  { intros f k Hf Hk. clear -Hf Hk. induction n as [|m IH]; [lia|]. rewrite sumn_S. assert (S0 : (0 <= sumn m f)%Qc) by (apply sumn_nonneg; intros; apply Hf).
    destruct (Nat.eq_dec k m) as [->|D]; [|specialize (IH ltac:(lia)); specialize (Hf m); qclra]. qclra. }
  assert (RB : forall r i j, r < n -> i < n -> j < n -> (qabs (W r j / W r i) <= R)%Qc).
  { intros r i j Hr Hi Hj. unfold R. eapply Qcle_trans; [|apply (LE1 (fun r => sumn n (fun i => sumn n (fun j => qabs (W r j / W r i))))%Qc r); [intro; apply sumn_nonneg; intros; apply sumn_nonneg; intros; apply NN|exact Hr]].
    eapply Qcle_trans; [|apply (LE1 (fun i => sumn n (fun j => qabs (W r j / W r i)))%Qc i); [intro; apply sumn_nonneg; intros; apply NN|exact Hi]].
    apply (LE1 (fun j => qabs (W r j / W r i))%Qc j); [intro; apply NN|exact Hj]. }
  assert (R0 : (0 <= R)%Qc) by (unfold R; apply sumn_nonneg; intros; apply sumn_nonneg; intros; apply sumn_nonneg; intros; apply NN).
  set (m := (R + 1)%Qc). assert (M1 : (1 <= m)%Qc) by (unfold m; qclra). assert (M0 : (0 < m)%Qc) by (apply (Qclt_le_trans _ 1); [reflexivity|exact M1]).
  set (c := geometric m K). assert (Hc : forall j, (0 < c j)%Qc) by (intro j; apply pow_pos; exact M0).
  assert (Nc : forall j, c j <> 0%Qc) by (intros j Z; specialize (Hc j); rewrite Z in Hc; discriminate Hc).
  exists c. split; [exact Hc|]. intros cinv pos RI P Srt.
  assert (GE : forall i j, precedes K i j -> (m * c i <= c j)%Qc).
  { intros i j Q. apply (rank_precedes K i j ND) in Q. change (m ^ (S (rank K i)) <= m ^ rank K j)%Qc. apply pow_mono; [exact M1|exact Q]. }
  assert (EN : forall i j, i < n -> j < n -> i <> j -> qabs (ica_B (in_units_W W c) cinv i j) = (c i / c j * qabs (W (cinv i) j / W (cinv i) i))%Qc).
  { intros i j Hi Hj D. assert (NW := HW (cinv i) i (RI i Hi) Hi). rewrite ica_units_entry by assumption. unfold ica_B. rewrite (proj2 (Nat.eqb_neq i j) D). cbv zeta.
    replace (c i * (0 - W (cinv i) j / W (cinv i) i) / c j)%Qc with (- (c i / c j) * (W (cinv i) j / W (cinv i) i))%Qc by (field; split; [exact NW|apply Nc]).
    rewrite qabs_mult. f_equal. assert (PP : (0 < c i / c j)%Qc) by (apply Qcmult_pos; [apply Hc|apply ProofMGPop.Qcinv_pos; apply Hc]).
    unfold qabs. replace (qltb (- (c i / c j)) 0) with true; [ring|]. symmetry. apply qltb_lt. qclra. }
  apply (dominated_order n K pos _ 1%Qc Hn O P Srt); [reflexivity| | |].
  - intros i Hi. unfold ica_B, in_units_W. rewrite Nat.eqb_refl. cbv zeta. field. split; [apply Nc|apply HW; [apply RI; exact Hi|exact Hi]].
  - intros i j Q. pose proof (precedes_In _ _ _ Q) as [Ii Ij]. apply IN in Ii. apply IN in Ij.
    assert (D : i <> j) by (intro; subst; exact (precedes_irrefl K j ND Q)). rewrite (EN i j Ii Ij D). specialize (RB (cinv i) i j (RI i Ii) Ii Ij). specialize (GE i j Q).
    set (q := qabs (W (cinv i) j / W (cinv i) i)) in *. assert (q < m)%Qc by (unfold m; clearbody q R; qclra).
    apply (Qcle_lt_trans _ (c i / c j * R)%Qc); [rewrite !(Qcmult_comm (c i / c j)); apply Qcmult_le_compat_r; [exact RB|]; apply Qclt_le_weak, Qcmult_pos; [apply Hc|apply ProofMGPop.Qcinv_pos; apply Hc]|].
    apply Qcnot_le_lt. intro BAD. apply (Qcmult_le_compat_r 1 (c i / c j * R) (c j)) in BAD; [|apply Qclt_le_weak, Hc]. revert BAD. apply Qclt_not_le. rewrite Qcmult_1_l, (Qcmult_comm _ (c j)). replace (c j * (c i / c j * R))%Qc with (c i * R)%Qc by (field; apply Nc).
    apply (Qclt_le_trans _ (m * c i)%Qc); [|exact GE]. unfold m. specialize (Hc i). assert (E : ((R + 1) * c i = c i * R + c i)%Qc) by ring. rewrite E. clear -Hc. qclra.
  - intros i j Q. pose proof (precedes_In _ _ _ Q) as [Ii Ij]. apply IN in Ii. apply IN in Ij.
    assert (D : j <> i) by (intro; subst; exact (precedes_irrefl K i ND Q)). rewrite (EN j i Ij Ii D). specialize (GE i j Q).
    pose proof (RB (cinv j) i j (RI j Ij) Ii Ij) as RB'.
    assert (INV : (qabs (W (cinv j) j / W (cinv j) i) * qabs (W (cinv j) i / W (cinv j) j) = 1)%Qc).
    { rewrite <- qabs_mult. replace (W (cinv j) j / W (cinv j) i * (W (cinv j) i / W (cinv j) j))%Qc with 1%Qc; [reflexivity|]. field. split; apply HW; try assumption; apply RI; assumption. }
    set (q := qabs (W (cinv j) i / W (cinv j) j)) in *. set (p := qabs (W (cinv j) j / W (cinv j) i)) in *. assert (Q0 : (0 <= q)%Qc) by apply qabs_nonneg.
    assert (G2 : (m * q <= c j / c i * q)%Qc). { apply Qcmult_le_compat_r; [|exact Q0]. replace m with (m * c i * / c i)%Qc by (field; apply Nc). apply Qcmult_le_compat_r; [exact GE|apply Qclt_le_weak, ProofMGPop.Qcinv_pos, Hc]. }
    assert (G3 : (p * q <= R * q)%Qc) by (apply Qcmult_le_compat_r; assumption). rewrite INV in G3. apply (Qcle_trans _ (m * q)%Qc); [|exact G2]. unfold m. replace ((R + 1) * q)%Qc with (R * q + q)%Qc by ring. clear -G3 Q0. qclra.
Qed.
