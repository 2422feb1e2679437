(** * ICA-LiNGAM recovers the model from an exact unmixing matrix: lemmas *)
From Coq Require Import List Arith Bool ZArith QArith Qcanon Lia Permutation Relations Sorted.
From Verif Require Import Prelude Spec Lib LibMat ModelDirect ModelOrder ProofDirect ProofOrder ProofEffect.
Import ListNotations.
Open Scope nat_scope.

(** ** The assignment is the true one *)
Lemma decreasing_perm_id : forall n (K : list nat) (sg : nat -> nat), is_order n K ->
  (forall i, i < n -> sg i < n) -> (forall i j, i < n -> j < n -> sg i = sg j -> i = j) ->
  (forall i, i < n -> sg i = i \/ precedes K (sg i) i) -> forall i, i < n -> sg i = i.
Proof.
  intros n K sg O R INJ DEC.
  assert (G : forall l1 l2, K = l1 ++ l2 -> forall i, In i l1 -> sg i = i).
  { intro l1. induction l1 as [|q l1 IH] using rev_ind; intros l2 E i Hi; [contradiction|].
    rewrite <- app_assoc in E. cbn in E. pose proof (is_order_NoDup n K O) as ND.
    assert (IN : forall x, In x K <-> x < n) by (apply is_order_iff in O; apply O).
    apply in_app_iff in Hi. destruct Hi as [Hi|[<-|[]]]; [apply (IH (q :: l2) E i Hi)|].
    assert (Hq : q < n) by (apply IN; rewrite E; apply in_app_iff; right; left; reflexivity).
    destruct (DEC q Hq) as [D|D]; [exact D|].
    assert (J : In (sg q) l1).
    { rewrite E in D, ND. apply precedes_app_inv in D. destruct D as [D|[[D _]|D]]; [apply precedes_In in D; tauto|exact D|].
      exfalso. apply NoDup_app_iff' in ND. destruct ND as (_ & ND & _). inversion ND as [|a b Nq ND']; subst.
      destruct D as (a & b & c & D). destruct a as [|a0 a]; cbn in D.
      - injection D as D1 D2. apply Nq. rewrite D2. apply in_app_iff. right. left. reflexivity.
      - injection D as D1 D2. apply Nq. rewrite D2. apply in_app_iff. right. right. apply in_app_iff. right. left. reflexivity. }
    apply INJ; [apply R; exact Hq|exact Hq|]. apply (IH (q :: l2) E). exact J. }
  intros i Hi. apply (G K [] (eq_sym (app_nil_r K))). apply is_order_iff in O. apply O. exact Hi.
Qed.

Section Ica.
  Variables (n : nat) (B W : mat Qc) (s : nat -> Qc) (p pinv c cinv : nat -> nat).
  Hypothesis A : acyclic (edge_of n B).
  Hypothesis p_range : forall r, r < n -> p r < n.
  Hypothesis pinv_range : forall i, i < n -> pinv i < n.
  Hypothesis p_pinv : forall i, i < n -> p (pinv i) = i.
  Hypothesis pinv_p : forall r, r < n -> pinv (p r) = r.
  Hypothesis W_eq : forall r j, r < n -> j < n -> W r j = (s r * (midn (p r) j - B (p r) j))%Qc.
  Hypothesis s_nz : forall r, r < n -> s r <> 0%Qc.
  Hypothesis c_range : forall r, r < n -> c r < n.
  Hypothesis c_inj : forall r q, r < n -> q < n -> c r = c q -> r = q.
  Hypothesis c_nz : forall r, r < n -> W r (c r) <> 0%Qc.
  Hypothesis cinv_range : forall i, i < n -> cinv i < n.
  Hypothesis c_cinv : forall i, i < n -> c (cinv i) = i.

  Lemma B_diag : forall i, i < n -> B i i = 0%Qc.
  Proof.
    intros i Hi. destruct (Qc_eq_dec (B i i) 0) as [Z|Z]; [exact Z|]. exfalso. apply (A i). apply t_step. repeat split; assumption.
  Qed.
  Lemma assignment_true : forall r, r < n -> c r = p r.
  Proof.
    intros r Hr. destruct (topo_exists (edge_of n B) n (edge_of_dec n B) A) as (K & O & T).
    assert (Q : c (pinv (p r)) = p r); [|rewrite pinv_p in Q by exact Hr; exact Q].
    apply (decreasing_perm_id n K (fun i => c (pinv i)) O); [intros i Hi; apply c_range, pinv_range; exact Hi| | |apply p_range; exact Hr].
    - intros i j Hi Hj E. apply c_inj in E; [|apply pinv_range; assumption..]. rewrite <- (p_pinv i Hi), <- (p_pinv j Hj), E. reflexivity.
    - intros i Hi. cbv beta. set (r' := pinv i). assert (Hr' : r' < n) by (apply pinv_range; exact Hi).
      pose proof (c_nz r' Hr') as NZ. rewrite (W_eq r' (c r') Hr' (c_range r' Hr')) in NZ.
      assert (PI : p r' = i) by (apply p_pinv; exact Hi). rewrite PI in NZ.
      destruct (Nat.eq_dec (c r') i) as [D|D]; [left; exact D|right].
      apply T; [apply c_range; exact Hr'|exact Hi|]. split; [exact Hi|]. split; [apply c_range; exact Hr'|].
      intro Z. apply NZ. rewrite Z. unfold midn. destruct (Nat.eqb_spec i (c r')); [congruence|ring].
  Qed.
  Lemma ica_B_exact : forall i j, i < n -> j < n -> ica_B W cinv i j = B i j.
  Proof.
    intros i j Hi Hj. unfold ica_B. set (r := cinv i). assert (Hr : r < n) by (apply cinv_range; exact Hi).
    assert (PI : p r = i) by (rewrite <- (assignment_true r Hr); apply c_cinv; exact Hi).
    rewrite (W_eq r i Hr Hi), (W_eq r j Hr Hj), PI, (B_diag i Hi).
    unfold midn. rewrite Nat.eqb_refl. destruct (i =? j); field; apply s_nz; exact Hr.
  Qed.
End Ica.

(** ** The order *)
Lemma nz_count : forall n K (f : nat -> nat -> bool), is_order n K -> (forall i j, i < n -> j < n -> f i j = true -> precedes K j i) ->
  length (filter (fun q => f (fst q) (snd q)) (all_pos n)) * 2 <= n * (n - 1).
Proof.
  intros n K f O F. pose proof (is_order_NoDup n K O) as ND.
  assert (IN : forall x, In x K <-> x < n) by (apply is_order_iff in O; apply O).
  assert (P : Permutation (all_pos n) (list_prod K (seq 0 n))).
  { apply NoDup_Permutation; [apply NoDup_list_prod; apply seq_NoDup|apply NoDup_list_prod; [exact ND|apply seq_NoDup]|].
    intros [i j]. rewrite all_pos_In, in_prod_iff, in_seq, IN. lia. }
  assert (PL : forall A (g : A -> bool) l l', Permutation l l' -> length (filter g l) = length (filter g l')).
  { intros A g l l' H. induction H; cbn; try (destruct (g x)); try (destruct (g y)); cbn; congruence. }
  rewrite (PL _ _ _ _ P).
  assert (G : forall l1 l2, K = l1 ++ l2 -> length (filter (fun q => f (fst q) (snd q)) (list_prod l1 (seq 0 n))) * 2 <= length l1 * (length l1 - 1)).
  { intro l1. induction l1 as [|q l1 IH] using rev_ind; intros l2 E; [cbn; lia|].
    rewrite <- app_assoc in E. cbn in E. specialize (IH (q :: l2) E).
    assert (LP : forall (a b m : list nat), list_prod (a ++ b) m = list_prod a m ++ list_prod b m).
    { induction a as [|a0 a IHa]; intros b m; cbn; [reflexivity|]. rewrite IHa, app_assoc. reflexivity. }
    rewrite LP, filter_app, !app_length. cbn [list_prod length]. rewrite app_nil_r.
    assert (R : length (filter (fun r => f (fst r) (snd r)) (map (fun y => (q, y)) (seq 0 n))) <= length l1).
    { assert (M : forall l, length (filter (fun r => f (fst r) (snd r)) (map (fun y : nat => (q, y)) l)) = length (filter (f q) l)).
      { induction l as [|y l IHl]; [reflexivity|]. cbn. destruct (f q y); cbn; congruence. }
      rewrite M. apply NoDup_incl_length; [apply NoDup_filter, seq_NoDup|]. intros j Hj. apply filter_In in Hj. destruct Hj as [Hj Fj]. apply in_seq in Hj.
      assert (Hq : q < n) by (apply IN; rewrite E; apply in_app_iff; right; left; reflexivity).
      pose proof (F q j Hq ltac:(lia) Fj) as D. rewrite E in D, ND. apply precedes_app_inv in D. destruct D as [D|[[D _]|D]]; [apply precedes_In in D; tauto|exact D|].
      exfalso. apply NoDup_app_iff' in ND. destruct ND as (_ & ND & _). inversion ND as [|a b Nq ND']; subst.
      destruct D as (a & b & c & D). destruct a as [|a0 a]; cbn in D.
      - injection D as D1 D2. apply Nq. rewrite D2. apply in_app_iff. right. left. reflexivity.
      - injection D as D1 D2. apply Nq. rewrite D2. apply in_app_iff. right. right. apply in_app_iff. right. left. reflexivity. }
    replace (length l1 + 1 - 1) with (length l1) by lia. destruct (length l1) as [|m]; [lia|]. replace (S m - 1) with m in IH by lia. nia. }
  specialize (G K [] (eq_sym (app_nil_r K))). assert (L : length K = n) by (rewrite (Permutation_length O); apply seq_length). rewrite L in G. exact G.
Qed.

Lemma ica_order_exact : forall n pos B, 2 <= n -> Permutation pos (all_pos n) -> sorted_pos (fun i j => Some (B i j)) pos ->
  acyclic (edge_of n B) -> exists K, fst (ica_estimate_order n pos (fun i j => Some (B i j))) = Some K /\ is_order n K /\ topological (edge_of n B) K.
Proof.
  intros n pos B Hn P Srt A. set (M := fun i j => Some (B i j)) in *.
  destruct (ica_estimate_ok n pos M Hn P) as (K & Mf & r1 & r2 & E & Ep & Lk & EM & O & T & MIN).
  { intros i Hi. unfold M. destruct (Qc_eq_dec (B i i) 0) as [Z|Z]; [rewrite Z; reflexivity|]. exfalso. apply (A i). apply t_step. repeat split; assumption. }
  exists K. rewrite E. split; [reflexivity|]. split; [exact O|].
  set (k := n * (n + 1) / 2) in *.
  assert (L1 : length r1 = k).
  { destruct (Nat.eq_dec (length r1) k) as [D|D]; [exact D|exfalso].
    apply (MIN (firstn k r1) (skipn k r1)); [symmetry; apply firstn_skipn| |rewrite firstn_length; lia|].
    - intro Z. apply (f_equal (@length _)) in Z. rewrite skipn_length in Z. cbn [length] in Z. lia.
    - apply (acyclic_sub _ (edge_of n B)); [|exact A].
      intros a b (Hb & Ha & Nz). split; [exact Hb|]. split; [exact Ha|]. intro Z. apply Nz. rewrite zero_at_fold. destruct (existsb _ _); [reflexivity|]. unfold M. rewrite Z. reflexivity. }
  destruct (topo_exists (edge_of n B) n (edge_of_dec n B) A) as (K0 & O0 & T0).
  set (f := fun i j => negb (qeqb (B i j) 0)).
  assert (F : forall i j, f i j = true <-> B i j <> 0%Qc) by (intros i j; unfold f; rewrite negb_true_iff; apply qeqb_neq).
  assert (C : length (filter (fun q => f (fst q) (snd q)) (all_pos n)) * 2 <= n * (n - 1)).
  { apply (nz_count n K0 f O0). intros i j Hi Hj Fij. apply T0; [assumption..|]. repeat split; try assumption. apply F. exact Fij. }
  assert (PL : forall A (g : A -> bool) l l', Permutation l l' -> length (filter g l) = length (filter g l')).
  { intros A' g l l' H. induction H; cbn; try (destruct (g x)); try (destruct (g y)); cbn; congruence. }
  rewrite <- (PL _ _ _ _ P), Ep, filter_app, app_length in C.
  assert (LL : length r1 + length r2 = n * n) by (rewrite <- app_length, <- Ep, (Permutation_length P); apply all_pos_length).
  assert (K2 : k * 2 = n * (n + 1)).
  { unfold k. assert (EV : Nat.Even (n * (n + 1))). { replace (n + 1) with (S n) by lia. destruct (Nat.Even_or_Odd n) as [[m ->]|[m ->]]; [exists (m * S (2 * m)); lia|exists ((2 * m + 1) * S m); lia]. }
    destruct EV as [m EV]. rewrite EV. rewrite (Nat.mul_comm 2 m), Nat.div_mul by lia. lia. }
  assert (Z1 : forall q, In q r1 -> B (fst q) (snd q) = 0%Qc).
  { intros q Hq. destruct (Qc_eq_dec (B (fst q) (snd q)) 0) as [Z|Z]; [exact Z|exfalso].
    assert (ALL : filter (fun q => f (fst q) (snd q)) r2 = r2).
    { assert (Q : forall l, incl l r2 -> filter (fun q => f (fst q) (snd q)) l = l).
      { induction l as [|y l IH]; intro I; [reflexivity|]. cbn. assert (Y : f (fst y) (snd y) = true).
        { apply F. intro Zy. unfold sorted_pos in Srt. rewrite Ep in Srt. pose proof (StronglySorted_app_cross _ _ _ _ q y Srt Hq (I y (or_introl eq_refl))) as LE.
          cbn in LE. rewrite Zy in LE. apply (Qcle_not_lt _ _ LE). replace (qabs 0) with 0%Qc by (symmetry; apply qabs_0; reflexivity). apply qabs_pos. exact Z. }
        rewrite Y. f_equal. apply IH. intros a Ha. apply I. right. exact Ha. }
      apply Q. intros a Ha. exact Ha. }
    assert (ONE : 1 <= length (filter (fun q => f (fst q) (snd q)) r1)).
    { assert (Iq : In q (filter (fun q => f (fst q) (snd q)) r1)) by (apply filter_In; split; [exact Hq|apply F; exact Z]). destruct (filter _ r1); [contradiction|cbn; lia]. }
    rewrite ALL in C. destruct n as [|n']; [lia|]. replace (S n' - 1) with n' in C by lia. nia. }
  intros a b (Hb & Ha & Nz). apply T. split; [exact Hb|]. split; [exact Ha|]. rewrite EM.
  destruct (existsb _ r1) eqn:X.
  - apply existsb_pos in X. exfalso. apply Nz. apply (Z1 (b, a) X).
  - unfold M. congruence.
Qed.
