(** * Proofs: probabilities, total-effect table, paths, the bootstrap loop. *)
From Coq Require Import Ascii String DecimalString DecimalNat.
From Coq Require Import List Arith Lia Bool ZArith QArith Qcanon Permutation Sorted.
From Verif Require Import Prelude Spec SpecPaths SpecBootstrap Lib LibMat Loop ModelPaths ModelBootstrap
  ProofPaths ProofTotal ProofBootstrap.
Import ListNotations.
Open Scope nat_scope.

(** ** Probabilities *)
Lemma count_above_number : forall m ams i j, (0 <= m)%Qc ->
  number_of (exceeds m ams i j) (length ams) (count_above m ams i j).
Proof.
  intros m ams i j Hm. unfold count_above.
  eapply number_of_iff; [|apply (number_of_filter _ _ ((fun _ _ => None) : mat num))].
  intros k _. cbn beta. apply above_exceeds. exact Hm.
Qed.
Lemma qn_pos : forall n, 0 < n -> (0 < qn n)%Qc.
Proof. intros n H. apply (proj2 (qn_lt 0 n) H). Qed.
Lemma qn_nonneg : forall n, (0 <= qn n)%Qc.
Proof. intros n. apply (proj2 (qn_le 0 n)). lia. Qed.
Lemma qn_nz : forall n, 0 < n -> qn n <> 0%Qc.
Proof. intros n H E. apply qn_pos in H. rewrite E in H. exact (Qclt_not_le _ _ H (Qcle_refl _)). Qed.
Lemma Qcdiv_le : forall a b c, (0 < c)%Qc -> (a <= b)%Qc -> (a / c <= b / c)%Qc.
Proof.
  intros a b c Hc H. unfold Qcdiv. apply Qcmult_le_compat_r; [exact H|].
  apply Qcnot_lt_le. intro L.
  assert (c * / c = 1)%Qc as E.
  { apply Qcmult_inv_r. intros ->. exact (Qclt_not_le _ _ Hc (Qcle_refl _)). }
  assert (0 * c < - / c * c)%Qc as X.
  { apply Qcmult_lt_compat_r; [exact Hc|]. qclra. }
  replace (- / c * c)%Qc with (- (c * / c))%Qc in X by ring. rewrite E in X. qclra.
Qed.
Lemma frac_bounds : forall c N, 0 < N -> c <= N ->
  (0 <= qn c / qn N /\ qn c / qn N <= 1)%Qc.
Proof.
  intros c N HN Hc. assert (P := qn_pos N HN). split.
  - replace 0%Qc with (0 / qn N)%Qc by (unfold Qcdiv; ring). apply Qcdiv_le; [exact P|apply qn_nonneg].
  - replace 1%Qc with (qn N / qn N)%Qc by (apply Qcmult_inv_r; apply qn_nz; exact HN).
    apply Qcdiv_le; [exact P|apply qn_le; exact Hc].
Qed.
Lemma frac_le : forall c d N, 0 < N -> c <= d -> (qn c / qn N <= qn d / qn N)%Qc.
Proof. intros. apply Qcdiv_le; [apply qn_pos; assumption|apply qn_le; assumption]. Qed.
Lemma frac_pos : forall c N, 0 < N -> ((0 < qn c / qn N)%Qc <-> 0 < c).
Proof.
  intros c N HN. split.
  - intro H. destruct c; [|lia]. exfalso. replace (qn 0 / qn N)%Qc with 0%Qc in H.
    + exact (Qclt_not_le _ _ H (Qcle_refl _)).
    + unfold Qcdiv. change (qn 0) with 0%Qc. ring.
  - intro H. apply Qcnot_le_lt. intro L.
    assert (qn c / qn N * qn N <= 0 * qn N)%Qc as X.
    { apply Qcmult_le_compat_r; [exact L|apply qn_nonneg]. }
    unfold Qcdiv in X. rewrite <- Qcmult_assoc, (Qcmult_comm (/ qn N)), Qcmult_inv_r in X by (apply qn_nz; exact HN).
    rewrite Qcmult_1_r in X. replace (0 * qn N)%Qc with (qn 0) in X by (change (qn 0) with 0%Qc; ring).
    apply qn_le in X. lia.
Qed.

Lemma prob_matrix_spec : forall m ams i j, (0 <= m)%Qc -> ams <> [] ->
  exists c, number_of (exceeds m ams i j) (length ams) c /\
    prob_matrix m ams i j = (qn c / qn (length ams))%Qc /\
    (0 <= prob_matrix m ams i j /\ prob_matrix m ams i j <= 1)%Qc.
Proof.
  intros m ams i j Hm Ha. exists (count_above m ams i j).
  assert (N := count_above_number m ams i j Hm). split; [exact N|]. split; [reflexivity|].
  apply frac_bounds; [destruct ams; [congruence|cbn; lia]|]. eapply number_of_le. exact N.
Qed.
Lemma prob_matrix_antitone : forall m m' ams i j, (0 <= m)%Qc -> (m <= m')%Qc -> ams <> [] ->
  (prob_matrix m' ams i j <= prob_matrix m ams i j)%Qc.
Proof.
  intros m m' ams i j Hm L Ha. unfold prob_matrix. apply frac_le; [destruct ams; [congruence|cbn; lia]|].
  eapply number_of_mono; [|apply count_above_number; eapply Qcle_trans; eassumption|apply count_above_number; exact Hm].
  intros k _ [v [E H]]. exists v. split; [exact E|]. eapply Qcle_lt_trans; eassumption.
Qed.

Lemma get_probabilities_square : forall n ams min_ce, 0 < n -> ams <> [] -> valid_threshold min_ce ->
  get_probabilities n n ams min_ce = Ok (PMatrix (prob_matrix (threshold min_ce) ams)).
Proof.
  intros n ams min_ce Hn Ha V. unfold get_probabilities. rewrite check_min_ok by exact V. cbn [bind].
  destruct ams as [|am r]; [congruence|]. rewrite Nat.div_same by lia. reflexivity.
Qed.
Lemma get_probabilities_blocks : forall n q ams min_ce, 0 < n -> 2 <= q -> ams <> [] -> valid_threshold min_ce ->
  get_probabilities n (q * n) ams min_ce =
  Ok (PBlocks (map (fun k => fun i j => prob_matrix (threshold min_ce) ams i (k * n + j)) (seq 0 q))).
Proof.
  intros n q ams min_ce Hn Hq Ha V. unfold get_probabilities. rewrite check_min_ok by exact V. cbn [bind].
  destruct ams as [|am r]; [congruence|]. rewrite Nat.div_mul by lia.
  destruct (Nat.eqb_spec q 1); [lia|]. destruct (Nat.eqb_spec q 0); [lia|].
  rewrite (Nat.mul_comm q n), Nat.mod_mul by lia. rewrite Nat.eqb_refl, Nat.div_mul by lia. reflexivity.
Qed.

(** What the probability answers mean, in one statement. *)
Definition freq_at (m : Qc) (ams : list (mat num)) (i j : nat) (p : Qc) : Prop :=
  (0 <= p /\ p <= 1)%Qc /\
  exists c, number_of (exceeds m ams i j) (length ams) c /\ p = (qn c / qn (length ams))%Qc.
Lemma freq_at_prob : forall m ams i j, (0 <= m)%Qc -> ams <> [] -> freq_at m ams i j (prob_matrix m ams i j).
Proof.
  intros m ams i j Hm Ha. destruct (prob_matrix_spec m ams i j Hm Ha) as [c [N [E B]]].
  split; [exact B|]. exists c. auto.
Qed.
Lemma get_probabilities_spec : forall n q ams min_ce,
  0 < n -> 0 < q -> ams <> [] -> valid_threshold min_ce ->
  match get_probabilities n (q * n) ams min_ce with
  | Ok (PMatrix b) => q = 1 /\ forall i j, i < n -> j < n -> freq_at (threshold min_ce) ams i j (b i j)
  | Ok (PBlocks bs) => q <> 1 /\ length bs = q /\
      forall k b, nth_error bs k = Some b ->
        forall i j, i < n -> j < n -> freq_at (threshold min_ce) ams i (k * n + j) (b i j)
  | Err _ => False
  end.
Proof.
  intros n q ams min_ce Hn Hq Ha V. assert (M := threshold_nonneg _ V).
  destruct (Nat.eq_dec q 1) as [->|Q].
  - rewrite Nat.mul_1_l, get_probabilities_square by assumption. split; [reflexivity|].
    intros. apply freq_at_prob; assumption.
  - rewrite get_probabilities_blocks by (try assumption; lia). split; [exact Q|].
    rewrite map_length, seq_length. split; [reflexivity|].
    intros k b Hk i j Hi Hj. rewrite nth_error_map in Hk.
    destruct (nth_error (seq 0 q) k) as [x|] eqn:E; [|discriminate]. cbn in Hk. inversion Hk; subst.
    assert (k < q). { rewrite <- (seq_length q 0). apply nth_error_Some. congruence. }
    rewrite (nth_error_nth' _ 0) in E by (rewrite seq_length; assumption).
    rewrite seq_nth in E by assumption. inversion E; subst. cbn [plus]. apply freq_at_prob; assumption.
Qed.
Lemma probabilities_match_counts : forall argsort n ams min_ce rows b,
  argsort_ok argsort -> 0 < n -> ams <> [] -> valid_threshold min_ce ->
  get_causal_direction_counts argsort n n ams None min_ce false = Ok rows ->
  get_probabilities n n ams min_ce = Ok (PMatrix b) ->
  forall i j, i < n -> j < n ->
  (forall c, In ((i, j, 0%Z), c) rows -> b i j = (qn c / qn (length ams))%Qc) /\
  ((forall c, ~ In ((i, j, 0%Z), c) rows) -> b i j = 0%Qc).
Proof.
  intros argsort n ams min_ce rows b OK Hn Ha V ER EB i j Hi Hj.
  assert (M := threshold_nonneg _ V).
  rewrite get_probabilities_square in EB by assumption. inversion EB; subst b; clear EB.
  destruct (direction_counts_unsplit argsort n n ams min_ce OK V) as [rows' [ER' [_ [_ H]]]].
  rewrite ER in ER'. inversion ER'; subst rows'; clear ER'.
  assert (N := count_above_number (threshold min_ce) ams i j M).
  split.
  - intros c I. apply H in I. destruct I as [_ [_ [_ [_ N']]]].
    unfold prob_matrix. rewrite (number_of_unique _ _ _ _ N' N). reflexivity.
  - intro NI. unfold prob_matrix. destruct (count_above (threshold min_ce) ams i j) as [|c] eqn:E.
    + unfold Qcdiv. change (qn 0) with 0%Qc. ring.
    + exfalso. apply (NI (S c)). apply H. repeat split; auto; lia.
Qed.

(** ** Medians *)
Lemma insert_q_perm : forall x l, Permutation (insert_q x l) (x :: l).
Proof.
  intros x l. induction l as [|y l IH]; [reflexivity|]. cbn [insert_q].
  destruct (qleb x y); [reflexivity|]. rewrite IH. apply perm_swap.
Qed.
Lemma sort_q_perm : forall l, Permutation (sort_q l) l.
Proof.
  induction l as [|x l IH]; [reflexivity|]. cbn [sort_q fold_right]. fold (sort_q l).
  rewrite insert_q_perm, IH. reflexivity.
Qed.
Lemma insert_q_sorted : forall x l, StronglySorted Qcle l -> StronglySorted Qcle (insert_q x l).
Proof.
  intros x l H. induction H as [|y l H IH F]; [repeat constructor|]. cbn [insert_q].
  destruct (qleb x y) eqn:E.
  - apply qleb_le in E. constructor; [constructor; assumption|]. constructor; [exact E|].
    eapply Forall_impl; [|exact F]. intros z Hz. eapply Qcle_trans; eassumption.
  - constructor; [exact IH|]. apply Forall_forall. intros z Hz.
    assert (In z (x :: l)) as [<-|I] by (eapply Permutation_in; [apply insert_q_perm|exact Hz]).
    + apply Qclt_le_weak. unfold qleb in E. apply negb_false_iff in E. apply qltb_lt. exact E.
    + rewrite Forall_forall in F. apply F. exact I.
Qed.
Lemma sort_q_sorted : forall l, StronglySorted Qcle (sort_q l).
Proof. induction l as [|x l IH]; [constructor|]. apply insert_q_sorted. exact IH. Qed.
Lemma half_double : forall v : Qc, ((v + v) / qz 2)%Qc = v.
Proof. intro v. assert (qz 2 <> 0%Qc) by discriminate. change (qz 2) with (1 + 1)%Qc in *. field. exact H. Qed.
Lemma np_median_spec : forall l, l <> [] -> exists v, np_median l = Some v /\ median_of l v.
Proof.
  intros l H. unfold np_median. assert (P := sort_q_perm l). assert (SS := sort_q_sorted l).
  assert (length (sort_q l) = length l) as L by (apply Permutation_length; exact P).
  assert (0 < length (sort_q l)) by (rewrite L; destruct l; [congruence|cbn; lia]).
  destruct (length (sort_q l)) as [|k] eqn:E; [lia|].
  destruct (Nat.odd (S k)) eqn:O.
  - eexists. split; [reflexivity|]. exists (sort_q l). repeat (split; [assumption|]). rewrite E.
    apply Nat.odd_spec in O. destruct O as [h Hh].
    replace (S k - 1) with (h * 2) by lia. rewrite Nat.div_mul by lia.
    replace (S k) with (1 + h * 2) by lia. rewrite Nat.div_add by lia.
    change (1 / 2) with 0. cbn [Nat.add]. rewrite half_double. reflexivity.
  - eexists. split; [reflexivity|]. exists (sort_q l). repeat (split; [assumption|]). rewrite E.
    rewrite <- Nat.negb_even in O. apply negb_false_iff, Nat.even_spec in O. destruct O as [h Hh].
    replace (S k - 1) with (1 + (h - 1) * 2) by lia. rewrite Nat.div_add by lia.
    replace (S k) with (h * 2) by lia. rewrite Nat.div_mul by lia.
    change (1 / 2) with 0. cbn [Nat.add]. reflexivity.
Qed.
Lemma sorted_perm_eq : forall s s', Permutation s s' -> StronglySorted Qcle s -> StronglySorted Qcle s' -> s = s'.
Proof.
  induction s as [|a s IH]; intros s' P S S'.
  - apply Permutation_nil in P. subst. reflexivity.
  - destruct s' as [|b s']; [symmetry in P; apply Permutation_nil in P; discriminate|].
    inversion S; subst. inversion S'; subst. rewrite Forall_forall in *.
    assert (a = b).
    { assert (In b (a :: s)) as [Ib|Ib] by (eapply Permutation_in; [symmetry; exact P|left; reflexivity]); auto.
      assert (In a (b :: s')) as [Ia|Ia] by (eapply Permutation_in; [exact P|left; reflexivity]); auto.
      apply Qcle_antisym; auto. }
    subst b. f_equal. apply IH; auto. eapply Permutation_cons_inv. exact P.
Qed.
Lemma median_of_perm : forall l l' v v', Permutation l l' -> median_of l v -> median_of l' v' -> v = v'.
Proof.
  intros l l' v v' P [s [_ [Ps [Ss ->]]]] [s' [_ [Ps' [Ss' ->]]]].
  assert (s = s') as ->; [|reflexivity]. apply sorted_perm_eq; auto.
  rewrite Ps, P. symmetry. exact Ps'.
Qed.
Lemma selects_perm : forall P N a b, selects P N a -> selects P N b -> Permutation a b.
Proof. intros P N a b [Na Ha] [Nb Hb]. apply NoDup_Permutation; auto. intro. rewrite Ha, Hb. reflexivity. Qed.
Lemma median_over_unique : forall P N f v w, median_over P N f v -> median_over P N f w -> v = w.
Proof.
  intros P N f v w [a [Sa Ma]] [b [Sb Mb]]. eapply median_of_perm; [|exact Ma|exact Mb].
  apply Permutation_map. eapply selects_perm; eassumption.
Qed.
Lemma median_over_iff : forall (P Q : nat -> Prop) N f v, (forall k, k < N -> (P k <-> Q k)) ->
  median_over P N f v -> median_over Q N f v.
Proof.
  intros P Q N f v H [a [[Na Ha] M]]. exists a. split; [|exact M]. split; [exact Na|].
  intro k. rewrite Ha. split; intros [L X]; (split; [exact L|]); apply (H k L); exact X.
Qed.
Lemma median_filter : forall A (f : A -> bool) (g : A -> Qc) d l, filter f l <> [] ->
  exists v, np_median (map g (filter f l)) = Some v /\
    median_over (fun k => f (nth k l d) = true) (length l) (fun k => g (nth k l d)) v.
Proof.
  intros A f g d l H. destruct (np_median_spec (map g (filter f l))) as [v [E M]].
  - destruct (filter f l); [congruence|discriminate].
  - exists v. split; [exact E|]. exists (positions f d l). split; [apply positions_selects|].
    replace (map (fun k => g (nth k l d)) (positions f d l)) with (map g (filter f l)); [exact M|].
    rewrite <- (positions_map _ f d l), map_map. reflexivity.
Qed.

(** ** Total causal effects *)
Definition te_at (tes : list (mat Qc)) (i j k : nat) : Qc := nth k tes (fun _ _ => 0%Qc) i j.
Lemma te_prob_number : forall m tes i j,
  number_of (fun k => (m < qabs (te_at tes i j k))%Qc) (length tes)
    (length (filter (fun te => qltb m (qabs (te i j))) tes)).
Proof.
  intros. eapply number_of_iff; [|apply (number_of_filter _ _ ((fun _ _ => 0%Qc) : mat Qc))].
  intros k _. apply qltb_lt.
Qed.
Lemma te_effect_spec : forall tes i j,
  (exists k, k < length tes /\ te_at tes i j k <> 0%Qc) ->
  exists v, te_effect tes i j = Some v /\
    median_over (fun k => te_at tes i j k <> 0%Qc) (length tes) (te_at tes i j) v.
Proof.
  intros tes i j [k [Hk Nz]]. unfold te_effect. rewrite filter_map_comm.
  destruct (median_filter _ (fun te : mat Qc => qltb 0 (qabs (te i j))) (fun te => te i j) (fun _ _ => 0%Qc) tes)
    as [v [E M]].
  - intro F. assert (In (nth k tes (fun _ _ => 0%Qc)) (filter (fun te : mat Qc => qltb 0 (qabs (te i j))) tes)) as I.
    { apply filter_In. split; [apply nth_In; exact Hk|]. apply qltb_lt. apply qabs_pos. exact Nz. }
    rewrite F in I. contradiction.
  - exists v. split; [exact E|]. eapply median_over_iff; [|exact M]. intros x _. cbn beta.
    rewrite qltb_lt. apply qabs_pos.
Qed.
Lemma total_causal_effects_spec : forall argsort nr nc tes min_ce,
  argsort_ok argsort -> tes <> [] -> valid_threshold min_ce ->
  exists rows, get_total_causal_effects argsort nr nc tes min_ce = Ok rows /\
    NoDup (map (fun r => fst (fst r)) rows) /\
    StronglySorted (fun a b => (snd b <= snd a)%Qc) rows /\
    (forall i j e p, In (i, j, e, p) rows <->
       i < nr /\ j < nc /\
       exists c v, 0 < c /\
         number_of (fun k => (threshold min_ce < qabs (te_at tes i j k))%Qc) (length tes) c /\
         p = (qn c / qn (length tes))%Qc /\ e = Some v /\
         median_over (fun k => te_at tes i j k <> 0%Qc) (length tes) (te_at tes i j) v).
Proof.
  intros argsort nr nc tes min_ce OK Ht V. assert (M := threshold_nonneg _ V).
  assert (0 < length tes) as LT by (destruct tes; [congruence|cbn; lia]).
  unfold get_total_causal_effects. rewrite check_min_ok by exact V. cbn [bind].
  set (m := threshold min_ce) in *.
  set (cells := filter _ (list_prod (seq 0 nr) (seq 0 nc))).
  set (u := map _ cells).
  destruct (take_order_sorted argsort OK _ (0, 0, None, 0%Qc) (fun r => - snd r)%Qc u) as [P S].
  eexists. split; [reflexivity|]. split; [|split].
  - eapply Permutation_NoDup; [apply Permutation_sym; apply Permutation_map; exact P|].
    unfold u. rewrite map_map. cbn [fst]. rewrite map_id. unfold cells. apply NoDup_filter.
    apply list_prod_NoDup; apply seq_NoDup.
  - eapply StronglySorted_impl; [|exact S]. cbn beta. intros [[? ?] a] [[? ?] b] H. cbn [snd] in *. qclra.
  - intros i j e p.
    assert (In (i, j, e, p) (take_order (0, 0, None, 0%Qc) (argsort (map (fun r => - snd r)%Qc u)) u) <-> In (i, j, e, p) u) as ->
      by (split; apply Permutation_in; [|apply Permutation_sym]; exact P).
    assert (forall a b, qltb 0 (qabs (te_prob m tes a b)) = true <->
              0 < length (filter (fun te => qltb m (qabs (te a b))) tes)) as Pos.
    { intros a b. rewrite qltb_lt. unfold te_prob. rewrite <- (frac_pos _ (length tes)) by exact LT.
      unfold qabs. destruct (qltb _ 0) eqn:E; [|reflexivity]. apply qltb_lt in E.
      exfalso. apply (Qclt_not_le _ _ E).
      eapply proj1. apply frac_bounds; [exact LT|]. eapply number_of_le. apply te_prob_number. }
    assert (forall a b, 0 < length (filter (fun te => qltb m (qabs (te a b))) tes) ->
              exists k, k < length tes /\ te_at tes a b k <> 0%Qc) as Ex.
    { intros a b H. destruct (te_prob_number m tes a b) as [idx [[_ X] L]].
      destruct idx as [|k idx]; [cbn in L; lia|]. destruct (proj1 (X k) (or_introl eq_refl)) as [Hk L'].
      exists k. split; [exact Hk|]. apply qabs_pos. eapply Qcle_lt_trans; [exact M|exact L']. }
    unfold u, cells. rewrite in_map_iff. split.
    + intros [[a b] [E I]]. cbn [fst snd] in E. inversion E; subst a b e p; clear E.
      apply filter_In in I. destruct I as [I H]. cbn [fst snd] in H. apply in_prod_iff in I. rewrite !in_seq in I.
      apply Pos in H. split; [lia|]. split; [lia|].
      destruct (te_effect_spec tes i j (Ex i j H)) as [v [Ev Mv]].
      exists (length (filter (fun te => qltb m (qabs (te i j))) tes)), v.
      split; [exact H|]. split; [apply te_prob_number|]. split; [reflexivity|]. split; [exact Ev|exact Mv].
    + intros [Hi [Hj [c [v [Hc [N [-> [-> Mv]]]]]]]].
      rewrite (number_of_unique _ _ _ _ N (te_prob_number m tes i j)) in *.
      exists (i, j). cbn [fst snd]. split.
      * destruct (te_effect_spec tes i j (Ex i j Hc)) as [w [Ew Mw]].
        rewrite (median_over_unique _ _ _ _ _ Mv Mw), Ew. reflexivity.
      * apply filter_In. split; [apply in_prod_iff; rewrite !in_seq; lia|]. apply Pos. exact Hc.
Qed.
(** When no non-zero effect lies at or below the threshold (in particular without threshold),
    the reported effect is the median of the counted ones. *)
Lemma total_effect_median_exact : forall m tes i j v, (0 <= m)%Qc ->
  (forall k, k < length tes -> te_at tes i j k <> 0%Qc -> (m < qabs (te_at tes i j k))%Qc) ->
  median_over (fun k => te_at tes i j k <> 0%Qc) (length tes) (te_at tes i j) v ->
  median_over (fun k => (m < qabs (te_at tes i j k))%Qc) (length tes) (te_at tes i j) v.
Proof.
  intros m tes i j v Hm H. apply median_over_iff. intros k Hk. split; [apply H; exact Hk|].
  intro L. apply qabs_pos. eapply Qcle_lt_trans; eassumption.
Qed.

(** ** Path keys *)
Fixpoint no_us (s : string) : Prop :=
  match s with EmptyString => True | String c r => c <> underscore /\ no_us r end.
Lemma split_no_us : forall s, no_us s -> split s = [s].
Proof.
  induction s as [|c s IH]; intro H; [reflexivity|]. destruct H as [Hc H]. cbn [split].
  destruct (Ascii.eqb_spec c underscore); [contradiction|]. rewrite IH by exact H. reflexivity.
Qed.
Lemma split_app : forall w r, no_us w -> split (String.append w (String underscore r)) = w :: split r.
Proof.
  induction w as [|c w IH]; intros r H.
  - cbn [String.append split]. rewrite Ascii.eqb_refl. reflexivity.
  - destruct H as [Hc H]. cbn [String.append split].
    destruct (Ascii.eqb_spec c underscore); [contradiction|]. rewrite IH by exact H. reflexivity.
Qed.
Lemma split_join : forall ws, ws <> [] -> (forall w, In w ws -> no_us w) -> split (join ws) = ws.
Proof.
  induction ws as [|w ws IH]; intros N H; [congruence|]. destruct ws as [|w' ws].
  - cbn [join]. apply split_no_us. apply H. left. reflexivity.
  - change (join (w :: w' :: ws)) with (String.append w (String underscore (join (w' :: ws)))).
    rewrite split_app by (apply H; left; reflexivity). rewrite IH; [reflexivity|discriminate|].
    intros x I. apply H. right. exact I.
Qed.
Lemma no_us_uint : forall d, no_us (NilEmpty.string_of_uint d).
Proof. induction d; cbn [NilEmpty.string_of_uint no_us]; auto; split; auto; discriminate. Qed.
Lemma no_us_str : forall i, no_us (str_nat i).
Proof.
  intro i. unfold str_nat, NilZero.string_of_uint. destruct (Nat.to_uint i); try apply no_us_uint.
  cbn. split; [discriminate|exact I].
Qed.
Lemma int_of_str : forall i, int_of (str_nat i) = Some i.
Proof.
  intro i. unfold int_of, str_nat. rewrite NilZero.usu.
  - cbn [option_map]. f_equal. apply DecimalNat.Unsigned.of_to.
  - intro H. assert (E := DecimalNat.Unsigned.to_of (Nat.to_uint i)).
    rewrite DecimalNat.Unsigned.of_to, H in E. discriminate.
Qed.
Lemma all_some_map : forall A B (f : A -> option B) (g : A -> B) l,
  (forall x, In x l -> f x = Some (g x)) -> all_some (map f l) = Some (map g l).
Proof.
  intros A B f g. induction l as [|x l IH]; intro H; [reflexivity|]. cbn [map all_some].
  rewrite (H x (or_introl eq_refl)), IH by (intros; apply H; right; assumption). reflexivity.
Qed.
Lemma path_key_decode : forall p, p <> [] -> path_of_key (path_key p) = Some p.
Proof.
  intros p N. unfold path_of_key, path_key. rewrite split_join.
  - rewrite map_map. rewrite (all_some_map _ _ _ (fun x => x)) by (intros; apply int_of_str).
    rewrite map_id. reflexivity.
  - destruct p; [congruence|discriminate].
  - intros w I. apply in_map_iff in I. destruct I as [i [<- _]]. apply no_us_str.
Qed.
Lemma path_key_inj : forall p q, p <> [] -> q <> [] -> path_key p = path_key q -> p = q.
Proof.
  intros p q Hp Hq E. assert (Some p = Some q) as X.
  { rewrite <- !path_key_decode by assumption. rewrite E. reflexivity. }
  inversion X. reflexivity.
Qed.

(** ** get_paths *)
Section Paths.
  Variables (n from to_ : nat) (m : Qc).
  Hypotheses (Hf : from < n) (D : from <> to_) (Hm : (0 <= m)%Qc).
  Let paths_in (am : mat num) : list (list nat) :=
    match find_all_paths n am from to_ m with Ok (P, _) => P | Err _ => [] end.
  Let contains (p : list nat) (am : mat num) : bool :=
    if in_dec (list_eq_dec Nat.eq_dec) p (paths_in am) then true else false.

  Lemma paths_in_spec : forall am, acyclic (thr_edge n am m) ->
    find_all_paths n am from to_ m = Ok (paths_in am, map (walk_weight_num am) (paths_in am)) /\
    NoDup (paths_in am) /\ forall p, In p (paths_in am) <-> dpath (thr_edge n am m) from to_ p.
  Proof.
    intros am A. destruct (find_all_paths_acyclic n am from to_ m Hf D A) as [P [E [ND H]]].
    unfold paths_in. rewrite E. auto.
  Qed.
  Lemma contains_iff : forall p am, acyclic (thr_edge n am m) ->
    contains p am = true <-> dpath (thr_edge n am m) from to_ p.
  Proof.
    intros p am A. destruct (paths_in_spec am A) as [_ [_ H]]. rewrite <- H. unfold contains.
    destruct (in_dec _ p (paths_in am)) as [i|i]; split; intro X; try exact i; try reflexivity;
      [discriminate X|contradiction].
  Qed.
  Lemma dpath_nonempty : forall E a b p, dpath E a b p -> p <> [].
  Proof. intros E a b p [[_ [_ [N _]]] _]. exact N. Qed.

  Lemma collect_paths_spec : forall ams, (forall am, In am ams -> acyclic (thr_edge n am m)) ->
    collect_paths n ams from to_ m =
    Ok (flat_map (fun am => map (fun p => (path_key p, walk_weight_num am p)) (paths_in am)) ams).
  Proof.
    induction ams as [|am ams IH]; intro A; [reflexivity|]. cbn [collect_paths flat_map].
    destruct (paths_in_spec am (A am (or_introl eq_refl))) as [E _]. rewrite E. cbn [bind].
    rewrite IH by (intros; apply A; right; assumption). cbn [bind fst snd]. f_equal. f_equal.
    clear. induction (paths_in am) as [|p P IH]; [reflexivity|]. cbn. rewrite IH. reflexivity.
  Qed.
  Lemma map_fst_flat : forall ams,
    map fst (flat_map (fun am => map (fun p => (path_key p, walk_weight_num am p)) (paths_in am)) ams) =
    flat_map (fun am => map path_key (paths_in am)) ams.
  Proof.
    induction ams as [|am ams IH]; [reflexivity|]. cbn [flat_map]. rewrite map_app, IH, map_map.
    reflexivity.
  Qed.
  Lemma effects_of_spec : forall ams p, p <> [] -> (forall am, In am ams -> acyclic (thr_edge n am m)) ->
    effects_of (flat_map (fun am => map (fun p => (path_key p, walk_weight_num am p)) (paths_in am)) ams) (path_key p)
    = map (fun am => walk_weight_num am p) (filter (contains p) ams).
  Proof.
    intros ams p Hp. induction ams as [|am ams IH]; intro A; [reflexivity|].
    unfold effects_of in *. cbn [flat_map filter]. rewrite filter_app, map_app, IH by (intros; apply A; right; assumption).
    destruct (paths_in_spec am (A am (or_introl eq_refl))) as [_ [ND H]].
    assert (forall q, In q (paths_in am) -> q <> []) as NE.
    { intros q I. apply H in I. eapply dpath_nonempty. exact I. }
    unfold contains at 2. clear IH H.
    assert (map snd (filter (fun pe : string * num => String.eqb (fst pe) (path_key p))
               (map (fun p0 => (path_key p0, walk_weight_num am p0)) (paths_in am)))
            = if in_dec (list_eq_dec Nat.eq_dec) p (paths_in am) then [walk_weight_num am p] else []) as G.
    { revert ND NE. generalize (paths_in am). induction l as [|q l IH]; intros ND NE; [reflexivity|].
      inversion ND; subst. cbn [map filter fst].
      assert (E := IH H2 (fun q I => NE q (or_intror I))).
      destruct (String.eqb_spec (path_key q) (path_key p)) as [e|e].
      - apply path_key_inj in e; [|apply NE; left; reflexivity|exact Hp]. subst q. cbn [map snd]. rewrite E.
        destruct (in_dec _ p l) as [i|i]; [contradiction|].
        destruct (in_dec _ p (p :: l)) as [j|j]; [reflexivity|]. exfalso. apply j. left. reflexivity.
      - rewrite E. destruct (in_dec _ p l) as [i|i]; destruct (in_dec _ p (q :: l)) as [j|j]; try reflexivity.
        + exfalso. apply j. right. exact i.
        + exfalso. destruct j as [->|j]; [apply e; reflexivity|contradiction]. }
    rewrite G. destruct (in_dec _ p (paths_in am)); reflexivity.
  Qed.
  Lemma walk_weight_thr : forall am p, walk (thr_edge n am m) p ->
    walk_weight_num am p = Some (walk_weight (denan am) p).
  Proof.
    intros am p W. apply (walk_weight_num_denan n). eapply walk_mono; [|exact W].
    intros a b [Ha [Hb H]]. split; [exact Ha|]. split; [exact Hb|]. eapply Qcle_lt_trans; eassumption.
  Qed.

  Definition on_path (ams : list (mat num)) (p : list nat) (k : nat) : Prop :=
    dpath (thr_edge n (nth k ams (fun _ _ => None)) m) from to_ p.

  Lemma get_paths_core : forall argsort ams min_ce, argsort_ok argsort -> ams <> [] ->
    check_min min_ce = Ok m ->
    (forall am, In am ams -> acyclic (thr_edge n am m)) ->
    exists rows, get_paths argsort n ams from to_ min_ce = Ok rows /\
      NoDup (map (fun r => fst (fst r)) rows) /\
      StronglySorted (fun a b => (snd b <= snd a)%Qc) rows /\
      (forall p e pr, In (p, e, pr) rows <->
        exists c v, 0 < c /\ number_of (on_path ams p) (length ams) c /\
          pr = (qn c / qn (length ams))%Qc /\ e = Some v /\
          median_over (on_path ams p) (length ams)
            (fun k => walk_weight (denan (nth k ams (fun _ _ => None))) p) v).
  Proof.
    intros argsort ams min_ce OK Ha CM A.
    assert (0 < length ams) as LA by (destruct ams; [congruence|cbn; lia]).
    unfold get_paths. rewrite CM. cbn [bind]. rewrite collect_paths_spec by exact A. cbn [bind].
    set (pes := flat_map _ ams).
    assert (forall p, number_of (on_path ams p) (length ams) (length (filter (contains p) ams))) as NO.
    { intro p. eapply number_of_iff; [|apply (number_of_filter _ _ ((fun _ _ => None) : mat num))].
      intros k Hk. apply contains_iff. apply A. apply nth_In. exact Hk. }
    assert (forall p, p <> [] -> count_occ string_dec (map fst pes) (path_key p) = length (filter (contains p) ams)) as CO.
    { intros p Hp. unfold pes. rewrite map_fst_flat, count_occ_flat_map.
      - f_equal. apply filter_ext_in. intros am I. unfold contains.
        destruct (paths_in_spec am (A am I)) as [_ [_ H]].
        destruct (in_dec string_dec _ _) as [i|i]; destruct (in_dec _ p _) as [j|j]; try reflexivity.
        + exfalso. apply j. apply in_map_iff in i. destruct i as [q [E i]].
          apply path_key_inj in E; [subst; exact i| |exact Hp].
          apply H in i. eapply dpath_nonempty. exact i.
        + exfalso. apply i. apply in_map. exact j.
      - intros am I. destruct (paths_in_spec am (A am I)) as [_ [ND H]].
        assert (forall q, In q (paths_in am) -> q <> []) as NE.
        { intros q J. apply H in J. eapply dpath_nonempty. exact J. }
        clear H. revert ND NE. generalize (paths_in am). induction l as [|q l IH]; intros ND NE; [constructor|].
        inversion ND; subst. cbn [map]. constructor.
        + intro J. apply in_map_iff in J. destruct J as [r [E J]].
          apply path_key_inj in E; [subst; contradiction| |].
          * apply NE. right. exact J.
          * apply NE. left. reflexivity.
        + apply IH; [assumption|]. intros r J. apply NE. right. exact J. }
    assert (forall key, In key (map fst pes) -> exists p, p <> [] /\ key = path_key p) as KP.
    { intros key I. unfold pes in I. rewrite map_fst_flat in I. apply in_flat_map in I.
      destruct I as [am [I J]]. apply in_map_iff in J. destruct J as [p [<- J]].
      exists p. split; [|reflexivity]. destruct (paths_in_spec am (A am I)) as [_ [_ H]].
      apply H in J. eapply dpath_nonempty. exact J. }
    assert (forall p, p <> [] -> 0 < length (filter (contains p) ams) ->
       exists v, np_median_num (effects_of pes (path_key p)) = Some v /\
         median_over (on_path ams p) (length ams)
            (fun k => walk_weight (denan (nth k ams (fun _ _ => None))) p) v) as MED.
    { intros p Hp L. unfold pes. rewrite effects_of_spec by assumption. unfold np_median_num.
      rewrite (all_some_map _ _ _ (fun am => walk_weight (denan am) p)).
      - destruct (median_filter _ (contains p) (fun am => walk_weight (denan am) p) ((fun _ _ => None) : mat num) ams) as [v [E M]].
        + intro F. rewrite F in L. cbn in L. lia.
        + exists v. split; [exact E|]. eapply median_over_iff; [|exact M]. intros k Hk.
          apply contains_iff. apply A. apply nth_In. exact Hk.
      - intros am I. apply filter_In in I. destruct I as [I C]. apply contains_iff in C; [|apply A; exact I].
        destruct C as [[_ [_ [_ W]]] _]. apply walk_weight_thr. exact W. }
    set (u := unique_counts string_dec (map fst pes)).
    destruct (counts_sorted argsort OK _ (EmptyString, 0) u) as [P S].
    set (sorted := take_order (EmptyString, 0) (argsort (map (fun p => - qn (snd p))%Qc u)) u) in *.
    set (dec := fun key => match path_of_key key with Some p => p | None => [] end).
    assert (forall key c, In (key, c) sorted <-> exists p, p <> [] /\ key = path_key p /\ 0 < c /\ c = length (filter (contains p) ams)) as IN.
    { intros key c.
      assert (In (key, c) sorted <-> In (key, c) u) as -> by (split; apply Permutation_in; [|apply Permutation_sym]; exact P).
      unfold u. rewrite unique_counts_In. split.
      - intros [I ->]. destruct (KP key I) as [p [Hp ->]]. exists p.
        split; [exact Hp|]. split; [reflexivity|]. rewrite CO by exact Hp. split; [|reflexivity].
        rewrite <- CO by exact Hp. apply (count_occ_In string_dec) in I. exact I.
      - intros [p [Hp [-> [Hc ->]]]]. rewrite CO by exact Hp. split; [|reflexivity].
        apply (count_occ_In string_dec). rewrite CO by exact Hp. exact Hc. }
    rewrite (all_some_map _ _ _ (fun p : string * nat => (dec (fst p), np_median_num (effects_of pes (fst p)), (qn (snd p) / qn (length ams))%Qc))).
    2:{ intros [key c] I. apply IN in I. destruct I as [p [Hp [-> _]]]. cbn [fst snd]. unfold dec.
        rewrite path_key_decode by exact Hp. reflexivity. }
    eexists. split; [reflexivity|]. split; [|split].
    - rewrite map_map. cbn [fst].
      assert (NoDup (map fst sorted)) as ND.
      { eapply Permutation_NoDup; [apply Permutation_sym; apply Permutation_map; exact P|apply unique_counts_NoDup]. }
      assert (forall k c, In (k, c) sorted -> exists p, p <> [] /\ k = path_key p) as KP'.
      { intros k c I. apply IN in I. destruct I as [p [Hp [-> _]]]. exists p. auto. }
      revert ND KP'. clear -dec. generalize sorted. intro l. clear -dec. induction l as [|[k c] l IH]; intros ND KP'; [constructor|].
      inversion ND; subst. cbn [map fst]. constructor.
      + intro I. apply in_map_iff in I. destruct I as [[k' c'] [E I]]. cbn [fst] in E.
        destruct (KP' k c (or_introl eq_refl)) as [p [Hp ->]].
        destruct (KP' k' c' (or_intror I)) as [p' [Hp' ->]]. unfold dec in E.
        rewrite !path_key_decode in E by assumption. subst p'. apply H1.
        apply in_map_iff. exists (path_key p, c'). auto.
      + apply IH; [assumption|]. intros k' c' I. apply (KP' k' c'). right. exact I.
    - apply StronglySorted_map. eapply StronglySorted_impl; [|exact S].
      intros a b L. cbn [snd]. apply frac_le; assumption.
    - intros p e pr. rewrite in_map_iff. split.
      + intros [[key c] [E I]]. cbn [fst snd] in E. apply IN in I. destruct I as [q [Hq [-> [Hc Ec]]]].
        assert (dec (path_key q) = q) as DQ by (unfold dec; rewrite path_key_decode by exact Hq; reflexivity).
        rewrite DQ in E. inversion E; subst q e pr; clear E.
        subst c. destruct (MED p Hq Hc) as [v [Ev Mv]].
        exists (length (filter (contains p) ams)), v. split; [exact Hc|]. split; [apply NO|]. auto.
      + intros [c [v [Hc [N [-> [-> Mv]]]]]].
        rewrite (number_of_unique _ _ _ _ N (NO p)) in *.
        assert (p <> []) as Hp.
        { destruct (NO p) as [idx [[_ X] L]]. destruct idx as [|k idx]; [cbn in L; lia|].
          destruct (proj1 (X k) (or_introl eq_refl)) as [_ Y]. eapply dpath_nonempty. exact Y. }
        exists (path_key p, length (filter (contains p) ams)). cbn [fst snd]. split.
        * destruct (MED p Hp Hc) as [w [Ew Mw]]. rewrite Ew, (median_over_unique _ _ _ _ _ Mv Mw).
          unfold dec. rewrite path_key_decode by exact Hp. reflexivity.
        * apply IN. exists p. auto.
  Qed.
End Paths.

(** ** The bootstrap loop *)
Lemma te_row_spec : forall n B from tos te, 2 <= n -> from < n ->
  (forall t, In t tos -> t < n /\ t <> from) -> acyclic (edge_of n (denan B)) ->
  exists te', te_row n B from tos te = Ok te' /\
    forall i j, te' i j = if (j =? from) && memb i tos then Some (neumann n (denan B) i j) else te i j.
Proof.
  intros n B from tos te Hn Hf. revert te. induction tos as [|t tos IH]; intros te H A.
  - exists te. split; [reflexivity|]. intros i j. cbn [memb existsb]. rewrite andb_false_r. reflexivity.
  - cbn [te_row]. destruct (H t (or_introl eq_refl)) as [Ht D].
    rewrite total_effect_neumann by auto. cbn [bind].
    destruct (IH (upd2 te t from (Some (neumann n (denan B) t from)))) as [te' [E T]]; auto.
    { intros; apply H; right; assumption. }
    exists te'. split; [exact E|]. intros i j. rewrite T. cbn [memb existsb]. fold (memb i tos).
    unfold upd2. destruct (Nat.eqb_spec j from) as [->|]; cbn [andb].
    + destruct (Nat.eqb_spec i t) as [->|]; cbn [orb].
      * destruct (memb t tos); reflexivity.
      * destruct (memb i tos); reflexivity.
    + rewrite andb_false_r. reflexivity.
Qed.
Lemma te_loop_spec : forall n B K te, 2 <= n -> NoDup K -> (forall x, In x K -> x < n) ->
  acyclic (edge_of n (denan B)) ->
  exists te', te_loop n B K te = Ok te' /\
    forall i j, (precedes K j i -> te' i j = Some (neumann n (denan B) i j)) /\
                (~ precedes K j i -> te' i j = te i j).
Proof.
  intros n B K. induction K as [|from K IH]; intros te Hn ND HK A.
  - exists te. split; [reflexivity|]. intros i j. split; [|reflexivity].
    intro P. apply precedes_In in P. destruct P as [[] _].
  - inversion ND; subst. cbn [te_loop].
    destruct (te_row_spec n B from K te Hn (HK from (or_introl eq_refl))) as [te1 [E1 T1]].
    { intros t I. split; [apply HK; right; exact I|]. intros ->. contradiction. }
    { exact A. }
    rewrite E1. cbn [bind].
    destruct (IH te1 Hn H2 (fun x I => HK x (or_intror I)) A) as [te' [E T]].
    exists te'. split; [exact E|]. intros i j.
    assert (precedes (from :: K) j i <-> (j = from /\ In i K) \/ precedes K j i) as PC.
    { split.
      - intro P. change (from :: K) with ([from] ++ K) in P. apply precedes_app_inv in P.
        destruct P as [P|[[[->|[]] I]|P]]; auto.
        destruct P as [l1 [l2 [l3 E']]]. exfalso. assert (L := f_equal (@length nat) E').
        rewrite !app_length in L. cbn [length] in L. rewrite app_length in L. cbn [length] in L. lia.
      - intros [[-> I]|P].
        + change (from :: K) with ([from] ++ K). apply precedes_app_cross; [left; reflexivity|exact I].
        + change (from :: K) with ([from] ++ K). apply precedes_app_r. exact P. }
    rewrite PC. destruct (T i j) as [Ta Tb]. split.
    + intros [[-> I]|P]; [|apply Ta; exact P].
      rewrite Tb. { rewrite T1, Nat.eqb_refl. rewrite (proj2 (memb_In i K) I). reflexivity. }
      intro P. apply precedes_In in P. destruct P. contradiction.
    + intro N. rewrite Tb by tauto. rewrite T1.
      destruct (Nat.eqb_spec j from) as [->|]; [|reflexivity]. cbn [andb].
      destruct (memb i K) eqn:M; [|reflexivity]. apply memb_In in M. exfalso. apply N. auto.
Qed.
Lemma total_effects_of_spec : forall n K B, is_order n K -> topological (edge_of n (denan B)) K ->
  exists te, total_effects_of n K B = Ok te /\
    (forall i, te i i = Some 0%Qc) /\
    (forall i j, i < n -> j < n -> i <> j -> te i j = Some (neumann n (denan B) i j)).
Proof.
  intros n K B HK T. assert (ND := is_order_NoDup n K HK).
  assert (A := topological_acyclic _ _ ND T).
  destruct (le_lt_dec 2 n) as [Hn|Hn].
  - destruct (te_loop_spec n B K (fun _ _ => Some 0%Qc) Hn ND (fun x => proj1 (is_order_In n K HK x)) A) as [te [E H]].
    exists te. split; [exact E|]. split.
    + intro i. apply (proj2 (H i i)). apply precedes_irrefl. exact ND.
    + intros i j Hi Hj D.
      destruct (precedes_total K j i) as [P|P].
      * apply (is_order_In n K HK). exact Hj.
      * apply (is_order_In n K HK). exact Hi.
      * auto.
      * apply (proj1 (H i j)). exact P.
      * rewrite (proj2 (H i j)) by (apply precedes_asym; assumption).
        rewrite (total_effect_zero_before n (denan B) K i j HK T Hi Hj P). reflexivity.
  - exists (fun _ _ => Some 0%Qc). split.
    + unfold total_effects_of. assert (L := is_order_length n K HK).
      destruct K as [|x [|y K]]; [reflexivity|reflexivity|]. cbn [length] in L. lia.
    + split; [reflexivity|]. intros; lia.
Qed.

Section Loop.
  Variables (Obj Data : Type) (fit : Data -> Obj -> Obj * option exn)
    (order_of : Obj -> list nat) (adj_of : Obj -> mat num) (n : nat).
  (** The total effects stored for a resample agree with its matrix. *)
  Definition effects_agree (r : mat num * mat num) : Prop :=
    (forall i, snd r i i = Some 0%Qc) /\
    exists T, meq n (mmul n (msub midn (denan (fst r))) T) midn /\
      forall i j, i < n -> j < n -> i <> j -> snd r i j = Some (T i j).
  Hypothesis good : forall X o o', fit X o = (o', None) ->
    is_order n (order_of o') /\ topological (edge_of n (denan (adj_of o'))) (order_of o').
  Lemma bootstrap_loop_agree : forall Xs o o' l,
    bootstrap_loop Obj Data fit order_of adj_of n Xs o = (o', Ok l) ->
    length l = length Xs /\ forall r, In r l -> effects_agree r.
  Proof.
    induction Xs as [|X Xs IH]; intros o o' l H; cbn [bootstrap_loop] in H.
    - inversion H; subst. split; [reflexivity|]. intros r [].
    - destruct (fit X o) as [o1 [e|]] eqn:E; [discriminate|].
      destruct (good X o o1 E) as [HK T].
      destruct (total_effects_of_spec n _ _ HK T) as [te [Et [D N]]]. rewrite Et in H.
      destruct (bootstrap_loop Obj Data fit order_of adj_of n Xs o1) as [o2 [l2|e]] eqn:E2; [|discriminate].
      inversion H; subst. destruct (IH _ _ _ E2) as [L A]. split; [cbn; rewrite L; reflexivity|].
      intros r [<-|I]; [|apply A; exact I]. split; [exact D|].
      assert (Ac := topological_acyclic _ _ (is_order_NoDup n _ HK) T).
      exists (neumann n (denan (adj_of o1))). split; [apply neumann_inv_l; exact Ac|exact N].
  Qed.
  (** Only fits can fail. *)
  Lemma bootstrap_loop_total : (forall X o, snd (fit X o) = None) -> forall Xs o,
    exists o' l, bootstrap_loop Obj Data fit order_of adj_of n Xs o = (o', Ok l).
  Proof.
    intros F Xs. induction Xs as [|X Xs IH]; intro o; cbn [bootstrap_loop]; [eauto|].
    specialize (F X o). destruct (fit X o) as [o1 e] eqn:E. cbn in F. subst e.
    destruct (good X o o1 E) as [HK T].
    destruct (total_effects_of_spec n _ _ HK T) as [te [Et _]]. rewrite Et.
    destruct (IH o1) as [o2 [l E2]]. rewrite E2. eauto.
  Qed.
  (** The state left behind is that of a fit to the last resample. *)
  Lemma bootstrap_loop_state : (forall X o, snd (fit X o) = None) -> forall Xs Xl o,
    fst (bootstrap_loop Obj Data fit order_of adj_of n (Xs ++ [Xl]) o) =
    fst (fit Xl (fst (bootstrap_loop Obj Data fit order_of adj_of n Xs o))).
  Proof.
    intros F Xs. induction Xs as [|X Xs IH]; intros Xl o; cbn [bootstrap_loop app].
    - assert (F' := F Xl o). destruct (fit Xl o) as [o1 e] eqn:E. cbn in F'. subst e. cbn [fst].
      destruct (good Xl o o1 E) as [HK T].
      destruct (total_effects_of_spec n _ _ HK T) as [te [Et _]]. rewrite Et, E. reflexivity.
    - assert (F' := F X o). destruct (fit X o) as [o1 e] eqn:E. cbn in F'. subst e.
      destruct (good X o o1 E) as [HK T].
      destruct (total_effects_of_spec n _ _ HK T) as [te [Et _]]. rewrite Et.
      specialize (IH Xl o1).
      destruct (bootstrap_loop Obj Data fit order_of adj_of n (Xs ++ [Xl]) o1) as [o2 r2].
      destruct (bootstrap_loop Obj Data fit order_of adj_of n Xs o1) as [o3 r3]. exact IH.
  Qed.
End Loop.
