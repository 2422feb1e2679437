(** * Proofs about the order searches. *)
From Coq Require Import List Arith Lia Bool ZArith QArith Qcanon Permutation Relations Sorted.
From Verif Require Import Prelude Spec Lib ModelDirect ProofDirect2 ModelOrder.
Import ListNotations.
Open Scope nat_scope.

(** ** Abstract version on original indices *)
Section Peel.
  Variables (test : num -> bool) (M : mat num).
  Definition abs_sum (i : nat) (U : list nat) : num := nsum (map (fun j => nabs (M i j)) U).
  Fixpoint peel_abs (k : nat) (U order : list nat) : list nat :=
    match k with
    | 0 => order
    | S k' =>
        match find (fun i => test (abs_sum i U)) U with
        | None => order
        | Some u => peel_abs k' (remove_nat u U) (order ++ [u])
        end
    end.
End Peel.

Lemma nth_skip : forall (l : list nat) t i, t < length l -> i < length l - 1 ->
  nth i (del_nth t l) 0 = nth (skip t i) l 0.
Proof.
  induction l as [|x l IH]; intros t i Ht Hi; [cbn in Ht; lia|].
  cbn in Ht, Hi. destruct t as [|t]; cbn [del_nth].
  - unfold skip. cbn. reflexivity.
  - destruct i as [|i]; [reflexivity|]. cbn [nth]. rewrite IH by lia.
    unfold skip. change (S i <? S t) with (i <? t). destruct (i <? t); reflexivity.
Qed.
Lemma del_nth_length : forall A t (l : list A), t < length l -> length (del_nth t l) = length l - 1.
Proof.
  intros A t l. revert t. induction l as [|x l IH]; intros t H; cbn in *; [lia|].
  destruct t; cbn; [lia|]. rewrite IH; lia.
Qed.
Lemma del_nth_remove : forall (l : list nat) t, NoDup l -> t < length l ->
  del_nth t l = remove_nat (nth t l 0) l.
Proof.
  induction l as [|x l IH]; intros t ND Ht; [cbn in Ht; lia|].
  apply NoDup_cons_iff in ND. destruct ND as [Hx ND]. destruct t as [|t].
  - cbn [del_nth nth]. cbn [remove_nat filter]. rewrite Nat.eqb_refl. cbn.
    symmetry. apply remove_nat_notin. exact Hx.
  - cbn in Ht. cbn [del_nth nth]. cbn [remove_nat filter].
    destruct (Nat.eqb_spec x (nth t l 0)) as [E|E].
    + exfalso. apply Hx. rewrite E. apply nth_In. lia.
    + cbn [negb]. f_equal. apply IH; [exact ND|lia].
Qed.

Lemma map_nth_seq : forall (U : list nat), map (fun i => nth i U 0) (seq 0 (length U)) = U.
Proof.
  induction U as [|x U IH]; [reflexivity|]. cbn [length seq map nth]. f_equal.
  rewrite <- seq_shift, map_map. exact IH.
Qed.

Lemma find_map : forall A B (f : A -> B) (p : B -> bool) l,
  find p (map f l) = option_map f (find (fun x => p (f x)) l).
Proof.
  induction l as [|x l IH]; [reflexivity|]. cbn. destruct (p (f x)); [reflexivity|exact IH].
Qed.
Lemma find_ext_in : forall A (p q : A -> bool) l, (forall x, In x l -> p x = q x) -> find p l = find q l.
Proof.
  induction l as [|x l IH]; intro H; [reflexivity|]. cbn.
  rewrite (H x (or_introl eq_refl)), IH; [reflexivity|]. intros; apply H; right; assumption.
Qed.

Lemma peel_abs_spec : forall test M m U Mc order, NoDup U -> length U = m ->
  (forall i j, i < m -> j < m -> Mc i j = M (nth i U 0) (nth j U 0)) ->
  peel test m Mc U order = peel_abs test M m U order.
Proof.
  intros test M. induction m as [|m IH]; intros U Mc order ND L H; [reflexivity|].
  cbn [peel peel_abs].
  assert (F : find (fun i => test (abs_sum M i U)) U
              = option_map (fun i => nth i U 0) (first_row test Mc (S m))).
  { transitivity (find (fun i => test (abs_sum M i U)) (map (fun i => nth i U 0) (seq 0 (length U))));
      [rewrite map_nth_seq; reflexivity|].
    rewrite find_map, L. f_equal. unfold first_row.
    apply find_ext_in. intros i Hi. apply in_seq in Hi. f_equal. unfold abs_sum, row_abs_sum.
    f_equal.
    transitivity (map (fun j => nabs (M (nth i U 0) j)) (map (fun i => nth i U 0) (seq 0 (length U))));
      [rewrite map_nth_seq; reflexivity|].
    rewrite map_map, L. apply map_ext_in.
    intros j Hj. apply in_seq in Hj. rewrite H by lia. reflexivity. }
  rewrite F. destruct (first_row test Mc (S m)) as [t|] eqn:E; cbn [option_map]; [|reflexivity].
  unfold first_row in E. apply find_some in E. destruct E as [E _]. apply in_seq in E.
  rewrite <- del_nth_remove by (try exact ND; lia). apply IH.
  - rewrite del_nth_remove by (try exact ND; lia). apply remove_nat_NoDup. exact ND.
  - rewrite del_nth_length; lia.
  - intros i j Hi Hj. unfold del_rc. rewrite !nth_skip by lia. apply H.
    + unfold skip. destruct (i <? t); lia.
    + unfold skip. destruct (j <? t); lia.
Qed.

(** ** What the loop finds *)
(** An order in which each row, restricted to itself and the later columns, passes the test. *)
Definition good_order (test : num -> bool) (M : mat num) (K : list nat) : Prop :=
  forall l1 i l2, K = l1 ++ i :: l2 -> test (abs_sum M i (i :: l2)) = true.
(** Fewer summands keep the test true. *)
Definition test_mono (test : num -> bool) : Prop :=
  forall M i U U', NoDup U' -> incl U' U -> test (abs_sum M i U) = true -> test (abs_sum M i U') = true.

Lemma nsum_cons : forall x l, nsum (x :: l) = nadd x (nsum l).
Proof. reflexivity. Qed.
Lemma nadd_comm3 : forall x y z, nadd x (nadd y z) = nadd y (nadd x z).
Proof.
  intros [x|] [y|] [z|]; cbn; try reflexivity. f_equal. ring.
Qed.
Lemma nsum_perm : forall l l', Permutation l l' -> nsum l = nsum l'.
Proof.
  intros l l' H. induction H.
  - reflexivity.
  - rewrite !nsum_cons. congruence.
  - rewrite !nsum_cons. apply nadd_comm3.
  - congruence.
Qed.
Lemma abs_sum_perm : forall M i U U', Permutation U U' -> abs_sum M i U = abs_sum M i U'.
Proof. intros. unfold abs_sum. apply nsum_perm. apply Permutation_map. assumption. Qed.

Lemma peel_abs_run : forall test M k U order, NoDup U -> length U = k ->
  exists l U', peel_abs test M k U order = order ++ l /\ Permutation (l ++ U') U /\
    (forall l1 i l2, l = l1 ++ i :: l2 -> test (abs_sum M i (i :: l2 ++ U')) = true) /\
    (U' <> [] -> forall i, In i U' -> test (abs_sum M i U') = false).
Proof.
  intros test M. induction k as [|k IH]; intros U order ND L.
  - destruct U; [|discriminate]. exists [], []. rewrite app_nil_r. repeat split; auto.
    + intros l1 i l2 E. destruct l1; discriminate.
    + intro F. congruence.
  - cbn [peel_abs]. destruct (find (fun i => test (abs_sum M i U)) U) as [u|] eqn:F.
    + apply find_some in F. destruct F as [Hu Ht].
      destruct (IH (remove_nat u U) (order ++ [u])) as [l [U' [E [P [G N]]]]].
      { apply remove_nat_NoDup. exact ND. }
      { rewrite (remove_nat_length u U ND Hu) in L. lia. }
      exists (u :: l), U'. rewrite E, <- app_assoc. split; [reflexivity|].
      assert (PU : Permutation (u :: l ++ U') U).
      { rewrite (remove_nat_perm u U ND Hu). constructor. exact P. }
      split; [exact PU|]. split; [|exact N].
      intros l1 i l2 El. destruct l1 as [|y l1]; cbn in El; inversion El; subst.
      * rewrite (abs_sum_perm M i _ U PU). exact Ht.
      * apply (G l1 i l2 eq_refl).
    + exists [], U. rewrite app_nil_r. split; [reflexivity|]. split; [reflexivity|]. split.
      * intros l1 i l2 E. destruct l1; discriminate.
      * intros _ i Hi. apply (find_none _ _ F i Hi).
Qed.

Lemma precedes_suffix : forall K l1 x l2 y, NoDup K -> K = l1 ++ x :: l2 -> In y K ->
  ~ precedes K y x -> y = x \/ In y l2.
Proof.
  intros K l1 x l2 y ND -> Hy NP. apply in_app_or in Hy. destruct Hy as [Hy|[->|Hy]]; auto.
  exfalso. apply NP. apply precedes_app_cross; [exact Hy|left; reflexivity].
Qed.

Lemma peel_full_iff : forall test M n, test_mono test ->
  let r := peel test n M (seq 0 n) [] in
  (length r = n <-> exists K, is_order n K /\ good_order test M K) /\
  (length r = n -> is_order n r /\ good_order test M r).
Proof.
  intros test M n TM r.
  assert (E : r = peel_abs test M n (seq 0 n) []).
  { apply peel_abs_spec; [apply seq_NoDup|apply seq_length|].
    intros i j Hi Hj. rewrite !seq_nth by lia. reflexivity. }
  destruct (peel_abs_run test M n (seq 0 n) [] (seq_NoDup _ _) (seq_length _ _))
    as [l [U' [El [P [G N]]]]].
  cbn [app] in El. rewrite <- E in El. clear E. rewrite El. clear El r.
  assert (Hlen : length l + length U' = n).
  { rewrite <- app_length, (Permutation_length P). apply seq_length. }
  assert (Full : length l = n -> is_order n l /\ good_order test M l).
  { intro L. assert (U' = []) by (destruct U'; [reflexivity|cbn in Hlen; lia]). subst U'.
    rewrite app_nil_r in P. split; [exact P|]. intros l1 i l2 E.
    specialize (G l1 i l2 E). rewrite app_nil_r in G. exact G. }
  split; [|exact Full]. split.
  - intro L. exists l. apply Full. exact L.
  - intros [K [HK GK]]. destruct U' as [|u U']; [cbn in Hlen; lia|]. exfalso.
    assert (NDK := is_order_NoDup n K HK).
    assert (Sub : forall x, In x (u :: U') -> In x K).
    { intros x Hx. apply (is_order_In n K HK). assert (In x (seq 0 n)).
      { apply (Permutation_in x P). apply in_or_app. right. exact Hx. }
      apply in_seq in H. lia. }
    destruct (exists_first K (u :: U') NDK Sub ltac:(discriminate)) as [x [Hx Hf]].
    destruct (in_split x K (Sub x Hx)) as [l1 [l2 EK]].
    specialize (GK l1 x l2 EK).
    assert (T : test (abs_sum M x (u :: U')) = true).
    { apply (TM M x (x :: l2)); [| |exact GK].
      - assert (NoDup (l ++ u :: U')) by (eapply Permutation_NoDup; [symmetry; exact P|apply seq_NoDup]).
        apply NoDup_app_iff' in H. tauto.
      - intros y Hy. destruct (precedes_suffix K l1 x l2 y NDK EK (Sub y Hy) (Hf y Hy)) as [->|H];
          [left; reflexivity|right; exact H]. }
    rewrite (N ltac:(discriminate) x Hx) in T. discriminate.
Qed.

(** ** Exact zeros *)
Lemma nsum_abs_zero : forall M i U, neqb (abs_sum M i U) (Some 0%Qc) = true <->
  forall j, In j U -> M i j = Some 0%Qc.
Proof.
  intros M i U. split.
  - induction U as [|j U IH]; intros H k Hk; [contradiction|].
    unfold abs_sum in H. cbn [map] in H. rewrite nsum_cons in H. fold (abs_sum M i U) in H.
    assert (Pos : forall s, abs_sum M i U = Some s -> (0 <= s)%Qc).
    { clear. induction U as [|j U IH]; intros s Hs.
      - cbn in Hs. assert (0%Qc = s) by congruence. subst s. apply Qcle_refl.
      - unfold abs_sum in Hs. cbn [map] in Hs. rewrite nsum_cons in Hs. fold (abs_sum M i U) in Hs.
        destruct (M i j) as [v|]; [|discriminate]. destruct (abs_sum M i U) as [s'|]; [|discriminate].
        cbn in Hs. assert (E : (qabs v + s')%Qc = s) by congruence. subst s.
        specialize (IH s' eq_refl). pose proof (qabs_nonneg v). qclra. }
    destruct (M i j) as [v|] eqn:Ej; [|discriminate].
    destruct (abs_sum M i U) as [s|] eqn:Es; [|discriminate]. cbn in H.
    apply qeqb_eq in H. specialize (Pos s eq_refl). pose proof (qabs_nonneg v) as Pv.
    assert (qabs v = 0%Qc /\ s = 0%Qc) as [Z1 Z2] by (split; qclra).
    destruct Hk as [<-|Hk].
    + apply (proj1 (qabs_0 v)) in Z1. rewrite Ej, Z1. reflexivity.
    + apply IH; [|exact Hk]. subst s. reflexivity.
  - induction U as [|j U IH]; intro H; [reflexivity|].
    unfold abs_sum. cbn [map]. rewrite nsum_cons. fold (abs_sum M i U).
    rewrite (H j (or_introl eq_refl)).
    specialize (IH (fun k Hk => H k (or_intror Hk))).
    destruct (abs_sum M i U) as [s|]; [|discriminate]. cbn in *. apply qeqb_eq in IH. subst s.
    apply qeqb_eq. reflexivity.
Qed.
Lemma is_zero_mono : test_mono is_zero.
Proof.
  intros M i U U' _ I H. unfold is_zero in *. rewrite nsum_abs_zero in *. intros j Hj. apply H, I, Hj.
Qed.

Lemma good_zero_topological : forall n M K, is_order n K ->
  (good_order is_zero M K <-> topological (edge_of_num n M) K).
Proof.
  intros n M K HK. assert (ND := is_order_NoDup n K HK). split.
  - intros G a b [Hb [Ha D]]. assert (Ib : In b K) by (apply (is_order_In n K HK); exact Hb).
    assert (Ia : In a K) by (apply (is_order_In n K HK); exact Ha).
    destruct (in_split b K Ib) as [l1 [l2 E]]. specialize (G l1 b l2 E).
    unfold is_zero in G. rewrite nsum_abs_zero in G. rewrite E in Ia.
    apply in_app_or in Ia. destruct Ia as [Ia|Ia].
    + rewrite E. apply precedes_app_cross; [exact Ia|left; reflexivity].
    + exfalso. apply D. apply G. exact Ia.
  - intros T l1 i l2 E. unfold is_zero. apply nsum_abs_zero. intros j Hj.
    assert (Ii : i < n). { apply (is_order_In n K HK). rewrite E. apply in_or_app. right. left. reflexivity. }
    assert (Ij : j < n).
    { apply (is_order_In n K HK). rewrite E. apply in_or_app. right. exact Hj. }
    destruct (M i j) as [v|] eqn:Ev.
    + destruct (Qc_eq_dec v 0) as [->|D]; [reflexivity|]. exfalso.
      assert (P : precedes K j i) by (apply T; repeat split; try assumption; rewrite Ev; congruence).
      destruct Hj as [<-|Hj]; [exact (precedes_irrefl K i ND P)|].
      apply (precedes_asym K j i ND P). exists l1. apply in_split in Hj. destruct Hj as [x1 [x2 ->]].
      exists x1, x2. exact E.
    + exfalso. assert (P : precedes K j i) by (apply T; repeat split; try assumption; rewrite Ev; discriminate).
      destruct Hj as [<-|Hj]; [exact (precedes_irrefl K i ND P)|].
      apply (precedes_asym K j i ND P). exists l1. apply in_split in Hj. destruct Hj as [x1 [x2 ->]].
      exists x1, x2. exact E.
Qed.

Lemma edge_of_num_dec : forall n M a b, {edge_of_num n M a b} + {~ edge_of_num n M a b}.
Proof.
  intros n M a b. unfold edge_of_num.
  destruct (lt_dec b n); [|right; tauto]. destruct (lt_dec a n); [|right; tauto].
  destruct (M b a) as [v|]; [|left; repeat split; try assumption; discriminate].
  destruct (Qc_eq_dec v 0) as [->|D]; [right; tauto|left]. repeat split; try assumption. congruence.
Qed.

Lemma ica_search_exact : forall n M,
  (forall K, ica_search n M = Some K -> is_order n K /\ topological (edge_of_num n M) K) /\
  ((exists K, ica_search n M = Some K) <-> acyclic (edge_of_num n M)).
Proof.
  intros n M. destruct (peel_full_iff is_zero M n is_zero_mono) as [H1 H2].
  assert (A : forall K, ica_search n M = Some K -> is_order n K /\ topological (edge_of_num n M) K).
  { intros K E. unfold ica_search in E. destruct (Nat.eqb_spec (length (peel is_zero n M (seq 0 n) [])) n) as [L|]; [|discriminate].
    inversion E. subst K. destruct (H2 L) as [O G]. split; [exact O|].
    apply good_zero_topological; assumption. }
  split; [exact A|]. split.
  - intros [K E]. destruct (A K E) as [O T]. eapply topological_acyclic; [|exact T].
    eapply is_order_NoDup. exact O.
  - intro AC. destruct (topo_exists (edge_of_num n M) n (edge_of_num_dec n M) AC) as [K [O T]].
    assert (L : length (peel is_zero n M (seq 0 n) []) = n).
    { apply H1. exists K. split; [exact O|]. apply (good_zero_topological n M K O).
      intros a b E. apply T; [destruct E; tauto|destruct E; tauto|exact E]. }
    unfold ica_search. rewrite L, Nat.eqb_refl. eauto.
Qed.

(** ** ICALiNGAM's pruning loop *)
Lemma zero_at_fold : forall ps M i j,
  fold_left zero_at ps M i j = if existsb (fun p => (i =? fst p) && (j =? snd p)) ps then Some 0%Qc else M i j.
Proof.
  induction ps as [|p ps IH]; intros M i j; [reflexivity|]. cbn [fold_left existsb].
  rewrite IH. unfold zero_at, upd2.
  destruct ((i =? fst p) && (j =? snd p)); cbn; [|reflexivity].
  destruct (existsb _ ps); reflexivity.
Qed.
Lemma existsb_pos : forall ps i j,
  existsb (fun p => (i =? fst p) && (j =? snd p)) ps = true <-> In (i, j) ps.
Proof.
  intros. rewrite existsb_exists. split.
  - intros [[a b] [H E]]. cbn in E. apply andb_true_iff in E. destruct E as [E1 E2].
    apply Nat.eqb_eq in E1. apply Nat.eqb_eq in E2. subst. exact H.
  - intro H. exists (i, j). split; [exact H|]. cbn. rewrite !Nat.eqb_refl. reflexivity.
Qed.

Lemma ica_est_loop_spec : forall n done_ rest M0 K Mf,
  ica_est_loop n (fold_left zero_at done_ M0) rest = (Some K, Mf) ->
  exists r1 r2, rest = r1 ++ r2 /\ r2 <> [] /\
    Mf = fold_left zero_at (done_ ++ r1) M0 /\ ica_search n Mf = Some K /\
    (forall s1 s2, r1 = s1 ++ s2 -> s2 <> [] ->
       ica_search n (fold_left zero_at (done_ ++ s1) M0) = None).
Proof.
  intros n done_ rest. revert done_. induction rest as [|ij rest IH]; intros dn M0 K Mf H; [discriminate|].
  cbn [ica_est_loop] in H. destruct (ica_search n (fold_left zero_at dn M0)) as [o|] eqn:E.
  - inversion H. subst. exists [], (ij :: rest). split; [reflexivity|]. split; [discriminate|].
    rewrite app_nil_r. split; [reflexivity|]. split; [exact E|].
    intros s1 s2 Q N. symmetry in Q. apply app_eq_nil in Q. destruct Q. congruence.
  - replace (zero_at (fold_left zero_at dn M0) ij) with (fold_left zero_at (dn ++ [ij]) M0) in H
      by (rewrite fold_left_app; reflexivity).
    destruct (IH _ _ _ _ H) as [r1 [r2 [E1 [N [EM [S F]]]]]].
    exists (ij :: r1), r2. subst rest. split; [reflexivity|]. split; [exact N|].
    rewrite <- app_assoc in EM. split; [exact EM|]. split; [exact S|].
    intros s1 s2 Q Ns. destruct s1 as [|x s1].
    + rewrite app_nil_r. exact E.
    + cbn in Q. inversion Q. subst. specialize (F s1 s2 eq_refl Ns).
      rewrite <- app_assoc in F. exact F.
Qed.

Lemma ica_est_loop_ok : forall n done_ rest last_ M0,
  (ica_search n (fold_left zero_at (done_ ++ rest) M0) <> None) ->
  exists K Mf, ica_est_loop n (fold_left zero_at done_ M0) (rest ++ [last_]) = (Some K, Mf).
Proof.
  intros n done_ rest last_. revert done_. induction rest as [|ij rest IH]; intros dn M0 H.
  - rewrite app_nil_r in H. cbn. destruct (ica_search n (fold_left zero_at dn M0)); [eauto|congruence].
  - cbn [ica_est_loop app]. destruct (ica_search n (fold_left zero_at dn M0)); [eauto|].
    replace (zero_at (fold_left zero_at dn M0) ij) with (fold_left zero_at (dn ++ [ij]) M0)
      by (rewrite fold_left_app; reflexivity).
    apply IH. rewrite <- app_assoc. exact H.
Qed.

Definition all_pos (n : nat) : list (nat * nat) := list_prod (seq 0 n) (seq 0 n).
Lemma all_pos_In : forall n i j, In (i, j) (all_pos n) <-> i < n /\ j < n.
Proof. intros. unfold all_pos. rewrite in_prod_iff, !in_seq. lia. Qed.
Lemma all_pos_length : forall n, length (all_pos n) = n * n.
Proof. intro n. unfold all_pos. rewrite prod_length, seq_length. reflexivity. Qed.

Lemma half_lt : forall n, 2 <= n -> n * (n + 1) / 2 < n * n.
Proof.
  intros n H. apply Nat.div_lt_upper_bound; [lia|]. nia.
Qed.

Lemma ica_estimate_ok : forall n pos M, 2 <= n -> Permutation pos (all_pos n) ->
  (forall i, i < n -> M i i = Some 0%Qc) ->
  exists K Mf r1 r2, ica_estimate_order n pos M = (Some K, Mf) /\
    pos = r1 ++ r2 /\ n * (n + 1) / 2 <= length r1 /\
    (forall i j, Mf i j = if existsb (fun p => (i =? fst p) && (j =? snd p)) r1
                          then Some 0%Qc else M i j) /\
    is_order n K /\ topological (edge_of_num n Mf) K /\
    (forall s1 s2, r1 = s1 ++ s2 -> s2 <> [] -> n * (n + 1) / 2 <= length s1 ->
       ~ acyclic (edge_of_num n (fold_left zero_at s1 M))).
Proof.
  intros n pos M Hn P D. unfold ica_estimate_order.
  set (k := n * (n + 1) / 2).
  assert (Lp : length pos = n * n) by (rewrite (Permutation_length P); apply all_pos_length).
  pose proof (half_lt n Hn) as Hk. fold k in Hk.
  assert (NE : skipn k pos <> []).
  { intro E. assert (length (skipn k pos) = 0) by (rewrite E; reflexivity).
    rewrite skipn_length in H. lia. }
  destruct (exists_last NE) as [rest [lst E]].
  assert (Ep : pos = (firstn k pos ++ rest) ++ [lst]).
  { rewrite <- (firstn_skipn k pos) at 1. rewrite E, app_assoc. reflexivity. }
  destruct (ica_est_loop_ok n (firstn k pos) rest lst M) as [K [Mf HL]].
  { destruct (ica_search_exact n (fold_left zero_at (firstn k pos ++ rest) M)) as [_ [_ H]].
    destruct H as [K HK]; [|congruence].
    set (M' := fold_left zero_at (firstn k pos ++ rest) M).
    assert (Z : forall i j, i < n -> j < n -> M' i j <> Some 0%Qc -> (i, j) = lst /\ i <> j).
    { intros i j Hi Hj H. unfold M' in H. rewrite zero_at_fold in H.
      destruct (existsb _ _) eqn:Ex; [congruence|]. split.
      - assert (I : In (i, j) pos).
        { apply (Permutation_in _ (Permutation_sym P)). apply all_pos_In. lia. }
        rewrite Ep in I. apply in_app_or in I. destruct I as [I|[I|[]]]; [|congruence].
        apply existsb_pos in I. congruence.
      - intros ->. apply H. apply D. exact Hj. }
    destruct lst as [li lj].
    apply (rank_acyclic _ (fun v => if v =? li then 1 else 0)).
    intros a b [Hb [Ha H]]. destruct (Z b a Hb Ha H) as [Q Dn].
    inversion Q. subst li lj. rewrite Nat.eqb_refl.
    destruct (Nat.eqb_spec a b); [congruence|lia]. }
  rewrite E. rewrite HL.
  destruct (ica_est_loop_spec _ _ _ _ _ _ HL) as [r1 [r2 [E1 [Nr [EM [S F]]]]]].
  destruct (ica_search_exact n Mf) as [X _]. destruct (X K S) as [O T].
  exists K, Mf, (firstn k pos ++ r1), r2. split; [reflexivity|]. split.
  { rewrite <- app_assoc, <- E1, <- E. symmetry. apply firstn_skipn. }
  split.
  { rewrite app_length, firstn_length_le by lia. lia. }
  split; [intros i j; rewrite EM; apply zero_at_fold|]. split; [exact O|]. split; [exact T|].
  intros s1 s2 Q Ns Ls AC.
  (* s1 = firstn k pos ++ s1' *)
  assert (Hs : exists s1', s1 = firstn k pos ++ s1' /\ r1 = s1' ++ s2).
  { exists (skipn k s1).
    assert (F1 : firstn k s1 = firstn k pos).
    { assert (firstn k (s1 ++ s2) = firstn k (firstn k pos ++ r1)) by (f_equal; symmetry; exact Q).
      rewrite !firstn_app in H. replace (k - length s1) with 0 in H by lia.
      rewrite firstn_length_le in H by lia. rewrite Nat.sub_diag in H. cbn in H.
      rewrite !app_nil_r in H. rewrite firstn_firstn, Nat.min_id in H. exact H. }
    split; [rewrite <- F1; symmetry; apply firstn_skipn|].
    assert (skipn k (s1 ++ s2) = skipn k (firstn k pos ++ r1)) by (f_equal; symmetry; exact Q).
    rewrite !skipn_app in H. replace (k - length s1) with 0 in H by lia.
    rewrite firstn_length_le in H by lia. rewrite Nat.sub_diag in H.
    rewrite (skipn_all2 (firstn k pos)) in H by (rewrite firstn_length_le; lia). cbn in H. symmetry. exact H. }
  destruct Hs as [s1' [-> Q2]].
  specialize (F s1' s2 Q2 Ns).
  destruct (ica_search_exact n (fold_left zero_at (firstn k pos ++ s1') M)) as [_ [_ H]].
  destruct (H AC) as [K' HK']. congruence.
Qed.

(** Magnitudes, NaN largest (numpy sorts NaN last). *)
Definition nle_abs (x y : num) : Prop :=
  match x, y with
  | _, None => True
  | None, Some _ => False
  | Some a, Some b => (qabs a <= qabs b)%Qc
  end.
Definition sorted_pos (M : mat num) (pos : list (nat * nat)) : Prop :=
  StronglySorted (fun p q => nle_abs (M (fst p) (snd p)) (M (fst q) (snd q))) pos.

Lemma StronglySorted_app_cross : forall A (R : A -> A -> Prop) l1 l2 x y,
  StronglySorted R (l1 ++ l2) -> In x l1 -> In y l2 -> R x y.
Proof.
  intros A R. induction l1 as [|z l1 IH]; intros l2 x y S Hx Hy; [contradiction|].
  cbn in S. inversion S as [|? ? S' F]; subst. destruct Hx as [->|Hx].
  - rewrite Forall_forall in F. apply F. apply in_or_app. right. exact Hy.
  - eapply IH; eassumption.
Qed.

Lemma ica_fit_ok : forall n pos lasso M, 2 <= n -> Permutation pos (all_pos n) ->
  (forall i, i < n -> M i i = Some 0%Qc) ->
  exists K, ica_fit n pos lasso M = Ok (K, estimate_adjacency_matrix lasso None K) /\
    is_order n K /\
    acyclic (edge_of_num n (estimate_adjacency_matrix lasso None K)) /\
    (sorted_pos M pos -> exists Mf, topological (edge_of_num n Mf) K /\
      (forall i j, i < n -> j < n -> Mf i j = M i j \/ Mf i j = Some 0%Qc) /\
      (forall i j i' j', i < n -> j < n -> i' < n -> j' < n ->
         Mf i j <> M i j -> Mf i' j' = M i' j' -> Mf i' j' <> Some 0%Qc ->
         nle_abs (M i j) (M i' j'))).
Proof.
  intros n pos lasso M Hn P D.
  destruct (ica_estimate_ok n pos M Hn P D) as [K [Mf [r1 [r2 [E [Ep [Lk [EM [O [T _]]]]]]]]]].
  exists K. unfold ica_fit. rewrite E. cbn [fst]. split; [reflexivity|]. split; [exact O|].
  assert (ND := is_order_NoDup n K O). split.
  - eapply topological_acyclic; [exact ND|]. apply adjacency_topological. exact ND.
  - intro S. exists Mf. split; [exact T|]. split.
    + intros i j _ _. rewrite EM. destruct (existsb _ r1); [right|left]; reflexivity.
    + intros i j i' j' Hi Hj Hi' Hj' C1 C2 C3. rewrite EM in C1, C2, C3.
      destruct (existsb (fun p => (i =? fst p) && (j =? snd p)) r1) eqn:X1; [|congruence].
      destruct (existsb (fun p => (i' =? fst p) && (j' =? snd p)) r1) eqn:X2; [congruence|].
      apply existsb_pos in X1.
      assert (I2 : In (i', j') r2).
      { assert (In (i', j') pos) by (apply (Permutation_in _ (Permutation_sym P)); apply all_pos_In; lia).
        rewrite Ep in H. apply in_app_or in H. destruct H as [H|H]; [|exact H].
        apply existsb_pos in H. congruence. }
      unfold sorted_pos in S. rewrite Ep in S.
      exact (StronglySorted_app_cross _ _ _ _ (i, j) (i', j') S X1 I2).
Qed.

Lemma ica_fit_one_column : forall lasso M pos, Permutation pos (all_pos 1) ->
  ica_fit 1 pos lasso M = Err TypeError.
Proof.
  intros lasso M pos P. apply Permutation_length in P. rewrite all_pos_length in P.
  destruct pos as [|p [|q pos]]; cbn in P; try lia. reflexivity.
Qed.

Lemma ica_B_diag : forall n W (c cinv : nat -> nat),
  (forall i, i < n -> cinv i < n /\ c (cinv i) = i) ->
  (forall r, r < n -> W r (c r) <> 0%Qc) ->
  forall i, i < n -> ica_B W cinv i i = 0%Qc.
Proof.
  intros n W c cinv Hc HW i Hi. unfold ica_B. rewrite Nat.eqb_refl.
  destruct (Hc i Hi) as [H1 H2]. specialize (HW (cinv i) H1). rewrite H2 in HW.
  unfold Qcdiv. rewrite Qcmult_inv_r by exact HW. ring.
Qed.

(** ** CausalEffect's tolerance *)
Lemma abs_sum_nonneg : forall M i U s, abs_sum M i U = Some s -> (0 <= s)%Qc.
Proof.
  intros M i. induction U as [|j U IH]; intros s Hs.
  - cbn in Hs. assert (0%Qc = s) by congruence. subst s. apply Qcle_refl.
  - unfold abs_sum in Hs. cbn [map] in Hs. rewrite nsum_cons in Hs. fold (abs_sum M i U) in Hs.
    destruct (M i j) as [v|]; [|discriminate]. destruct (abs_sum M i U) as [s'|]; [|discriminate].
    cbn in Hs. assert (E : (qabs v + s')%Qc = s) by congruence. subst s.
    specialize (IH s' eq_refl). pose proof (qabs_nonneg v). qclra.
Qed.
Lemma abs_sum_cons : forall M i j U, abs_sum M i (j :: U) = nadd (nabs (M i j)) (abs_sum M i U).
Proof. reflexivity. Qed.
Lemma abs_sum_sub : forall M i U' U s, NoDup U' -> incl U' U -> abs_sum M i U = Some s ->
  exists s', abs_sum M i U' = Some s' /\ (s' <= s)%Qc.
Proof.
  intros M i. induction U' as [|j U' IH]; intros U s ND I H.
  - exists 0%Qc. split; [reflexivity|]. eapply abs_sum_nonneg. exact H.
  - apply NoDup_cons_iff in ND. destruct ND as [Hj ND].
    destruct (in_split j U (I j (or_introl eq_refl))) as [u1 [u2 E]].
    assert (P : Permutation U (j :: u1 ++ u2)) by (rewrite E; symmetry; apply Permutation_middle).
    rewrite (abs_sum_perm M i _ _ P), abs_sum_cons in H.
    destruct (M i j) as [v|] eqn:Ev; [|discriminate].
    destruct (abs_sum M i (u1 ++ u2)) as [s2|] eqn:E2; [|discriminate].
    destruct (IH (u1 ++ u2) s2 ND) as [s' [Es Ls]]; [|exact E2|].
    { intros x Hx. assert (x <> j) by (intros ->; contradiction).
      assert (In x U) by (apply I; right; exact Hx). rewrite P in H1. destruct H1 as [<-|H1]; [congruence|exact H1]. }
    exists (qabs v + s')%Qc. rewrite abs_sum_cons, Ev, Es. split; [reflexivity|].
    cbn in H. assert (Q : (qabs v + s2)%Qc = s) by congruence. subst s. qclra.
Qed.
Lemma is_small_mono : test_mono is_small.
Proof.
  intros M i U U' ND I H. unfold is_small in *. destruct (abs_sum M i U) as [s|] eqn:E; [|discriminate].
  destruct (abs_sum_sub M i U' U s ND I E) as [s' [-> L]]. cbn in *.
  apply qltb_lt in H. apply qltb_lt. qclra.
Qed.

Lemma ce_order_spec : forall n M,
  (ce_order n M = Err ValueError \/ exists K, ce_order n M = Ok K) /\
  (ce_order n M = Err ValueError <->
   ~ exists K, is_order n K /\ good_order is_small M K) /\
  (forall K, ce_order n M = Ok K -> is_order n K /\ good_order is_small M K).
Proof.
  intros n M. destruct (peel_full_iff is_small M n is_small_mono) as [H1 H2].
  unfold ce_order. destruct (Nat.eqb_spec (length (peel is_small n M (seq 0 n) [])) n) as [L|L].
  - split; [right; eauto|]. split.
    + split; [discriminate|]. intro F. exfalso. apply F. apply H1. exact L.
    + intros K E. inversion E. subst K. apply H2. exact L.
  - split; [left; reflexivity|]. split; [|discriminate].
    split; [|reflexivity]. intros _ F. apply L. apply H1. exact F.
Qed.

Lemma good_small_forward : forall n M K i j, is_order n K -> good_order is_small M K ->
  i < n -> j < n -> (M i j = None \/ exists v, M i j = Some v /\ (eps10 <= qabs v)%Qc) ->
  precedes K j i.
Proof.
  intros n M K i j HK G Hi Hj H.
  assert (Ii : In i K) by (apply (is_order_In n K HK); exact Hi).
  assert (Ij : In j K) by (apply (is_order_In n K HK); exact Hj).
  destruct (in_split i K Ii) as [l1 [l2 E]]. specialize (G l1 i l2 E).
  rewrite E in Ij. apply in_app_or in Ij. destruct Ij as [Ij|Ij].
  - rewrite E. apply precedes_app_cross; [exact Ij|left; reflexivity].
  - exfalso. unfold is_small in G. destruct (abs_sum M i (i :: l2)) as [s|] eqn:Es; [|discriminate].
    destruct (abs_sum_sub M i [j] (i :: l2) s) as [s' [E' L]].
    { constructor; [intros []|constructor]. }
    { intros x [<-|[]]. exact Ij. }
    { exact Es. }
    rewrite abs_sum_cons in E'. destruct H as [H|[v [H Hv]]]; rewrite H in E'; [discriminate|].
    cbn in E'. assert (Q : (qabs v + 0)%Qc = s') by congruence. subst s'.
    cbn in G. apply qltb_lt in G. qclra.
Qed.

Lemma ce_order_forward : forall n M K i j, ce_order n M = Ok K -> i < n -> j < n ->
  (M i j = None \/ exists v, M i j = Some v /\ (eps10 <= qabs v)%Qc) -> precedes K j i.
Proof.
  intros n M K i j H Hi Hj D. destruct (ce_order_spec n M) as [_ [_ S]].
  destruct (S K H) as [O G]. eapply good_small_forward; eassumption.
Qed.
