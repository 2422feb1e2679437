(** * Proofs about the VAR / VARMA model. *)
From Coq Require Import List Arith Lia Bool ZArith QArith Qcanon Permutation Relations.
From Verif Require Import Prelude Spec Lib LibMat ModelPaths SpecPaths ProofPaths ProofTotal ModelVAR.
Import ListNotations.
Open Scope nat_scope.

(** ** Sums *)
Lemma fold_vplus : forall (f : nat -> nat -> Qc) l acc i,
  fold_left (fun a t => vplus a (f t)) l acc i = (acc i + sumf l (fun t => f t i))%Qc.
Proof.
  intros f l. induction l as [|x l IH]; intros acc i; cbn [fold_left].
  - rewrite sumf_nil. ring.
  - rewrite IH, sumf_cons. unfold vplus. ring.
Qed.
Lemma sumf_seq_shift : forall (f : nat -> Qc) m s, sumf (seq s m) f = sumn m (fun k => f (s + k)).
Proof.
  intros f m. induction m as [|m IH]; intro s; [reflexivity|].
  cbn [seq]. rewrite sumf_cons, IH, sumn_shift. f_equal; [f_equal; lia|].
  apply sumn_ext. intros i _. f_equal. lia.
Qed.
Lemma ar_sum_spec : forall n Ms X t i,
  ar_sum n Ms X t i =
  sumn (length Ms) (fun k => sumn n (fun j => nth k Ms zmat i j * X (t - (k + 1))%nat j)%Qc).
Proof.
  intros. unfold ar_sum.
  rewrite (fold_vplus (fun tau => mvec n (nth (tau - 1) Ms zmat) (X (t - tau)))).
  rewrite sumf_seq_shift. unfold vzero. rewrite Qcplus_0_l. apply sumn_ext. intros k _.
  replace (1 + k - 1) with k by lia. unfold mvec. replace (1 + k) with (k + 1) by lia. reflexivity.
Qed.
Lemma var_residuals_spec : forall n Ms X r i,
  var_residuals n Ms X r i =
  (X (r + length Ms)%nat i -
   sumn (length Ms) (fun k => sumn n (fun j => nth k Ms zmat i j * X (r + length Ms - (k + 1))%nat j)))%Qc.
Proof.
  intros. unfold var_residuals, var_raw.
  destruct (Nat.ltb_spec (r + length Ms) (length Ms)); [lia|]. rewrite ar_sum_spec. reflexivity.
Qed.

(** (I - B0) applied to x - sum_k M_k y_k. *)
Lemma structural : forall n B0 (Ms : list (mat Qc)) (x : nat -> Qc) (y : nat -> nat -> Qc) i, i < n ->
  sumn n (fun j => msub midn B0 i j * (x j - sumn (length Ms) (fun k => sumn n (fun l => nth k Ms zmat j l * y k l))))%Qc
  = (x i - sumn n (fun j => B0 i j * x j)
       - sumn (length Ms) (fun k => sumn n (fun l => mmul n (msub midn B0) (nth k Ms zmat) i l * y k l)))%Qc.
Proof.
  intros n B0 Ms x y i Hi.
  rewrite (sumn_ext n _ (fun j => msub midn B0 i j * x j -
      sumn (length Ms) (fun k => sumn n (fun l => msub midn B0 i j * (nth k Ms zmat j l * y k l))))%Qc).
  2:{ intros j _.
      rewrite (sumn_ext (length Ms) (fun k => sumn n (fun l => msub midn B0 i j * (nth k Ms zmat j l * y k l)))%Qc
        (fun k => (msub midn B0 i j * sumn n (fun l => nth k Ms zmat j l * y k l))%Qc))
        by (intros; apply sumn_scal).
      rewrite sumn_scal. ring. }
  rewrite sumn_minus. f_equal.
  - rewrite (sumn_ext n _ (fun j => midn i j * x j - B0 i j * x j)%Qc) by (intros; unfold msub; ring).
    rewrite sumn_minus. f_equal. rewrite (sumn_single n _ i Hi).
    + unfold midn. rewrite Nat.eqb_refl. ring.
    + intros j _ Hj. unfold midn. destruct (Nat.eqb_spec i j); [congruence|ring].
  - rewrite sumn_swap. apply sumn_ext. intros k _. rewrite sumn_swap. apply sumn_ext.
    intros l _. unfold mmul. rewrite <- sumn_scal_r. apply sumn_ext. intros. ring.
Qed.

(** ** Pruning: alignment of the stacked blocks *)
Lemma stacked_spec : forall N X k j c, j + k < N -> stacked N X k j c = X (N - 1 - (j + k)) c.
Proof.
  intros N X k. induction k as [|k IH]; intros j c H; cbn [stacked].
  - unfold np_flip. f_equal; lia.
  - unfold np_roll_back. rewrite Nat.mod_small by lia. rewrite IH by lia. f_equal; lia.
Qed.
(** One row of the regression for time [t], as the English property has it. *)
Definition design (n lags : nat) (X : series) (anc : list nat) (t : nat) : list Qc :=
  map (X t) anc ++ flat_map (fun k => map (X (t - k)) (seq 0 n)) (seq 1 lags).
Lemma prune_row_spec : forall N n lags X anc j, j + lags < N ->
  prune_row N n lags X anc j = design n lags X anc (N - 1 - j).
Proof.
  intros N n lags X anc j H. unfold prune_row, design. f_equal.
  rewrite !flat_map_concat_map. f_equal. apply map_ext_in. intros k Hk. apply in_seq in Hk.
    apply map_ext. intro c. rewrite stacked_spec by lia. f_equal; lia.
Qed.
Lemma prune_rows_spec : forall N n lags X anc, 1 <= lags ->
  map (prune_row N n lags X anc) (seq 0 (n_blocks N lags))
  = map (fun r => design n lags X anc (N - 1 - r)) (seq 0 (N - lags)).
Proof.
  intros N n lags X anc H. unfold n_blocks. destruct (Nat.eqb_spec lags 0); [lia|].
  apply map_ext_in. intros j Hj. apply in_seq in Hj. apply prune_row_spec. lia.
Qed.
Lemma prune_objs_spec : forall N X i lags, 1 <= lags ->
  map (prune_obj N X i) (seq 0 (n_blocks N lags)) = map (fun r => X (N - 1 - r) i) (seq 0 (N - lags)).
Proof.
  intros N X i lags H. unfold n_blocks. destruct (Nat.eqb_spec lags 0); [lia|].
  apply map_ext_in. intros j Hj. apply in_seq in Hj. unfold prune_obj.
  rewrite stacked_spec by lia. f_equal; lia.
Qed.
(** Where the predictor "variable c, k steps back" sits in a row. *)
Lemma design_lag : forall n lags X anc t k c, 1 <= k -> k <= lags -> c < n ->
  nth_error (design n lags X anc t) (length anc + n * (k - 1) + c) = Some (X (t - k) c).
Proof.
  intros n lags X anc t k c H1 H2 Hc. unfold design.
  set (m0 := n * (k - 1)).
  rewrite nth_error_app2 by (rewrite (map_length (X t) anc); lia). rewrite (map_length (X t) anc).
  replace (length anc + m0 + c - length anc) with (m0 + c) by lia. subst m0.
  assert (G : forall m s q, q < m -> nth_error (flat_map (fun k => map (X (t - k)) (seq 0 n)) (seq s m)) (n * q + c)
              = Some (X (t - (s + q)) c)).
  { induction m as [|m IH]; intros s q Hq; [lia|]. cbn [seq flat_map]. destruct q as [|q].
    - rewrite nth_error_app1 by (rewrite map_length, seq_length; nia).
      rewrite nth_error_map. replace (n * 0 + c) with c by lia.
      assert (E : nth_error (seq 0 n) c = Some c).
      { rewrite (nth_error_nth' (seq 0 n) 0) by (rewrite seq_length; exact Hc). rewrite seq_nth by exact Hc. reflexivity. }
      rewrite E. cbn. do 2 f_equal; lia.
    - rewrite nth_error_app2 by (rewrite map_length, seq_length; nia).
      rewrite map_length, seq_length. replace (n * S q + c - n) with (n * q + c) by nia.
      rewrite IH by lia. do 2 f_equal; lia. }
  rewrite G by lia. do 2 f_equal; lia.
Qed.
Lemma design_anc : forall n lags X anc t p a, nth_error anc p = Some a ->
  nth_error (design n lags X anc t) p = Some (X t a).
Proof.
  intros n lags X anc t p a H. unfold design. rewrite nth_error_app1.
  - rewrite nth_error_map, H. reflexivity.
  - rewrite map_length. apply nth_error_Some. congruence.
Qed.

Lemma write_taus_spec : forall n i no lags coef Bs tau, tau + length Bs <= lags + 1 -> 1 <= tau ->
  exists Bs', write_taus n i no tau lags coef Bs = Ok Bs' /\ length Bs' = length Bs /\
    forall k r c, k < length Bs -> nth k Bs' zmat r c =
      if (r =? i) && (c <? n) then coef (no + n * (tau + k - 1) + c) else nth k Bs zmat r c.
Proof.
  intros n i no lags coef Bs. induction Bs as [|B Bs IH]; intros tau H H1; cbn [write_taus length] in *.
  - exists []. repeat split. intros; lia.
  - destruct (Nat.ltb_spec lags tau); [lia|].
    destruct (IH (S tau)) as [Bs' [E [L G]]]; [lia|lia|]. rewrite E. cbn [bind].
    eexists. split; [reflexivity|]. split; [cbn [length]; congruence|].
    intros [|k] r c Hk; cbn [nth].
    + unfold write_btau. destruct ((r =? i) && (c <? n)); [|reflexivity]. f_equal; lia.
    + rewrite G by lia. destruct ((r =? i) && (c <? n)); [|reflexivity]. f_equal; lia.
Qed.
Lemma write_taus_err : forall n i no lags coef Bs tau, lags < tau + length Bs - 1 -> 1 <= tau -> Bs <> [] ->
  write_taus n i no tau lags coef Bs = Err ValueError.
Proof.
  intros n i no lags coef Bs. induction Bs as [|B Bs IH]; intros tau H H1 NE; [congruence|].
  cbn [write_taus length] in *. destruct (Nat.ltb_spec lags tau); [reflexivity|].
  destruct Bs as [|B' Bs]; [cbn [length] in H; lia|]. rewrite IH; [reflexivity|cbn [length] in *; lia|lia|discriminate].
Qed.

(** The coefficients found for variable [i] are those of the regression with aligned rows. *)
Definition reg_coef (lasso : lasso_fn) (N n lags : nat) (X : series) (anc : list nat) (i : nat) : nat -> Qc :=
  lasso (map (fun r => design n lags X anc (N - 1 - r)) (seq 0 (N - lags)))
        (map (fun r => X (N - 1 - r) i) (seq 0 (N - lags))).

Definition pruned_row lasso N n lags X order (Bs Bs' : list (mat Qc)) (i : nat) : Prop :=
  exists no, index_of i order = Some no /\
    let anc := firstn no order in let coef := reg_coef lasso N n lags X anc i in
    (forall c, nth 0 Bs' zmat i c = match index_of c anc with Some p => coef p | None => nth 0 Bs zmat i c end) /\
    (forall k c, 1 <= k -> k < length Bs -> c < n -> nth k Bs' zmat i c = coef (no + n * (k - 1) + c)).

Lemma prune_var_spec : forall lasso N n lags X order Bs i, 1 <= lags -> Bs <> [] -> length Bs <= lags + 1 ->
  In i order ->
  exists Bs', prune_var lasso N n lags X order Bs i = Ok Bs' /\ length Bs' = length Bs /\
    pruned_row lasso N n lags X order Bs Bs' i /\
    (forall k r c, k < length Bs -> r <> i -> nth k Bs' zmat r c = nth k Bs zmat r c).
Proof.
  intros lasso N n lags X order Bs i H1 NE HL HI. unfold prune_var.
  destruct (index_of i order) as [no|] eqn:Ei; [|apply (proj1 (index_of_none _ _)) in Ei; contradiction].
  destruct Bs as [|B0 Bt]; [congruence|]. cbn [length] in *.
  rewrite prune_rows_spec, prune_objs_spec by exact H1.
  set (anc := firstn no order).
  change (lasso _ _) with (reg_coef lasso N n lags X anc i).
  destruct (write_taus_spec n i no lags (reg_coef lasso N n lags X anc i) Bt 1) as [Bt' [E [L G]]]; [lia|lia|].
  rewrite E. cbn [bind]. eexists. split; [reflexivity|]. split; [cbn [length]; congruence|]. split.
  - exists no. split; [exact Ei|]. cbn zeta. fold anc. split.
    + intro c. cbn [nth]. unfold write_b0. rewrite Nat.eqb_refl. reflexivity.
    + intros k c Hk1 Hk Hc. destruct k as [|k]; [lia|]. cbn [nth]. cbn [length] in Hk. rewrite G by lia.
      rewrite Nat.eqb_refl. destruct (Nat.ltb_spec c n); [|lia]. cbn [andb]. do 2 f_equal.
  - intros k r c Hk Hr. destruct k as [|k]; cbn [nth].
    + unfold write_b0. destruct (Nat.eqb_spec r i); [congruence|reflexivity].
    + rewrite G by lia. destruct (Nat.eqb_spec r i); [congruence|reflexivity].
Qed.

Lemma prune_vars_spec : forall lasso N n lags X order is Bs, 1 <= lags -> Bs <> [] -> length Bs <= lags + 1 ->
  NoDup is -> (forall i, In i is -> In i order) ->
  exists Bs', prune_vars lasso N n lags X order Bs is = Ok Bs' /\ length Bs' = length Bs /\
    (forall i, In i is -> pruned_row lasso N n lags X order Bs Bs' i) /\
    (forall k r c, k < length Bs -> ~ In r is -> nth k Bs' zmat r c = nth k Bs zmat r c).
Proof.
  intros lasso N n lags X order is. induction is as [|i is IH]; intros Bs H1 NE HL ND HI; cbn [prune_vars].
  - exists Bs. repeat split. intros i [].
  - apply NoDup_cons_iff in ND. destruct ND as [Hi ND].
    destruct (prune_var_spec lasso N n lags X order Bs i H1 NE HL) as [B1 [E [L [P U]]]]; [apply HI; left; reflexivity|].
    rewrite E. cbn [bind].
    destruct (IH B1 H1) as [B2 [E2 [L2 [P2 U2]]]].
    { intro Z. subst B1. destruct Bs; [congruence|discriminate]. } { lia. } { exact ND. }
    { intros j Hj. apply HI. right. exact Hj. }
    exists B2. split; [exact E2|]. split; [congruence|]. split.
    + intros j [Hj | Hj].
      * subst j. destruct P as [no [Ei [P0 Pk]]]. exists no. split; [exact Ei|]. split.
        -- intro c. rewrite U2; [apply P0|destruct Bs; [congruence|cbn [length] in L; lia]|assumption].
        -- intros k c Hk1 Hk Hc. rewrite U2; [apply Pk; assumption|lia|assumption].
      * destruct (P2 j Hj) as [no [Ei [P0 Pk]]]. exists no. split; [exact Ei|]. split.
        -- intro c. rewrite P0. destruct (index_of c (firstn no order)); [reflexivity|]. apply U;
             [destruct Bs; [congruence|cbn; lia]|]. intro Z. subst j. contradiction.
        -- intros k c Hk1 Hk Hc. apply Pk; [assumption|lia|assumption].
    + intros k r c Hk Hr. rewrite U2; [|lia|intro; apply Hr; right; assumption].
      apply U; [exact Hk|]. intro Z. subst r. apply Hr. left. reflexivity.
Qed.

(** ** The unrolled matrix *)
Lemma block_range : forall n b r, 0 < n ->
  ((n * b <=? r) && (r <? n * b + n)) = (r / n =? b).
Proof.
  intros n b r Hn. pose proof (Nat.div_mod r n ltac:(lia)) as D. pose proof (Nat.mod_upper_bound r n ltac:(lia)) as M.
  destruct (Nat.eqb_spec (r / n) b) as [E|E].
  - subst b. destruct (Nat.leb_spec (n * (r / n)) r); [|lia]. destruct (Nat.ltb_spec r (n * (r / n) + n)); [reflexivity|lia].
  - destruct (Nat.leb_spec (n * b) r); [|reflexivity]. destruct (Nat.ltb_spec r (n * b + n)); [|reflexivity].
    exfalso. apply E. symmetry. apply (Nat.div_unique r n b (r - n * b)); lia.
Qed.
Lemma write_block_spec : forall n i j am E r c, 0 < n ->
  write_block n (n * i) (n * j) am (n * j - n * i) E r c =
  if (r / n =? i) && (c / n =? j) then am (r mod n) (n * (c / n) - n * (r / n) + c mod n) else E r c.
Proof.
  intros n i j am E r c Hn. unfold write_block.
  replace ((n * i <=? r) && (r <? n * i + n) && (n * j <=? c) && (c <? n * j + n))
    with (((n * i <=? r) && (r <? n * i + n)) && ((n * j <=? c) && (c <? n * j + n)))
    by (rewrite !andb_assoc; reflexivity).
  rewrite !block_range by exact Hn.
  destruct (Nat.eqb_spec (r / n) i) as [Ei|]; [|reflexivity].
  destruct (Nat.eqb_spec (c / n) j) as [Ej|]; [|reflexivity]. cbn [andb].
  pose proof (Nat.div_mod r n ltac:(lia)). pose proof (Nat.div_mod c n ltac:(lia)).
  rewrite Ei in *. rewrite Ej in *. f_equal; lia.
Qed.
Lemma inner_spec : forall n i am js E r c, 0 < n ->
  fold_left (fun E j => write_block n (n * i) (n * j) am (n * j - n * i) E) js E r c =
  if (r / n =? i) && memb (c / n) js then am (r mod n) (n * (c / n) - n * (r / n) + c mod n) else E r c.
Proof.
  intros n i am js. induction js as [|j js IH]; intros E r c Hn; cbn [fold_left].
  - cbn. rewrite andb_false_r. reflexivity.
  - rewrite IH by exact Hn. rewrite write_block_spec by exact Hn. cbn [memb existsb].
    destruct (r / n =? i); [|reflexivity]. cbn [andb].
    destruct (c / n =? j); cbn [orb]; [|reflexivity]. destruct (memb (c / n) js); reflexivity.
Qed.
Lemma expansion_spec : forall n k am r c, 0 < n -> r < n * (k + 1) -> c < n * (k + 1) ->
  expansion n k am r c =
  if r / n <=? c / n then am (r mod n) (n * (c / n) - n * (r / n) + c mod n) else Some 0%Qc.
Proof.
  intros n k am r c Hn Hr Hc. unfold expansion.
  assert (Br : r / n < k + 1) by (apply Nat.div_lt_upper_bound; lia).
  assert (Bc : c / n < k + 1) by (apply Nat.div_lt_upper_bound; lia).
  assert (G : forall is E,
    fold_left (fun E i => fold_left (fun E j => write_block n (n * i) (n * j) am (n * j - n * i) E)
                 (seq i (k + 1 - i)) E) is E r c =
    if memb (r / n) is && (r / n <=? c / n) then am (r mod n) (n * (c / n) - n * (r / n) + c mod n) else E r c).
  { induction is as [|i is IH]; intro E; cbn [fold_left]; [reflexivity|].
    rewrite IH, inner_spec by exact Hn. cbn [memb existsb].
    destruct (Nat.eqb_spec (r / n) i) as [Ei|]; cbn [andb orb]; [|reflexivity].
    assert (M : memb (c / n) (seq i (k + 1 - i)) = (r / n <=? c / n)).
    { rewrite Ei. destruct (Nat.leb_spec i (c / n)).
      - apply memb_In. apply in_seq. lia.
      - apply memb_notIn. intro Z. apply in_seq in Z. lia. }
    rewrite M. destruct (r / n <=? c / n); [|rewrite andb_false_r; reflexivity].
    rewrite andb_true_r. destruct (memb (r / n) is); reflexivity. }
  rewrite G. assert (M : memb (r / n) (seq 0 (k + 1)) = true) by (apply memb_In; apply in_seq; lia).
  rewrite M. reflexivity.
Qed.
Lemma div_mod_unique : forall n a i, i < n -> (n * a + i) / n = a /\ (n * a + i) mod n = i.
Proof.
  intros n a i H. split.
  - symmetry. apply (Nat.div_unique _ n a i); lia.
  - symmetry. apply (Nat.mod_unique _ n a i); lia.
Qed.
(** [am] as the blocks side by side. *)
Definition concat_blocks (n : nat) (Bs : list (mat num)) : mat num :=
  fun r c => nth (c / n) Bs (fun _ _ => Some 0%Qc) r (c mod n).
Lemma expansion_entry : forall n Bs a b i j, i < n -> j < n -> a < length Bs -> b < length Bs ->
  expansion n (length Bs - 1) (concat_blocks n Bs) (n * a + i) (n * b + j) =
  if a <=? b then nth (b - a) Bs (fun _ _ => Some 0%Qc) i j else Some 0%Qc.
Proof.
  intros n Bs a b i j Hi Hj Ha Hb.
  rewrite expansion_spec by nia.
  destruct (div_mod_unique n a i Hi) as [-> ->]. destruct (div_mod_unique n b j Hj) as [-> ->].
  destruct (Nat.leb_spec a b); [|reflexivity]. unfold concat_blocks.
  replace (n * b - n * a + j) with (n * (b - a) + j) by nia.
  destruct (div_mod_unique n (b - a) j Hj) as [-> ->]. reflexivity.
Qed.

(** ** The padded matrix and its effects *)
Lemma padded_entry : forall n Bs r b j, j < n ->
  denan (padded n Bs) r (n * b + j) = if r <? n then nth b Bs zmat r j else 0%Qc.
Proof.
  intros n Bs r b j Hj. unfold denan, padded. cbn [nan_to_num].
  destruct (div_mod_unique n b j Hj) as [-> ->]. reflexivity.
Qed.
Lemma padded_acyclic : forall n Bs, acyclic (edge_of n (nth 0 Bs zmat)) ->
  acyclic (edge_of (n * length Bs) (denan (padded n Bs))).
Proof.
  intros n Bs A v C.
  assert (S1 : forall a b, edge_of (n * length Bs) (denan (padded n Bs)) a b -> b < n).
  { intros a b [Hb [Ha E]]. unfold denan, padded in E. cbn [nan_to_num] in E. destruct (Nat.ltb_spec b n); [assumption|congruence]. }
  assert (S2 : forall a b, edge_of (n * length Bs) (denan (padded n Bs)) a b -> a < n -> edge_of n (nth 0 Bs zmat) a b).
  { intros a b H Ha. pose proof (S1 _ _ H). destruct H as [_ [_ E]]. split; [assumption|]. split; [exact Ha|].
    pose proof (padded_entry n Bs b 0 a Ha) as P. replace (n * 0 + a) with a in P by lia. rewrite P in E.
    destruct (Nat.ltb_spec b n); [exact E|lia]. }
  assert (Hv : v < n).
  { clear -S1 C. apply clos_trans_tn1 in C. destruct C; eapply S1; eassumption. }
  apply (A v). 
  assert (G : forall a b, clos_trans nat (edge_of (n * length Bs) (denan (padded n Bs))) a b -> a < n ->
              clos_trans nat (edge_of n (nth 0 Bs zmat)) a b /\ b < n).
  { intros a b H. induction H as [a b H|a b c H1 IH1 H2 IH2]; intro Ha.
    - split; [apply t_step; apply S2; assumption|eapply S1; eassumption].
    - destruct (IH1 Ha) as [X1 Hb]. destruct (IH2 Hb) as [X2 Hc]. split; [eapply t_trans; eassumption|exact Hc]. }
  apply G; assumption.
Qed.
Lemma sumn_split_block : forall n L (f : nat -> Qc), (forall r, n <= r -> f r = 0%Qc) -> n <= L -> sumn L f = sumn n f.
Proof.
  intros n L f H HL. induction HL as [|m HL IH]; [reflexivity|]. rewrite sumn_S, H, IH by lia. ring.
Qed.
Lemma effect2_lag : forall n Bs from to_ lag, 2 <= n * length Bs -> from < n -> to_ < n -> 1 <= lag -> lag < length Bs ->
  acyclic (edge_of n (nth 0 Bs zmat)) ->
  forall T, meq n (mmul n (msub midn (nth 0 Bs zmat)) T) midn ->
  var_effect2 n Bs from to_ lag = Ok (Some (mmul n T (nth lag Bs zmat) to_ from)).
Proof.
  intros n Bs from to_ lag H2 Hf Ht Hl1 Hl A T HT. unfold var_effect2.
  pose proof (padded_acyclic n Bs A) as AP.
  set (L := n * length Bs) in *. set (P := denan (padded n Bs)) in *.
  assert (Hn : n <= L) by (subst L; nia).
  assert (Hfl : from + n * lag < L) by (subst L; nia).
  destruct (total_effect_spec L (padded n Bs) (from + n * lag) to_) as [t [E [_ [U _]]]];
    try assumption; try nia.
  rewrite E. do 2 f_equal. fold P in U. rewrite (U (neumann L P) (neumann_inv_l L P AP)).
  pose proof (neumann_inv_r L P AP) as IR.
  assert (Step : forall a b, a < L -> b < L ->
    neumann L P a b = (midn a b + sumn n (fun k => neumann L P a k * P k b))%Qc).
  { intros a b Ha Hb. pose proof (IR a b Ha Hb) as Q. rewrite mmul_msub_r, mmul_id_r in Q by exact Hb.
    unfold mmul in Q. rewrite (sumn_split_block n L) in Q; [rewrite <- Q; ring| |exact Hn].
    intros r Hr. unfold P, denan, padded. cbn [nan_to_num]. destruct (Nat.ltb_spec r n); [lia|ring]. }
  assert (Sub : meq n (neumann L P) T).
  { assert (X1 : meq n (neumann L P) (neumann n (nth 0 Bs zmat))).
    { apply left_inverse_unique; [exact A|]. intros a b Ha Hb.
      rewrite mmul_msub_r, mmul_id_r by exact Hb. rewrite (Step a b) by lia.
      unfold mmul. rewrite (sumn_ext n (fun k => neumann L P a k * P k b)%Qc (fun k => neumann L P a k * nth 0 Bs zmat k b)%Qc).
      - ring.
      - intros k Hk. f_equal. pose proof (padded_entry n Bs k 0 b Hb) as Q. replace (n * 0 + b) with b in Q by lia.
        unfold P. rewrite Q. destruct (Nat.ltb_spec k n); [reflexivity|lia]. }
    intros a b Ha Hb. rewrite X1 by assumption. symmetry. apply right_inverse_unique; assumption. }
  rewrite Step by lia. unfold midn at 1. destruct (Nat.eqb_spec to_ (from + n * lag)); [nia|].
  unfold mmul. rewrite Qcplus_0_l. apply sumn_ext. intros k Hk. f_equal; [apply Sub; assumption|].
  unfold P. replace (from + n * lag) with (n * lag + from) by lia. rewrite padded_entry by exact Hf.
  destruct (Nat.ltb_spec k n); [reflexivity|lia].
Qed.

(** ** VARMA *)
Lemma eps_stable : forall n AR MA X noise m t, t < m ->
  eps n AR MA X noise m t = eps n AR MA X noise (S t) t.
Proof.
  intros n AR MA X noise m t H. induction H as [|m H IH]; [reflexivity|].
  rewrite <- IH. cbn [eps]. destruct (Nat.eqb_spec t m); [lia|reflexivity].
Qed.
Lemma eps_rec : forall n AR MA X noise N t i, t < N -> Nat.max (length AR) (length MA) <= t ->
  eps n AR MA X noise N t i =
  (X t i - (sumn (length AR) (fun k => sumn n (fun j => nth k AR zmat i j * X (t - (k + 1))%nat j)) +
            sumn (length MA) (fun k => sumn n (fun j => nth k MA zmat i j * eps n AR MA X noise N (t - (k + 1))%nat j))))%Qc.
Proof.
  intros n AR MA X noise N t i Ht HM. rewrite eps_stable by exact Ht. cbn [eps]. rewrite Nat.eqb_refl.
  destruct (Nat.ltb_spec t (Nat.max (length AR) (length MA))); [lia|].
  rewrite (fold_vplus (fun i => mvec n (nth i AR zmat) (X (t - i - 1)))).
  rewrite (fold_vplus (fun j => mvec n (nth j MA zmat) (eps n AR MA X noise t (t - j - 1)))).
  rewrite !sumf_seq_shift. unfold vzero. rewrite !Qcplus_0_l. f_equal. f_equal.
  - apply sumn_ext. intros k _. unfold mvec. cbn [Nat.add]. replace (t - k - 1) with (t - (k + 1)) by lia. reflexivity.
  - apply sumn_ext. intros k Hk. unfold mvec. cbn [Nat.add]. replace (t - k - 1) with (t - (k + 1)) by lia.
    rewrite eps_stable by lia. rewrite (eps_stable n AR MA X noise N) by lia. reflexivity.
Qed.
Lemma take_coefs_all : forall l, take_coefs (length l) l = Ok l.
Proof. induction l as [|x l IH]; [reflexivity|]. cbn. rewrite IH. reflexivity. Qed.
Lemma take_coefs_short : forall k l, length l < k -> take_coefs k l = Err IndexError.
Proof.
  induction k as [|k IH]; intros l H; [lia|]. destruct l as [|x l]; [reflexivity|]. cbn [take_coefs length] in *.
  rewrite IH by lia. reflexivity.
Qed.
Lemma psi_omega_spec : forall n psi0 phis thetas,
  psi_omega n psi0 phis thetas (length phis) (length thetas) =
  Ok (psi0 :: map (fun M => mmul n (msub midn psi0) M) phis, map (fun M => mmul n (msub midn psi0) M) thetas).
Proof. intros. unfold psi_omega. rewrite !take_coefs_all. reflexivity. Qed.
Lemma omega_wrong_iff : forall n psi0 Th, acyclic (edge_of n psi0) ->
  forall T, meq n (mmul n (msub midn psi0) T) midn ->
  (meq n (mmul n (msub midn psi0) Th) (mmul n (mmul n (msub midn psi0) Th) T) <->
   meq n (mmul n Th psi0) (fun _ _ => 0%Qc)).
Proof.
  intros n psi0 Th A T HT.
  assert (HTn : meq n T (neumann n psi0)) by (apply right_inverse_unique; assumption).
  assert (HL : meq n (mmul n T (msub midn psi0)) midn).
  { intros i j Hi Hj. rewrite (mmul_ext n T (neumann n psi0) _ (msub midn psi0)); [|intros; apply HTn; assumption|reflexivity].
    apply neumann_inv_r; assumption. }
  set (D := msub midn psi0) in *. split; intros H i j Hi Hj.
  - (* cancel D on the left, multiply by D on the right *)
    assert (H1 : meq n Th (mmul n Th T)).
    { intros a b Ha Hb.
      rewrite <- (mmul_id_l n Th a b Ha). rewrite <- (mmul_id_l n (mmul n Th T) a b Ha).
      rewrite (mmul_ext n midn (mmul n T D) Th Th a b); [|intros; symmetry; apply HL; assumption|reflexivity].
      rewrite (mmul_ext n midn (mmul n T D) (mmul n Th T) (mmul n Th T) a b); [|intros; symmetry; apply HL; assumption|reflexivity].
      rewrite !mmul_assoc. apply mmul_ext; [reflexivity|]. intros k Hk.
      rewrite (H k b Hk Hb). apply mmul_assoc. }
    assert (H2 : mmul n Th D i j = Th i j).
    { rewrite (mmul_ext n Th (mmul n Th T) D D i j); [|intros; apply H1; assumption|reflexivity].
      rewrite mmul_assoc. rewrite (mmul_ext n Th Th _ midn i j); [apply mmul_id_r; exact Hj|reflexivity|].
      intros; apply HL; assumption. }
    unfold D in H2. rewrite mmul_msub_r, mmul_id_r in H2 by exact Hj.
    assert (Q : mmul n Th psi0 i j = (Th i j - (Th i j - mmul n Th psi0 i j))%Qc) by ring. rewrite Q, H2. ring.
  - rewrite mmul_assoc. apply mmul_ext; [reflexivity|]. intros k Hk.
    assert (H2 : meq n (mmul n Th D) Th).
    { intros a b Ha Hb. unfold D. rewrite mmul_msub_r, mmul_id_r by exact Hb. rewrite H by assumption. ring. }
    rewrite (mmul_ext n Th (mmul n Th D) T T k j); [|intros; symmetry; apply H2; assumption|reflexivity].
    rewrite mmul_assoc. rewrite (mmul_ext n Th Th _ midn k j); [symmetry; apply mmul_id_r; exact Hj|reflexivity|].
    intros; apply HT; assumption.
Qed.
Lemma np_roll_ok : forall N p X t c, p <= t -> t < N -> np_roll N p X t c = X (t - p) c.
Proof.
  intros N p X t c H1 H2. unfold np_roll. rewrite (Nat.mod_small p N) by lia.
  replace (t + (N - p)) with ((t - p) + 1 * N) by lia. rewrite Nat.mod_add by lia.
  rewrite Nat.mod_small by lia. reflexivity.
Qed.
Lemma np_roll_wrap : forall N p X t c, t < p -> p < N -> np_roll N p X t c = X (N + t - p) c.
Proof.
  intros N p X t c H1 H2. unfold np_roll. rewrite (Nat.mod_small p N) by lia.
  rewrite Nat.mod_small by lia. f_equal. lia.
Qed.

(** ** Bootstrap series *)
Lemma resampled_stable : forall n N Ms lags s m t, t < m ->
  resampled n N Ms lags s m t = resampled n N Ms lags s (S t) t.
Proof.
  intros n N Ms lags s m t H. induction H as [|m H IH]; [reflexivity|].
  rewrite <- IH. cbn [resampled]. destruct (Nat.eqb_spec t m); [lia|reflexivity].
Qed.
Lemma resampled_spec : forall n N Ms lags s t i, t < N -> length Ms <= lags ->
  resampled n N Ms lags s N t i =
  if t <? lags then s t i
  else (sumn (length Ms) (fun k => sumn n (fun j => nth k Ms zmat i j * resampled n N Ms lags s N (t - (k + 1))%nat j)) + s t i)%Qc.
Proof.
  intros n N Ms lags s t i Ht HL. rewrite resampled_stable by exact Ht. cbn [resampled]. rewrite Nat.eqb_refl.
  destruct (Nat.ltb_spec t lags); [reflexivity|]. unfold vplus at 1.
  rewrite (fold_vplus (fun k => mvec n (nth k Ms zmat) (resampled n N Ms lags s t (if k <? t then t - k - 1 else N + t - k - 1)))).
  rewrite sumf_seq_shift. unfold vzero. rewrite Qcplus_0_l. f_equal. apply sumn_ext. intros k Hk. unfold mvec. cbn [Nat.add].
  destruct (Nat.ltb_spec k t); [|lia]. replace (t - k - 1) with (t - (k + 1)) by lia.
  rewrite resampled_stable by lia. rewrite (resampled_stable n N Ms lags s N) by lia. reflexivity.
Qed.

(** ** fit *)
Section Fit.
  Variable est : nat -> series -> nat -> list (mat Qc) * series.
  Variable lingam : nat -> series -> list nat * mat Qc.
  Variable lasso : lasso_fn.
  Variable n : nat.
  (** The VAR estimator's residuals are those of its coefficients. *)
  Definition est_consistent : Prop := forall N X l r i,
    snd (est N X l) r i = var_residuals n (fst (est N X l)) X r i.

  Lemma fit_structure : forall o N X o' order Bs, est_consistent ->
    var_fit est lingam lasso n false o N X = Ok (o', (order, Bs)) ->
    exists Ms B0, vo_ar o' = Some Ms /\ vo_lags o' = length Ms /\ Bs = calc_b n B0 Ms /\
      lingam (N - length Ms) (vo_resid o') = (order, B0) /\
      forall r i, vo_resid o' r i = var_residuals n Ms X r i.
  Proof.
    intros o N X o' order Bs HC E. unfold var_fit in E.
    destruct (match vo_ar o with None => est N X (vo_lags o) | Some Ms => (Ms, var_residuals n Ms X) end) as [Ms R] eqn:EM.
    destruct (lingam (N - length Ms) R) as [ord B0] eqn:EL. cbn [bind] in E.
    injection E as <- <- <-. cbn [vo_ar vo_lags vo_resid].
    exists Ms, B0. repeat (split; [try reflexivity|]); [exact EL|].
    destruct (vo_ar o) as [Ms0|].
    - injection EM as <- <-. reflexivity.
    - intros r i. pose proof (HC N X (vo_lags o) r i) as Q. rewrite EM in Q. exact Q.
  Qed.

  Lemma fit_ignores_est : forall est' prune o Ms N X, vo_ar o = Some Ms ->
    var_fit est lingam lasso n prune o N X = var_fit est' lingam lasso n prune o N X.
  Proof. intros est' prune o Ms N X H. unfold var_fit. rewrite H. reflexivity. Qed.
  Lemma fit_sets_ar : forall prune o N X o' r, var_fit est lingam lasso n prune o N X = Ok (o', r) ->
    exists Ms, vo_ar o' = Some Ms /\ vo_lags o' = length Ms /\
      Ms = match vo_ar o with None => fst (est N X (vo_lags o)) | Some Ms => Ms end.
  Proof.
    intros prune o N X o' r E. unfold var_fit in E.
    destruct (match vo_ar o with None => est N X (vo_lags o) | Some Ms => (Ms, var_residuals n Ms X) end) as [Ms R] eqn:EM.
    destruct (lingam (N - length Ms) R) as [ord B0].
    destruct (if prune then _ else _) as [Bs|e]; cbn [bind] in E; [|discriminate].
    injection E as <- _. exists Ms. cbn [vo_ar vo_lags]. split; [reflexivity|]. split; [reflexivity|].
    destruct (vo_ar o); [congruence|]. rewrite EM. reflexivity.
  Qed.
  Lemma refit_given : forall prune o Ms N1 X1 o1 r1 N2 X2, vo_ar o = Some Ms -> vo_lags o = length Ms ->
    var_fit est lingam lasso n prune o N1 X1 = Ok (o1, r1) ->
    var_fit est lingam lasso n prune o1 N2 X2 = var_fit est lingam lasso n prune o N2 X2.
  Proof.
    intros prune o Ms N1 X1 o1 r1 N2 X2 HA HL E. destruct (fit_sets_ar _ _ _ _ _ _ E) as [Ms' [A [L M]]].
    rewrite HA in M. subst Ms'. unfold var_fit. rewrite A, HA, L, HL. reflexivity.
  Qed.
  Lemma fit_lag_mismatch : forall o Ms N X, vo_ar o = Some Ms -> vo_lags o < length Ms -> 1 <= n ->
    (forall rows R i, i < n -> In i (fst (lingam rows R))) ->
    var_fit est lingam lasso n true o N X = Err ValueError.
  Proof.
    intros o Ms N X HA HL Hn HI. unfold var_fit. rewrite HA.
    destruct (lingam (N - length Ms) (var_residuals n Ms X)) as [ord B0] eqn:EL.
    unfold var_pruning. destruct n as [|n'] eqn:En; [lia|]. rewrite <- En in *. cbn [seq].
    assert (S1 : seq 0 n = 0 :: seq 1 n') by (rewrite En; reflexivity). rewrite S1. cbn [prune_vars]. unfold prune_var.
    pose proof (HI (N - length Ms) (var_residuals n Ms X) 0 ltac:(lia)) as H0. rewrite EL in H0. cbn [fst] in H0.
    destruct (index_of 0 ord) as [no|] eqn:Eo; [|apply (proj1 (index_of_none _ _)) in Eo; contradiction].
    unfold calc_b. rewrite write_taus_err; [reflexivity|rewrite map_length; lia|lia|].
    destruct Ms; [cbn in HL; lia|discriminate].
  Qed.
End Fit.
