(** * OutOfSampleCausalTuning's sparsity penalty (C195) *)
From Coq Require Import Reals Arith List Lia Lra Bool Permutation QArith Qcanon.
From Verif Require Import Prelude Lib LibR SpecMeasure ModelExper ModelOct ModelOctSp ProofExper ProofBootstrap Props_Exper Props_Oct.
Import ListNotations.
Open Scope R_scope.

(** ** Scores that are not finite *)
Lemma dgt_infinite : forall a s, (forall r, s <> Fin r) -> forall b, dgt a (score_sub s b) = false.
Proof. intros a s NF b. destruct s as [| |r]; [destruct a; reflexivity| |exfalso; exact (NF r eq_refl)]. destruct a, b; reflexivity. Qed.
Lemma p_value_infinite : forall d truth pred draw trials best k, (forall r, config_score d truth pred best <> Fin r) -> p_value d truth pred draw trials best k = 0%Qc.
Proof.
  intros d truth pred draw trials best k NF. unfold p_value, above. rewrite (filter_ext _ (fun _ => false)) by (intro t; apply dgt_infinite; exact NF).
  assert (Z : forall l : list nat, filter (fun _ => false) l = []) by (induction l; auto). rewrite Z. cbn [length]. generalize (qn trials). intro q. unfold Qcdiv.
  replace (qn 0) with 0%Qc by (apply Qc_is_canon; reflexivity). ring.
Qed.
(** Refuted: when the best score is infinite or NaN no other configuration is chosen, whatever the blanket sizes, the predictions and the draws. *)
Theorem C195_infinite_score_refuted : forall d truth pred draw thr mb K best, (0 <= thr)%Qc -> (forall r, config_score d truth pred best <> Fin r) ->
  penalised d truth pred draw thr mb K best = best.
Proof.
  intros d truth pred draw thr mb K best H0 NF. unfold penalised. pose proof (fun k => p_value_infinite d truth pred draw 1000 best k NF) as P. revert P. generalize (p_value d truth pred draw 1000 best). intros pv P.
  destruct (C65_sparsity_choice thr pv mb K best) as ([E|[_ L]] & _); [exact E|exfalso]. rewrite P in L. exact (Qclt_not_le _ _ L H0).
Qed.
Print Assumptions C195_infinite_score_refuted.

(** ** Equal predictions *)
Lemma lsum_perm : forall l l', Permutation l l' -> lsum l = lsum l'.
Proof. intros l l' P. unfold lsum. induction P as [|x l l' P IH|x y l|l l' l'' P1 IH1 P2 IH2]; cbn; [reflexivity|rewrite IH; reflexivity|ring|congruence]. Qed.
Lemma combine_self : forall l : list R, combine l l = map (fun a => (a, a)) l.
Proof. induction l as [|a l IH]; [reflexivity|]. cbn. rewrite IH. reflexivity. Qed.
Lemma lcov_perm : forall l l', Permutation l l' -> lcov l l = lcov l' l'.
Proof.
  intros l l' P. unfold lcov. assert (M : lmean l = lmean l') by (unfold lmean; rewrite (lsum_perm _ _ P), (Permutation_length P); reflexivity).
  rewrite (Permutation_length P), !combine_self, !map_map. cbn [fst snd]. rewrite M. f_equal. apply lsum_perm. apply Permutation_map. exact P.
Qed.
Lemma shuffled_perm : forall l sigma, Permutation sigma (seq 0 (length l)) -> Permutation (shuffled l sigma) l.
Proof.
  intros l sigma P. unfold shuffled. apply (Permutation_trans (Permutation_map _ P)). 
  assert (E : map (fun p => nth p l 0) (seq 0 (length l)) = l).
  { apply (nth_ext _ _ 0 0); [rewrite map_length, seq_length; reflexivity|]. intros n Hn. rewrite map_length, seq_length in Hn.
    rewrite (nth_indep _ 0 (nth 0 l 0)) by (rewrite map_length, seq_length; exact Hn). rewrite (map_nth (fun p => nth p l 0)), seq_nth by exact Hn. reflexivity. }
  rewrite E. apply Permutation_refl.
Qed.
Lemma mutual_nan : forall x y, mutual_info x y = Nan <-> lcov x x = 0 \/ lcov y y = 0.
Proof.
  intros x y. unfold mutual_info, corrcoef. destruct (Req_EM_T (lcov x x) 0) as [Z|Z]; [tauto|]. destruct (Req_EM_T (lcov y y) 0) as [W|W]; [tauto|].
  split; [|tauto]. destruct (Req_EM_T _ 0); discriminate.
Qed.
Lemma mean_nan : forall l, score_mean l = Nan <-> In Nan l.
Proof.
  intro l. unfold score_mean. destruct (existsb is_nan l) eqn:E.
  - split; [intros _|reflexivity]. apply existsb_exists in E. destruct E as ([| |] & I & Z); try discriminate. exact I.
  - split.
    + destruct (existsb is_inf l); discriminate.
    + intro I. assert (existsb is_nan l = true) by (apply existsb_exists; exists Nan; split; [exact I|reflexivity]). congruence.
Qed.

Section Mirror.
  Context (d : nat) (truth pred : nat -> nat -> list R) (draw : nat -> nat -> nat -> bool -> list nat) (best c : nat).
  Definition mirror (k t j : nat) (w : bool) : list nat := draw k t j (negb w).
  Context (HP : forall j, (j < d)%nat -> pred c j = pred best j) (HT : forall j, (j < d)%nat -> truth c j = truth best j).
  Context (HD : forall t j w, Permutation (draw c t j w) (seq 0 (length (pred best j)))).
  Context (r : R) (HF : config_score d truth pred best = Fin r).
  Definition side (t : nat) (w : bool) : score := score_mean (map (fun j => mutual_info (truth best j) (shuffled (pred best j) (draw c t j w))) (seq 0 d)).
  Lemma same_score : config_score d truth pred c = Fin r.
  Proof using HP HT HF. rewrite <- HF. unfold config_score. f_equal. apply map_ext_in. intros j Hj. apply in_seq in Hj. rewrite HP, HT by lia. reflexivity. Qed.
  Lemma diff_sides : forall t, trial_diff d truth pred draw best c t = score_sub (side t true) (side t false).
  Proof using HP HT. intro t. unfold trial_diff, side. f_equal; f_equal; apply map_ext_in; intros j Hj; apply in_seq in Hj; rewrite HT by lia; [reflexivity|rewrite HP by lia; reflexivity]. Qed.
  Lemma diff_mirror : forall t, trial_diff d truth pred mirror best c t = score_sub (side t false) (side t true).
  Proof using HP HT. intro t. unfold trial_diff, side, mirror. f_equal; f_equal; apply map_ext_in; intros j Hj; apply in_seq in Hj; rewrite HT by lia; [reflexivity|rewrite HP by lia; reflexivity]. Qed.
  Lemma side_number : forall t w, side t w <> Nan.
  Proof.
    intros t w E. apply mean_nan in E. apply in_map_iff in E. destruct E as (j & E & Hj). apply mutual_nan in E. rewrite (lcov_perm _ _ (shuffled_perm _ _ (HD t j w))) in E.
    assert (N : config_score d truth pred best = Nan); [|rewrite HF in N; discriminate]. apply mean_nan. apply in_map_iff. exists j. split; [|exact Hj]. apply mutual_nan. exact E.
  Qed.
  Lemma one_of_three : forall t, side t true = side t false \/
    dgt (score_sub (side t true) (side t false)) (DFin 0) = true \/ dgt (score_sub (side t false) (side t true)) (DFin 0) = true.
  Proof.
    intro t. pose proof (side_number t true) as A. pose proof (side_number t false) as B. destruct (side t true) as [| |x]; [congruence| |]; destruct (side t false) as [| |y]; try congruence; try (cbn; tauto).
    cbn. destruct (Rlt_dec 0 (x - y)) as [L|L]; [tauto|]. destruct (Rlt_dec 0 (y - x)) as [L'|L']; [tauto|]. left. f_equal. lra.
  Qed.
  Lemma counts : forall trials ties, NoDup ties -> (forall t, In t ties <-> (t < trials)%nat /\ side t true = side t false) ->
    (trials <= above d truth pred draw trials best c + above d truth pred mirror trials best c + length ties)%nat.
  Proof.
    intros trials ties ND TI. unfold above. rewrite HF, same_score. cbn [score_sub]. replace (r - r) with 0 by ring.
    rewrite <- (seq_length trials 0) at 1. rewrite <- !app_length.
    apply NoDup_incl_length; [apply seq_NoDup|]. intros t Ht. apply in_seq in Ht. rewrite <- app_assoc. rewrite !in_app_iff, !filter_In, in_seq, diff_sides, diff_mirror, TI.
    destruct (one_of_three t) as [E|[E|E]]; intuition.
  Qed.
End Mirror.

(** Where configuration c makes the predictions of the best one and their score is finite: unless more than 1 - 2 thr of the trials end in a tie,
    one of any two opposite series of draws (the draws for the two configurations exchanged) lets the blanket size decide in favour of c. *)
Theorem C195_equal_predictions : forall d truth pred draw thr mb K best c r ties, (c < K)%nat -> c <> best ->
  (forall j, (j < d)%nat -> pred c j = pred best j) -> (forall j, (j < d)%nat -> truth c j = truth best j) ->
  (forall t j w, Permutation (draw c t j w) (seq 0 (length (pred best j)))) ->
  config_score d truth pred best = Fin r ->
  NoDup ties -> (forall t, In t ties <-> (t < 1000)%nat /\
    let s w := score_mean (map (fun j => mutual_info (truth best j) (shuffled (pred best j) (draw c t j w))) (seq 0 d)) in s true = s false) ->
  (qn (length ties) < qn 1000 * (1 - (thr + thr)))%Qc ->
  (mb (penalised d truth pred draw thr mb K best) <= mb c)%Qc \/
  (mb (penalised d truth pred (fun k t j w => draw k t j (negb w)) thr mb K best) <= mb c)%Qc.
Proof.
  intros d truth pred draw thr mb K best c r ties Hc Nc HP HT HD HF ND TI LT. unfold penalised.
  pose proof (counts d truth pred draw best c HP HT HD r HF 1000 ties ND TI) as C. change (fun k t j w => draw k t j (negb w)) with (mirror draw).
  assert (M : (thr < p_value d truth pred draw 1000 best c)%Qc \/ (thr < p_value d truth pred (mirror draw) 1000 best c)%Qc).
  { unfold p_value. set (a := above d truth pred draw 1000 best c) in *. set (b := above d truth pred (mirror draw) 1000 best c) in *.
    assert (Pos : (0 < / qn 1000)%Qc) by (apply qltb_lt; vm_compute; reflexivity).
    assert (E1 : (qn 1000 * / qn 1000 = 1)%Qc) by (apply Qc_is_canon; vm_compute; reflexivity).
    assert (L : (qn 1000 <= qn a + qn b + qn (length ties))%Qc) by (rewrite <- !qn_plus; apply qn_le; exact C).
    destruct (Qclt_le_dec thr (qn a / qn 1000)) as [G|G]; [left; exact G|right]. destruct (Qclt_le_dec thr (qn b / qn 1000)) as [G'|G']; [exact G'|exfalso].
    assert (Pk : (0 < qn 1000)%Qc) by (apply qltb_lt; vm_compute; reflexivity). clearbody a b. set (k := qn 1000) in *. clearbody k. set (i := (/ k)%Qc) in *. unfold Qcdiv in G, G'. fold i in G, G'. clearbody i.
    assert (Ga : (qn a <= thr * k)%Qc). { replace (qn a) with (qn a * i * k)%Qc by (rewrite <- Qcmult_assoc, (Qcmult_comm i k), E1; ring). apply Qcmult_le_compat_r; [exact G|apply Qclt_le_weak; exact Pk]. }
    assert (Gb : (qn b <= thr * k)%Qc). { replace (qn b) with (qn b * i * k)%Qc by (rewrite <- Qcmult_assoc, (Qcmult_comm i k), E1; ring). apply Qcmult_le_compat_r; [exact G'|apply Qclt_le_weak; exact Pk]. }
    replace (k * (1 - (thr + thr)))%Qc with (k - (thr * k + thr * k))%Qc in LT by ring. set (tk := (thr * k)%Qc) in *. clearbody tk. qclra. }
  destruct M as [M|M]; [left|right]; apply (proj2 (proj2 (C65_sparsity_choice thr _ mb K best)) c Hc M Nc).
Qed.
Print Assumptions C195_equal_predictions.

(** ** The differences the observed one is compared with do not depend on which prediction belongs to which row *)
(** Permuting the predictions of every configuration (by tau) leaves every trial what it is under correspondingly changed draws. *)
Theorem C195_null_ignores_match : forall d truth pred draw tau best k t,
  (forall j, Forall (fun p => (p < length (tau best j))%nat) (draw k t j true)) -> (forall j, Forall (fun p => (p < length (tau k j))%nat) (draw k t j false)) ->
  trial_diff d truth (fun k j => shuffled (pred k j) (tau k j)) draw best k t =
  trial_diff d truth pred (fun k t j w => map (fun p => nth p (tau (if w then best else k) j) 0%nat) (draw k t j w)) best k t.
Proof.
  intros d truth pred draw tau best k t Hb Hk. unfold trial_diff.
  assert (G : forall l ta sg, Forall (fun p => (p < length ta)%nat) sg -> shuffled (shuffled l ta) sg = shuffled l (map (fun p => nth p ta 0%nat) sg)).
  { intros l ta sg F. unfold shuffled. rewrite map_map. apply map_ext_in. intros p Hp. rewrite Forall_forall in F. specialize (F p Hp).
    rewrite (nth_indep _ 0 (nth 0%nat l 0)) by (rewrite map_length; exact F). apply (map_nth (fun p => nth p l 0)). }
  f_equal; f_equal; apply map_ext; intro j; f_equal; apply G; [apply Hb|apply Hk].
Qed.
Print Assumptions C195_null_ignores_match.

(** ** Examples *)
(** Two configurations that predict perfectly: the sparser one is not chosen. *)
Definition ex_perfect (k j : nat) : list R := [0; 1; 2].
Example C195_example_infinite : forall draw, penalised 2 ex_perfect ex_perfect draw (qf 5 100) (fun k => if (k =? 0)%nat then qz 2 else qz 1) 2 0 = 0%nat.
Proof.
  intro draw. apply C195_infinite_score_refuted; [apply qltb_nlt; vm_compute; reflexivity|]. intros r E.
  assert (M : mutual_info [0; 1; 2] [0; 1; 2] = Inf).
  { apply (proj2 (proj1 (proj2 (C181_score_meaning 3 INR INR ltac:(lia)))) : _). split; [intro C; specialize (C 0%nat 1%nat ltac:(lia) ltac:(lia)); cbn in C; lra|]. exists 1, 0. split; [lra|]. intros; ring. }
  unfold config_score, ex_perfect in E. cbn [seq map] in E. rewrite M in E. discriminate E.
Qed.
(** Two configurations with the same predictions and a finite score. *)
Definition ex_truth (k j : nat) : list R := map INR (seq 0 3).
Definition ex_pred (k j : nat) : list R := map (fun s => if (s =? 0)%nat then 1 else 0) (seq 0 3).
Definition ex_draw (k t j : nat) (w : bool) : list nat := if w then [0; 1; 2]%nat else [1; 0; 2]%nat.
Lemma ex_shuffled : forall k j t w, shuffled (ex_pred k j) (ex_draw k t j w) = map (fun s => if (s =? (if w then 0 else 1))%nat then 1 else 0) (seq 0 3).
Proof. intros k j t [|]; reflexivity. Qed.
Lemma ex_info : forall i, (i < 2)%nat -> exists r, mutual_info (map INR (seq 0 3)) (map (fun s => if (s =? i)%nat then 1 else 0) (seq 0 3)) = Fin r /\ (r = 0 <-> i = 1%nat).
Proof.
  intros i Hi. pose proof (C181_score_meaning 3 INR (fun s => if (s =? i)%nat then 1 else 0) ltac:(lia)) as C. cbv zeta in C. destruct C as (A & B & D).
  destruct (mutual_info _ _) as [| |r]; [exfalso|exfalso|exists r; split; [reflexivity|]].
  - destruct (proj1 A eq_refl) as [C|C].
    + specialize (C 0%nat 1%nat ltac:(lia) ltac:(lia)). cbn in C. lra.
    + specialize (C 0%nat 1%nat ltac:(lia) ltac:(lia)). destruct i as [|[|i]]; [cbn in C; lra|cbn in C; lra|lia].
  - destruct (proj1 B eq_refl) as (_ & a & b & Na & E). pose proof (E 0%nat ltac:(lia)) as E0. pose proof (E 1%nat ltac:(lia)) as E1. pose proof (E 2%nat ltac:(lia)) as E2.
    destruct i as [|[|i]]; [cbn in E0, E1, E2; lra|cbn in E0, E1, E2; lra|lia].
  - destruct (D r eq_refl) as [_ Z]. rewrite Z. unfold average. destruct i as [|[|i]]; [| |lia]; cbn; split; intro H; try reflexivity; try lra; discriminate.
Qed.
Example C195_example_equal : exists r,
  config_score 2 ex_truth ex_pred 0 = Fin r /\ (forall t j w, Permutation (ex_draw 1 t j w) (seq 0 (length (ex_pred 0 j)))) /\
  forall t, ~ (let s w := score_mean (map (fun j => mutual_info (ex_truth 0 j) (shuffled (ex_pred 0 j) (ex_draw 1 t j w))) (seq 0 2)) in s true = s false).
Proof.
  destruct (ex_info 0 ltac:(lia)) as (r0 & E0 & Z0), (ex_info 1 ltac:(lia)) as (r1 & E1 & Z1). exists (lmean [r0; r0]). split; [|split].
  - unfold config_score, ex_truth, ex_pred. cbn [seq map] in *. rewrite E0. reflexivity.
  - intros t j [|]; cbn; [apply Permutation_refl|apply perm_swap].
  - intros t. cbv zeta. assert (S : forall w, score_mean (map (fun j => mutual_info (ex_truth 0 j) (shuffled (ex_pred 0 j) (ex_draw 1 t j w))) (seq 0 2)) = Fin (lmean (if w then [r0; r0] else [r1; r1]))).
    { intro w. cbn [seq map]. change (ex_draw 1 t 0 w) with (ex_draw 0 t 0 w). change (ex_draw 1 t 1 w) with (ex_draw 0 t 1 w). rewrite !ex_shuffled. unfold ex_truth. destruct w; [rewrite E0|rewrite E1]; reflexivity. }
    intro C0. pose proof (eq_trans (eq_sym (S true)) (eq_trans C0 (S false))) as C. clear C0 S. injection C as C. unfold lmean, lsum in C. cbn in C. assert (r0 = r1) as Q by lra. assert (r1 = 0) as W by tauto. assert (r0 = 0) as W0 by congruence. apply Z0 in W0. discriminate.
Qed.
Example C195_example_choice : let mb k := if (k =? 0)%nat then qz 2 else qz 1 in
  penalised 2 ex_truth ex_pred ex_draw (qf 5 100) mb 2 0 = 1%nat \/ penalised 2 ex_truth ex_pred (fun k t j w => ex_draw k t j (negb w)) (qf 5 100) mb 2 0 = 1%nat.
Proof.
  cbv zeta. destruct C195_example_equal as (r & E & P & N).
  assert (G : forall draw, ((if (penalised 2 ex_truth ex_pred draw (qf 5 100) (fun k => if (k =? 0)%nat then qz 2 else qz 1) 2 0 =? 0)%nat then qz 2 else qz 1) <= qz 1)%Qc ->
    penalised 2 ex_truth ex_pred draw (qf 5 100) (fun k => if (k =? 0)%nat then qz 2 else qz 1) 2 0 = 1%nat).
  { intros draw. unfold penalised. destruct (C65_sparsity_choice (qf 5 100) (p_value 2 ex_truth ex_pred draw 1000 0) (fun k => if (k =? 0)%nat then qz 2 else qz 1) 2 0) as ([F|[L _]] & _ & _).
    - rewrite F. cbn [Nat.eqb]. intro C. exfalso. revert C. apply Qclt_not_le. apply qltb_lt. vm_compute. reflexivity.
    - destruct (Nat.eqb_spec (oct_select (qf 5 100) (p_value 2 ex_truth ex_pred draw 1000 0) (fun k => if (k =? 0)%nat then qz 2 else qz 1) 2 0) 0) as [F|F]; intro C; [|lia].
      exfalso. revert C. apply Qclt_not_le. apply qltb_lt. vm_compute. reflexivity. }
  assert (NT : forall t, In t [] <-> (t < 1000)%nat /\ let s w := score_mean (map (fun j => mutual_info (ex_truth 0 j) (shuffled (ex_pred 0 j) (ex_draw 1 t j w))) (seq 0 2)) in s true = s false).
  { intro t. split; [intros []|]. intros [_ C]. exact (N t C). }
  assert (LT : (qn (length (@nil nat)) < qn 1000 * (1 - (qf 5 100 + qf 5 100)))%Qc) by (apply qltb_lt; vm_compute; reflexivity).
  pose proof (C195_equal_predictions 2 ex_truth ex_pred ex_draw (qf 5 100) (fun k => if (k =? 0)%nat then qz 2 else qz 1) 2 0 1 r [] ltac:(lia) ltac:(lia)
    (fun j _ => eq_refl) (fun j _ => eq_refl) P E (NoDup_nil _) NT LT) as H.
  destruct H as [H|H]; [left|right]; apply G; exact H.
Qed.
