(** * Proofs: the moment statistics on exact samples *)
From Coq Require Import List Arith Bool ZArith QArith Qcanon Lia Permutation Relations.
From Verif Require Import Prelude Spec SpecPop SpecRCDPop SpecHDPop Lib LibMat ModelDirect ModelRCD ModelHighDim ModelHighDimData
  ProofLim ProofPop ProofPop2 ProofPop3 ProofVarPop ProofRCDPop ProofRCDPop3.
Import ListNotations.
Open Scope nat_scope.

(** ** Sums over rows *)
Lemma dot_ext : forall N x x' y y', (forall r, r < N -> x r = x' r) -> (forall r, r < N -> y r = y' r) -> dot N x y = dot N x' y'.
Proof. intros N x x' y y' H1 H2. apply sumn_ext. intros r Hr. rewrite H1, H2 by exact Hr. reflexivity. Qed.
Lemma dot_sym : forall N x y, dot N x y = dot N y x.
Proof. intros. apply sumn_ext. intros. ring. Qed.
Lemma dot_lin : forall N a b x y z, dot N (fun r => a * x r + b * y r)%Qc z = (a * dot N x z + b * dot N y z)%Qc.
Proof. intros. unfold dot. rewrite <- !sumn_scal, <- sumn_plus. apply sumn_ext. intros. ring. Qed.
Lemma dot_wsum : forall N (l : list nat) (c : nat -> Qc) (x : nat -> sample) z,
  dot N (fun r => sumf l (fun p => c p * x p r))%Qc z = sumf l (fun p => c p * dot N (x p) z)%Qc.
Proof.
  intros N l c x z. induction l as [|p l IH].
  - unfold dot. rewrite sumn_zero; [reflexivity|]. intros r _. unfold sumf. cbn. ring.
  - rewrite sumf_cons, <- IH. rewrite <- (Qcmult_1_l (dot N (fun r => sumf l _) z)), <- dot_lin. apply dot_ext; [|reflexivity].
    intros r _. rewrite sumf_cons. ring.
Qed.
Lemma mean_dot : forall N x y, (1 / qn N * sumn N (fun r => x r * y r) = mean N (fun r => x r * y r))%Qc.
Proof. intros. unfold mean, Qcdiv. ring. Qed.

(** Two residuals on the same variables agree. *)
Lemma residual_unique : forall N x C v u u', residual_on N x C v u -> residual_on N x C v u' -> forall r, r < N -> u r = u' r.
Proof.
  intros N x C v u u' [(c & Hc) Ou] [(c' & Hc') Ou'] r Hr.
  set (d := (fun r => 1 * u r + - (1) * u' r)%Qc : sample).
  assert (Ds : forall r, r < N -> d r = sumf C (fun q => (c' q - c q) * x q r)%Qc).
  { intros k Hk. unfold d. rewrite Hc, Hc' by exact Hk.
    rewrite (sumf_ext _ (fun q => (c' q - c q) * x q k)%Qc (fun q => c' q * x q k - c q * x q k)%Qc) by (intros; ring). rewrite sumf_minus. ring. }
  assert (Od : forall q, In q C -> dot N d (x q) = 0%Qc).
  { intros q Hq. unfold d. rewrite dot_lin, (Ou q Hq), (Ou' q Hq). ring. }
  assert (Z : sumn N (fun r => d r * d r)%Qc = 0%Qc).
  { change (dot N d d = 0%Qc). rewrite (dot_ext N d (fun r => sumf C (fun q => (c' q - c q) * x q r)%Qc) d d Ds) by reflexivity.
    rewrite dot_wsum. apply sumf_zero. intros q Hq. rewrite dot_sym, (Od q Hq). ring. }
  pose proof (sumn_squares_zero N d Z r Hr) as E. unfold d in E.
  assert (E2 : (u r = u r + - u' r + u' r)%Qc) by ring. rewrite E2. replace (u r + - u' r)%Qc with (1 * u r + - (1) * u' r)%Qc by ring. rewrite E. ring.
Qed.
Lemma moment_stat_ext : forall N K u u' y y', (forall r, r < N -> u r = u' r) -> (forall r, r < N -> y r = y' r) -> moment_stat N K u y = moment_stat N K u' y'.
Proof.
  intros N K u u' y y' H1 H2. unfold moment_stat.
  rewrite (mean_ext N (fun r => u r ^ (K - 1) * y r)%Qc (fun r => u' r ^ (K - 1) * y' r)%Qc) by (intros; rewrite H1, H2 by assumption; reflexivity).
  rewrite (mean_ext N (fun r => u r ^ 2)%Qc (fun r => u' r ^ 2)%Qc) by (intros; rewrite H1 by assumption; reflexivity).
  rewrite (mean_ext N (fun r => u r ^ K)%Qc (fun r => u' r ^ K)%Qc) by (intros; rewrite H1 by assumption; reflexivity).
  rewrite (mean_ext N (fun r => u r * y r)%Qc (fun r => u' r * y' r)%Qc) by (intros; rewrite H1, H2 by assumption; reflexivity). reflexivity.
Qed.
Lemma data_tau0_eq : forall N K Y v j, data_tau0 N K Y v j = qabs (moment_stat N K (Y v) (Y j)).
Proof. reflexivity. Qed.
Lemma data_tau_eq : forall N pinv K Y v C j, data_tau N pinv K Y v C j = qabs (moment_stat N K (hd_resid pinv Y C v) (Y j)).
Proof. intros. unfold data_tau, moment_stat. cbv zeta. rewrite mean_dot. f_equal. f_equal. rewrite <- Qcmult_assoc, mean_dot. reflexivity. Qed.
Lemma resid_spec : forall N pinv Y C v, normal_equations N pinv -> NoDup C -> residual_on N Y C v (hd_resid pinv Y C v).
Proof. intros N pinv Y C v NE ND. split; [exists (pinv Y C v); reflexivity|]. apply (NE Y C v ND). Qed.
Lemma residual_nil : forall N x v, residual_on N x [] v (x v).
Proof. intros. split; [exists (fun _ => 0%Qc); intros; unfold sumf; cbn; ring|intros q []]. Qed.

(** ** The variables in terms of the errors *)
Lemma choice_fin : forall (A : Type) (d : A) (l : list nat) (P : nat -> A -> Prop), (forall i, In i l -> exists v, P i v) -> exists g, forall i, In i l -> P i (g i).
Proof.
  intros A d l P. induction l as [|a l IH]; intro H; [exists (fun _ => d); intros i []|].
  destruct (H a (or_introl eq_refl)) as (v & Hv). destruct IH as (g & Hg); [intros i Hi; apply H; right; exact Hi|].
  exists (fun i => if i =? a then v else g i). intros i Hi. destruct (Nat.eqb_spec i a) as [->|N]; [exact Hv|]. apply Hg. destruct Hi as [Hi|Hi]; [congruence|exact Hi].
Qed.
Lemma variables_combine_errors : forall N n B e x, exact_sample N n B e x -> forall i, i < n ->
  exists a, (forall r, r < N -> x i r = sumn n (fun k => a k * e k r)%Qc) /\ forall k, a k <> 0%Qc -> k = i \/ ancestor n B k i.
Proof.
  intros N n B e x M. apply (dag_ind n B (es_acyclic _ _ _ _ _ M)). intros i Hi IH.
  destruct (choice_fin (nat -> Qc) (fun _ => 0%Qc) (seq 0 n) (fun j a => B i j <> 0%Qc -> (forall r, r < N -> x j r = sumn n (fun k => a k * e k r)%Qc) /\ forall k, a k <> 0%Qc -> k = j \/ ancestor n B k j)) as (A & HA).
  { intros j Hj. apply in_seq in Hj. destruct (Qc_eq_dec (B i j) 0) as [Z|NZ]; [exists (fun _ => 0%Qc); contradiction|].
    destruct (IH j ltac:(lia) NZ) as (a & Ha). exists a. intros _. exact Ha. }
  exists (fun k => (if k =? i then 1 else 0) + sumn n (fun j => B i j * A j k))%Qc. split.
  - intros r Hr. rewrite (es_equation _ _ _ _ _ M i r Hi Hr).
    rewrite (sumn_ext n (fun k => ((if k =? i then 1 else 0) + sumn n (fun j => B i j * A j k)) * e k r)%Qc (fun k => (if k =? i then 1 else 0) * e k r + sumn n (fun j => B i j * A j k) * e k r)%Qc) by (intros; ring).
    rewrite sumn_plus, (sumn_single n (fun k => (if k =? i then 1 else 0) * e k r)%Qc i Hi), Nat.eqb_refl;
      [|intros k _ N0; destruct (Nat.eqb_spec k i); [contradiction|ring]].
    rewrite (sumn_ext n (fun k => sumn n (fun j => B i j * A j k) * e k r)%Qc (fun k => sumn n (fun j => B i j * A j k * e k r))%Qc) by (intros; rewrite sumn_scal_r; reflexivity).
    rewrite sumn_swap. rewrite Qcplus_comm. rewrite Qcmult_1_l. f_equal. apply sumn_ext. intros j Hj.
    destruct (Qc_eq_dec (B i j) 0) as [Z|NZ].
    + rewrite Z. symmetry. rewrite sumn_zero; [ring|]. intros; ring.
    + destruct (HA j ltac:(apply in_seq; lia) NZ) as [HX _]. rewrite (HX r Hr), <- sumn_scal. apply sumn_ext. intros; ring.
  - intros k Hk. destruct (Nat.eq_dec k i) as [Ek|N0]; [left; exact Ek|]. right. rewrite (proj2 (Nat.eqb_neq k i) N0) in Hk.
    assert (Ex : exists j, j < n /\ B i j <> 0%Qc /\ A j k <> 0%Qc).
    { destruct (existsb (fun j => negb (qeqb (B i j) 0) && negb (qeqb (A j k) 0)) (seq 0 n)) eqn:E.
      - apply existsb_exists in E. destruct E as (j & Hj & E). apply in_seq in Hj. apply andb_prop in E. destruct E as [E1 E2]. exists j. split; [lia|].
        split; intro Z; [rewrite Z in E1; discriminate E1|rewrite Z in E2; discriminate E2].
      - exfalso. apply Hk. rewrite sumn_zero; [ring|]. intros j Hj. destruct (Qc_eq_dec (B i j) 0) as [->|NZ1]; [ring|]. destruct (Qc_eq_dec (A j k) 0) as [->|NZ2]; [ring|]. exfalso.
        assert (T : existsb (fun j => negb (qeqb (B i j) 0) && negb (qeqb (A j k) 0)) (seq 0 n) = true).
        { apply existsb_exists. exists j. split; [apply in_seq; lia|]. apply andb_true_intro. unfold qeqb.
          split; apply negb_true_iff; (destruct (Qc_eq_bool _ 0) eqn:Q; [apply Qc_eq_bool_correct in Q; contradiction|reflexivity]). }
        congruence. }
    destruct Ex as (j & Hj & NZ1 & NZ2). destruct (HA j ltac:(apply in_seq; lia) NZ1) as [_ HB].
    assert (Ed : edge_of n B j i) by (repeat split; assumption). destruct (HB k NZ2) as [->|An]; [apply t_step; exact Ed|]. eapply t_trans; [exact An|apply t_step; exact Ed].
Qed.
(** The part of a variable that comes from the error [v], and the rest. *)
Lemma split_off : forall N n B e x, exact_sample N n B e x -> forall v j, v < n -> j < n ->
  exists t (w : (nat -> Qc) -> Qc), (forall r, r < N -> x j r = (t * e v r + w (fun k => e k r))%Qc) /\
    (forall a b, (forall k, k < n -> k <> v -> a k = b k) -> w a = w b) /\ mean N (fun r => w (fun k => e k r)) = 0%Qc /\
    (t <> 0%Qc -> v = j \/ ancestor n B v j).
Proof.
  intros N n B e x M v j Hv Hj. destruct (variables_combine_errors N n B e x M j Hj) as (a & Ha & An).
  exists (a v), (fun eps => sumn n (fun k => if k =? v then 0 else a k * eps k)%Qc). split; [|split; [|split]].
  - intros r Hr. rewrite (Ha r Hr). rewrite (sumn_ext n (fun k => a k * e k r)%Qc (fun k => (if k =? v then a k * e k r else 0) + (if k =? v then 0 else a k * e k r))%Qc) by (intros k _; destruct (k =? v); ring).
      rewrite sumn_plus. f_equal. rewrite (sumn_single n (fun k => if k =? v then a k * e k r else 0)%Qc v Hv); [rewrite Nat.eqb_refl; reflexivity|]. intros k _ N0. destruct (Nat.eqb_spec k v); [contradiction|reflexivity].
  - intros c d H. apply sumn_ext. intros k Hk. destruct (Nat.eqb_spec k v) as [|N0]; [reflexivity|]. rewrite (H k Hk N0). reflexivity.
  - unfold mean. rewrite sumn_swap, sumn_zero; [unfold Qcdiv; ring|]. intros k Hk. destruct (k =? v); [apply sumn_zero; reflexivity|].
    rewrite sumn_scal. assert (E : sumn N (e k) = (mean N (e k) * qn N)%Qc) by (unfold mean; field; apply qn_nonzero; exact (es_rows _ _ _ _ _ M)).
    rewrite E, (es_mean _ _ _ _ _ M k Hk). ring.
  - intro NZ. destruct (An v NZ) as [E|E]; [left; exact E|right; exact E].
Qed.
Lemma mean_lin2 : forall N a x y, mean N (fun r => a * x r + y r)%Qc = (a * mean N x + mean N y)%Qc.
Proof. intros. rewrite (mean_ext N (fun r => a * x r + y r)%Qc (fun r => a * x r + 1 * y r)%Qc) by (intros; ring). rewrite mean_lin. ring. Qed.
(** The expectation of a power of the error [v] times a variable [j]. *)
Lemma error_moment : forall N n B e x, exact_sample N n B e x -> forall v j, v < n -> j < n ->
  exists t, (t <> 0%Qc -> v = j \/ ancestor n B v j) /\ forall m, mean N (fun r => e v r ^ m * x j r)%Qc = (t * mean N (fun r => e v r ^ S m))%Qc.
Proof.
  intros N n B e x M v j Hv Hj. destruct (split_off N n B e x M v j Hv Hj) as (t & w & E & Hw & Mw & At). exists t. split; [exact At|]. intro m.
  rewrite (mean_ext N (fun r => e v r ^ m * x j r)%Qc (fun r => t * e v r ^ S m + e v r ^ m * w (fun k => e k r))%Qc).
  - rewrite mean_lin2, (es_independent _ _ _ _ _ M v Hv (fun z => z ^ m)%Qc w Hw), Mw. ring.
  - intros r Hr. rewrite (E r Hr). cbn [Qcpower]. ring.
Qed.

(** The statistic of an error vanishes. *)
Lemma error_stat_zero : forall N n B e x K, exact_sample N n B e x -> 1 <= K -> forall v j, v < n -> j < n -> moment_stat N K (e v) (x j) = 0%Qc.
Proof.
  intros N n B e x K M HK v j Hv Hj. destruct (error_moment N n B e x M v j Hv Hj) as (t & _ & H). unfold moment_stat.
  rewrite (H (K - 1)). replace (S (K - 1)) with K by lia. rewrite (mean_ext N (fun r => e v r * x j r)%Qc (fun r => e v r ^ 1 * x j r)%Qc) by (intros; cbn [Qcpower]; ring).
  rewrite (H 1). ring.
Qed.
(** With all parents regressed out, and no descendants, the residual is the error. *)
Lemma residual_is_error : forall N n B e x, exact_sample N n B e x -> forall v C, v < n -> NoDup C ->
  (forall p, edge_of n B p v -> In p C) -> (forall q, In q C -> q < n /\ q <> v /\ ~ ancestor n B v q) -> residual_on N x C v (e v).
Proof.
  intros N n B e x M v C Hv ND HP HC. split.
  - exists (B v). intros r Hr. rewrite (es_equation _ _ _ _ _ M v r Hv Hr).
    assert (E : sumn n (fun j => B v j * x j r)%Qc = sumf C (fun q => B v q * x q r)%Qc).
    { unfold sumn. assert (P : Permutation (seq 0 n) (C ++ filter (fun j => negb (memb j C)) (seq 0 n))).
      { apply NoDup_Permutation; [apply seq_NoDup| |].
        - apply NoDup_app_iff'. split; [exact ND|]. split; [apply NoDup_filter, seq_NoDup|]. intros a Ha Hb. apply filter_In in Hb. destruct Hb as [_ Hb]. apply negb_true_iff, memb_notIn in Hb. contradiction.
        - intro a. rewrite in_app_iff, filter_In, negb_true_iff, memb_notIn. rewrite in_seq. split.
          + intro Ha. destruct (in_dec Nat.eq_dec a C); [left; assumption|right; split; [lia|assumption]].
          + intros [Ha|[Ha _]]; [apply HC in Ha; lia|lia]. }
      rewrite (sumf_perm _ _ _ _ P), sumf_app, (sumf_zero _ _ (filter _ _)); [ring|].
      intros j Hj. apply filter_In in Hj. destruct Hj as [H1 H2]. apply in_seq in H1. apply negb_true_iff, memb_notIn in H2.
      destruct (Qc_eq_dec (B v j) 0) as [->|NZ]; [ring|]. exfalso. apply H2, HP. repeat split; [exact Hv|lia|exact NZ]. }
    rewrite E. ring.
  - intros q Hq. destruct (HC q Hq) as (Hqn & Nq & NA). destruct (error_moment N n B e x M v q Hv Hqn) as (t & At & H).
    assert (T0 : t = 0%Qc) by (destruct (Qc_eq_dec t 0) as [Z|NZ]; [exact Z|]; destruct (At NZ); congruence).
    specialize (H 1). rewrite T0 in H. unfold dot. unfold mean in H.
    assert (QN : qn N <> 0%Qc) by (apply qn_nonzero; exact (es_rows _ _ _ _ _ M)).
    transitivity (sumn N (fun r => e v r ^ 1 * x q r)%Qc / qn N * qn N)%Qc; [|rewrite H; ring].
    rewrite (sumn_ext N (fun r => e v r ^ 1 * x q r)%Qc (fun r => e v r * x q r)%Qc) by (intros; cbn [Qcpower]; ring). field. exact QN.
Qed.
Lemma parents_out_stat_zero : forall N n B e x K, exact_sample N n B e x -> 1 <= K -> forall v C u, v < n -> NoDup C ->
  (forall p, edge_of n B p v -> In p C) -> (forall q, In q C -> q < n /\ q <> v /\ ~ ancestor n B v q) -> residual_on N x C v u ->
  forall j, j < n -> moment_stat N K u (x j) = 0%Qc.
Proof.
  intros N n B e x K M HK v C u Hv ND HP HC HR j Hj.
  rewrite (moment_stat_ext N K u (e v) (x j) (x j)); [apply (error_stat_zero N n B e x K M HK v j Hv Hj)| |reflexivity].
  apply (residual_unique N x C v); [exact HR|]. exact (residual_is_error N n B e x M v C Hv ND HP HC).
Qed.
