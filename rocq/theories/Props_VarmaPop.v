(** * C213: VARMALiNGAM on series generated by a structural vector autoregression with moving average *)
From Coq Require Import List Arith Bool ZArith QArith Qcanon Lia Permutation.
From Verif Require Import Prelude Spec Lib LibMat SpecDirect SpecPop SpecVarmaPop ModelPaths ModelDirect ModelTotal ModelVAR ModelVarPop ModelVarma
  ProofDirect ProofDirect2 ProofPop ProofPop3 ProofVAR ProofVarPop2 ProofLongPop Props_Pop Props_VAR Props_VarPop Props_Varma.
Import ListNotations.
Open Scope nat_scope.

Lemma lag_left : forall n A Ms Y t i,
  sumn n (fun j => A i j * lag_terms n Ms Y t j)%Qc = sumn (length Ms) (fun k => sumn n (fun l => mmul n A (nth k Ms zmat) i l * Y (t - (k + 1))%nat l))%Qc.
Proof.
  intros n A Ms Y t i. unfold lag_terms. change (fun _ _ : nat => 0%Qc) with zmat.
  transitivity (sumn n (fun j => sumn (length Ms) (fun k => sumn n (fun l => A i j * nth k Ms zmat j l * Y (t - (k + 1))%nat l))))%Qc.
  - apply sumn_ext. intros j _. rewrite <- sumn_scal. apply sumn_ext. intros k _. rewrite <- sumn_scal. apply sumn_ext. intros l _. ring.
  - rewrite sumn_swap. apply sumn_ext. intros k _. rewrite sumn_swap. apply sumn_ext. intros l _. unfold mmul. rewrite <- sumn_scal_r. reflexivity.
Qed.
Lemma sum_msub : forall n B (y : nat -> Qc) i, i < n -> sumn n (fun j => msub midn B i j * y j)%Qc = (y i - sumn n (fun j => B i j * y j))%Qc.
Proof.
  intros n B y i Hi. transitivity (sumn n (fun j => midn i j * y j - B i j * y j))%Qc; [apply sumn_ext; intros j _; unfold msub; ring|].
  rewrite sumn_minus. f_equal. rewrite (sumn_single n _ i Hi); [unfold midn; rewrite Nat.eqb_refl; ring|]. intros k _ D. unfold midn. destruct (Nat.eqb_spec i k); [congruence|ring].
Qed.
Lemma kernel_zero : forall n B (y : nat -> Qc), acyclic (edge_of n B) -> (forall i, i < n -> sumn n (fun j => msub midn B i j * y j)%Qc = 0%Qc) -> forall i, i < n -> y i = 0%Qc.
Proof.
  intros n B y A H i Hi.
  assert (E : mmul n (mmul n (neumann n B) (msub midn B)) (fun j _ => y j) i 0 = y i).
  { rewrite (mmul_ext n _ midn _ (fun j _ => y j) i 0); [apply mmul_id_l; exact Hi| |reflexivity]. intros k Hk. apply neumann_inv_r; assumption. }
  rewrite <- E, mmul_assoc. unfold mmul at 1. apply sumn_zero. intros k Hk. unfold mmul. rewrite (H k Hk). ring.
Qed.

(** A structural series satisfies the equations without instantaneous effects whose coefficients [VARMAX] estimates. *)
Theorem C213_reduced_form : forall n Psi0 Psi Omega Phi Theta e u X N,
  structural_varma n Psi0 Psi Omega e X N -> reduced_form n Psi0 Psi Omega Phi Theta -> innovations n Psi0 e u N -> varma_series n Phi Theta X u N.
Proof.
  intros n Psi0 Psi Omega Phi Theta e u X N [AC EQ] [LP LT HP HT] IN t i Hd HN Hi. rewrite LP, LT in Hd.
  assert (Z : (X t i - (lag_terms n Phi X t i + lag_terms n Theta u t i + u t i) = 0)%Qc).
  { apply (kernel_zero n Psi0 (fun i => X t i - (lag_terms n Phi X t i + lag_terms n Theta u t i + u t i))%Qc AC); [|exact Hi]. clear i Hi. intros i Hi.
    transitivity (sumn n (fun j => msub midn Psi0 i j * X t j) - (sumn n (fun j => msub midn Psi0 i j * lag_terms n Phi X t j) + sumn n (fun j => msub midn Psi0 i j * lag_terms n Theta u t j)
      + sumn n (fun j => msub midn Psi0 i j * u t j)))%Qc.
    { rewrite <- !sumn_plus, <- sumn_minus. apply sumn_ext. intros j _. ring. }
    rewrite !lag_left, (sum_msub n Psi0 (X t) i Hi), (sum_msub n Psi0 (u t) i Hi).
    assert (E1 : sumn (length Phi) (fun k => sumn n (fun l => mmul n (msub midn Psi0) (nth k Phi zmat) i l * X (t - (k + 1))%nat l))%Qc = lag_terms n Psi X t i).
    { unfold lag_terms. rewrite LP. apply sumn_ext. intros k Hk. apply sumn_ext. intros l Hl. f_equal. apply (HP k Hk i l Hi Hl). }
    assert (E2 : sumn (length Theta) (fun k => sumn n (fun l => mmul n (msub midn Psi0) (nth k Theta zmat) i l * u (t - (k + 1))%nat l))%Qc = lag_terms n Omega e t i).
    { unfold lag_terms. rewrite LT. apply sumn_ext. intros k Hk.
      transitivity (sumn n (fun l => mmul n (nth k Omega zmat) (msub midn Psi0) i l * u (t - (k + 1))%nat l))%Qc; [apply sumn_ext; intros l Hl; f_equal; apply (HT k Hk i l Hi Hl)|].
      change (mmul n (mmul n (nth k Omega zmat) (msub midn Psi0)) (fun l _ => u (t - (k + 1))%nat l) i 0 = sumn n (fun l => nth k Omega zmat i l * e (t - (k + 1))%nat l)%Qc).
      rewrite mmul_assoc. unfold mmul at 1. apply sumn_ext. intros l Hl. f_equal. unfold mmul. rewrite (sum_msub n Psi0 (u (t - (k + 1))) l Hl).
      rewrite (IN (t - (k + 1)) l ltac:(lia) Hl) at 1. ring. }
    rewrite E1, E2. rewrite (EQ t i Hd HN Hi) at 1. rewrite (IN t i HN Hi) at 1. ring. }
  unfold lag_terms in Z. change (fun _ _ : nat => 0%Qc) with zmat in Z.
  match type of Z with (?a - ?b = 0)%Qc => transitivity (b + (a - b))%Qc; [ring|rewrite Z; ring] end.
Qed.
Print Assumptions C213_reduced_form.

Lemma matrices_recovered : forall n Psi0 Psi Omega Phi Theta psi0, reduced_form n Psi0 Psi Omega Phi Theta -> meq n psi0 Psi0 ->
  exists psis oms, psi_omega n psi0 Phi Theta (length Psi) (length Omega) = Ok (psis, oms) /\ length psis = length Psi + 1 /\ length oms = length Omega /\
    meq n (nth 0 psis zmat) Psi0 /\ (forall k, k < length Psi -> meq n (nth (k + 1) psis zmat) (nth k Psi zmat)) /\
    forall k, k < length Omega -> meq n (nth k oms zmat) (mmul n (nth k Omega zmat) (msub midn Psi0)) /\
      (meq n (nth k oms zmat) (nth k Omega zmat) <-> meq n (mmul n (nth k Omega zmat) Psi0) (fun _ _ => 0%Qc)).
Proof.
  intros n Psi0 Psi Omega Phi Theta psi0 [LP LT HP HT] E0. do 2 eexists. rewrite <- LP, <- LT. split; [apply psi_omega_spec|]. cbn [length]. rewrite !map_length.
  assert (G : forall l k, k < length l -> nth k (map (fun M => mmul n (msub midn psi0) M) l) zmat = mmul n (msub midn psi0) (nth k l zmat)).
  { intros l k Hk. rewrite (nth_indep _ zmat (mmul n (msub midn psi0) zmat)) by (rewrite map_length; exact Hk). apply (map_nth (fun M => mmul n (msub midn psi0) M)). }
  assert (H : forall M i j, i < n -> mmul n (msub midn psi0) M i j = mmul n (msub midn Psi0) M i j).
  { intros M i j Hi. apply mmul_ext; [|reflexivity]. intros k Hk. unfold msub. rewrite (E0 i k Hi Hk). reflexivity. }
  split; [lia|]. split; [reflexivity|]. split; [exact E0|]. split.
  - intros k Hk i j Hi Hj. replace (k + 1) with (S k) by lia. cbn [nth]. rewrite G by exact Hk. rewrite H by exact Hi. apply (HP k ltac:(lia) i j Hi Hj).
  - intros k Hk.
    assert (EO : meq n (nth k (map (fun M => mmul n (msub midn psi0) M) Theta) zmat) (mmul n (nth k Omega zmat) (msub midn Psi0))).
    { intros i j Hi Hj. rewrite G by exact Hk. rewrite H by exact Hi. apply (HT k ltac:(lia) i j Hi Hj). }
    split; [exact EO|].
    assert (D : forall i j, i < n -> j < n -> mmul n (nth k Omega zmat) (msub midn Psi0) i j = (nth k Omega zmat i j - mmul n (nth k Omega zmat) Psi0 i j)%Qc).
    { intros i j Hi Hj. rewrite mmul_msub_r, mmul_id_r by exact Hj. reflexivity. }
    split; intros Q i j Hi Hj.
    + specialize (Q i j Hi Hj). rewrite (EO i j Hi Hj), D in Q by assumption.
      transitivity (nth k Omega zmat i j - (nth k Omega zmat i j - mmul n (nth k Omega zmat) Psi0 i j))%Qc; [ring|rewrite Q; ring].
    + rewrite (EO i j Hi Hj), D by assumption. rewrite (Q i j Hi Hj). ring.
Qed.

(** What the result says about the structural series: the causal order is one, Psi is right, and of every Omega_k the
    matrix Omega_k (I - Psi_0) is returned, which is Omega_k exactly when Omega_k Psi_0 = 0. *)
Definition recovers (n : nat) (Psi0 : mat Qc) (Psi Omega : list (mat Qc)) (K : list nat) (psis oms : list (mat Qc)) : Prop :=
  is_order n K /\ topological (edge_of n Psi0) K /\ length psis = length Psi + 1 /\ length oms = length Omega /\
  meq n (nth 0 psis zmat) Psi0 /\ (forall k, k < length Psi -> meq n (nth (k + 1) psis zmat) (nth k Psi zmat)) /\
  forall k, k < length Omega -> meq n (nth k oms zmat) (mmul n (nth k Omega zmat) (msub midn Psi0)) /\
    (meq n (nth k oms zmat) (nth k Omega zmat) <-> meq n (mmul n (nth k Omega zmat) Psi0) (fun _ _ => 0%Qc)).

Lemma errors_model : forall n Psi0 e u N d (R : series), acyclic (edge_of n Psi0) -> innovations n Psi0 e u N -> uncorrelated_errors d N n e ->
  (forall r i, r < N - d -> i < n -> R r i = u (r + d) i) -> linear_model (N - d) n Psi0 (fun i r => e (r + d) i) (fun i r => R r i).
Proof.
  intros n Psi0 e u N d R AC IN [V U] HR. constructor; [exact AC| |exact V|exact U].
  intros i r Hi Hr. rewrite (HR r i Hr Hi). rewrite (IN (r + d) i ltac:(lia) Hi) at 1. f_equal. apply sumn_ext. intros j Hj. rewrite (HR r j Hr Hj). reflexivity.
Qed.

(** The true coefficients are given (ar_coefs, ma_coefs), the start values of the residuals are the innovations (any values,
    if there is no moving average), and no pruning. *)
Theorem C213_given_coefficients_partial : forall n Psi0 Psi Omega Phi Theta e u X N varmax value score ms lassoD lasso noise w,
  structural_varma n Psi0 Psi Omega e X N -> reduced_form n Psi0 Psi Omega Phi Theta -> innovations n Psi0 e u N ->
  let d := Nat.max (length Psi) (length Omega) in
  uncorrelated_errors d N n e ->
  wo_ar w = Some Phi -> wo_ma w = Some Theta -> wo_order w = (length Psi, length Omega) ->
  Omega = [] \/ (forall t i, t < d -> i < n -> noise t i = u t i) ->
  separates (better ms) (N - d) n Psi0 (fun i r => e (r + d) i) (score (N - d)) ->
  (forall R : series, (forall r i, r < N - d -> i < n -> R r i = u (r + d) i) -> exact_regression (N - d) n (fun i r => R r i) (lassoD (N - d) R)) ->
  exists w' K psis oms, varma_fit n false varmax value (direct_on_rows score ms lassoD n) lasso noise w N X = Ok (w', (K, (psis, oms))) /\
    recovers n Psi0 Psi Omega K psis oms.
Proof.
  intros n Psi0 Psi Omega Phi Theta e u X N varmax value score ms lassoD lasso noise w SV RF IN d UE HA HM HO HN SEP REG.
  pose proof (C213_reduced_form n Psi0 Psi Omega Phi Theta e u X N SV RF IN) as VS.
  pose proof (rf_phis _ _ _ _ _ _ RF) as LP. pose proof (rf_thetas _ _ _ _ _ _ RF) as LT.
  assert (ED : Nat.max (length Phi) (length Theta) = d) by (unfold d; congruence).
  set (R := varma_residuals n Phi Theta X noise N).
  assert (HR : forall r i, r < N - d -> i < n -> R r i = u (r + d) i).
  { intros r i Hr Hi. unfold R. replace r with (r + d - d) at 1 by lia. rewrite <- ED.
    destruct HN as [HN|HN].
    - subst Omega. apply length_zero_iff_nil in LT. subst Theta. cbn [length] in *. rewrite Nat.max_0_r in *. apply C187_no_moving_average; [exact VS|lia|lia|exact Hi].
    - apply C187_exact_start; [exact VS|rewrite ED; exact HN|lia|lia|exact Hi]. }
  destruct (direct_on_rows_correct (N - d) n Psi0 (fun i r => e (r + d) i) R score ms lassoD
    (errors_model n Psi0 e u N d R (sv_acyclic _ _ _ _ _ _ _ SV) IN UE HR) SEP (REG R HR)) as (OK & TK & EB).
  unfold varma_fit. rewrite HA, HM, HO, ED. cbn [bind]. fold R. destruct (direct_on_rows score ms lassoD n (N - d) R) as [K psi0]. cbn [fst snd] in *.
  destruct (matrices_recovered n Psi0 Psi Omega Phi Theta psi0 RF EB) as (psis & oms & E & REST). rewrite E. cbn [bind].
  do 4 eexists. split; [reflexivity|]. split; [exact OK|]. split; [exact TK|]. exact REST.
Qed.
Print Assumptions C213_given_coefficients_partial.
(** The same when statsmodels finds the true coefficients and the innovations as residuals; here also the causal order after pruning. *)
Theorem C213_estimated_coefficients_partial : forall n Psi0 Psi Omega Phi Theta e u X N varmax value score ms lassoD lasso noise w R,
  structural_varma n Psi0 Psi Omega e X N -> reduced_form n Psi0 Psi Omega Phi Theta -> innovations n Psi0 e u N -> uncorrelated_errors 0 N n e ->
  wo_ar w = None \/ wo_ma w = None -> wo_criterion w = false -> wo_order w = (length Psi, length Omega) ->
  varmax N X (length Psi, length Omega) = (Phi, Theta, R) -> (forall t i, t < N -> i < n -> R t i = u t i) ->
  separates (better ms) N n Psi0 (fun i t => e t i) (score N) -> exact_regression N n (fun i r => R r i) (lassoD N R) ->
  (exists w' K psis oms, varma_fit n false varmax value (direct_on_rows score ms lassoD n) lasso noise w N X = Ok (w', (K, (psis, oms))) /\
    recovers n Psi0 Psi Omega K psis oms) /\
  exists w' K po, varma_fit n true varmax value (direct_on_rows score ms lassoD n) lasso noise w N X = Ok (w', (K, po)) /\
    is_order n K /\ topological (edge_of n Psi0) K.
Proof.
  intros n Psi0 Psi Omega Phi Theta e u X N varmax value score ms lassoD lasso noise w R SV RF IN UE HA HC HO HV HR SEP REG.
  assert (SEP' : separates (better ms) (N - 0) n Psi0 (fun i r => e (r + 0) i) (score (N - 0))).
  { rewrite Nat.sub_0_r. intros U x Uc ND HU SM HUc. apply SEP; try assumption. intros i r Hi Hr. rewrite (SM i r Hi Hr). rewrite Nat.add_0_r. reflexivity. }
  assert (MOD : linear_model (N - 0) n Psi0 (fun i r => e (r + 0) i) (fun i r => R r i)).
  { apply (errors_model n Psi0 e u N 0 R (sv_acyclic _ _ _ _ _ _ _ SV) IN UE). intros r i Hr Hi. rewrite Nat.add_0_r. apply HR; [lia|exact Hi]. }
  destruct (direct_on_rows_correct (N - 0) n Psi0 (fun i r => e (r + 0) i) R score ms lassoD MOD SEP') as (OK & TK & EB); [rewrite Nat.sub_0_r; exact REG|].
  rewrite Nat.sub_0_r in OK, TK, EB.
  assert (PR : forall l : list (mat Qc), match present l with Some l => l | None => [] end = l) by (intros [|a l]; reflexivity).
  assert (ST : match wo_ar w, wo_ma w with
      | Some A, Some M => Ok (Some A, Some M, wo_order w, N - Nat.max (length A) (length M), varma_residuals n A M X noise N)
      | _, _ => let* (ar, ma, o, R) := estimate varmax value (wo_criterion w) (wo_order w) N X in Ok (ar, ma, o, N, R)
      end = Ok (present Phi, present Theta, (length Psi, length Omega), N, R)).
  { rewrite HC, HO. unfold estimate. cbn [bind]. rewrite HV. destruct HA as [-> | ->]; [destruct (wo_ma w); reflexivity|destruct (wo_ar w); reflexivity]. }
  split; unfold varma_fit; rewrite ST; cbn [bind]; destruct (direct_on_rows score ms lassoD n N R) as [K psi0]; cbn [fst snd] in *; rewrite !PR;
    destruct (matrices_recovered n Psi0 Psi Omega Phi Theta psi0 RF EB) as (psis & oms & E & REST); rewrite E; cbn [bind].
  - do 4 eexists. split; [reflexivity|]. split; [exact OK|]. split; [exact TK|]. exact REST.
  - unfold varma_pruning, join_rows_ok, fits_rows. rewrite Nat.eqb_refl, orb_true_r. cbn [bind]. do 3 eexists. split; [reflexivity|]. split; assumption.
Qed.
Print Assumptions C213_estimated_coefficients_partial.

(** ** A concrete series: x0_t = e0_t + e1_(t-1), x1_t = x0_t + x0_(t-1) + e1_t, ten rows *)
Definition mx_e : series := fun t i => match t with O => 0%Qc | S r => vx_e i r end.
Definition mx_u : series := fun t i => if i =? 0 then mx_e t 0 else (mx_e t 0%nat + mx_e t 1%nat)%Qc.
Definition mx_x0 (t : nat) : Qc := match t with O => 0%Qc | S r => (mx_e t 0%nat + mx_e r 1%nat)%Qc end.
Definition mx_X : series := fun t i => if i =? 0 then mx_x0 t else match t with O => 0%Qc | S r => (mx_x0 t + mx_x0 r + mx_e t 1%nat)%Qc end.
Definition mx_Omega : mat Qc := ex_mat [[0; 1]; [0; 0]]%Z.
Definition mx_Theta : mat Qc := ex_mat [[-1; 1]; [-1; 1]]%Z.
Definition mx_obj : varma_obj := {| wo_order := (1, 1); wo_criterion := false; wo_ar := Some [ex_B]; wo_ma := Some [mx_Theta]; wo_rows := 0; wo_resid := fun _ _ => 0%Qc |}.
Lemma sum2 : forall f, sumn 2 f = (f 0%nat + f 1%nat)%Qc.
Proof. intro f. unfold sumn. cbn. ring. Qed.
Lemma sum1 : forall f, sumn 1 f = f 0%nat.
Proof. intro f. unfold sumn. cbn. ring. Qed.
Lemma mx_structural : structural_varma 2 ex_B [ex_B] [mx_Omega] mx_e mx_X 10.
Proof.
  constructor; [apply (topological_acyclic _ [0; 1]); [repeat constructor; cbn; intuition discriminate|exact ex_topo]|].
  intros t i Hd HN Hi. cbn in Hd. destruct t as [|t]; [lia|]. unfold lag_terms. cbn [length]. rewrite !sum1, !sum2. replace (S t - (0 + 1)) with t by lia. cbn [nth].
  assert (Z0 : qz 0 = 0%Qc) by (apply Qc_is_canon; vm_compute; reflexivity). assert (Z1 : qz 1 = 1%Qc) by (apply Qc_is_canon; vm_compute; reflexivity).
  destruct i as [|[|i]]; [| |lia]; unfold ex_B, mx_Omega, ex_mat; cbn [nth Nat.eqb andb]; rewrite ?Z0, ?Z1; unfold mx_X; cbn [Nat.eqb].
  - change (mx_x0 (S t)) with (mx_e (S t) 0%nat + mx_e t 1%nat)%Qc. ring.
  - ring.
Qed.
Lemma mx_reduced : reduced_form 2 ex_B [ex_B] [mx_Omega] [ex_B] [mx_Theta].
Proof.
  constructor; [reflexivity|reflexivity| |]; intros k Hk i j Hi Hj; cbn in Hk; (destruct k as [|k]; [|lia]);
    destruct i as [|[|i]]; try lia; destruct j as [|[|j]]; try lia; apply Qc_is_canon; vm_compute; reflexivity.
Qed.
Lemma mx_innovations : innovations 2 ex_B mx_e mx_u 10.
Proof. intros t i Ht Hi. rewrite sum2. destruct i as [|[|i]]; [| |lia]; unfold mx_u, ex_B; cbn [Nat.eqb andb]; ring. Qed.
Lemma mx_errors : uncorrelated_errors 1 10 2 mx_e.
Proof.
  split.
  - intros i Hi. destruct i as [|[|i]]; [| |lia]; vm_compute; reflexivity.
  - intros i j Hi Hj D. destruct i as [|[|i]]; [| |lia]; destruct j as [|[|j]]; try lia; apply Qc_is_canon; vm_compute; reflexivity.
Qed.
Lemma mx_vx : forall r i, r < 9 -> i < 2 -> mx_u (r + 1) i = vx_R i r.
Proof. intros r i Hr Hi. destruct i as [|[|i]]; [| |lia]; do 9 (destruct r as [|r]; [apply Qc_is_canon; vm_compute; reflexivity|]); lia. Qed.
Lemma mx_regression : forall R : series, (forall r i, r < 9 -> i < 2 -> R r i = mx_u (r + 1) i) -> exact_regression 9 2 (fun i r => R r i) vx_reg.
Proof.
  intros R HR ps i Hi HP ND NE. destruct (vx_regression ps i Hi HP ND NE) as (c & LS & E). exists c. split; [|exact E].
  intros q Hq. rewrite <- (LS q Hq). apply cov_ext.
  - intros r Hr. rewrite (HR r i Hr Hi), (mx_vx r i Hr Hi). f_equal. apply sumf_ext. intros a Ha. rewrite (HR r a Hr (HP a Ha)), (mx_vx r a Hr (HP a Ha)). reflexivity.
  - intros r Hr. rewrite (HR r q Hr (HP q Hq)). apply mx_vx; [exact Hr|apply HP; exact Hq].
Qed.
Lemma mx_separates : separates (better Kernel) 9 2 ex_B (fun i r => mx_e (r + 1) i) (kernel_score 9 ex_mi).
Proof.
  intros U x Uc ND HU SM HUc. apply (kernel_separates 9 2 ex_B vx_e ex_mi vx_detects U x Uc ND HU); [|exact HUc].
  intros i r Hi Hr. rewrite (SM i r Hi Hr). replace (r + 1) with (S r) by lia. reflexivity.
Qed.
(** With the true coefficients, the true innovations at the start, an ideal independence measure and exact regressions, Psi is
    right, but the moving average matrix is not: an effect -1 of the previous error of x0 on x0 is reported that does not exist. *)
Theorem C213_moving_average_refuted : exists n Psi0 Psi Omega Phi Theta e u X N score ms lassoD noise w,
  let d := Nat.max (length Psi) (length Omega) in
  structural_varma n Psi0 Psi Omega e X N /\ reduced_form n Psi0 Psi Omega Phi Theta /\ innovations n Psi0 e u N /\ uncorrelated_errors d N n e /\
  wo_ar w = Some Phi /\ wo_ma w = Some Theta /\ wo_order w = (length Psi, length Omega) /\
  (forall t i, t < d -> i < n -> noise t i = u t i) /\
  separates (better ms) (N - d) n Psi0 (fun i r => e (r + d) i) (score (N - d)) /\
  (forall R : series, (forall r i, r < N - d -> i < n -> R r i = u (r + d) i) -> exact_regression (N - d) n (fun i r => R r i) (lassoD (N - d) R)) /\
  forall varmax value lasso, exists w' K psis oms, varma_fit n false varmax value (direct_on_rows score ms lassoD n) lasso noise w N X = Ok (w', (K, (psis, oms))) /\
    nth 0 oms zmat 0 0 <> nth 0 Omega zmat 0 0.
Proof.
  exists 2, ex_B, [ex_B], [mx_Omega], [ex_B], [mx_Theta], mx_e, mx_u, mx_X, 10, (fun N => kernel_score N ex_mi), Kernel, (fun _ _ => vx_reg), mx_u, mx_obj.
  cbv zeta. change (Nat.max (length [ex_B]) (length [mx_Omega])) with 1. change (10 - 1) with 9.
  assert (H0 : forall t i, t < 1 -> i < 2 -> mx_u t i = mx_u t i) by reflexivity.
  split; [exact mx_structural|]. split; [exact mx_reduced|]. split; [exact mx_innovations|]. split; [exact mx_errors|]. split; [reflexivity|]. split; [reflexivity|]. split; [reflexivity|].
  split; [exact H0|]. split; [exact mx_separates|]. split; [exact mx_regression|]. intros varmax value lasso.
  destruct (C213_given_coefficients_partial 2 ex_B [ex_B] [mx_Omega] [ex_B] [mx_Theta] mx_e mx_u mx_X 10 varmax value (fun N => kernel_score N ex_mi) Kernel (fun _ _ => vx_reg) lasso mx_u mx_obj
    mx_structural mx_reduced mx_innovations mx_errors eq_refl eq_refl eq_refl (or_intror H0) mx_separates mx_regression) as (w' & K & psis & oms & E & REC).
  exists w', K, psis, oms. split; [exact E|]. destruct REC as (_ & _ & _ & _ & _ & _ & H). destruct (H 0 ltac:(cbn; lia)) as [Q _]. rewrite (Q 0 0 ltac:(lia) ltac:(lia)).
  intro Z. apply (f_equal this) in Z. vm_compute in Z. discriminate.
Qed.
Print Assumptions C213_moving_average_refuted.
(** Omega_1 = [[2, 0], [0, 0]]: the moving average part is right. *)
Example C213_example_right : meq 2 (mmul 2 (ex_mat [[2; 0]; [0; 0]]%Z) ex_B) (fun _ _ => 0%Qc).
Proof. intros i j Hi Hj. destruct i as [|[|i]]; try lia; destruct j as [|[|j]]; try lia; apply Qc_is_canon; vm_compute; reflexivity. Qed.
(** The same series without its first row, the coefficients and the innovations being estimated. *)
Definition my_e : series := fun t i => vx_e i t.
Definition my_u : series := fun t i => vx_R i t.
Definition my_X : series := fun t i => mx_X (t + 1) i.
Example C213_example_estimated :
  structural_varma 2 ex_B [ex_B] [mx_Omega] my_e my_X 9 /\ reduced_form 2 ex_B [ex_B] [mx_Omega] [ex_B] [mx_Theta] /\ innovations 2 ex_B my_e my_u 9 /\ uncorrelated_errors 0 9 2 my_e /\
  separates (better Kernel) 9 2 ex_B (fun i t => my_e t i) (kernel_score 9 ex_mi) /\ exact_regression 9 2 (fun i r => my_u r i) vx_reg.
Proof.
  split.
  - constructor; [exact (sv_acyclic _ _ _ _ _ _ _ mx_structural)|]. intros t i Hd HN Hi. cbn in Hd.
    unfold my_X at 1. rewrite (sv_equation _ _ _ _ _ _ _ mx_structural (t + 1) i ltac:(cbn; lia) ltac:(lia) Hi). unfold lag_terms. cbn [length]. rewrite !sum1, !sum2. unfold my_X, my_e.
    replace (t + 1 - (0 + 1)) with t by lia. replace (t - (0 + 1) + 1) with t by lia. destruct t as [|t]; [lia|]. replace (S t - (0 + 1)) with t by lia. replace (S t + 1) with (S (S t)) by lia. reflexivity.
  - split; [exact mx_reduced|]. split.
    { intros t i Ht Hi. unfold my_u. rewrite <- (mx_vx t i Ht Hi). rewrite (mx_innovations (t + 1) i ltac:(lia) Hi). rewrite !sum2, <- !mx_vx by lia. replace (t + 1) with (S t) by lia. reflexivity. }
    split.
    { split.
      - intros i Hi. destruct i as [|[|i]]; [| |lia]; vm_compute; reflexivity.
      - intros i j Hi Hj D. destruct i as [|[|i]]; [| |lia]; destruct j as [|[|j]]; try lia; apply Qc_is_canon; vm_compute; reflexivity. }
    split; [exact (kernel_separates 9 2 ex_B vx_e ex_mi vx_detects)|]. exact vx_regression.
Qed.
