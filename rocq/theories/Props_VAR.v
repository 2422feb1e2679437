(** * Property theorems: VARLiNGAM and VARMALiNGAM. *)
From Coq Require Import List Arith Lia Bool ZArith QArith Qcanon Permutation Relations.
From Verif Require Import Prelude Spec Lib LibMat ModelPaths SpecPaths ProofTotal ModelVAR ProofVAR.
Import ListNotations.
Open Scope nat_scope.

(** ** C42 *)
(** [est] is the external VAR estimator; its residuals are assumed to be those of its
    coefficients (statsmodels with trend="n").  [t] ranges over the times >= lags. *)
Theorem C42_residuals_and_structural_form :
  forall est lingam lasso n o N X o' order Bs,
  (forall N X l r i, let '(Ms, R) := est N X l in
     R r i = (X (r + length Ms)%nat i -
       sumn (length Ms) (fun k => sumn n (fun j => nth k Ms zmat i j * X (r + length Ms - (k + 1))%nat j)))%Qc) ->
  var_fit est lingam lasso n false o N X = Ok (o', (order, Bs)) ->
  exists Ms B0, vo_ar o' = Some Ms /\ nth 0 Bs zmat = B0 /\ length Bs = length Ms + 1 /\
    lingam (N - length Ms) (vo_resid o') = (order, B0) /\
    forall t i, length Ms <= t -> i < n ->
      vo_resid o' (t - length Ms) i =
        (X t i - sumn (length Ms) (fun k => sumn n (fun j => nth k Ms zmat i j * X (t - (k + 1))%nat j)))%Qc /\
      sumn n (fun j => msub midn B0 i j * vo_resid o' (t - length Ms)%nat j)%Qc =
        (X t i - sumn n (fun j => B0 i j * X t j)
           - sumn (length Ms) (fun k => sumn n (fun j => nth (k + 1) Bs zmat i j * X (t - (k + 1))%nat j)))%Qc.
Proof.
  intros est lingam lasso n o N X o' order Bs HE E.
  assert (HC : est_consistent est n).
  { intros N' X' l r i. specialize (HE N' X' l r i). destruct (est N' X' l) as [Ms R]. cbn [fst snd].
    rewrite var_residuals_spec. exact HE. }
  destruct (fit_structure est lingam lasso n o N X o' order Bs HC E) as [Ms [B0 [A [L [-> [EL HR]]]]]].
  exists Ms, B0. split; [exact A|]. split; [reflexivity|]. split; [unfold calc_b; cbn [length]; rewrite map_length; lia|].
  split; [exact EL|]. intros t i Ht Hi.
  assert (HRt : forall j, vo_resid o' (t - length Ms) j =
     (X t j - sumn (length Ms) (fun k => sumn n (fun l => nth k Ms zmat j l * X (t - (k + 1))%nat l)))%Qc).
  { intro j. rewrite HR, var_residuals_spec. replace (t - length Ms + length Ms) with t by lia. reflexivity. }
  split; [apply HRt|].
  rewrite (sumn_ext n _ (fun j => msub midn B0 i j * (X t j - sumn (length Ms) (fun k => sumn n (fun l => nth k Ms zmat j l * X (t - (k + 1))%nat l))))%Qc)
    by (intros; rewrite HRt; reflexivity).
  rewrite (structural n B0 Ms (X t) (fun k l => X (t - (k + 1))%nat l) i Hi). f_equal.
  apply sumn_ext. intros k Hk. apply sumn_ext. intros l _. f_equal.
  unfold calc_b. replace (k + 1) with (S k) by lia. cbn [nth].
  rewrite (nth_indep (map (fun M => mmul n (msub midn B0) M) Ms) zmat (mmul n (msub midn B0) zmat)) by (rewrite map_length; exact Hk).
  rewrite (map_nth (fun M => mmul n (msub midn B0) M)). reflexivity.
Qed.
Print Assumptions C42_residuals_and_structural_form.

(** Example data: one lag, two variables. *)
Definition ex_series (l : list (list Z)) : series := fun t i => qz (nth i (nth t l []) 0%Z).
Definition ex_mat (l : list (list Z)) : mat Qc := fun i j => qz (nth j (nth i l []) 0%Z).
Definition fresh_var (lags : nat) : var_obj :=
  {| vo_ar := None; vo_lags := lags; vo_resid := fun _ _ => 0%Qc; vo_rows := 0 |}.
Example C42_example :
  let Ms := [ex_mat [[2; 0]; [0; 1]]%Z] in
  let X := ex_series [[1; 1]; [2; 2]; [4; 5]]%Z in
  exists o' Bs,
    var_fit (fun N X l => (Ms, var_residuals 2 Ms X)) (fun _ _ => ([0; 1], ex_mat [[0; 0]; [3; 0]]%Z))
            (fun _ _ _ => 0%Qc) 2 false (fresh_var 1) 3 X = Ok (o', ([0; 1], Bs)) /\
    this (vo_resid o' 1 1) = 3%Q /\ this (nth 1 Bs zmat 1 0) = (-6)%Q.
Proof. do 2 eexists. split; [reflexivity|]. split; vm_compute; reflexivity. Qed.

(** ** C43 *)
Lemma index_of_NoDup : forall l p c, NoDup l -> nth_error l p = Some c -> index_of c l = Some p.
Proof.
  intros l p c ND H. destruct (index_of c l) as [q|] eqn:E.
  - apply index_of_some in E. f_equal. eapply NoDup_nth_inj; eassumption.
  - apply (proj1 (index_of_none _ _)) in E. apply nth_error_In in H. contradiction.
Qed.
(** After pruning, row i of every matrix consists of the coefficients of the regression of X_t[i]
    on (X_t[a] for the ancestors a, X_{t-1}, ..., X_{t-lags}), t = N-1, N-2, ..., lags: every index
    is a true time of the series and belongs to the same window. *)
Theorem C43_pruning_alignment :
  forall lasso N n lags X order Bs,
  1 <= lags -> Bs <> [] -> length Bs <= lags + 1 -> is_order n order ->
  exists Bs', var_pruning lasso N n lags X order Bs = Ok Bs' /\ length Bs' = length Bs /\
    forall i, i < n -> exists no, nth_error order no = Some i /\
      let anc := firstn no order in
      let row t := map (X t) anc ++ flat_map (fun k => map (X (t - k)) (seq 0 n)) (seq 1 lags) in
      let times := map (fun r => N - 1 - r) (seq 0 (N - lags)) in
      let coef := lasso (map row times) (map (fun t => X t i) times) in
      (forall t, In t times <-> lags <= t < N) /\
      (forall p a, nth_error anc p = Some a -> nth 0 Bs' zmat i a = coef p /\
         forall t, nth_error (row t) p = Some (X t a)) /\
      (forall c, ~ In c anc -> nth 0 Bs' zmat i c = nth 0 Bs zmat i c) /\
      (forall k c, 1 <= k -> k < length Bs -> c < n ->
         nth k Bs' zmat i c = coef (length anc + n * (k - 1) + c) /\
         forall t, nth_error (row t) (length anc + n * (k - 1) + c) = Some (X (t - k) c)).
Proof.
  intros lasso N n lags X order Bs H1 NE HL HO.
  assert (ND : NoDup order) by (eapply Permutation_NoDup; [symmetry; exact HO|apply seq_NoDup]).
  destruct (prune_vars_spec lasso N n lags X order (seq 0 n) Bs H1 NE HL (seq_NoDup _ _)) as [Bs' [E [L [P _]]]].
  { intros i Hi. eapply Permutation_in; [symmetry; exact HO|exact Hi]. }
  exists Bs'. split; [exact E|]. split; [exact L|]. intros i Hi.
  destruct (P i) as [no [Ei [P0 Pk]]]; [apply in_seq; lia|]. cbn zeta in P0, Pk.
  exists no. pose proof (index_of_some _ _ _ Ei) as Hno. split; [exact Hno|].
  intros anc row times coef.
  assert (NDa : NoDup anc).
  { unfold anc. clear -ND. rewrite <- (firstn_skipn no order) in ND. apply NoDup_app_iff' in ND. tauto. }
  assert (La : length anc = no).
  { unfold anc. apply firstn_length_le. apply Nat.lt_le_incl. apply nth_error_Some. congruence. }
  assert (EC : coef = reg_coef lasso N n lags X anc i).
  { unfold coef, reg_coef, times. rewrite !map_map. reflexivity. }
  rewrite EC. split.
  { intro t. unfold times. rewrite in_map_iff. split.
    - intros [r [<- Hr]]. apply in_seq in Hr. lia.
    - intros Ht. exists (N - 1 - t). split; [lia|]. apply in_seq. lia. }
  split; [|split].
  - intros p a Hp. split; [|intro t; exact (design_anc n lags X anc t p a Hp)].
    rewrite P0. fold anc. rewrite (index_of_NoDup _ p a NDa Hp). reflexivity.
  - intros c Hc. rewrite P0. destruct (index_of c (firstn no order)) as [p|] eqn:Ec; [|reflexivity].
    exfalso. apply Hc. apply index_of_some in Ec. eapply nth_error_In. exact Ec.
  - intros k c Hk1 Hk Hc. split.
    + rewrite Pk by assumption. fold anc. rewrite La. reflexivity.
    + intro t. apply design_lag; lia.
Qed.
Print Assumptions C43_pruning_alignment.
Example C43_example : (* rows of variable 1 (ancestor 0), lags = 1, N = 3 *)
  map (map this) (map (prune_row 3 2 1 (ex_series [[1; 2]; [3; 4]; [5; 6]]%Z) [0]) (seq 0 (n_blocks 3 1)))
  = [[5; 3; 4]; [3; 1; 2]]%Q.
Proof. vm_compute. reflexivity. Qed.

(** ** C44 *)
(** Once fitted, the estimator of the AR coefficients is never consulted again ... *)
Theorem C44_refit_ignores_estimation_refuted :
  forall est est' lingam lasso n prune o N1 X1 o1 r1 N2 X2,
  var_fit est lingam lasso n prune o N1 X1 = Ok (o1, r1) ->
  var_fit est lingam lasso n prune o1 N2 X2 = var_fit est' lingam lasso n prune o1 N2 X2.
Proof.
  intros est est' lingam lasso n prune o N1 X1 o1 r1 N2 X2 E.
  destruct (fit_sets_ar _ _ _ _ _ _ _ _ _ _ E) as [Ms [A _]]. eapply fit_ignores_est. exact A.
Qed.
Print Assumptions C44_refit_ignores_estimation_refuted.
(** ... so that the result for X2 differs from that of a fresh object: univariate AR(1) fitted by
    least squares. *)
Definition ls_est (N : nat) (X : series) (l : nat) : list (mat Qc) * series :=
  let num := sumn (N - 1) (fun t => X (S t) 0%nat * X t 0%nat)%Qc in
  let den := sumn (N - 1) (fun t => X t 0%nat * X t 0%nat)%Qc in
  let Ms := [fun i j => (num / den)%Qc] in (Ms, var_residuals 1 Ms X).
Definition one_var (rows : nat) (R : series) : list nat * mat Qc := ([0], zmat).
Theorem C44_refit_uses_new_data_refuted :
  exists X1 X2 o1 r1 o2 B o3 B',
  var_fit ls_est one_var (fun _ _ _ => 0%Qc) 1 false (fresh_var 1) 3 X1 = Ok (o1, r1) /\
  var_fit ls_est one_var (fun _ _ _ => 0%Qc) 1 false o1 3 X2 = Ok (o2, ([0], B)) /\
  var_fit ls_est one_var (fun _ _ _ => 0%Qc) 1 false (fresh_var 1) 3 X2 = Ok (o3, ([0], B')) /\
  this (nth 1 B zmat 0 0) = 2%Q /\ this (nth 1 B' zmat 0 0) = 3%Q.
Proof.
  exists (ex_series [[1]; [2]; [4]]%Z), (ex_series [[1]; [3]; [9]]%Z). do 6 eexists.
  split; [reflexivity|]. split; [reflexivity|]. split; [reflexivity|].
  split; vm_compute; reflexivity.
Qed.
Print Assumptions C44_refit_uses_new_data_refuted.
(** With coefficients supplied by the user (and [lags] their number) fits are independent. *)
Theorem C44_given_coefficients_partial :
  forall est lingam lasso n prune o Ms N1 X1 o1 r1 N2 X2,
  vo_ar o = Some Ms -> vo_lags o = length Ms ->
  var_fit est lingam lasso n prune o N1 X1 = Ok (o1, r1) ->
  var_fit est lingam lasso n prune o1 N2 X2 = var_fit est lingam lasso n prune o N2 X2.
Proof. exact refit_given. Qed.
Print Assumptions C44_given_coefficients_partial.
Definition given_var : var_obj := {| vo_ar := Some [ex_mat [[5]]%Z]; vo_lags := 1; vo_resid := fun _ _ => 0%Qc; vo_rows := 0 |}.
Example C44_example : exists o1 r1 o2 B,
  var_fit ls_est one_var (fun _ _ _ => 0%Qc) 1 false given_var 3 (ex_series [[1]; [2]; [4]]%Z) = Ok (o1, r1) /\
  var_fit ls_est one_var (fun _ _ _ => 0%Qc) 1 false o1 3 (ex_series [[1]; [3]; [9]]%Z) = Ok (o2, ([0], B)) /\ this (nth 1 B zmat 0 0) = 5%Q.
Proof. do 4 eexists. split; [reflexivity|]. split; [reflexivity|]. vm_compute. reflexivity. Qed.

(** ** C45 *)
(** B0: x0 -> x1 (weight 2); B1: x1(t-1) -> x0(t) (weight 3).  The effect of x0(t-1) on x0(t) is 6
    (through x1(t-1)); the code returns 0. *)
Theorem C45_lagged_effects_refuted :
  exists n Bs from to_ lag e,
  acyclic (edge_of n (nth 0 Bs zmat)) /\
  var_effect2 n Bs from to_ lag = Ok (Some 0%Qc) /\
  calculate_total_effect (n * length Bs)
    (expansion n (length Bs - 1) (concat_blocks n (map (fun B i j => Some (B i j)) Bs)))
    (n * lag + from) to_ None = Ok (Some e) /\ this e = 6%Q.
Proof.
  exists 2, [ex_mat [[0; 0]; [2; 0]]%Z; ex_mat [[0; 3]; [0; 0]]%Z], 0, 0, 1. eexists.
  split; [|split; [vm_compute; reflexivity|]; split; [vm_compute; reflexivity|vm_compute; reflexivity]].
  apply (rank_acyclic _ (fun v => v)). intros a b [Hb [Ha E]]. cbn [nth] in E.
  destruct a as [|[|a]]; destruct b as [|[|b]]; try lia; exfalso; apply E; reflexivity.
Qed.
Print Assumptions C45_lagged_effects_refuted.
(** What is computed: only paths whose intermediate variables are at time t. *)
Theorem C45_lagged_effects_partial :
  forall n Bs from to_ lag, 2 <= n * length Bs -> from < n -> to_ < n -> 1 <= lag -> lag < length Bs ->
  acyclic (edge_of n (nth 0 Bs zmat)) ->
  forall T, meq n (mmul n (msub midn (nth 0 Bs zmat)) T) midn ->
  var_effect2 n Bs from to_ lag = Ok (Some (mmul n T (nth lag Bs zmat) to_ from)).
Proof. exact effect2_lag. Qed.
Print Assumptions C45_lagged_effects_partial.
Example C45_example :
  exists e, var_effect2 2 [ex_mat [[0; 0]; [2; 0]]%Z; ex_mat [[5; 3]; [0; 0]]%Z] 0 1 1 = Ok (Some e) /\ this e = 10%Q.
Proof. eexists. split; [vm_compute; reflexivity|vm_compute; reflexivity]. Qed.

(** ** C46 *)
(** Node n*b + j of the searched graph is variable j at time t-b. *)
Theorem C46_unrolled_graph :
  forall n (Bs : list (mat num)) a b i j, i < n -> j < n -> a < length Bs -> b < length Bs ->
  expansion n (length Bs - 1) (concat_blocks n Bs) (n * a + i) (n * b + j) =
    (if a <=? b then nth (b - a) Bs (fun _ _ => Some 0%Qc) i j else Some 0%Qc) /\
  (edge_of_num (n * length Bs) (expansion n (length Bs - 1) (concat_blocks n Bs)) (n * b + j) (n * a + i) <->
   a <= b /\ nth (b - a) Bs (fun _ _ => Some 0%Qc) i j <> Some 0%Qc).
Proof.
  intros n Bs a b i j Hi Hj Ha Hb. pose proof (expansion_entry n Bs a b i j Hi Hj Ha Hb) as E.
  split; [exact E|]. unfold edge_of_num. rewrite E. destruct (Nat.leb_spec a b).
  - split; [tauto|]. intros [_ N]. repeat split; [nia|nia|exact N].
  - split; [intros [_ [_ N]]; congruence|intros [Z _]; lia].
Qed.
Print Assumptions C46_unrolled_graph.
Theorem C46_get_paths_searches_it :
  forall n Bs from to_ fl tl m, 1 <= length Bs -> tl <= fl -> (tl = fl -> from <> to_) ->
  var_paths n (length Bs - 1) (concat_blocks n Bs) from to_ fl tl m =
  find_all_paths (n * length Bs) (expansion n (length Bs - 1) (concat_blocks n Bs)) (n * fl + from) (n * tl + to_) m.
Proof.
  intros n Bs from to_ fl tl m HL H1 H2. unfold var_paths.
  destruct (Nat.ltb_spec fl tl); [lia|]. replace (length Bs - 1 + 1) with (length Bs) by lia.
  destruct (Nat.eqb_spec tl fl) as [E|]; [|reflexivity]. destruct (Nat.eqb_spec to_ from) as [E'|]; [|reflexivity].
  exfalso. apply (H2 E). congruence.
Qed.
Print Assumptions C46_get_paths_searches_it.
Example C46_example : (* AR(2) on one variable: x(t-2) -> x(t) directly and through x(t-1) *)
  exists es, var_paths 1 2 (concat_blocks 1 [fun _ _ => Some 0%Qc; fun _ _ => Some (qz 2); fun _ _ => Some (qz 3)]) 0 0 2 0 0%Qc
             = Ok ([[2; 0]; [2; 1; 0]], es).
Proof. eexists. vm_compute. reflexivity. Qed.

(** ** C47 *)
Theorem C47_omega_refuted :
  exists n psi0 Th T psis om,
  acyclic (edge_of n psi0) /\ meq n (mmul n (msub midn psi0) T) midn /\
  psi_omega n psi0 [] [Th] 0 1 = Ok (psis, [om]) /\
  om 0 0 <> mmul n (mmul n (msub midn psi0) Th) T 0 0.
Proof.
  exists 2, (ex_mat [[0; 0]; [1; 0]]%Z), (ex_mat [[0; 1]; [0; 0]]%Z), (ex_mat [[1; 0]; [1; 1]]%Z). do 2 eexists.
  split; [|split; [|split; [reflexivity|]]].
  - apply (rank_acyclic _ (fun v => v)). intros a b [Hb [Ha E]].
    destruct a as [|[|a]]; destruct b as [|[|b]]; try lia; exfalso; apply E; reflexivity.
  - intros i j Hi Hj. destruct i as [|[|i]]; destruct j as [|[|j]]; try lia; apply Qc_is_canon; vm_compute; reflexivity.
  - intro E. apply (f_equal this) in E. vm_compute in E. discriminate.
Qed.
Print Assumptions C47_omega_refuted.
(** The returned Omega_j is (I - Psi_0) Theta_j; it is the claimed matrix exactly when
    Theta_j Psi_0 = 0. *)
Theorem C47_omega_partial :
  forall n psi0 phis thetas, acyclic (edge_of n psi0) ->
  forall T, meq n (mmul n (msub midn psi0) T) midn ->
  exists psis oms, psi_omega n psi0 phis thetas (length phis) (length thetas) = Ok (psis, oms) /\
    length psis = length phis + 1 /\ length oms = length thetas /\ nth 0 psis zmat = psi0 /\
    (forall k, k < length phis -> nth (k + 1) psis zmat = mmul n (msub midn psi0) (nth k phis zmat)) /\
    (forall k, k < length thetas -> nth k oms zmat = mmul n (msub midn psi0) (nth k thetas zmat) /\
       (meq n (nth k oms zmat) (mmul n (mmul n (msub midn psi0) (nth k thetas zmat)) T) <->
        meq n (mmul n (nth k thetas zmat) psi0) (fun _ _ => 0%Qc))).
Proof.
  intros n psi0 phis thetas A T HT. do 2 eexists. split; [apply psi_omega_spec|].
  assert (G : forall l k, k < length l -> nth k (map (fun M => mmul n (msub midn psi0) M) l) zmat = mmul n (msub midn psi0) (nth k l zmat)).
  { intros l k Hk. rewrite (nth_indep _ zmat (mmul n (msub midn psi0) zmat)) by (rewrite map_length; exact Hk).
    apply (map_nth (fun M => mmul n (msub midn psi0) M)). }
  split; [cbn [length]; rewrite map_length; lia|]. split; [apply map_length|]. split; [reflexivity|]. split.
  - intros k Hk. replace (k + 1) with (S k) by lia. cbn [nth]. apply G. exact Hk.
  - intros k Hk. rewrite (G thetas k Hk). split; [reflexivity|]. apply omega_wrong_iff; assumption.
Qed.
Print Assumptions C47_omega_partial.
Example C47_example : (* x0 -> x1 and a moving average of x0 alone: the case where the matrix is right *)
  let psi0 := ex_mat [[0; 0]; [1; 0]]%Z in let Th := ex_mat [[2; 0]; [0; 0]]%Z in
  acyclic (edge_of 2 psi0) /\ meq 2 (mmul 2 (msub midn psi0) (ex_mat [[1; 0]; [1; 1]]%Z)) midn /\ meq 2 (mmul 2 Th psi0) (fun _ _ => 0%Qc) /\
  match psi_omega 2 psi0 [] [Th] 0 1 with Ok (_, [om]) => map (fun i => map (fun j => this (om i j)) [0; 1]) [0; 1] = [[2; 0]; [-2; 0]]%Q | _ => False end.
Proof.
  cbv zeta. split; [|split; [|split; [|vm_compute; reflexivity] ] ].
  - apply (rank_acyclic _ (fun v => v)). intros a b [Hb [Ha E]].
    destruct a as [|[|a]]; destruct b as [|[|b]]; try lia; exfalso; apply E; reflexivity.
  - intros i j Hi Hj. destruct i as [|[|i]]; destruct j as [|[|j]]; try lia; apply Qc_is_canon; vm_compute; reflexivity.
  - intros i j Hi Hj. destruct i as [|[|i]]; destruct j as [|[|j]]; try lia; apply Qc_is_canon; vm_compute; reflexivity.
Qed.

(** ** C48 *)
Theorem C48_every_lag_is_lag_one_refuted :
  forall n psis from to_ lag, 1 <= lag -> varma_effect2 n psis from to_ lag = varma_effect2 n psis from to_ 1.
Proof. intros n psis from to_ lag H. unfold varma_effect2. destruct lag; [lia|reflexivity]. Qed.
Print Assumptions C48_every_lag_is_lag_one_refuted.
Theorem C48_varma_effect_lag_refuted :
  exists n psis from to_ lag e e', varma_effect2 n psis from to_ lag = Ok (Some e) /\
    var_effect2 n psis from to_ lag = Ok (Some e') /\ this e = 5%Q /\ this e' = 7%Q.
Proof.
  exists 1, [zmat; ex_mat [[5]]%Z; ex_mat [[7]]%Z], 0, 0, 2. do 2 eexists.
  split; [vm_compute; reflexivity|]. split; [vm_compute; reflexivity|]. split; vm_compute; reflexivity.
Qed.
Print Assumptions C48_varma_effect_lag_refuted.
Theorem C48_varma_effect_lag_partial :
  forall n psis from to_ lag, lag <= 1 -> varma_effect2 n psis from to_ lag = var_effect2 n psis from to_ lag.
Proof.
  intros n psis from to_ lag H. unfold varma_effect2, var_effect2. destruct lag as [|[|]]; [| |lia]; cbn [Nat.eqb].
  - rewrite Nat.mul_0_r, Nat.add_0_r. reflexivity.
  - rewrite Nat.mul_1_r. reflexivity.
Qed.
Print Assumptions C48_varma_effect_lag_partial.
Example C48_example : exists e, varma_effect2 1 [zmat; ex_mat [[5]]%Z; ex_mat [[7]]%Z] 0 0 1 = Ok (Some e) /\ this e = 5%Q.
Proof. eexists. split; vm_compute; reflexivity. Qed.

(** ** C49 *)
Theorem C49_given_coefficients_refuted :
  forall N p q, 1 <= q -> Nat.max p q + 2 <= N -> varma_fit_given N p q p q true = Err ValueError.
Proof.
  intros N p q Hq HN. unfold varma_fit_given. rewrite !Nat.ltb_irrefl. cbn [orb]. unfold join_rows_ok, fits_rows.
  destruct (Nat.eqb_spec q 0); [lia|]. destruct (Nat.eqb_spec (N - Nat.max p q) N); [lia|].
  destruct (Nat.eqb_spec (N - Nat.max p q) 1); [lia|]. reflexivity.
Qed.
Print Assumptions C49_given_coefficients_refuted.
Theorem C49_given_coefficients_partial :
  forall N p q, varma_fit_given N p q p q false = Ok tt /\ varma_fit_given N p 0 p 0 true = Ok tt.
Proof. intros. unfold varma_fit_given, join_rows_ok. rewrite !Nat.ltb_irrefl. split; reflexivity. Qed.
Print Assumptions C49_given_coefficients_partial.
Example C49_example : varma_fit_given 100 1 1 1 1 true = Err ValueError.
Proof. reflexivity. Qed.

(** ** C75 *)
(** estimate_total_effect (VAR and VARMA) and VARMA pruning build lagged columns with np.roll: the
    first p rows of block p hold the END of the series. *)
Theorem C75_lagged_columns_wrap_refuted :
  forall N n p X t c, t < p -> p < N -> c < n -> joined_x N n X t (n * p + c) = X (N + t - p) c.
Proof.
  intros N n p X t c Ht Hp Hc. unfold joined_x. destruct (div_mod_unique n p c Hc) as [-> ->]. apply np_roll_wrap; assumption.
Qed.
Print Assumptions C75_lagged_columns_wrap_refuted.
Theorem C75_lagged_columns_partial :
  forall N n p X t c, p <= t -> t < N -> c < n -> joined_x N n X t (n * p + c) = X (t - p) c.
Proof.
  intros N n p X t c Ht Hp Hc. unfold joined_x. destruct (div_mod_unique n p c Hc) as [-> ->]. apply np_roll_ok; assumption.
Qed.
Print Assumptions C75_lagged_columns_partial.
Example C75_example : map (fun t => this (joined_x 3 1 (ex_series [[1]; [2]; [4]]%Z) t 1)) [0; 1; 2] = [4; 1; 2]%Q.
Proof. vm_compute. reflexivity. Qed.

(** ** C76 *)
(** Each bootstrap series obeys the fitted autoregression, driven by the drawn residual rows. *)
Theorem C76_bootstrap_series :
  forall n N Ms lags s t i, t < N -> length Ms <= lags ->
  resampled n N Ms lags s N t i =
  if t <? lags then s t i
  else (sumn (length Ms) (fun k => sumn n (fun j => nth k Ms zmat i j * resampled n N Ms lags s N (t - (k + 1))%nat j)) + s t i)%Qc.
Proof. exact resampled_spec. Qed.
Print Assumptions C76_bootstrap_series.
Example C76_example : map (fun t => this (resampled 1 3 [ex_mat [[2]]%Z] 1 (ex_series [[1]; [1]; [5]]%Z) 3 t 0)) [0; 1; 2] = [1; 3; 11]%Q.
Proof. vm_compute. reflexivity. Qed.

(** ** C77 *)
(** From the second sample on, residuals are drawn from the fit of the PREVIOUS bootstrap series:
    the fit of X = 0,1,3 has residuals 1 and 2; the second sample draws row 1 for every time but
    its first value is 1, the residual of the first bootstrap series. *)
Definition unit_est (N : nat) (X : series) (l : nat) : list (mat Qc) * series :=
  let Ms := [ex_mat [[1]]%Z] in (Ms, var_residuals 1 Ms X).
Theorem C77_residuals_of_original_fit_refuted :
  exists X o r s1 s2 B1 B2,
  var_fit unit_est one_var (fun _ _ _ => 0%Qc) 1 false (fresh_var 1) 3 X = Ok (o, r) /\
  var_bootstrap unit_est one_var (fun _ _ _ => 0%Qc) 1 false (fresh_var 1) 3 X [(fun _ => 0); (fun _ => 1)]
    = Ok [(s1, B1); (s2, B2)] /\
  this (vo_resid o 0 0) = 1%Q /\ this (vo_resid o 1 0) = 2%Q /\ this (s1 0 0) = 1%Q /\ this (s2 0 0) = 1%Q.
Proof.
  exists (ex_series [[0]; [1]; [3]]%Z). do 6 eexists. split; [reflexivity|]. split; [reflexivity|].
  repeat split; vm_compute; reflexivity.
Qed.
Print Assumptions C77_residuals_of_original_fit_refuted.
(** The first sample does use the original residuals. *)
Theorem C77_first_sample_partial :
  forall est lingam lasso n prune o N X d ds o1 r1 s B rest,
  var_fit est lingam lasso n prune o N X = Ok (o1, r1) ->
  var_bootstrap est lingam lasso n prune o N X (d :: ds) = Ok ((s, B) :: rest) ->
  exists Ms, vo_ar o1 = Some Ms /\ s = resampled n N Ms (vo_lags o) (fun j => vo_resid o1 (d j)) N.
Proof.
  intros est lingam lasso n prune o N X d ds o1 r1 s B rest E H. unfold var_bootstrap in H. rewrite E in H. cbn [bind] in H.
  destruct (vo_ar o1) as [Ms|]; [|discriminate]. exists Ms. split; [reflexivity|]. cbn [boot_loop] in H.
  match type of H with bind ?a _ = _ => destruct a as [[o' [ord Bs]]|e]; cbn [bind] in H; [|discriminate] end.
  match type of H with bind ?a _ = _ => destruct a as [rs|e]; cbn [bind] in H; [|discriminate] end.
  injection H as <- _ _. reflexivity.
Qed.
Print Assumptions C77_first_sample_partial.
Example C77_example : exists o r s B, let X := ex_series [[0]; [1]; [3]]%Z in
  var_fit unit_est one_var (fun _ _ _ => 0%Qc) 1 false (fresh_var 1) 3 X = Ok (o, r) /\
  var_bootstrap unit_est one_var (fun _ _ _ => 0%Qc) 1 false (fresh_var 1) 3 X [fun _ => 1] = Ok [(s, B)] /\
  map (fun t => this (s t 0)) [0; 1; 2] = [2; 4; 6]%Q.
Proof. do 4 eexists. split; [reflexivity|]. split; [reflexivity|]. vm_compute. reflexivity. Qed.

(** ** C78 *)
(** bootstrap on a fitted object keeps the stored AR coefficients in every sample; on a fresh object
    they are re-estimated per sample. *)
Theorem C78_bootstrap_history_refuted :
  exists X o r s B s' B', let d := fun _ : nat => 1 in
  var_fit ls_est one_var (fun _ _ _ => 0%Qc) 1 false (fresh_var 1) 3 X = Ok (o, r) /\
  var_bootstrap ls_est one_var (fun _ _ _ => 0%Qc) 1 false (fresh_var 1) 3 X [d] = Ok [(s, B)] /\
  var_bootstrap ls_est one_var (fun _ _ _ => 0%Qc) 1 false o 3 X [d] = Ok [(s', B')] /\
  this (nth 1 B zmat 0 0) <> this (nth 1 B' zmat 0 0).
Proof.
  exists (ex_series [[1]; [0]; [1]]%Z). do 6 eexists. split; [reflexivity|].
  split; [reflexivity|]. split; [reflexivity|]. intro E. vm_compute in E. discriminate.
Qed.
Print Assumptions C78_bootstrap_history_refuted.
Theorem C78_given_coefficients_partial :
  forall est lingam lasso n prune o Ms N1 X1 o1 r1 N X draws,
  vo_ar o = Some Ms -> vo_lags o = length Ms ->
  var_fit est lingam lasso n prune o N1 X1 = Ok (o1, r1) ->
  var_bootstrap est lingam lasso n prune o1 N X draws = var_bootstrap est lingam lasso n prune o N X draws.
Proof.
  intros est lingam lasso n prune o Ms N1 X1 o1 r1 N X draws HA HL E. unfold var_bootstrap.
  rewrite (refit_given est lingam lasso n prune o Ms N1 X1 o1 r1 N X HA HL E).
  destruct (fit_sets_ar _ _ _ _ _ _ _ _ _ _ E) as [Ms' [A [L M]]]. rewrite HA in M. subst Ms'. rewrite A, L, HA, HL. reflexivity.
Qed.
Print Assumptions C78_given_coefficients_partial.
Example C78_example : exists o1 r1 s B, let d := fun _ : nat => 1 in
  var_fit ls_est one_var (fun _ _ _ => 0%Qc) 1 false given_var 3 (ex_series [[1]; [2]; [4]]%Z) = Ok (o1, r1) /\
  var_bootstrap ls_est one_var (fun _ _ _ => 0%Qc) 1 false o1 3 (ex_series [[1]; [0]; [1]]%Z) [d] = Ok [(s, B)] /\ this (nth 1 B zmat 0 0) = 5%Q.
Proof. do 4 eexists. split; [reflexivity|]. split; [reflexivity|]. vm_compute. reflexivity. Qed.

(** ** C79 *)
(** Pruning works with the constructor's [lags], not with the number of coefficient matrices. *)
Theorem C79_given_lag_order_refuted :
  forall est lingam lasso n o Ms N X,
  vo_ar o = Some Ms -> vo_lags o < length Ms -> 1 <= n ->
  (forall rows R i, i < n -> In i (fst (lingam rows R))) ->
  var_fit est lingam lasso n true o N X = Err ValueError.
Proof. exact fit_lag_mismatch. Qed.
Print Assumptions C79_given_lag_order_refuted.
Example C79_example :
  var_fit unit_est one_var (fun _ _ _ => 0%Qc) 1 true
    {| vo_ar := Some [ex_mat [[1]]%Z; ex_mat [[1]]%Z]; vo_lags := 1; vo_resid := fun _ _ => 0%Qc; vo_rows := 0 |} 5
    (ex_series [[1]; [0]; [1]; [3]; [2]]%Z) = Err ValueError.
Proof. vm_compute. reflexivity. Qed.
(** When the two agree (or the constructor's [lags] is larger) pruning never fails. *)
Theorem C79_lag_order_partial :
  forall est lingam lasso n o Ms N X,
  vo_ar o = Some Ms -> length Ms <= vo_lags o -> 1 <= vo_lags o ->
  (forall rows R, is_order n (fst (lingam rows R))) ->
  exists o' r, var_fit est lingam lasso n true o N X = Ok (o', r).
Proof.
  intros est lingam lasso n o Ms N X HA HL H1 HO. unfold var_fit. rewrite HA.
  pose proof (HO (N - length Ms) (var_residuals n Ms X)) as O.
  destruct (lingam (N - length Ms) (var_residuals n Ms X)) as [ord B0]. cbn [fst] in O.
  destruct (C43_pruning_alignment lasso N n (vo_lags o) X ord (calc_b n B0 Ms) H1) as [Bs' [E _]];
    [discriminate|unfold calc_b; cbn [length]; rewrite map_length; lia|exact O|].
  rewrite E. cbn [bind]. do 2 eexists. reflexivity.
Qed.
Print Assumptions C79_lag_order_partial.

(** ** C80 *)
Theorem C80_varma_residuals :
  forall n AR MA X noise N t i, let d := Nat.max (length AR) (length MA) in
  let e := varma_residuals n AR MA X noise N in
  d + d <= t -> t < N ->
  X t i = (sumn (length AR) (fun k => sumn n (fun j => nth k AR zmat i j * X (t - (k + 1))%nat j)) +
           sumn (length MA) (fun k => sumn n (fun j => nth k MA zmat i j * e (t - d - (k + 1))%nat j)) +
           e (t - d)%nat i)%Qc.
Proof.
  intros n AR MA X noise N t i d e Ht HN. unfold e, varma_residuals. fold d.
  replace (t - d + d) with t by lia. rewrite (eps_rec n AR MA X noise N t i HN) by (fold d; lia).
  rewrite (sumn_ext (length MA) (fun k => sumn n (fun j => nth k MA zmat i j * eps n AR MA X noise N (t - d - (k + 1) + d)%nat j))%Qc
     (fun k => sumn n (fun j => nth k MA zmat i j * eps n AR MA X noise N (t - (k + 1))%nat j))%Qc).
  - ring.
  - intros k Hk. replace (t - d - (k + 1) + d) with (t - (k + 1)) by (subst d; lia). reflexivity.
Qed.
Print Assumptions C80_varma_residuals.
Example C80_example : (* AR(1) 1, MA(1) 2, noise 0 *)
  map (fun t => this (varma_residuals 1 [ex_mat [[1]]%Z] [ex_mat [[2]]%Z] (ex_series [[1]; [2]; [4]; [5]]%Z) (fun _ _ => 0%Qc) 4 t 0)) [0; 1; 2]
  = [1; 0; 1]%Q.
Proof. vm_compute. reflexivity. Qed.
