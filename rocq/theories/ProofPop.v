(** * Correctness on data from a linear acyclic model: lemmas *)
From Coq Require Import List Arith Bool ZArith QArith Qcanon Lia Permutation Relations.
From Verif Require Import Prelude Spec Lib LibMat SpecDirect SpecPop ModelDirect ProofDirect ProofDirect2 ModelTotal.
Import ListNotations.
Open Scope nat_scope.

Lemma Qcsq_nonneg : forall a, (0 <= a * a)%Qc.
Proof.
  intro a. destruct (Qclt_le_dec a 0) as [H|H].
  - apply Qclt_le_weak, Qcopp_le_compat in H. replace (- 0)%Qc with 0%Qc in H by ring. pose proof (Qcmult_le_compat_r _ _ _ H H) as G.
    replace (0 * - a)%Qc with 0%Qc in G by ring. replace (- a * - a)%Qc with (a * a)%Qc in G by ring. exact G.
  - pose proof (Qcmult_le_compat_r _ _ _ H H) as G. replace (0 * a)%Qc with 0%Qc in G by ring. exact G.
Qed.
Lemma qn_nonzero : forall n, 0 < n -> qn n <> 0%Qc.
Proof.
  intros n H E. assert (P : (0 < qn n)%Qc); [|rewrite E in P; discriminate].
  change 0%Qc with (qz 0). unfold qn, qz, Qclt. cbn [this Q2Qc]. rewrite !Qred_correct. rewrite <- Zlt_Qlt. lia.
Qed.
(** ** Covariance *)
Lemma mean_ext : forall N x y, (forall r, r < N -> x r = y r) -> mean N x = mean N y.
Proof. intros N x y H. unfold mean. f_equal. apply sumn_ext. exact H. Qed.
Lemma cov_ext : forall N x x' y y', (forall r, r < N -> x r = x' r) -> (forall r, r < N -> y r = y' r) -> cov N x y = cov N x' y'.
Proof.
  intros N x x' y y' H1 H2. unfold cov. rewrite (mean_ext N x x' H1), (mean_ext N y y' H2). f_equal. apply sumn_ext. intros r Hr. rewrite H1, H2 by exact Hr. reflexivity.
Qed.
Lemma cov_sym : forall N x y, cov N x y = cov N y x.
Proof. intros. unfold cov. f_equal. apply sumn_ext. intros. ring. Qed.
Lemma mean_lin : forall N a b x y, mean N (fun r => a * x r + b * y r)%Qc = (a * mean N x + b * mean N y)%Qc.
Proof.
  intros. unfold mean. rewrite (sumn_plus N (fun r => a * x r)%Qc (fun r => b * y r)%Qc), !sumn_scal. unfold Qcdiv. ring.
Qed.
Lemma cov_lin : forall N a b x y z, cov N (fun r => a * x r + b * y r)%Qc z = (a * cov N x z + b * cov N y z)%Qc.
Proof.
  intros. unfold cov. rewrite mean_lin.
  rewrite (sumn_ext N _ (fun r => a * ((x r - mean N x) * (z r - mean N z)) + b * ((y r - mean N y) * (z r - mean N z)))%Qc) by (intros; ring).
  rewrite (sumn_plus N (fun r => a * ((x r - mean N x) * (z r - mean N z)))%Qc (fun r => b * ((y r - mean N y) * (z r - mean N z)))%Qc), !sumn_scal. unfold Qcdiv. ring.
Qed.
Lemma cov_plus : forall N x y z, cov N (fun r => x r + y r)%Qc z = (cov N x z + cov N y z)%Qc.
Proof.
  intros. rewrite (cov_ext N _ (fun r => 1 * x r + 1 * y r)%Qc z z) by (intros; try reflexivity; ring). rewrite cov_lin. ring.
Qed.
Lemma cov_minus : forall N x y z, cov N (fun r => x r - y r)%Qc z = (cov N x z - cov N y z)%Qc.
Proof.
  intros. rewrite (cov_ext N _ (fun r => 1 * x r + (- (1)) * y r)%Qc z z) by (intros; try reflexivity; ring). rewrite cov_lin. ring.
Qed.
Lemma cov_scal : forall N a x z, cov N (fun r => a * x r)%Qc z = (a * cov N x z)%Qc.
Proof.
  intros. rewrite (cov_ext N _ (fun r => a * x r + 0 * x r)%Qc z z) by (intros; try reflexivity; ring). rewrite cov_lin. ring.
Qed.
Lemma cov_zero : forall N z, cov N (fun _ => 0%Qc) z = 0%Qc.
Proof. intros. rewrite (cov_ext N _ (fun r => 0 * z r)%Qc z z) by (intros; try reflexivity; ring). rewrite cov_scal. ring. Qed.
Lemma cov_sumf : forall A N (l : list A) (f : A -> sample) z, cov N (fun r => sumf l (fun p => f p r)) z = sumf l (fun p => cov N (f p) z).
Proof.
  intros A N l f z. induction l as [|a l IH].
  - rewrite (cov_ext N _ (fun _ => 0%Qc) z z) by (intros; reflexivity). apply cov_zero.
  - rewrite sumf_cons, <- IH. rewrite <- cov_plus. apply cov_ext; intros; [rewrite sumf_cons|]; reflexivity.
Qed.
Lemma cov_wsum : forall N (l : list nat) (c : nat -> Qc) (x : nat -> sample) z,
  cov N (fun r => sumf l (fun p => c p * x p r))%Qc z = sumf l (fun p => c p * cov N (x p) z)%Qc.
Proof. intros. rewrite (cov_sumf nat N l (fun p r => c p * x p r)%Qc z). apply sumf_ext. intros p _. apply cov_scal. Qed.
(** A variable with zero variance is uncorrelated with everything. *)
Lemma var_zero : forall N x y, 0 < N -> var N x = 0%Qc -> cov N x y = 0%Qc.
Proof.
  intros N x y HN H. unfold var, cov in *.
  assert (NZ : qn N <> 0%Qc) by (apply qn_nonzero; exact HN).
  assert (S : sumn N (fun r => (x r - mean N x) * (x r - mean N x))%Qc = 0%Qc).
  { transitivity ((sumn N (fun r => (x r - mean N x) * (x r - mean N x)) / qn N) * qn N)%Qc; [field; exact NZ|rewrite H; ring]. }
  assert (D : forall r, r < N -> (x r - mean N x = 0)%Qc).
  { intros r Hr. assert (Q : ((x r - mean N x) * (x r - mean N x) = 0)%Qc).
    { apply (sumf_nonneg_zero nat (fun r => (x r - mean N x) * (x r - mean N x))%Qc (seq 0 N)); [intros; apply Qcsq_nonneg|exact S|apply in_seq; lia]. }
    apply Qcmult_integral in Q. destruct Q; assumption. }
  rewrite sumn_zero; [unfold Qcdiv; ring|]. intros r Hr. rewrite D by exact Hr. ring.
Qed.

(** ** One step of the search *)
Lemma regress_out_at : forall Col (residual : Col -> Col -> Col) X U m i, NoDup U ->
  regress_out Col residual X U m i = if memb i U && negb (i =? m) then residual (X i) (X m) else X i.
Proof.
  intros Col residual X U m i. unfold regress_out. revert X. induction U as [|u U IH]; intros X ND; [reflexivity|].
  apply NoDup_cons_iff in ND. destruct ND as [Nu ND]. cbn [fold_left]. rewrite IH by exact ND. unfold memb. cbn [existsb].
  destruct (Nat.eqb_spec u m) as [->|Num].
  - destruct (i =? m); cbn [negb]; [rewrite !andb_false_r; reflexivity|]. rewrite !andb_true_r. reflexivity.
  - assert (M : upd X u (residual (X u) (X m)) m = X m) by (unfold upd; destruct (Nat.eqb_spec m u); [congruence|reflexivity]). rewrite M.
    destruct (Nat.eqb_spec i u) as [->|Niu].
    + assert (Z : existsb (Nat.eqb u) U = false). { destruct (existsb (Nat.eqb u) U) eqn:E; [|reflexivity]. apply existsb_exists in E. destruct E as (y & Hy & E). apply Nat.eqb_eq in E. subst y. contradiction. }
      rewrite Z. cbn [orb andb]. destruct (Nat.eqb_spec u m); [contradiction|]. cbn [negb]. unfold upd. rewrite Nat.eqb_refl. reflexivity.
    + assert (Q : upd X u (residual (X u) (X m)) i = X i) by (unfold upd; destruct (Nat.eqb_spec i u); [congruence|reflexivity]). rewrite Q. reflexivity.
Qed.

Section Step.
  Variables (N n : nat) (B : mat Qc) (e : nat -> sample).
  Hypothesis variance : forall i, i < n -> (0 < var N (e i))%Qc.
  Hypothesis uncorrelated : forall i j, i < n -> j < n -> i <> j -> cov N (e i) (e j) = 0%Qc.

  Lemma sub_exo : forall U X m r, submodel N B e U X -> In m U -> exogenous_in B U m -> r < N -> X m r = e m r.
  Proof.
    intros U X m r S Hm Ex Hr. rewrite (S m r Hm Hr). rewrite sumf_zero; [ring|]. intros j Hj. rewrite (Ex j Hj). ring.
  Qed.
  Lemma sumf_split : forall U m (f : nat -> Qc), NoDup U -> In m U -> sumf U f = (f m + sumf (remove_nat m U) f)%Qc.
  Proof.
    intros U m f ND Hm. rewrite (sumf_perm _ f _ _ (remove_nat_perm m U ND Hm)). apply sumf_cons.
  Qed.
  Lemma submodel_step : forall U X m, NoDup U -> (forall i, In i U -> i < n) -> In m U -> exogenous_in B U m -> submodel N B e U X ->
    submodel N B e (remove_nat m U) (regress_out sample (np_residual N) X U m).
  Proof.
    intros U X m ND HU Hm Ex S.
    assert (VM : var N (X m) = var N (e m)) by (unfold var; apply cov_ext; intros r Hr; apply (sub_exo U X m r S Hm Ex Hr)).
    assert (VZ : var N (X m) <> 0%Qc). { rewrite VM. intro E. pose proof (variance m (HU m Hm)) as Q. rewrite E in Q. discriminate. }
    set (c := fun i => (cov N (X i) (X m) / var N (X m))%Qc).
    assert (CM : c m = 1%Qc) by (unfold c; fold (var N (X m)); field; exact VZ).
    assert (CI : forall i, In i U -> i <> m -> c i = sumf U (fun j => B i j * c j)%Qc).
    { intros i Hi Nim. unfold c.
      assert (Q : cov N (X i) (X m) = (sumf U (fun j => B i j * cov N (X j) (X m)) + cov N (e i) (X m))%Qc).
      { rewrite <- (cov_wsum N U (B i) X (X m)), <- cov_plus. apply cov_ext; [intros r Hr; apply (S i r Hi Hr)|intros; reflexivity]. }
      assert (Z : cov N (e i) (X m) = 0%Qc).
      { rewrite (cov_ext N _ (e i) _ (e m)); [apply uncorrelated; [apply HU; exact Hi|apply HU; exact Hm|exact Nim]|intros; reflexivity|intros r Hr; apply (sub_exo U X m r S Hm Ex Hr)]. }
      rewrite Q, Z. rewrite (sumf_ext _ (fun j => B i j * (cov N (X j) (X m) / var N (X m)))%Qc (fun j => (B i j * cov N (X j) (X m)) * / var N (X m))%Qc) by (intros; unfold Qcdiv; ring).
      rewrite sumf_scal_r. unfold Qcdiv. ring. }
    intros i r Hi Hr. apply remove_nat_In in Hi. destruct Hi as [Hi Nim].
    assert (R : forall j, In j (remove_nat m U) -> regress_out sample (np_residual N) X U m j r = (X j r - c j * X m r)%Qc).
    { intros j Hj. apply remove_nat_In in Hj. destruct Hj as [Hj Njm]. rewrite regress_out_at by exact ND.
      assert (T : memb j U = true) by (apply existsb_exists; exists j; split; [exact Hj|apply Nat.eqb_refl]). rewrite T. destruct (Nat.eqb_spec j m); [contradiction|]. reflexivity. }
    rewrite R by (apply remove_nat_In; split; assumption). rewrite (sumf_ext _ _ (fun j => B i j * X j r - (B i j * c j) * X m r)%Qc) by (intros j Hj; rewrite R by exact Hj; ring).
    rewrite (sumf_minus _ (fun j => B i j * X j r)%Qc (fun j => (B i j * c j) * X m r)%Qc), sumf_scal_r.
    rewrite (S i r Hi Hr), (CI i Hi Nim). rewrite !(sumf_split U m _ ND Hm). rewrite CM. ring.
  Qed.
End Step.

(** ** The best score belongs to a variable without parents *)
(** [better v w]: the comparison the search uses: larger for pwling, smaller for kernel. *)
Definition better (ms : measure) (v w : Qc) : Prop := match ms with Pwling => (w < v)%Qc | Kernel => (v < w)%Qc end.
Definition betterb (ms : measure) (v w : Qc) : bool := match ms with Pwling => qltb w v | Kernel => qltb v w end.
Lemma betterb_iff : forall ms v w, betterb ms v w = true <-> better ms v w.
Proof. intros [] v w; cbn; apply qltb_lt. Qed.
Lemma better_asym : forall ms v w, better ms v w -> better ms w v -> False.
Proof. intros [] v w H1 H2; cbn in *; exact (Qclt_not_le _ _ H1 (Qclt_le_weak _ _ H2)). Qed.
Lemma argbest_good : forall ms (sc : nat -> num) (P : nat -> Prop) Uc,
  (forall i, In i Uc -> exists v, sc i = Some v) ->
  (forall i, In i Uc -> P i \/ ~ P i) ->
  (forall i j v w, In i Uc -> In j Uc -> P i -> ~ P j -> sc i = Some v -> sc j = Some w -> better ms v w) ->
  forall l p bi xb b, Uc = p ++ l -> nth_error Uc bi = Some xb -> sc xb = Some b ->
  (P xb \/ exists i, In i l /\ P i) ->
  exists x, nth_error Uc (argbest (betterb ms) (Some b) bi (length p) (map sc l)) = Some x /\ P x.
Proof.
  intros ms sc P Uc TOT DEC GOOD l. induction l as [|y l IH]; intros p bi xb b E Nb Sb H; cbn [map argbest].
  - destruct H as [H|(i & [] & _)]. exists xb. split; assumption.
  - assert (Iy : In y Uc) by (rewrite E; apply in_app_iff; right; left; reflexivity).
    assert (Ib : In xb Uc) by (eapply nth_error_In; exact Nb).
    destruct (TOT y Iy) as [v Sv]. rewrite Sv.
    assert (Ny : nth_error Uc (length p) = Some y) by (rewrite E, nth_error_app2 by lia; rewrite Nat.sub_diag; reflexivity).
    assert (E' : Uc = (p ++ [y]) ++ l) by (rewrite <- app_assoc; exact E).
    assert (L : S (length p) = length (p ++ [y])) by (rewrite app_length; cbn; lia).
    destruct (betterb ms v b) eqn:F; rewrite L.
    + apply (IH (p ++ [y]) (length p) y v E' Ny Sv).
      destruct H as [H|(i & [->|Hi] & Pi)]; [|left; exact Pi|right; exists i; split; assumption].
      destruct (DEC y Iy) as [D|D]; [left; exact D|]. exfalso.
      apply betterb_iff in F. exact (better_asym ms v b F (GOOD xb y b v Ib Iy H D Sb Sv)).
    + apply (IH (p ++ [y]) bi xb b E' Nb Sb).
      destruct H as [H|(i & [->|Hi] & Pi)]; [left; exact H| |right; exists i; split; assumption].
      destruct (DEC xb Ib) as [D|D]; [left; exact D|]. exfalso.
      pose proof (GOOD i xb v b Iy Ib Pi D Sv Sb) as G. apply betterb_iff in G. congruence.
Qed.
Lemma argsel_best : forall ms (sc : nat -> num) (P : nat -> Prop) Uc,
  (forall i, In i Uc -> exists v, sc i = Some v) ->
  (forall i, In i Uc -> P i \/ ~ P i) ->
  (forall i j v w, In i Uc -> In j Uc -> P i -> ~ P j -> sc i = Some v -> sc j = Some w -> better ms v w) ->
  (exists i, In i Uc /\ P i) ->
  exists k x, argsel_of ms (map sc Uc) = Some k /\ nth_error Uc k = Some x /\ P x.
Proof.
  intros ms sc P Uc TOT DEC GOOD (i & Hi & Pi). destruct Uc as [|y l]; [contradiction|].
  destruct (TOT y (or_introl eq_refl)) as [b Sb].
  destruct (argbest_good ms sc P (y :: l) TOT DEC GOOD l [y] 0 y b eq_refl eq_refl Sb) as (x & Nx & Px).
  { destruct Hi as [->|Hi]; [left; exact Pi|right; exists i; split; assumption]. }
  exists (argbest (betterb ms) (Some b) 0 1 (map sc l)), x. split; [|split; [exact Nx|exact Px]].
  destruct ms; cbn [argsel_of np_argmax np_argmin map]; rewrite Sb; reflexivity.
Qed.

(** ** The whole search *)
Lemma exo_dec : forall B U i, exogenous_in B U i \/ ~ exogenous_in B U i.
Proof.
  intros B U i. destruct (forallb (fun j => qeqb (B i j) 0) U) eqn:E.
  - left. intros j Hj. rewrite forallb_forall in E. apply qeqb_eq. apply E. exact Hj.
  - right. intro H. assert (T : forallb (fun j => qeqb (B i j) 0) U = true); [|congruence].
    apply forallb_forall. intros j Hj. apply qeqb_eq. apply H. exact Hj.
Qed.

(** Knowledge that agrees with an order [l]: nothing, or strong knowledge whose constraints [l] obeys. *)
Definition po_agrees (l : list nat) (mode : pk_mode) (po : list (nat * nat)) (U : list nat) : Prop :=
  match mode with NoPK => True | Strong _ => forall a b, In (a, b) po -> precedes l a b /\ In a U | Soft _ => False end.
Lemma po_agrees_step : forall l mode po U m, po_agrees l mode po U -> po_agrees l mode (po_step mode m po) (remove_nat m U).
Proof.
  intros l [|pk|pk] po U m H; [exact I| |exact H]. intros a b Hab. cbn in Hab. apply filter_In in Hab. destruct Hab as [Hab Hne].
  cbn in Hne. apply negb_true_iff, Nat.eqb_neq in Hne. destruct (H a b Hab) as [P Ha]. split; [exact P|]. apply remove_nat_In. auto.
Qed.
Lemma candidates_Vj : forall l mode po U, po_agrees l mode po U -> snd (search_candidate mode po U) = [].
Proof. intros l [|pk|pk] po U H; [reflexivity| |contradiction]. cbn. destruct po; reflexivity. Qed.
Lemma candidates_first : forall l mode po U x, po_agrees l mode po U -> In x U -> (forall y, In y U -> ~ precedes l y x) ->
  In x (fst (search_candidate mode po U)).
Proof.
  intros l [|pk|pk] po U x H Hx F; [exact Hx| |contradiction]. apply strong_candidate. split; [exact Hx|]. intros a Ha.
  destruct (H a x Ha) as [P Hau]. exact (F a Hau P).
Qed.

(** [t] lists the variables of [U] so that no variable has a parent in [U] outside the ones before it. *)
Fixpoint exo_sequence (B : mat Qc) (U t : list nat) : Prop :=
  match t with [] => True | m :: t => In m U /\ exogenous_in B U m /\ exo_sequence B (remove_nat m U) t end.

Section Loop.
  Variables (N n : nat) (B : mat Qc) (e : nat -> sample).
  Hypothesis variance : forall i, i < n -> (0 < var N (e i))%Qc.
  Hypothesis uncorrelated : forall i j, i < n -> j < n -> i <> j -> cov N (e i) (e j) = 0%Qc.
  Variable l : list nat.
  Hypothesis order : is_order n l.
  Hypothesis topo : topological (edge_of n B) l.
  Variable ms : measure.
  Variable score : (nat -> sample) -> list nat -> list nat -> list nat -> nat -> num.
  Hypothesis defined : forall U x Uc i, NoDup U -> (forall i, In i U -> i < n) -> submodel N B e U x -> (forall i, In i Uc -> In i U) -> In i Uc ->
    exists v, score x U Uc [] i = Some v.
  Hypothesis faithful : forall U x Uc i j v w, NoDup U -> (forall i, In i U -> i < n) -> submodel N B e U x -> (forall i, In i Uc -> In i U) ->
    In i Uc -> In j Uc -> exogenous_in B U i -> ~ exogenous_in B U j ->
    score x U Uc [] i = Some v -> score x U Uc [] j = Some w -> better ms v w.

  Lemma first_exogenous : forall U, (forall i, In i U -> i < n) -> U <> [] -> exists x, In x U /\ (forall y, In y U -> ~ precedes l y x) /\ exogenous_in B U x.
  Proof.
    intros U HU NE. destruct (exists_first l U) as (x & Hx & F); [apply (Permutation_NoDup (Permutation_sym order)), seq_NoDup| |exact NE|].
    { intros y Hy. apply (Permutation_in _ (Permutation_sym order)). apply in_seq. specialize (HU y Hy). lia. }
    exists x. split; [exact Hx|]. split; [exact F|]. intros y Hy. destruct (Qc_eq_dec (B x y) 0) as [Z|Z]; [exact Z|].
    exfalso. apply (F y Hy). apply topo. split; [apply HU; exact Hx|]. split; [apply HU; exact Hy|exact Z].
  Qed.
  Lemma search_exogenous : forall mode po X U, NoDup U -> (forall i, In i U -> i < n) -> U <> [] -> submodel N B e U X -> po_agrees l mode po U ->
    exists m, search_causal_order sample score (argsel_of ms) mode po X U = Ok m /\ In m U /\ exogenous_in B U m.
  Proof.
    intros mode po X U ND HU NE S A. destruct (first_exogenous U HU NE) as (x & Hx & F & Ex).
    pose proof (candidates_first l mode po U x A Hx F) as Cx. pose proof (candidates_Vj l mode po U A) as V.
    pose proof (candidate_incl mode po U) as Inc. unfold search_causal_order. destruct (search_candidate mode po U) as [Uc Vj]. cbn [fst snd] in *. subst Vj.
    assert (G : exists k m, argsel_of ms (map (score X U Uc []) Uc) = Some k /\ nth_error Uc k = Some m /\ exogenous_in B U m).
    { apply argsel_best; [intros i Hi; apply defined; assumption|intros; apply exo_dec|intros i j v w Hi Hj Pi Pj Si Sj; eapply (faithful U X Uc i j); eassumption|].
      exists x. split; assumption. }
    destruct G as (k & m & G1 & G2 & G3).
    destruct Uc as [|y [|z Uc]]; [contradiction| |].
    - exists y. destruct Cx as [->|[]]. split; [reflexivity|]. split; assumption.
    - rewrite G1, G2. exists m. split; [reflexivity|]. split; [apply Inc; eapply nth_error_In; exact G2|exact G3].
  Qed.
  Lemma loop_exogenous : forall s mode po X U K, NoDup U -> (forall i, In i U -> i < n) -> length U = s -> submodel N B e U X -> po_agrees l mode po U ->
    exists t, fit_loop sample (np_residual N) score (argsel_of ms) s mode po X U K = Ok (K ++ t) /\ exo_sequence B U t /\ Permutation t U.
  Proof.
    induction s as [|s IH]; intros mode po X U K ND HU LU S A.
    - destruct U; [|discriminate]. exists []. rewrite app_nil_r. split; [reflexivity|]. split; [exact I|constructor].
    - cbn [fit_loop]. destruct (search_exogenous mode po X U ND HU ltac:(destruct U; [discriminate|congruence]) S A) as (m & E & Hm & Ex).
      rewrite E. cbn [bind]. change (match mode with Strong _ => filter (fun p => negb (fst p =? m)) po | _ => po end) with (po_step mode m po).
      destruct (IH mode (po_step mode m po) (regress_out sample (np_residual N) X U m) (remove_nat m U) (K ++ [m])) as (t & E2 & Q & P).
      + apply remove_nat_NoDup. exact ND.
      + intros i Hi. apply remove_nat_In in Hi. apply HU. apply Hi.
      + apply remove_nat_length in Hm; [lia|exact ND].
      + apply (submodel_step N n B e variance uncorrelated); assumption.
      + apply po_agrees_step. exact A.
      + exists (m :: t). rewrite E2, <- app_assoc. split; [reflexivity|]. split; [cbn; auto|].
        apply Permutation_trans with (m :: remove_nat m U); [constructor; exact P|apply Permutation_sym, remove_nat_perm; assumption].
  Qed.
End Loop.
Lemma exo_sequence_topological : forall B t U, NoDup U -> exo_sequence B U t -> Permutation t U ->
  forall a b, In a U -> In b U -> B b a <> 0%Qc -> precedes t a b.
Proof.
  intros B t. induction t as [|m t IH]; intros U ND H P a b Ha Hb Bab; cbn in H.
  - apply Permutation_nil in P. subst U. contradiction.
  - destruct H as (Hm & Ex & H). assert (b <> m) by (intros ->; apply Bab; apply Ex; exact Ha).
    assert (P' : Permutation t (remove_nat m U)) by (apply (Permutation_cons_inv (a := m)); apply (Permutation_trans P), remove_nat_perm; assumption).
    assert (Hb' : In b (remove_nat m U)) by (apply remove_nat_In; split; assumption).
    destruct (Nat.eq_dec a m) as [->|D].
    + apply (Permutation_in _ (Permutation_sym P')) in Hb'. apply in_split in Hb'. destruct Hb' as (l1 & l2 & ->). exists [], l1, l2. reflexivity.
    + destruct (IH (remove_nat m U)) with (a := a) (b := b) as (l1 & l2 & l3 & ->); try assumption; [apply remove_nat_NoDup; exact ND|apply remove_nat_In; split; assumption|].
      exists (m :: l1), l2, l3. reflexivity.
Qed.
