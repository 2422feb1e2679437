(** * An explicit least-squares solver and finite checks of linear models, for the examples *)
From Coq Require Import List Arith Bool ZArith QArith Qcanon Lia Relations.
From Verif Require Import Prelude Spec Lib SpecPop SpecRCDPop ProofPop ProofPop2 ProofPop3.
Import ListNotations.
Open Scope nat_scope.

(** The first [N] values, computed once. *)
Definition tab (N : nat) (y : sample) : sample := let l := map y (seq 0 N) in fun r => nth r l 0%Qc.
Lemma tab_eq : forall N y r, r < N -> tab N y r = y r.
Proof.
  intros N y r Hr. unfold tab. cbv zeta. rewrite (nth_indep _ 0%Qc (y 0)) by (rewrite map_length, seq_length; exact Hr).
  rewrite map_nth, seq_nth by exact Hr. reflexivity.
Qed.
Lemma cov_tab : forall N y z, cov N (tab N y) (tab N z) = cov N y z.
Proof. intros. apply cov_ext; intros; apply tab_eq; assumption. Qed.

(** Covariance with the two means computed once. *)
Definition fcov (N : nat) (y z : sample) : Qc :=
  let y := tab N y in let z := tab N z in let my := mean N y in let mz := mean N z in
  (sumn N (fun r => (y r - my) * (z r - mz)) / qn N)%Qc.
Lemma fcov_eq : forall N y z, fcov N y z = cov N y z.
Proof. intros. rewrite <- cov_tab. reflexivity. Qed.

(** Gram-Schmidt: coefficients of the regression of [y] on the columns [ps] of [x]. *)
Fixpoint gs (N : nat) (x : nat -> sample) (ps : list nat) (y : sample) : nat -> Qc :=
  match ps with
  | [] => fun _ => 0%Qc
  | p :: r => let cy := gs N x r y in let cp := gs N x r (x p) in
              let u := tab N (fun k => x p k - sumf r (fun q => cp q * x q k))%Qc in
              let v := tab N (fun k => y k - sumf r (fun q => cy q * x q k))%Qc in
              let b := (fcov N v u / fcov N u u)%Qc in
              fun q => if q =? p then b else (cy q - b * cp q)%Qc
  end.
Lemma gs_solves : forall N, 0 < N -> solves_least_squares N (gs N).
Proof.
  intros N HN x ps. induction ps as [|p r IH]; intros y ND q Hq; [contradiction|].
  inversion ND as [|? ? NI NDr]. subst. set (c := gs N x (p :: r) y).
  set (cy := gs N x r y). set (cp := gs N x r (x p)).
  set (u := (fun k => x p k - sumf r (fun q => cp q * x q k))%Qc : sample). set (v := (fun k => y k - sumf r (fun q => cy q * x q k))%Qc : sample).
  set (b := (cov N v u / cov N u u)%Qc).
  assert (CB : c p = b).
  { unfold c. cbn [gs]. rewrite Nat.eqb_refl. rewrite !fcov_eq, !cov_tab. reflexivity. }
  assert (CR : forall q, In q r -> c q = (cy q - b * cp q)%Qc).
  { intros k Ik. unfold c. cbn [gs]. destruct (Nat.eqb_spec k p) as [->|_]; [contradiction|]. rewrite !fcov_eq, !cov_tab. reflexivity. }
  assert (W : forall z, cov N (fun k => y k - sumf (p :: r) (fun q => c q * x q k))%Qc z = (cov N v z - b * cov N u z)%Qc).
  { intro z. rewrite (cov_ext N _ (fun k => 1 * v k + - b * u k)%Qc z z); [rewrite cov_lin; ring| |reflexivity].
    intros k Hk. rewrite sumf_cons, CB, (sumf_ext _ (fun q => c q * x q k)%Qc (fun q => cy q * x q k - b * (cp q * x q k))%Qc r) by (intros k' I'; rewrite (CR k' I'); ring).
    rewrite sumf_minus, sumf_scal. unfold u, v. ring. }
  assert (OR : forall q, In q r -> cov N v (x q) = 0%Qc /\ cov N u (x q) = 0%Qc) by (intros k Ik; split; [apply (IH y NDr k Ik)|apply (IH (x p) NDr k Ik)]).
  assert (OQ : forall w, (forall k, In k r -> cov N w (x k) = 0%Qc) -> cov N w (x p) = cov N w u).
  { intros w Ow. unfold u. rewrite (cov_sym N w (fun k => x p k - sumf r (fun q => cp q * x q k))%Qc), (cov_minus N (x p) (fun k => sumf r (fun q => cp q * x q k))%Qc w), (cov_wsum N r cp x w).
    rewrite sumf_zero; [rewrite (cov_sym N (x p) w); ring|]. intros k Ik. rewrite (cov_sym N (x k) w), (Ow k Ik). ring. }
  rewrite W. destruct Hq as [<-|Iq].
  - rewrite (OQ v (fun k Ik => proj1 (OR k Ik))), (OQ u (fun k Ik => proj2 (OR k Ik))). unfold b.
    destruct (Qc_eq_dec (cov N u u) 0) as [Z|Z]; [|field; exact Z].
    rewrite Z, (cov_sym N v u), (var_zero N u v HN Z). ring.
  - destruct (OR q Iq) as [-> ->]. ring.
Qed.

(** ** Tests with ideal answers *)
Definition ex_corr (N : nat) (y z : sample) : bool := negb (qeqb (fcov N y z) 0).
Definition ex_ind (N m : nat) (e : nat -> sample) (y z : sample) : bool :=
  let y := tab N y in let z := tab N z in forallb (fun k => qeqb (fcov N y (e k)) 0 || qeqb (fcov N z (e k)) 0) (seq 0 m).
Lemma ex_corr_ideal : forall N m e, ideal_correlation N m e (ex_corr N).
Proof. intros N m e y z _ _. unfold ex_corr. rewrite fcov_eq, negb_true_iff. destruct (qeqb (cov N y z) 0) eqn:Q; [apply qeqb_eq in Q; split; [discriminate|contradiction]|]. split; [|reflexivity]. intros _ Z. apply qeqb_eq in Z. congruence. Qed.
Lemma ex_ind_ideal : forall N m e, ideal_independence N m e (ex_ind N m e).
Proof.
  intros N m e y z _ _. unfold ex_ind. cbv zeta. rewrite forallb_forall.
  assert (T : forall w k, fcov N (tab N w) (e k) = cov N w (e k)) by (intros; rewrite fcov_eq; apply cov_ext; intros; [apply tab_eq; assumption|reflexivity]).
  split.
  - intros H k Hk. assert (I : In k (seq 0 m)) by (apply in_seq; lia). specialize (H k I). rewrite !T, orb_true_iff, !qeqb_eq in H. exact H.
  - intros H k Ik. apply in_seq in Ik. rewrite !T, orb_true_iff, !qeqb_eq. apply H. lia.
Qed.
Lemma ex_normality_ideal : forall N m e, ideal_normality N m e (fun _ => true).
Proof. intros N m e y _ _. reflexivity. Qed.

(** ** Linear models given by a list of edges (cause, effect) with coefficient 1 *)
Definition pmem (j i : nat) (l : list (nat * nat)) : bool := existsb (fun p => (fst p =? j) && (snd p =? i)) l.
Lemma pmem_In : forall j i l, pmem j i l = true <-> In (j, i) l.
Proof.
  intros j i l. unfold pmem. rewrite existsb_exists. split.
  - intros ((a & b) & I & Q). cbn in Q. apply andb_true_iff in Q. rewrite !Nat.eqb_eq in Q. destruct Q as [-> ->]. exact I.
  - intro I. exists (j, i). split; [exact I|]. cbn. rewrite !Nat.eqb_refl. reflexivity.
Qed.
Definition B_of (E : list (nat * nat)) : mat Qc := fun i j => if pmem j i E then 1%Qc else 0%Qc.
Definition all2 (a b : nat) (f : nat -> nat -> bool) : bool := forallb (fun i => forallb (f i) (seq 0 b)) (seq 0 a).
Lemma all2_spec : forall a b f, all2 a b f = true -> forall i j, i < a -> j < b -> f i j = true.
Proof. intros a b f H i j Hi Hj. unfold all2 in H. rewrite forallb_forall in H. specialize (H i ltac:(apply in_seq; lia)). rewrite forallb_forall in H. apply H, in_seq. lia. Qed.
(** [CL] is the list of pairs (ancestor, descendant). *)
Definition model_check (N m : nat) (E CL : list (nat * nat)) (e x : nat -> sample) : bool :=
  forallb (fun p => pmem (fst p) (snd p) CL) E &&
  forallb (fun p => forallb (fun q => negb (snd p =? fst q) || pmem (fst p) (snd q) CL) CL) CL &&
  forallb (fun p => negb (fst p =? snd p)) CL &&
  all2 m N (fun i r => qeqb (x i r) (sumn m (fun j => B_of E i j * x j r) + e i r)%Qc) &&
  forallb (fun i => qltb 0 (fcov N (e i) (e i))) (seq 0 m) &&
  all2 m m (fun i j => (i =? j) || qeqb (fcov N (e i) (e j)) 0) &&
  forallb (fun p => negb (qeqb (fcov N (x (snd p)) (e (fst p))) 0)) CL.
Lemma model_check_spec : forall N m E CL e x, model_check N m E CL e x = true ->
  linear_model N m (B_of E) e x /\ no_cancelling N m (B_of E) e x /\ (forall j i, ancestor m (B_of E) j i -> In (j, i) CL).
Proof.
  intros N m E CL e x H. unfold model_check in H. rewrite !andb_true_iff in H. destruct H as ((((((H1 & H2) & H3) & H4) & H5) & H6) & H7).
  rewrite forallb_forall in H1, H2, H3, H5, H7.
  assert (A : forall j i, ancestor m (B_of E) j i -> In (j, i) CL).
  { intros j i Q. induction Q as [j i (_ & _ & Z)|a b c _ IH1 _ IH2].
    - unfold B_of in Z. destruct (pmem j i E) eqn:P; [|congruence]. apply pmem_In in P. specialize (H1 _ P). apply pmem_In. exact H1.
    - specialize (H2 _ IH1). rewrite forallb_forall in H2. specialize (H2 _ IH2). cbn [fst snd] in H2. rewrite Nat.eqb_refl in H2. apply pmem_In. exact H2. }
  split; [|split; [|exact A]].
  - constructor.
    + intros i Q. apply A in Q. specialize (H3 _ Q). cbn [fst snd] in H3. rewrite Nat.eqb_refl in H3. discriminate.
    + intros i r Hi Hr. apply qeqb_eq. exact (all2_spec m N _ H4 i r Hi Hr).
    + intros i Hi. specialize (H5 i ltac:(apply in_seq; lia)). rewrite fcov_eq in H5. apply qltb_lt in H5. exact H5.
    + intros i j Hi Hj D. pose proof (all2_spec m m _ H6 i j Hi Hj) as Q. cbv beta in Q. rewrite fcov_eq in Q. destruct (Nat.eqb_spec i j); [contradiction|]. apply qeqb_eq. exact Q.
  - intros j i Q. apply A in Q. specialize (H7 _ Q). cbn [fst snd] in H7. rewrite fcov_eq in H7. intro Z. apply qeqb_eq in Z. rewrite Z in H7. discriminate.
Qed.
