(** * Exact samples of linear models: independence by pairing rows, a solver of normal equations, the examples *)
From Coq Require Import List Arith Bool ZArith QArith Qcanon Lia Permutation Relations.
From Verif Require Import Prelude Spec SpecPop SpecRCDPop SpecHDPop Lib LibMat ModelHighDimData OlsGS ProofHsic ProofPop ProofVarPop ProofHDPop.
Import ListNotations.
Open Scope nat_scope.

(** ** Independence of an error that takes two values, by pairing rows that differ only in that error *)
Lemma sumn_pair : forall N (s : nat -> nat) h, (forall r, r < N -> s r < N /\ s (s r) = r) -> sumn N (fun r => h (s r)) = sumn N h.
Proof.
  intros N s h H. unfold sumn. assert (P : Permutation (map s (seq 0 N)) (seq 0 N)).
  { apply NoDup_Permutation; [|apply seq_NoDup|].
    - assert (G : forall l, NoDup l -> (forall r, In r l -> r < N) -> NoDup (map s l)).
      { induction l as [|a l IH]; intros ND HL; [constructor|]. inversion ND as [|? ? NI NDl]. subst. cbn [map]. constructor; [|apply IH; [exact NDl|intros; apply HL; right; assumption]].
        intro Q. apply in_map_iff in Q. destruct Q as (b & Eb & Ib). apply NI. assert (E : s (s b) = s (s a)) by (rewrite Eb; reflexivity).
        rewrite (proj2 (H b (HL b (or_intror Ib)))), (proj2 (H a (HL a (or_introl eq_refl)))) in E. subst b. exact Ib. }
      apply G; [apply seq_NoDup|]. intros r Hr. apply in_seq in Hr. lia.
    - intro a. rewrite in_map_iff, in_seq. split.
      + intros (b & <- & Hb). apply in_seq in Hb. destruct (H b ltac:(lia)). lia.
      + intro Ha. exists (s a). destruct (H a ltac:(lia)) as [H1 H2]. split; [exact H2|]. apply in_seq. lia. }
  rewrite <- (sumf_perm _ h _ _ P). unfold sumf. rewrite map_map. reflexivity.
Qed.
Lemma paired_independent : forall N n e, 0 < N -> (forall i, i < n -> exists s a b, forall r, r < N ->
    s r < N /\ s (s r) = r /\ (forall k, k < n -> k <> i -> e k (s r) = e k r) /\ ((e i r = a /\ e i (s r) = b) \/ (e i r = b /\ e i (s r) = a))) ->
  independent_errors N n e.
Proof.
  intros N n e HN H i Hi f g Hg. destruct (H i Hi) as (s & a & b & Hs).
  assert (P : forall r, r < N -> s r < N /\ s (s r) = r) by (intros r Hr; destruct (Hs r Hr) as (H1 & H2 & _); split; assumption).
  set (G := fun r => g (fun k => e k r)). set (F := fun r => f (e i r)).
  assert (GS : forall r, r < N -> G (s r) = G r) by (intros r Hr; apply Hg; destruct (Hs r Hr) as (_ & _ & H3 & _); exact H3).
  assert (FS : forall r, r < N -> (F r + F (s r) = f a + f b)%Qc) by (intros r Hr; unfold F; destruct (Hs r Hr) as (_ & _ & _ & [[-> ->]|[-> ->]]); ring).
  assert (T : forall w : nat -> Qc, (forall r, r < N -> w (s r) = w r) -> (sumn N (fun r => F r * w r) + sumn N (fun r => F r * w r) = (f a + f b) * sumn N w)%Qc).
  { intros w Hw. rewrite <- (sumn_pair N s (fun r => F r * w r)%Qc P) at 2. rewrite <- sumn_plus, <- sumn_scal. apply sumn_ext. intros r Hr. rewrite (Hw r Hr), <- (FS r Hr). ring. }
  pose proof (T G GS) as TG. pose proof (T (fun _ => 1%Qc) (fun _ _ => eq_refl)) as T1.
  cbv beta in T1. rewrite (sumn_ext N (fun r => F r * 1)%Qc F) in T1 by (intros; ring). rewrite (sumn_const N 1%Qc) in T1.
  unfold mean. change (sumn N (fun r => F r * G r)%Qc / qn N = sumn N F / qn N * (sumn N G / qn N))%Qc.
  assert (QN : qn N <> 0%Qc) by (apply qn_nonzero; exact HN).
  set (A := sumn N (fun r => F r * G r)%Qc) in *. set (SF := sumn N F) in *. set (SG := sumn N G) in *. set (z := (f a + f b)%Qc) in *.
  assert (two : (1 + 1 <> 0)%Qc) by discriminate.
  assert (EA : A = (z * SG / (1 + 1))%Qc) by (rewrite <- TG; field; exact two).
  assert (ES : SF = (z * qn N / (1 + 1))%Qc) by (replace (z * qn N)%Qc with (z * (qn N * 1))%Qc by ring; rewrite <- T1; field; exact two).
  rewrite EA, ES. field. split; [exact QN|exact two].
Qed.

(** ** A solver of normal equations *)
Definition fdot (N : nat) (y z : sample) : Qc := let y := tab N y in let z := tab N z in dot N y z.
Lemma fdot_eq : forall N y z, fdot N y z = dot N y z.
Proof. intros. unfold fdot. apply dot_ext; intros; apply tab_eq; assumption. Qed.
Lemma dot_tab : forall N y z, dot N (tab N y) (tab N z) = dot N y z.
Proof. intros. apply dot_ext; intros; apply tab_eq; assumption. Qed.
Fixpoint gs0 (N : nat) (x : nat -> sample) (ps : list nat) (y : sample) : nat -> Qc :=
  match ps with
  | [] => fun _ => 0%Qc
  | p :: r => let cy := gs0 N x r y in let cp := gs0 N x r (x p) in
              let u := tab N (fun k => x p k - sumf r (fun q => cp q * x q k))%Qc in
              let v := tab N (fun k => y k - sumf r (fun q => cy q * x q k))%Qc in
              let b := (fdot N v u / fdot N u u)%Qc in
              fun q => if q =? p then b else (cy q - b * cp q)%Qc
  end.
Lemma dot_zero : forall N u w, dot N u u = 0%Qc -> dot N u w = 0%Qc.
Proof. intros N u w Z. apply sumn_zero. intros r Hr. rewrite (sumn_squares_zero N u Z r Hr). ring. Qed.
Lemma gs0_orth : forall N x ps y, NoDup ps -> forall q, In q ps -> dot N (fun r => y r - sumf ps (fun p => gs0 N x ps y p * x p r))%Qc (x q) = 0%Qc.
Proof.
  intros N x ps. induction ps as [|p r IH]; intros y ND q Hq; [contradiction|].
  inversion ND as [|? ? NI NDr]. subst. set (c := gs0 N x (p :: r) y).
  set (cy := gs0 N x r y). set (cp := gs0 N x r (x p)).
  set (u := (fun k => x p k - sumf r (fun q => cp q * x q k))%Qc : sample). set (v := (fun k => y k - sumf r (fun q => cy q * x q k))%Qc : sample).
  set (b := (dot N v u / dot N u u)%Qc).
  assert (CB : c p = b).
  { unfold c. cbn [gs0]. rewrite Nat.eqb_refl. rewrite !fdot_eq, !dot_tab. reflexivity. }
  assert (CR : forall q, In q r -> c q = (cy q - b * cp q)%Qc).
  { intros k Ik. unfold c. cbn [gs0]. destruct (Nat.eqb_spec k p) as [->|_]; [contradiction|]. rewrite !fdot_eq, !dot_tab. reflexivity. }
  assert (W : forall z, dot N (fun k => y k - sumf (p :: r) (fun q => c q * x q k))%Qc z = (dot N v z - b * dot N u z)%Qc).
  { intro z. rewrite (dot_ext N _ (fun k => 1 * v k + - b * u k)%Qc z z); [rewrite dot_lin; ring| |reflexivity].
    intros k Hk. rewrite sumf_cons, CB, (sumf_ext _ (fun q => c q * x q k)%Qc (fun q => cy q * x q k - b * (cp q * x q k))%Qc r) by (intros k' I'; rewrite (CR k' I'); ring).
    rewrite sumf_minus, sumf_scal. unfold u, v. ring. }
  assert (OR : forall q, In q r -> dot N v (x q) = 0%Qc /\ dot N u (x q) = 0%Qc) by (intros k Ik; split; [apply (IH y NDr k Ik)|apply (IH (x p) NDr k Ik)]).
  assert (OQ : forall w, (forall k, In k r -> dot N w (x k) = 0%Qc) -> dot N w (x p) = dot N w u).
  { intros w Ow. rewrite (dot_sym N w u). rewrite (dot_ext N u (fun k => 1 * x p k + - (1) * sumf r (fun q => cp q * x q k))%Qc w w); [|intros; unfold u; ring|reflexivity].
    rewrite dot_lin, dot_wsum, (sumf_zero _ _ r); [rewrite (dot_sym N (x p) w); ring|]. intros k Ik. rewrite (dot_sym N (x k) w), (Ow k Ik). ring. }
  rewrite W. destruct Hq as [<-|Iq].
  - rewrite (OQ v (fun k Ik => proj1 (OR k Ik))), (OQ u (fun k Ik => proj2 (OR k Ik))). unfold b.
    destruct (Qc_eq_dec (dot N u u) 0) as [Z|Z]; [|field; exact Z].
    rewrite Z, (dot_sym N v u), (dot_zero N u v Z). ring.
  - destruct (OR q Iq) as [-> ->]. ring.
Qed.
Definition pinv0 (N : nat) (x : nat -> sample) (C : list nat) (v : nat) : nat -> Qc := gs0 N x C (x v).
Lemma pinv0_normal : forall N, normal_equations N (pinv0 N).
Proof. intros N x C v ND q Hq. apply gs0_orth; assumption. Qed.

(** ** Data in which every error takes the values [s] and [-s], in all combinations *)
Definition bit_error (s : nat -> Z) (k r : nat) : Qc := if Nat.testbit r k then qz (s k) else qz (- s k).
Definition flip (i r : nat) : nat := if Nat.testbit r i then r - 2 ^ i else r + 2 ^ i.
Definition flip_check (N n : nat) : bool :=
  forallb (fun i => forallb (fun r => (flip i r <? N) && (flip i (flip i r) =? r) && eqb (Nat.testbit (flip i r) i) (negb (Nat.testbit r i)) &&
    forallb (fun k => (k =? i) || eqb (Nat.testbit (flip i r) k) (Nat.testbit r k)) (seq 0 n)) (seq 0 N)) (seq 0 n).
Lemma bit_independent : forall N n s, 0 < N -> flip_check N n = true -> independent_errors N n (bit_error s).
Proof.
  intros N n s HN HC. apply paired_independent; [exact HN|]. intros i Hi. exists (flip i), (qz (s i)), (qz (- s i)). intros r Hr.
  unfold flip_check in HC. rewrite forallb_forall in HC. specialize (HC i ltac:(apply in_seq; lia)). rewrite forallb_forall in HC. specialize (HC r ltac:(apply in_seq; lia)).
  apply andb_prop in HC. destruct HC as [HC H4]. apply andb_prop in HC. destruct HC as [HC H3]. apply andb_prop in HC. destruct HC as [H1 H2].
  apply Nat.ltb_lt in H1. apply Nat.eqb_eq in H2. apply eqb_prop in H3. split; [exact H1|]. split; [exact H2|]. split.
  - intros k Hk Nk. rewrite forallb_forall in H4. specialize (H4 k ltac:(apply in_seq; lia)). rewrite (proj2 (Nat.eqb_neq k i) Nk) in H4. apply eqb_prop in H4. unfold bit_error. rewrite H4. reflexivity.
  - unfold bit_error. rewrite H3. destruct (Nat.testbit r i); cbn [negb]; [left|right]; split; reflexivity.
Qed.

Definition zmat (l : list (list Z)) : mat Qc := fun i j => qz (nth j (nth i l []) 0%Z).
(** Four variables: 0 -> 1, 0 -> 2, 1 -> 2, 1 -> 3, 2 -> 3; sixteen rows. *)
Definition exB : mat Qc := zmat [[]; [1]; [-2; -2]; [0; 1; -1]]%Z.
Definition exe : nat -> sample := bit_error (fun k => nth k [1; 2; 1; 2]%Z 1%Z).
Definition exx (i : nat) : sample := tab 16 (fun r =>
  let x0 := exe 0 r in let x1 := (x0 + exe 1 r)%Qc in let x2 := (qz (-2) * x0 + qz (-2) * x1 + exe 2 r)%Qc in let x3 := (x1 - x2 + exe 3 r)%Qc in
  match i with 0 => x0 | 1 => x1 | 2 => x2 | 3 => x3 | _ => 0%Qc end).
Definition low_check (n : nat) (B : mat Qc) : bool := forallb (fun i => forallb (fun j => (j <? i) || qeqb (B i j) 0) (seq 0 n)) (seq 0 n).
Lemma low_acyclic : forall n B, low_check n B = true -> acyclic (edge_of n B) /\ forall a b, ancestor n B a b -> a < b.
Proof.
  intros n B H. assert (L : forall a b, edge_of n B a b -> a < b).
  { intros a b (Hb & Ha & NZ). unfold low_check in H. rewrite forallb_forall in H. specialize (H b ltac:(apply in_seq; lia)). rewrite forallb_forall in H. specialize (H a ltac:(apply in_seq; lia)).
    apply orb_prop in H. destruct H as [H|H]; [apply Nat.ltb_lt in H; exact H|]. apply Qc_eq_bool_correct in H. contradiction. }
  assert (A : forall a b, ancestor n B a b -> a < b) by (intros a b P; induction P as [a b E|a b c _ I1 _ I2]; [apply L; exact E|lia]).
  split; [|exact A]. intros v P. specialize (A v v P). lia.
Qed.
Definition eq_check (N n : nat) (B : mat Qc) (e x : nat -> sample) : bool :=
  forallb (fun i => forallb (fun r => qeqb (x i r) (sumn n (fun j => B i j * x j r) + e i r)%Qc) (seq 0 N) && qeqb (mean N (e i)) 0) (seq 0 n).
Lemma sample_check : forall N n B e x, 0 < N -> low_check n B = true -> eq_check N n B e x = true -> independent_errors N n e -> exact_sample N n B e x.
Proof.
  intros N n B e x HN HL HE HI. unfold eq_check in HE. rewrite forallb_forall in HE.
  constructor; [exact HN|apply low_acyclic; exact HL| | |exact HI].
  - intros i r Hi Hr. specialize (HE i ltac:(apply in_seq; lia)). apply andb_prop in HE. destruct HE as [HE _]. rewrite forallb_forall in HE. apply Qc_eq_bool_correct. apply HE. apply in_seq. lia.
  - intros i Hi. specialize (HE i ltac:(apply in_seq; lia)). apply andb_prop in HE. apply Qc_eq_bool_correct. tauto.
Qed.
Lemma ex_sample : exact_sample 16 4 exB exe exx.
Proof. apply sample_check; [lia|vm_compute; reflexivity|vm_compute; reflexivity|]. apply bit_independent; [lia|vm_compute; reflexivity]. Qed.

(** Faithfulness by enumeration: the statistic is computed with the solver above, for every list without
    repetition of variables below the effect. *)
Fixpoint arrangements (fuel : nat) (l : list nat) : list (list nat) :=
  match fuel with
  | 0 => [[]]
  | S f => [] :: flat_map (fun a => map (cons a) (arrangements f (remove_nat a l))) l
  end.
Lemma arrangements_In : forall f l C, NoDup C -> incl C l -> length C <= f -> In C (arrangements f l).
Proof.
  induction f as [|f IH]; intros l C ND I L; [destruct C; [left; reflexivity|cbn in L; lia]|]. destruct C as [|a C]; [left; reflexivity|]. right.
  inversion ND as [|? ? NI NDC]. subst. apply in_flat_map. exists a. split; [apply I; left; reflexivity|]. apply in_map. apply IH; [exact NDC| |cbn in L; lia].
  intros q Hq. apply remove_nat_In. split; [apply I; right; exact Hq|]. intro; subst. contradiction.
Qed.
Definition fstat (N K : nat) (u y : sample) : Qc := let u := tab N u in let y := tab N y in moment_stat N K u y.
Definition faithful_check (N n K : nat) (B : mat Qc) (x : nat -> sample) (nd : nat -> list nat) : bool :=
  forallb (fun v => forallb (fun p => qeqb (B v p) 0 ||
    forallb (fun C => memb p C || negb (qeqb (fstat N K (hd_resid (pinv0 N) x C v) (x p)) 0)) (arrangements n (nd v))) (seq 0 n)) (seq 0 n).
Lemma faithful_by_check : forall N n K B x nd, (forall v q, v < n -> q < n -> q <> v -> ~ ancestor n B v q -> In q (nd v)) -> faithful_check N n K B x nd = true -> faithful N n K B x.
Proof.
  intros N n K B x nd HN H v p C u (Hv & Hp & NZ) ND NI HC HR Z. unfold faithful_check in H. rewrite forallb_forall in H. specialize (H v ltac:(apply in_seq; lia)).
  rewrite forallb_forall in H. specialize (H p ltac:(apply in_seq; lia)). apply orb_prop in H. destruct H as [H|H]; [apply Qc_eq_bool_correct in H; contradiction|].
  rewrite forallb_forall in H. specialize (H C). assert (IC : In C (arrangements n (nd v))).
  { apply arrangements_In; [exact ND|intros q Hq; destruct (HC q Hq) as (A & D & E); apply HN; assumption|].
    rewrite <- (seq_length n 0). apply NoDup_incl_length; [exact ND|]. intros q Hq. apply in_seq. destruct (HC q Hq). lia. }
  specialize (H IC). apply orb_prop in H. destruct H as [H|H]; [apply memb_In in H; contradiction|]. apply negb_true_iff in H.
  assert (E : fstat N K (hd_resid (pinv0 N) x C v) (x p) = 0%Qc).
  { unfold fstat. cbv zeta. rewrite <- Z. apply moment_stat_ext; [|intros; apply tab_eq; assumption]. intros r Hr. rewrite tab_eq by exact Hr.
    apply (residual_unique N x C v); [apply resid_spec; [apply pinv0_normal|exact ND]|exact HR|exact Hr]. }
  rewrite E in H. discriminate H.
Qed.
Definition ex_nd (v : nat) : list nat := seq 0 v.
Lemma ex_faithful : faithful 16 4 4 exB exx.
Proof.
  apply (faithful_by_check 16 4 4 exB exx ex_nd); [|vm_compute; reflexivity].
  intros v q Hv Hq N A. unfold ex_nd. apply in_seq. destruct (Nat.lt_ge_cases q v) as [L|L]; [lia|]. exfalso. apply A.
  assert (E : forall a b, a < 4 -> b < 4 -> qeqb (exB b a) 0 = false -> edge_of 4 exB a b) by (intros a b Ha Hb Q; repeat split; try assumption; intro Z; rewrite Z in Q; discriminate Q).
  destruct v as [|[|[|[|v]]]]; destruct q as [|[|[|[|q]]]]; try lia; try (apply t_step; apply E; [lia|lia|vm_compute; reflexivity]).
  apply t_trans with 1; apply t_step; apply E; try lia; vm_compute; reflexivity.
Qed.
Lemma ex_degree : in_degree_at_most 4 3 exB.
Proof. intros v Hv. destruct v as [|[|[|[|v]]]]; [vm_compute; lia|vm_compute; lia|vm_compute; lia|vm_compute; lia|lia]. Qed.
