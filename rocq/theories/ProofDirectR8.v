(** * Least squares over the reals by orthogonalisation: a LinearRegression that meets its specification *)
From Coq Require Import Reals Lra Lia Arith Bool List.
From Verif Require Import Prelude LibR SpecDirectR ProofDirectR3.
Import ListNotations.
Open Scope R_scope.

Section LS.
Context (n : nat).
Definition dot (x y : nat -> R) : R := rsum n (fun s => x s * y s).
(** coefficients and intercept *)
Fixpoint comb (cs ds : list R) (c : R) : list R := match cs, ds with x :: cs, d :: ds => (x - c * d) :: comb cs ds c | _, _ => [] end.
Fixpoint ls (cols : list (nat -> R)) (y : nat -> R) : list R * R :=
  match cols with
  | [] => ([], rsum n y / INR n)
  | x :: cols =>
      let (cx, bx) := ls cols x in
      let (cy, b) := ls cols y in
      let ex := fun s => x s - (lin cx cols s + bx) in
      let ey := fun s => y s - (lin cy cols s + b) in
      let c := if Req_EM_T (dot ex ex) 0 then 0 else dot ey ex / dot ex ex in
      (c :: comb cy cx c, b - c * bx)
  end.
Lemma comb_len : forall cs ds c, length cs = length ds -> length (comb cs ds c) = length cs.
Proof. induction cs as [|x cs IH]; intros [|d ds] c L; try discriminate; [reflexivity|]. cbn. f_equal. apply IH. injection L; auto. Qed.
Lemma lin_comb : forall cols cs ds c s, length cs = length cols -> length ds = length cols -> lin (comb cs ds c) cols s = lin cs cols s - c * lin ds cols s.
Proof.
  induction cols as [|x cols IH]; intros [|a cs] [|d ds] c s Hc Hd; try discriminate; cbn; [ring|].
  rewrite IH by (injection Hc; injection Hd; auto). ring.
Qed.
Lemma ls_len : forall cols y, length (fst (ls cols y)) = length cols.
Proof.
  induction cols as [|x cols IH]; intro y; [reflexivity|]. cbn [ls]. pose proof (IH x) as A. pose proof (IH y) as B.
  destruct (ls cols x) as [cx bx], (ls cols y) as [cy b]. cbn in *. f_equal. rewrite comb_len; congruence.
Qed.
Definition err (cols : list (nat -> R)) (y : nat -> R) (s : nat) : R := y s - (lin (fst (ls cols y)) cols s + snd (ls cols y)).
Lemma dot_sym : forall x y, dot x y = dot y x.
Proof. intros. apply rsum_ext. intros. ring. Qed.
Lemma dot_comb : forall a x b y z, dot (fun s => a * x s + b * y s) z = a * dot x z + b * dot y z.
Proof. intros. unfold dot. rewrite <- !rsum_scal, <- rsum_plus. apply rsum_ext. intros. ring. Qed.
Lemma err_orth : (0 < n)%nat -> forall cols y, dot (err cols y) (fun _ => 1) = 0 /\ forall x, In x cols -> dot (err cols y) x = 0.
Proof.
  intros Hn. induction cols as [|x cols IH]; intro y.
  - split; [|intros ? []]. unfold dot, err. cbn. assert (INR n <> 0) by (apply not_0_INR; lia).
    rewrite (rsum_ext n _ (fun s => y s + - (rsum n y / INR n))) by (intros; ring). rewrite rsum_plus, rsum_const. field. assumption.
  - set (ex := err cols x). set (ey := err cols y).
    set (c := if Req_EM_T (dot ex ex) 0 then 0 else dot ey ex / dot ex ex).
    assert (E : forall s, err (x :: cols) y s = ey s - c * ex s).
    { intro s. pose proof (ls_len cols x) as A. pose proof (ls_len cols y) as B. unfold ex, ey, c, ey, ex, err. cbn [ls].
      destruct (ls cols x) as [cx bx], (ls cols y) as [cy b]. cbn [fst snd] in *. cbn [lin]. rewrite lin_comb by assumption.
      set (d := if Req_EM_T _ 0 then 0 else _). ring. }
    assert (F : forall z, dot (err (x :: cols) y) z = dot ey z - c * dot ex z).
    { intro z. unfold dot. rewrite <- rsum_scal, <- rsum_minus. apply rsum_ext. intros s _. rewrite E. ring. }
    destruct (IH y) as [Y1 Y2], (IH x) as [X1 X2]. fold ey in Y1, Y2. fold ex in X1, X2. split.
    + rewrite F, Y1, X1. ring.
    + intros z [<-|Hz]; [|rewrite F, (Y2 z Hz), (X2 z Hz); ring].
      assert (LO : forall w, (dot w (fun _ => 1) = 0) -> (forall z, In z cols -> dot w z = 0) -> forall cs b, dot w (fun s => lin cs cols s + b) = 0).
      { intros w W1 W2. assert (G : forall cs, dot w (fun s => lin cs cols s) = 0).
        { clear - W2. induction cols as [|u cols IHc]; intros [|a cs]; try (apply rsum_0; intros; cbn; ring). cbn [lin].
          transitivity (a * dot w u + dot w (fun s => lin cs cols s)).
          - unfold dot. rewrite <- rsum_scal, <- rsum_plus. apply rsum_ext. intros. ring.
          - rewrite W2 by (left; reflexivity). rewrite IHc by (intros; apply W2; right; assumption). ring. }
        intros cs b. transitivity (dot w (fun s => lin cs cols s) + b * dot w (fun _ => 1)); [|rewrite G, W1; ring].
        unfold dot. rewrite <- rsum_scal, <- rsum_plus. apply rsum_ext. intros. ring. }
      assert (XD : forall w, (dot w (fun _ => 1) = 0) -> (forall z, In z cols -> dot w z = 0) -> dot w x = dot w ex).
      { intros w W1 W2. pose proof (LO w W1 W2 (fst (ls cols x)) (snd (ls cols x))) as Z. unfold ex, err, dot in *.
        rewrite (rsum_ext n (fun s => w s * x s) (fun s => w s * (x s - (lin (fst (ls cols x)) cols s + snd (ls cols x))) + w s * (lin (fst (ls cols x)) cols s + snd (ls cols x)))) by (intros; ring).
        rewrite rsum_plus, Z. ring. }
      rewrite F, (XD ey Y1 Y2), (XD ex X1 X2). unfold c. destruct (Req_EM_T (dot ex ex) 0) as [D|D]; [|field; exact D].
      rewrite Rmult_0_l, Rminus_0_r. unfold dot. apply rsum_0. intros s Hs.
      assert (ex s * ex s = 0) by (apply (rsum_zero_all n (fun s => ex s * ex s) (fun i _ => Rle_0_sqr (ex i)) D s Hs)).
      assert (ex s = 0) by (apply Rsqr_0_uniq; exact H). rewrite H0. ring.
Qed.
Lemma ls_least : (0 < n)%nat -> forall cols y, least_squares n cols y (fst (ls cols y)).
Proof.
  intros Hn cols y. split; [apply ls_len|]. exists (snd (ls cols y)). intros ds d L.
  destruct (err_orth Hn cols y) as [O1 O2]. set (e := err cols y) in *. set (cs := fst (ls cols y)). set (b := snd (ls cols y)).
  assert (Lc : length cs = length cols) by apply ls_len.
  assert (E : sse n ds d cols y = sse n cs b cols y + rsum n (fun s => (lin (dif cs ds) cols s + (b - d)) ^ 2)
    + 2 * dot e (fun s => lin (dif cs ds) cols s + (b - d))).
  { unfold sse, dot. rewrite <- rsum_scal, <- !rsum_plus. apply rsum_ext. intros s _. rewrite lin_dif by assumption. unfold e, err. fold cs b. ring. }
  assert (Z : dot e (fun s => lin (dif cs ds) cols s + (b - d)) = 0).
  { assert (G : forall l fs, (forall x, In x l -> dot e x = 0) -> dot e (fun s => lin fs l s) = 0).
    { induction l as [|u l IHl]; intros [|a fs] W; try (apply rsum_0; intros; cbn; ring). cbn [lin].
      transitivity (a * dot e u + dot e (fun s => lin fs l s)).
      - unfold dot. rewrite <- rsum_scal, <- rsum_plus. apply rsum_ext. intros. ring.
      - rewrite W by (left; reflexivity). rewrite IHl by (intros; apply W; right; assumption). ring. }
    transitivity (dot e (fun s => lin (dif cs ds) cols s) + (b - d) * dot e (fun _ => 1)); [|rewrite O1, (G cols (dif cs ds) O2); ring].
    unfold dot. rewrite <- rsum_scal, <- rsum_plus. apply rsum_ext. intros. ring. }
  rewrite E, Z. pose proof (rsum_nonneg n (fun s => (lin (dif cs ds) cols s + (b - d)) ^ 2) (fun i _ => pow2_ge_0 _)). lra.
Qed.
End LS.
