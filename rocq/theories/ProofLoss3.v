(** * The H step of MD-LiNA: the loss does not change when H is scaled, the returned gradient does not know it *)
From Coq Require Import Reals Lra Lia Arith Bool FunctionalExtensionality.
From Verif Require Import Prelude LibR SpecGrad ModelLoss ProofLoss ProofLoss2.
Open Scope R_scope.

(** Equality of r x c matrices. *)
Definition req2 (r c : nat) (A B : rmat) : Prop := forall i j, (i < r)%nat -> (j < c)%nat -> A i j = B i j.
Definition inner (r c : nat) (A B : rmat) : R := total r c (fun i j => A i j * B i j).

Lemma mm_ext : forall r k c A A' B B', req2 r k A A' -> req2 k c B B' -> req2 r c (mm k A B) (mm k A' B').
Proof. intros r k c A A' B B' HA HB i j Hi Hj. apply rsum_ext. intros l Hl. rewrite HA, HB; auto. Qed.
Lemma mm_assoc : forall k l A B C i j, mm l (mm k A B) C i j = mm k A (mm l B C) i j.
Proof.
  intros. unfold mm. rewrite (rsum_ext l _ (fun b => rsum k (fun a => A i a * B a b * C b j))) by (intros; symmetry; apply rsum_scal_r).
  rewrite rsum_swap. apply rsum_ext. intros a _. rewrite <- rsum_scal. apply rsum_ext. intros; ring.
Qed.
Lemma inner_mm_l : forall r k c A B C, inner r c (mm k A B) C = inner k c B (mm r (tr A) C).
Proof.
  intros. unfold inner, total, mm, tr.
  rewrite (rsum_ext r _ (fun i => rsum c (fun j => rsum k (fun l => A i l * B l j * C i j)))) by (intros; apply rsum_ext; intros; symmetry; apply rsum_scal_r).
  rewrite (rsum_ext r _ (fun i => rsum k (fun l => rsum c (fun j => A i l * B l j * C i j)))) by (intros; apply rsum_swap).
  rewrite rsum_swap. apply rsum_ext. intros l _. rewrite rsum_swap. apply rsum_ext. intros j _. rewrite <- rsum_scal. apply rsum_ext. intros; ring.
Qed.
Lemma inner_comm : forall r c A B, inner r c A B = inner r c B A.
Proof. intros. apply total_ext. intros; ring. Qed.
Lemma inner_tr : forall r c A B, inner r c A B = inner c r (tr A) (tr B).
Proof. intros. unfold inner. rewrite total_swap. reflexivity. Qed.
Lemma tr_mm : forall k A B, tr (mm k A B) = mm k (tr B) (tr A).
Proof. intros. extensionality i. extensionality j. unfold tr, mm. apply rsum_ext. intros; ring. Qed.
Lemma tr_tr : forall A, tr (tr A) = A.
Proof. reflexivity. Qed.
Lemma inner_mm_r : forall r k c A B C, inner r c (mm k A B) C = inner r k A (mm c C (tr B)).
Proof.
  intros. rewrite inner_tr, tr_mm, inner_mm_l, tr_tr, (inner_tr r k), tr_mm. reflexivity.
Qed.
Lemma inner_ext : forall r c A A' B B', req2 r c A A' -> req2 r c B B' -> inner r c A B = inner r c A' B'.
Proof. intros r c A A' B B' HA HB. apply total_ext. intros i j Hi Hj. rewrite HA, HB; auto. Qed.
Lemma mm_assoc_f : forall k l A B C, mm l (mm k A B) C = mm k A (mm l B C).
Proof. intros. extensionality i. extensionality j. apply mm_assoc. Qed.

(** [K] is the inverse of [S]. *)
Definition is_inverse (m : nat) (S K : rmat) : Prop := req2 m m (mm m S K) rid /\ req2 m m (mm m K S) rid.
Lemma mm_id_l : forall r c A, req2 r c (mm r rid A) A.
Proof.
  intros r c A i j Hi _. unfold mm, rid. rewrite (rsum_single r _ i Hi); [rewrite Nat.eqb_refl; ring|].
  intros k _ D. destruct (Nat.eqb_spec i k); [congruence|ring].
Qed.
Lemma mm_id_r : forall r c A, req2 r c (mm c A rid) A.
Proof.
  intros r c A i j _ Hj. unfold mm, rid. rewrite (rsum_single c _ j Hj); [rewrite Nat.eqb_refl; ring|].
  intros k _ D. destruct (Nat.eqb_spec k j); [congruence|ring].
Qed.
Lemma inverse_unique : forall m S K K', is_inverse m S K -> is_inverse m S K' -> req2 m m K K'.
Proof.
  intros m S K K' [H1 H2] [H3 H4] i j Hi Hj.
  rewrite <- (mm_id_r m m K i j Hi Hj).
  rewrite <- (mm_ext m m m K K (mm m S K') rid (fun _ _ _ _ => eq_refl) H3 i j Hi Hj).
  rewrite <- mm_assoc. rewrite (mm_ext m m m (mm m K S) rid K' K' H2 (fun _ _ _ _ => eq_refl) i j Hi Hj).
  apply (mm_id_l m m K' i j Hi Hj).
Qed.
Lemma rid_sym : forall i j, rid i j = rid j i.
Proof. intros. unfold rid. rewrite Nat.eqb_sym. reflexivity. Qed.
Lemma inverse_sym : forall m S K, (forall i j, S i j = S j i) -> is_inverse m S K -> req2 m m (tr K) K.
Proof.
  intros m S K HS HI. apply (inverse_unique m S); [|exact HI]. destruct HI as [H1 H2].
  assert (ES : tr S = S) by (extensionality i; extensionality j; apply HS).
  split; intros i j Hi Hj.
  - rewrite <- ES, <- tr_mm. unfold tr. rewrite H2 by assumption. apply rid_sym.
  - rewrite <- ES, <- tr_mm. unfold tr. rewrite H1 by assumption. apply rid_sym.
Qed.
Lemma inverse_scal : forall m S K c, c <> 0 -> is_inverse m S K -> is_inverse m (fun i j => c * S i j) (fun i j => K i j / c).
Proof.
  intros m S K c Hc [H1 H2]. split; intros i j Hi Hj.
  - rewrite <- (H1 i j Hi Hj). unfold mm. apply rsum_ext. intros. field. exact Hc.
  - rewrite <- (H2 i j Hi Hj). unfold mm. apply rsum_ext. intros. field. exact Hc.
Qed.

Lemma mm_scal_l : forall k c A B, mm k (fun i j => c * A i j) B = (fun i j => c * mm k A B i j).
Proof. intros. extensionality i. extensionality j. unfold mm. rewrite <- rsum_scal. apply rsum_ext. intros; ring. Qed.
Lemma mm_scal_r : forall k c A B, mm k A (fun i j => c * B i j) = (fun i j => c * mm k A B i j).
Proof. intros. extensionality i. extensionality j. unfold mm. rewrite <- rsum_scal. apply rsum_ext. intros; ring. Qed.

Lemma rmean_scal : forall n c v, rmean n (fun s => c * v s) = c * rmean n v.
Proof. intros. unfold rmean. rewrite rsum_scal. unfold Rdiv. ring. Qed.
Lemma rmean_ext : forall n u v, (forall s, (s < n)%nat -> u s = v s) -> rmean n u = rmean n v.
Proof. intros n u v H. unfold rmean. rewrite (rsum_ext n u v H). reflexivity. Qed.
Lemma rstd_ext : forall n u v, (forall s, (s < n)%nat -> u s = v s) -> rstd n u = rstd n v.
Proof.
  intros n u v H. unfold rstd. rewrite (rmean_ext n u v H). f_equal. apply rmean_ext. intros s Hs. rewrite H; auto.
Qed.
Lemma rstd_scal : forall n c v, 0 < c -> rstd n (fun s => c * v s) = c * rstd n v.
Proof.
  intros n c v Hc. unfold rstd. rewrite rmean_scal.
  rewrite (rmean_ext n _ (fun s => (c * c) * (v s - rmean n v) ^ 2)) by (intros; ring).
  rewrite rmean_scal. destruct (Rle_lt_dec 0 (rmean n (fun s => (v s - rmean n v) ^ 2))) as [P|P].
  - rewrite sqrt_mult_alt by (apply Rlt_le, Rmult_lt_0_compat; exact Hc). rewrite sqrt_square by lra. reflexivity.
  - rewrite !sqrt_neg_0; [ring|lra|]. apply Rlt_le in P. rewrite <- (Rmult_0_r (c * c)). apply Rmult_le_compat_l; [|exact P].
    apply Rlt_le, Rmult_lt_0_compat; exact Hc.
Qed.
Lemma standardise_scal : forall n c A, 0 < c -> standardise n (fun s j => c * A s j) = standardise n A.
Proof.
  intros n c A Hc. extensionality s. extensionality j. unfold standardise.
  rewrite (rmean_scal n c (fun s => A s j)), (rstd_scal n c (fun s => A s j)) by exact Hc.
  destruct (Req_dec (rstd n (fun s => A s j)) 0) as [Z|Z].
  - rewrite Z, Rmult_0_r. unfold Rdiv. rewrite Rinv_0. ring.
  - field. split; [exact Z|lra].
Qed.

Section Scaled.
Variables (n q hq : nat) (f H K : rmat).
Let S := mm q (tr H) H.
Hypothesis HK : is_inverse hq S K.

Lemma S_sym : forall i j, S i j = S j i.
Proof. intros i j. unfold S, mm, tr. apply rsum_ext. intros; ring. Qed.
Lemma K_sym : req2 hq hq (tr K) K.
Proof. apply (inverse_sym hq S); [apply S_sym|exact HK]. Qed.
Lemma cancel : forall r A, req2 r hq (mm hq (mm hq A K) S) A.
Proof.
  intros r A i j Hi Hj. rewrite mm_assoc.
  rewrite (mm_ext r hq hq A A (mm hq K S) rid (fun _ _ _ _ => eq_refl) (proj2 HK) i j Hi Hj). apply (mm_id_r r hq); assumption.
Qed.
Lemma mm_Kt : forall r A, req2 r hq (mm hq A (tr K)) (mm hq A K).
Proof. intros r A. apply mm_ext; [intros i j _ _; reflexivity|exact K_sym]. Qed.
Lemma refl2 : forall r c A, req2 r c A A.
Proof. intros r c A i j _ _. reflexivity. Qed.
Lemma trans2 : forall r c A B C, req2 r c A B -> req2 r c B C -> req2 r c A C.
Proof. intros r c A B C H1 H2 i j Hi Hj. rewrite H1, H2; auto. Qed.

Variables (T Q : rmat).
Let fH := mm q f H.
Let X0 := inner n hq T (mm hq (mm hq fH K) (tr Q)).

Lemma term1 : inner q hq (mm hq (mm hq (mm n (tr f) T) Q) K) H = X0.
Proof.
  rewrite inner_mm_r, inner_mm_r, inner_mm_l, tr_tr. unfold X0. apply inner_ext; [apply refl2|].
  rewrite <- !mm_assoc_f. apply mm_ext; [|apply refl2]. fold fH. apply mm_Kt.
Qed.
Lemma term2 : inner q hq (mm hq (mm n (mm hq (mm hq (mm hq H K) K) (tr fH)) T) Q) H = X0.
Proof.
  rewrite inner_mm_r, inner_mm_l. unfold X0. apply inner_ext; [apply refl2|].
  rewrite !tr_mm, tr_tr. rewrite <- !mm_assoc_f. apply mm_ext; [|apply refl2].
  rewrite (mm_assoc_f hq q _ (tr H) H). fold S.
  eapply trans2; [|apply (cancel n)].
  apply mm_ext; [|apply refl2]. eapply trans2; [apply mm_Kt|]. apply mm_ext; [|apply refl2]. apply mm_Kt.
Qed.
Lemma term3 : inner q hq (mm n (mm hq (mm hq (mm hq (mm hq H K) K) (tr Q)) (tr T)) fH) H = X0.
Proof.
  rewrite inner_mm_l. rewrite !tr_mm, !tr_tr. rewrite <- !mm_assoc_f. rewrite (mm_assoc_f hq q _ (tr H) H). fold S.
  transitivity (inner n hq fH (mm hq (mm hq T Q) K)).
  { apply inner_ext; [apply refl2|]. eapply trans2; [|apply (cancel n)].
    apply mm_ext; [|apply refl2]. eapply trans2; [apply mm_Kt|]. apply mm_ext; [|apply refl2]. apply mm_Kt. }
  rewrite inner_comm, inner_mm_r, inner_mm_r. unfold X0. apply inner_ext; [apply refl2|]. apply mm_ext; [|apply refl2]. apply mm_Kt.
Qed.
Lemma term45 : inner q hq (mm hq (mm n (tr f) fH) K) H = inner q hq (mm hq (mm n (mm hq (mm hq H K) (tr fH)) fH) K) H.
Proof.
  rewrite (inner_mm_r q hq hq (mm n (tr f) fH) K H), (inner_mm_r q hq hq (mm n (mm hq (mm hq H K) (tr fH)) fH) K H).
  rewrite (inner_mm_l q n hq (tr f) fH), (inner_mm_l q n hq (mm hq (mm hq H K) (tr fH)) fH). apply inner_ext; [apply refl2|].
  rewrite !tr_mm, !tr_tr. rewrite <- !mm_assoc_f. apply mm_ext; [|apply refl2]. fold fH.
  rewrite (mm_assoc_f hq q _ (tr H) H). fold S. intros i j Hi Hj. symmetry.
  revert i j Hi Hj. change (req2 n hq (mm hq (mm hq fH (tr K)) S) fH). eapply trans2; [|apply (cancel n)].
  apply mm_ext; [|apply refl2]. apply mm_Kt.
Qed.
End Scaled.

Lemma inner_plus_l : forall r c A B C, inner r c (fun i j => A i j + B i j) C = inner r c A C + inner r c B C.
Proof. intros. unfold inner. rewrite <- total_plus. apply total_ext. intros; ring. Qed.
Lemma inner_scal_l : forall r c a A C, inner r c (fun i j => a * A i j) C = a * inner r c A C.
Proof. intros. unfold inner. rewrite <- total_scal. apply total_ext. intros; ring. Qed.

(** The returned gradient along [H] itself. *)
Lemma mdh_inner : forall inv n q hq f W H l D K, inv (mm q (tr H) H) = Some K -> is_inverse hq (mm q (tr H) H) K ->
  rtrace hq (mm q (tr H) H) < 10000 ->
  mdh_value_grad inv Laplace n q hq f W H = Ok (l, D) ->
  inner q hq D H = inner n hq (fun s j => tanh (standardise n (residual_H n q hq f W H K) s j))
                     (mm hq (mm hq (mm q f H) K) (tr (fun i j => rid i j - W i j))).
Proof.
  intros inv n q hq f W H l D K EK HK Ht E. unfold mdh_value_grad in E. rewrite EK in E.
  destruct (Rlt_dec (rtrace hq (mm q (tr H) H)) 10000) as [_|N]; [|contradiction].
  injection E as _ E. rewrite <- E. clear E D l.
  set (T := fun s j => tanh (standardise n (residual_H n q hq f W H K) s j)). set (Q := fun i j => rid i j - W i j).
  set (D1 := mm hq (mm hq (mm n (tr f) T) Q) K).
  set (D2 := mm hq (mm n (mm hq (mm hq (mm hq H K) K) (tr (mm q f H))) T) Q).
  set (D3 := mm n (mm hq (mm hq (mm hq (mm hq H K) K) (tr Q)) (tr T)) (mm q f H)).
  set (D4 := mm hq (mm n (tr f) (mm q f H)) K).
  set (D5 := mm hq (mm n (mm hq (mm hq H K) (tr (mm q f H))) (mm q f H)) K).
  rewrite (inner_ext q hq _ (fun i j => -1 * D1 i j + (D2 i j + (D3 i j + (-2 * D4 i j + 2 * D5 i j)))) H H)
    by (intros i j _ _; (reflexivity || ring)).
  rewrite !inner_plus_l, !inner_scal_l. unfold D1, D2, D3, D4, D5.
  rewrite (term1 n q hq f H K HK T Q), (term2 n q hq f H K HK T Q), (term3 n q hq f H K HK T Q), (term45 n q hq f H K HK). ring.
Qed.

Lemma ok_pair : forall (a b : R) (D : rmat), a = b -> exists D', Ok (a, D) = Ok (b, D').
Proof. intros a b D ->. exists D. reflexivity. Qed.
(** The loss of [c * H] is that of [H] while the trace stays small. *)
Lemma mdh_scaled : forall inv n q hq f W H l D c,
  (forall S K, inv S = Some K -> is_inverse hq S K) -> (forall S, (exists K, is_inverse hq S K) -> inv S <> None) ->
  0 < c -> rtrace hq (mm q (tr H) H) < 10000 -> c * c * rtrace hq (mm q (tr H) H) < 10000 ->
  mdh_value_grad inv Laplace n q hq f W H = Ok (l, D) ->
  exists D', mdh_value_grad inv Laplace n q hq f W (fun i j => c * H i j) = Ok (l, D').
Proof.
  intros inv n q hq f W H l D c I1 I2 Hc Ht Hct E. set (Hc' := fun i j => c * H i j) in *.
  set (S := mm q (tr H) H) in *.
  assert (ES : mm q (tr Hc') Hc' = (fun i j => (c * c) * S i j)).
  { extensionality i. extensionality j. unfold S, Hc', mm, tr. rewrite <- rsum_scal. apply rsum_ext. intros; ring. }
  assert (Hcc : c * c <> 0) by (apply Rgt_not_eq, Rmult_lt_0_compat; exact Hc).
  unfold mdh_value_grad in E. fold S in E. destruct (inv S) as [K|] eqn:EK; [|discriminate].
  pose proof (I1 _ _ EK) as HK. pose proof (inverse_scal hq S K (c * c) Hcc HK) as HKc.
  unfold mdh_value_grad. rewrite ES. destruct (inv (fun i j => c * c * S i j)) as [K'|] eqn:EK'.
  2:{ exfalso. apply (I2 (fun i j => c * c * S i j)); [eexists; exact HKc|exact EK']. }
  pose proof (inverse_unique hq _ _ _ (I1 _ _ EK') HKc) as UK.
  assert (ET : rtrace hq (fun i j => c * c * S i j) = c * c * rtrace hq S).
  { unfold rtrace. apply rsum_scal. }
  rewrite ET.
  destruct (Rlt_dec (rtrace hq S) 10000) as [_|N]; [|contradiction].
  destruct (Rlt_dec (c * c * rtrace hq S) 10000) as [_|N]; [|contradiction].
  injection E as El _. apply ok_pair. rewrite <- El. clear El D.
  (* the scores *)
  assert (EP : req2 n hq (mm hq (mm q f Hc') K') (fun s j => / c * mm hq (mm q f H) K s j)).
  { intros s j Hs Hj. unfold Hc'. rewrite mm_scal_r.
    transitivity (mm hq (fun i j => c * mm q f H i j) (fun i j => K i j / (c * c)) s j).
    - apply (mm_ext n hq hq); [apply refl2|exact UK|exact Hs|exact Hj].
    - unfold mm. rewrite <- rsum_scal. apply rsum_ext. intros k Hk. cbn. field. lra. }
  assert (ER : forall s j, (s < n)%nat -> (j < hq)%nat -> residual_H n q hq f W Hc' K' s j = / c * residual_H n q hq f W H K s j).
  { intros s j Hs Hj. unfold residual_H. rewrite EP by assumption.
    rewrite (mm_ext n hq hq _ (fun s j => / c * mm hq (mm q f H) K s j) W W EP (refl2 hq hq W) s j Hs Hj), mm_scal_l. ring. }
  assert (E1 : total n hq (fun s j => ln (cosh (standardise n (residual_H n q hq f W Hc' K') s j)))
             = total n hq (fun s j => ln (cosh (standardise n (residual_H n q hq f W H K) s j)))).
  { apply total_ext. intros s j Hs Hj. f_equal. f_equal.
    rewrite <- (standardise_scal n (/ c) (residual_H n q hq f W H K)) by (apply Rinv_0_lt_compat; exact Hc).
    unfold standardise. rewrite ER by assumption.
    rewrite (rmean_ext n _ (fun s => / c * residual_H n q hq f W H K s j)) by (intros; apply ER; assumption).
    rewrite (rstd_ext n _ (fun s => / c * residual_H n q hq f W H K s j)) by (intros; apply ER; assumption). reflexivity. }
  rewrite E1. f_equal; [|lra]. f_equal.
  assert (EE : forall s j, (s < n)%nat -> mm hq (mm hq (mm q f Hc') K') (tr Hc') s j = mm hq (mm hq (mm q f H) K) (tr H) s j).
  { intros s j Hs. unfold mm at 1 4. apply rsum_ext. intros k Hk. rewrite EP by assumption. unfold tr, Hc'. field. lra. }
  unfold rtrace. apply rsum_ext. intros j Hj.
  set (P' := mm hq (mm hq (mm q f Hc') K') (tr Hc')) in *. set (P := mm hq (mm hq (mm q f H) K) (tr H)) in *.
  unfold mm, tr. apply rsum_ext. intros s Hs. rewrite !EE by exact Hs. reflexivity.
Qed.

Lemma tanh_sign : forall x, x <> 0 -> 0 < tanh x * x.
Proof.
  assert (P : forall x, 0 < x -> 0 < tanh x * x).
  { intros x Hx. apply Rmult_lt_0_compat; [|exact Hx]. unfold tanh. apply Rdiv_lt_0_compat; [|apply cosh_pos].
    unfold sinh. assert (exp (- x) < exp x) by (apply exp_increasing; lra). lra. }
  intros x Hx. destruct (Rlt_le_dec 0 x) as [H|H]; [apply P; exact H|].
  assert (E : tanh x * x = tanh (- x) * - x).
  { unfold tanh, sinh, cosh. rewrite Ropp_involutive. pose proof (exp_pos x). pose proof (exp_pos (- x)). field. lra. }
  rewrite E. apply P. lra.
Qed.
Lemma rmean_zero_std : forall n v, (0 < n)%nat -> rmean n v = 0 -> rstd n v <> 0 -> exists s, (s < n)%nat /\ v s <> 0.
Proof.
  intros n v Hn Hm Hs.
  assert (D : (exists s, (s < n)%nat /\ v s <> 0) \/ (forall s, (s < n)%nat -> v s = 0)).
  { clear. induction n as [|n [ [s [H1 H2] ]|IH] ]; [right; intros; lia|left; exists s; split; [lia|exact H2]|].
    destruct (Req_dec (v n) 0) as [E|E]; [right|left; exists n; split; [lia|exact E]].
    intros s Hs. destruct (Nat.eq_dec s n) as [->|]; [exact E|apply IH; lia]. }
  destruct D as [D|D]; [exact D|]. exfalso. apply Hs. unfold rstd. rewrite Hm.
  rewrite (rmean_ext n _ (fun _ => 0)) by (intros s Hs'; rewrite D by exact Hs'; ring).
  unfold rmean. rewrite rsum_0 by reflexivity. unfold Rdiv. rewrite Rmult_0_l. apply sqrt_0.
Qed.
Lemma rmean_mm : forall n q f B j, (forall k, (k < q)%nat -> rmean n (fun s => f s k) = 0) -> rmean n (fun s => mm q f B s j) = 0.
Proof.
  intros n q f B j H. unfold rmean, mm. rewrite rsum_swap. unfold Rdiv. rewrite <- rsum_scal_r. apply rsum_0. intros k Hk.
  rewrite rsum_scal_r. transitivity (rmean n (fun s => f s k) * B k j); [unfold rmean, Rdiv; ring|]. rewrite H by exact Hk. ring.
Qed.

Lemma mdh_wrong : forall inv n q hq f H l D (F : rmat -> R),
  (forall S K, inv S = Some K -> is_inverse hq S K) -> (forall S, (exists K, is_inverse hq S K) -> inv S <> None) ->
  (0 < n)%nat -> (0 < hq)%nat ->
  (forall H l D, mdh_value_grad inv Laplace n q hq f (fun _ _ => 0) H = Ok (l, D) -> F H = l) ->
  (forall k, (k < q)%nat -> rmean n (fun s => f s k) = 0) ->
  rtrace hq (mm q (tr H) H) < 10000 ->
  (forall K, inv (mm q (tr H) H) = Some K -> forall j, (j < hq)%nat -> rstd n (fun s => mm hq (mm q f H) K s j) <> 0) ->
  mdh_value_grad inv Laplace n q hq f (fun _ _ => 0) H = Ok (l, D) ->
  ~ is_gradient q hq F H D.
Proof.
  intros inv n q hq f H l D F I1 I2 Hn Hhq HF Hf Ht Hsd E G. set (W := (fun _ _ => 0) : rmat) in *.
  specialize (G H). change (rsum q (fun i => rsum hq (fun j => D i j * H i j))) with (inner q hq D H) in G.
  set (S := mm q (tr H) H) in *. set (tS := rtrace hq S) in *.
  assert (HtS : 0 <= tS).
  { unfold tS, rtrace, S, mm, tr. apply rsum_nonneg. intros. apply rsum_nonneg. intros. apply Rle_0_sqr. }
  (* the loss is constant along H *)
  assert (Z : derivable_pt_lim (fun t => F (fun i j => H i j + t * H i j)) 0 0).
  { intros eps He. set (dl := Rmin (1 / 2) ((10000 - tS) / (3 * (tS + 1)))).
    assert (Hdl : 0 < dl).
    { unfold dl. apply Rmin_glb_lt; [lra|]. apply Rdiv_lt_0_compat; lra. }
    exists (mkposreal dl Hdl). intros t Ht0 Htl. cbn in Htl.
    assert (B1 : Rabs t < 1 / 2) by (eapply Rlt_le_trans; [exact Htl|apply Rmin_l]).
    assert (B2 : Rabs t < (10000 - tS) / (3 * (tS + 1))) by (eapply Rlt_le_trans; [exact Htl|apply Rmin_r]).
    assert (B3 : 3 * Rabs t * (tS + 1) < 10000 - tS).
    { apply (Rmult_lt_compat_r (3 * (tS + 1))) in B2; [|lra]. replace ((10000 - tS) / (3 * (tS + 1)) * (3 * (tS + 1))) with (10000 - tS) in B2 by (field; lra). lra. }
    assert (EF : forall c, 0 < c -> c * c * tS < 10000 -> F (fun i j => c * H i j) = l).
    { intros c Hc Hct. destruct (mdh_scaled inv n q hq f W H l D c I1 I2 Hc Ht Hct E) as [D' E']. apply (HF _ _ _ E'). }
    assert (HR : forall c, (fun i j => H i j + c * H i j) = (fun i j => (1 + c) * H i j)).
    { intro c. extensionality i. extensionality j. ring. }
    rewrite !HR, Rplus_0_l.
    assert (C : (1 + t) * (1 + t) * tS < 10000).
    { assert (t <= Rabs t) by apply Rle_abs. assert (0 <= Rabs t) by apply Rabs_pos.
      assert (- Rabs t <= t) by (pose proof (Rle_abs (- t)); rewrite Rabs_Ropp in *; lra).
      assert (t * t <= Rabs t) by nra.
      assert ((1 + t) * (1 + t) <= 1 + 3 * Rabs t) by lra.
      apply Rle_lt_trans with ((1 + 3 * Rabs t) * tS); [apply Rmult_le_compat_r; assumption|]. nra. }
    rewrite (EF (1 + t)), (EF (1 + 0)); [|lra|lra| |exact C].
    - unfold Rdiv, Rminus. rewrite Rplus_opp_r, Rmult_0_l, Ropp_0, Rplus_0_l, Rabs_R0. exact He.
    - pose proof (Rle_abs (- t)). rewrite Rabs_Ropp in *. lra. }
  pose proof (uniqueness_limite _ _ _ _ G Z) as EZ. clear G Z.
  destruct (inv S) as [K|] eqn:EK; [|unfold mdh_value_grad in E; fold S in E; rewrite EK in E; discriminate].
  rewrite (mdh_inner inv n q hq f W H l D K EK (I1 _ _ EK) Ht E) in EZ.
  set (P := mm hq (mm q f H) K) in *.
  assert (EP : forall s j, (s < n)%nat -> (j < hq)%nat -> mm hq P (tr (fun i j => rid i j - W i j)) s j = P s j).
  { intros s j Hs Hj. rewrite <- (mm_id_r n hq P s j Hs Hj). unfold mm. apply rsum_ext. intros k Hk. unfold tr, W. rewrite rid_sym. ring. }
  assert (ER : residual_H n q hq f W H K = P).
  { extensionality s. extensionality j. unfold residual_H. fold P. unfold mm, W. rewrite (rsum_0 hq) by (intros; ring). ring. }
  assert (EM : forall j, rmean n (fun s => P s j) = 0).
  { intro j. unfold P. rewrite (rmean_ext n _ (fun s => mm q f (mm hq H K) s j)) by (intros; apply mm_assoc). apply rmean_mm. exact Hf. }
  unfold inner in EZ. rewrite (total_ext n hq _ (fun s j => tanh (P s j / rstd n (fun s => P s j)) * P s j)) in EZ.
  2:{ intros s j Hs Hj. rewrite EP, ER by assumption. unfold standardise. rewrite EM. f_equal. f_equal. unfold Rdiv. ring. }
  assert (SD : forall j, (j < hq)%nat -> 0 < rstd n (fun s => P s j)).
  { intros j Hj. specialize (Hsd K eq_refl j Hj). fold P in Hsd.
    assert (0 <= rstd n (fun s => P s j)) by apply sqrt_pos. lra. }
  assert (NN : forall s j, (j < hq)%nat -> 0 <= tanh (P s j / rstd n (fun s => P s j)) * P s j /\
                                    (P s j <> 0 -> 0 < tanh (P s j / rstd n (fun s => P s j)) * P s j)).
  { intros s j Hj. pose proof (SD j Hj) as Q. set (r := rstd n (fun s => P s j)) in *.
    assert (X : P s j <> 0 -> 0 < tanh (P s j / r) * P s j).
    { intro D0. assert (D1 : P s j / r <> 0).
      { unfold Rdiv. apply Rmult_integral_contrapositive_currified; [exact D0|apply Rinv_neq_0_compat; lra]. }
      pose proof (tanh_sign _ D1). replace (tanh (P s j / r) * P s j) with (tanh (P s j / r) * (P s j / r) * r) by (field; lra).
      apply Rmult_lt_0_compat; assumption. }
    split; [|exact X]. destruct (Req_dec (P s j) 0) as [Z|Z]; [rewrite Z; lra|]. apply Rlt_le, X, Z. }
  destruct (rmean_zero_std n (fun s => P s 0%nat) Hn (EM 0%nat)) as [s [Hs Ds]].
  { pose proof (SD 0%nat Hhq). lra. }
  assert (0 < total n hq (fun s j => tanh (P s j / rstd n (fun s => P s j)) * P s j)); [|lra].
  unfold total. eapply Rlt_le_trans; [|apply (rsum_ge_one n _ s Hs); intros; apply rsum_nonneg; intros; apply NN; assumption].
  cbn beta. eapply Rlt_le_trans; [|apply (rsum_ge_one hq _ 0%nat Hhq); intros; apply NN; assumption].
  apply (proj2 (NN s 0%nat Hhq) Ds).
Qed.
