(** * DirectLiNGAM on data: change of units, reordering and repetition of samples *)
From Coq Require Import Reals Lra Lia Arith Bool List FunctionalExtensionality.
From Verif Require Import Prelude LibR SpecDirectR ModelDirectR.
From Verif Require ModelDirect ProofDirect.
Import ListNotations.
Open Scope R_scope.

(** ** Statistics *)
Section Stats.
Context (n n' : nat) (pi : nat -> nat) (SD : same_distribution n n' pi) (Pn : (0 < n)%nat).

Lemma mean_ext : forall m f g, (forall s, (s < m)%nat -> f s = g s) -> mean m f = mean m g.
Proof. intros m f g H. unfold mean. rewrite (rsum_ext m f g H). reflexivity. Qed.
Lemma mean_pi : forall f f', (forall s, (s < n')%nat -> f' s = f (pi s)) -> mean n' f' = mean n f.
Proof. intros f f' H. rewrite (mean_ext n' f' (fun s => f (pi s)) H). apply SD. Qed.
Lemma mean_affine : forall m a t x, (0 < m)%nat -> mean m (fun s => a * x s + t) = a * mean m x + t.
Proof.
  intros m a t x Hm. unfold mean. rewrite rsum_plus, rsum_scal, rsum_const. field. apply not_0_INR. lia.
Qed.
Lemma mean_scal : forall m a x, mean m (fun s => a * x s) = a * mean m x.
Proof. intros m a x. unfold mean. rewrite rsum_scal. unfold Rdiv. ring. Qed.

Definition rel (a t : R) (x x' : nat -> R) : Prop := forall s, (s < n')%nat -> x' s = a * x (pi s) + t.
Lemma rel_mean : forall a t x x', rel a t x x' -> mean n' x' = a * mean n x + t.
Proof. intros a t x x' H. rewrite (mean_pi (fun s => a * x s + t) x' H). apply mean_affine. exact Pn. Qed.
Lemma rel_cov : forall a t b u x x' y y', rel a t x x' -> rel b u y y' -> cov n' x' y' = a * b * cov n x y.
Proof.
  intros a t b u x x' y y' Hx Hy. unfold cov. rewrite (rel_mean _ _ _ _ Hx), (rel_mean _ _ _ _ Hy).
  rewrite (mean_pi (fun s => (a * b) * ((x s - mean n x) * (y s - mean n y)))).
  - apply mean_scal.
  - intros s Hs. rewrite (Hx s Hs), (Hy s Hs). ring.
Qed.
Lemma rel_var : forall a t x x', rel a t x x' -> var n' x' = a ^ 2 * var n x.
Proof.
  intros a t x x' Hx. unfold var. rewrite (rel_mean _ _ _ _ Hx).
  rewrite (mean_pi (fun s => a ^ 2 * (x s - mean n x) ^ 2)).
  - apply mean_scal.
  - intros s Hs. rewrite (Hx s Hs). ring.
Qed.
End Stats.

Lemma var_nonneg : forall n x, 0 <= var n x.
Proof.
  intros n x. unfold var, mean. destruct (Nat.eq_dec n 0) as [->|D]; [cbn; unfold Rdiv; rewrite Rmult_0_l; lra|].
  apply Rmult_le_pos; [apply rsum_nonneg; intros; apply pow2_ge_0|].
  left. apply Rinv_0_lt_compat. apply lt_0_INR. lia.
Qed.
Lemma std_zero : forall n x, std n x = 0 <-> var n x = 0.
Proof.
  intros n x. unfold std. split; intro H.
  - apply sqrt_eq_0; [apply var_nonneg|exact H].
  - rewrite H. apply sqrt_0.
Qed.
Lemma std_nonneg : forall n x, 0 <= std n x.
Proof. intros. apply sqrt_pos. Qed.

Section Rel.
Context (n n' : nat) (pi : nat -> nat) (SD : same_distribution n n' pi) (Pn : (0 < n)%nat).
Notation rel := (rel n' pi).

Lemma rel_std : forall a t x x', rel a t x x' -> std n' x' = Rabs a * std n x.
Proof.
  intros a t x x' H. unfold std. rewrite (rel_var n n' pi SD Pn a t x x' H), sqrt_mult_alt by apply pow2_ge_0.
  replace (a ^ 2) with (Rsqr a) by (unfold Rsqr; ring). rewrite sqrt_Rsqr_abs. reflexivity.
Qed.

(** ** Columns *)
Definition affine_rel (c c' : col) : Prop :=
  match c, c' with
  | Some x, Some x' => exists a t, a <> 0 /\ rel a t x x'
  | None, None => True
  | _, _ => False
  end.
Definition sign_rel (e : R) (c c' : col) : Prop :=
  match c, c' with
  | Some x, Some x' => forall s, (s < n')%nat -> x' s = e * x (pi s)
  | None, None => True
  | _, _ => False
  end.
Definition sign (e : R) : Prop := e = 1 \/ e = -1.
Lemma sign_nz : forall e, sign e -> e <> 0.
Proof. intros e [-> | ->]; lra. Qed.
Lemma sign_abs : forall e, sign e -> Rabs e = 1.
Proof. intros e [-> | ->]; [apply Rabs_R1|]. rewrite Rabs_left; lra. Qed.
Lemma sign_of : forall a, a <> 0 -> sign (a / Rabs a).
Proof.
  intros a H. destruct (Rcase_abs a) as [L|G].
  - right. rewrite Rabs_left by exact L. field. lra.
  - left. rewrite Rabs_right by exact G. field. lra.
Qed.
Lemma sign_rel_rel : forall e x x', (forall s, (s < n')%nat -> x' s = e * x (pi s)) -> rel e 0 x x'.
Proof. intros e x x' H s Hs. rewrite (H s Hs). ring. Qed.

Lemma std_zero_rel : forall a t x x', a <> 0 -> rel a t x x' -> (std n' x' = 0 <-> std n x = 0).
Proof.
  intros a t x x' Ha H. rewrite (rel_std _ _ _ _ H). pose proof (Rabs_no_R0 a Ha). split; intro E.
  - apply Rmult_integral in E. tauto.
  - rewrite E. ring.
Qed.
Lemma var_zero_rel : forall a t x x', a <> 0 -> rel a t x x' -> (var n' x' = 0 <-> var n x = 0).
Proof. intros a t x x' Ha H. rewrite <- !std_zero. apply (std_zero_rel a t); assumption. Qed.

Lemma residual_affine : forall xi xi' xj xj', affine_rel xi xi' -> affine_rel xj xj' -> affine_rel (residual n xi xj) (residual n' xi' xj').
Proof.
  intros [x|] [x'|] [y|] [y'|]; cbn; try tauto. intros (a & t & Ha & Hx) (b & u & Hb & Hy).
  pose proof (var_zero_rel b u y y' Hb Hy) as V.
  destruct (Req_EM_T (var n' y') 0) as [E|E], (Req_EM_T (var n y) 0) as [F|F]; cbn; try tauto.
  exists a, (t - a * b * cov n x y / (b ^ 2 * var n y) * u). split; [exact Ha|]. intros s Hs.
  rewrite (rel_cov n n' pi SD Pn a t b u x x' y y' Hx Hy), (rel_var n n' pi SD Pn b u y y' Hy), (Hx s Hs), (Hy s Hs).
  field. split; assumption.
Qed.
Lemma residual_sign : forall e d xi xi' xj xj', sign e -> sign d -> sign_rel e xi xi' -> sign_rel d xj xj' ->
  sign_rel e (residual n xi xj) (residual n' xi' xj').
Proof.
  intros e d [x|] [x'|] [y|] [y'|]; cbn; try tauto. intros Se Sd Hx Hy.
  apply sign_rel_rel in Hx. apply sign_rel_rel in Hy. pose proof (sign_nz d Sd) as Nd.
  pose proof (var_zero_rel d 0 y y' Nd Hy) as V.
  destruct (Req_EM_T (var n' y') 0) as [E|E], (Req_EM_T (var n y) 0) as [F|F]; cbn; try tauto.
  intros s Hs. rewrite (rel_cov n n' pi SD Pn e 0 d 0 x x' y y' Hx Hy), (rel_var n n' pi SD Pn d 0 y y' Hy), (Hx s Hs), (Hy s Hs).
  field. split; assumption.
Qed.
Lemma standardize_rel : forall c c', affine_rel c c' -> exists e, sign e /\ sign_rel e (standardize n c) (standardize n' c').
Proof.
  intros [x|] [x'|]; cbn; try tauto; [|intros _; exists 1; split; [left; reflexivity|exact I] ].
  intros (a & t & Ha & Hx). exists (a / Rabs a). split; [apply sign_of; exact Ha|].
  pose proof (std_zero_rel a t x x' Ha Hx) as V.
  destruct (Req_EM_T (std n' x') 0) as [E|E], (Req_EM_T (std n x) 0) as [F|F]; cbn; try tauto.
  intros s Hs. rewrite (rel_std a t x x' Hx), (rel_mean n n' pi SD Pn a t x x' Hx), (Hx s Hs). field.
  split; [exact F|]. apply Rabs_no_R0. exact Ha.
Qed.
Lemma unit_std_sign : forall e c c', sign e -> sign_rel e c c' -> sign_rel e (unit_std n c) (unit_std n' c').
Proof.
  intros e [x|] [x'|] Se; cbn; try tauto. intros Hx. apply sign_rel_rel in Hx. pose proof (sign_nz e Se) as Ne.
  pose proof (std_zero_rel e 0 x x' Ne Hx) as V.
  destruct (Req_EM_T (std n' x') 0) as [E|E], (Req_EM_T (std n x) 0) as [F|F]; cbn; try tauto.
  intros s Hs. rewrite (rel_std e 0 x x' Hx), (Hx s Hs), (sign_abs e Se). field. exact F.
Qed.
Lemma cosh_sign : forall e u, sign e -> cosh (e * u) = cosh u.
Proof.
  intros e u [-> | ->]; unfold cosh; [rewrite Rmult_1_l; reflexivity|].
  replace (-1 * u) with (- u) by ring. rewrite Ropp_involutive. f_equal. ring.
Qed.
Lemma entropy_sign : forall e c c', sign e -> sign_rel e c c' -> entropy n' c' = entropy n c.
Proof.
  intros e [x|] [x'|] Se; cbn; try tauto. intros H. unfold entropy_of. f_equal.
  rewrite (mean_pi n n' pi SD (fun s => ln (cosh (x s))) (fun s => ln (cosh (x' s)))).
  2:{ intros s Hs. rewrite (H s Hs), (cosh_sign e _ Se). reflexivity. }
  assert (E : mean n' (fun s => x' s * exp (- x' s ^ 2 / 2)) = e * mean n (fun s => x s * exp (- x s ^ 2 / 2))).
  { rewrite <- mean_scal. apply (mean_pi n n' pi SD). intros s Hs. rewrite (H s Hs).
    replace ((e * x (pi s)) ^ 2) with (x (pi s) ^ 2) by (destruct Se as [-> | ->]; ring). ring. }
  rewrite E. destruct Se as [-> | ->]; ring.
Qed.
Lemma diff_sign : forall e d f g xi xi' xj xj' r r' q q', sign e -> sign d -> sign f -> sign g ->
  sign_rel e xi xi' -> sign_rel d xj xj' -> sign_rel f r r' -> sign_rel g q q' ->
  diff_mutual_info n' xi' xj' r' q' = diff_mutual_info n xi xj r q.
Proof.
  intros e d f g xi xi' xj xj' r r' q q' Se Sd Sf Sg Hi Hj Hr Hq. unfold diff_mutual_info.
  rewrite (entropy_sign e xi xi' Se Hi), (entropy_sign d xj xj' Sd Hj),
    (entropy_sign f _ _ Sf (unit_std_sign f _ _ Sf Hr)), (entropy_sign g _ _ Sg (unit_std_sign g _ _ Sg Hq)). reflexivity.
Qed.
Lemma fold_left_ext_in : forall (A B : Type) (f g : A -> B -> A) l a, (forall a b, In b l -> f a b = g a b) -> fold_left f l a = fold_left g l a.
Proof. intros A B f g l. induction l as [|b l IH]; intros a H; [reflexivity|]. cbn. rewrite (H a b) by (left; reflexivity). apply IH. intros; apply H; right; assumption. Qed.
Lemma pwling_score_rel : forall X X' U Uc Vj i, (forall j, In j U -> affine_rel (X j) (X' j)) -> In i U ->
  pwling_score n' X' U Uc Vj i = pwling_score n X U Uc Vj i.
Proof.
  intros X X' U Uc Vj i H Hi. unfold pwling_score. do 2 f_equal. apply fold_left_ext_in. intros M j Hj.
  destruct (Nat.eqb_spec i j) as [E|E]; [reflexivity|]. cbn zeta. f_equal. f_equal.
  destruct (standardize_rel _ _ (H i Hi)) as (e & Se & He). destruct (standardize_rel _ _ (H j Hj)) as (d & Sd & Hd).
  apply (diff_sign e d e d); try assumption.
  - destruct (memb i Vj && memb j Uc); [exact He|]. apply (residual_sign e d); assumption.
  - destruct (memb j Vj && memb i Uc); [exact Hd|]. apply (residual_sign d e); assumption.
Qed.
End Rel.

(** ** The loop only looks at scores *)
Section Param.
Context (n n' : nat) (Rel : col -> col -> Prop).
Context (score score' : (nat -> col) -> list nat -> list nat -> list nat -> nat -> result (option R)) (argsel : list (option R) -> option nat).
Context (HR : forall xi xi' xj xj', Rel xi xi' -> Rel xj xj' -> Rel (residual n xi xj) (residual n' xi' xj')).
Context (HS : forall X X' U Uc Vj i, (forall j, In j U -> Rel (X j) (X' j)) -> In i U -> score' X' U Uc Vj i = score X U Uc Vj i).

Lemma traverse_ext : forall (A B : Type) (f g : A -> result B) l, (forall a, In a l -> f a = g a) -> traverse f l = traverse g l.
Proof.
  intros A B f g l. induction l as [|a l IH]; intro H; [reflexivity|]. cbn. rewrite (H a) by (left; reflexivity).
  rewrite IH by (intros; apply H; right; assumption). reflexivity.
Qed.
Lemma regress_out_rel : forall m U X X', (forall j, In j U -> Rel (X j) (X' j)) -> In m U -> forall V, incl V U ->
  forall j, In j U -> Rel (regress_out n X V m j) (regress_out n' X' V m j).
Proof.
  intros m U X X' H Hm V. revert X X' H. induction V as [|i V IH]; intros X X' H HV j Hj; [apply H; exact Hj|].
  unfold regress_out. cbn [fold_left]. apply IH; [|intros x Hx; apply HV; right; exact Hx|exact Hj].
  intros k Hk. destruct (Nat.eqb_spec i m) as [E|E]; [apply H; exact Hk|]. unfold upd. destruct (k =? i)%nat; [|apply H; exact Hk].
  apply HR; apply H; [apply HV; left; reflexivity|exact Hm].
Qed.
Lemma loop_rel : forall steps mode po U K X X', (forall j, In j U -> Rel (X j) (X' j)) ->
  (forall mo pp V, incl (fst (ModelDirect.search_candidate mo pp V)) V) ->
  loop score' argsel steps n' mode po X' U K = loop score argsel steps n mode po X U K.
Proof.
  induction steps as [|steps IH]; intros mode po U K X X' H SC; [reflexivity|]. cbn [loop].
  assert (E : search score' argsel mode po X' U = search score argsel mode po X U).
  { unfold search. pose proof (SC mode po U) as Inc. destruct (ModelDirect.search_candidate mode po U) as [Uc Vj]. cbn [fst] in Inc.
    destruct Uc as [|a [|b Uc] ]; [reflexivity|reflexivity|].
    rewrite (traverse_ext _ _ (score' X' U (a :: b :: Uc) Vj) (score X U (a :: b :: Uc) Vj)); [reflexivity|].
    intros i Hi. apply HS; [exact H|apply Inc; exact Hi]. }
  rewrite E. destruct (search score argsel mode po X U) as [m|e] eqn:Sr; [|reflexivity]. cbn [bind].
  assert (Hm : In m U).
  { unfold search in Sr. pose proof (SC mode po U) as Inc. destruct (ModelDirect.search_candidate mode po U) as [Uc Vj]. cbn [fst] in Inc.
    apply Inc. destruct Uc as [|a [|b Uc] ].
    - cbn in Sr. destruct (argsel []) as [k|]; [destruct k; discriminate|discriminate].
    - injection Sr as ->. left. reflexivity.
    - cbn [bind] in Sr. destruct (traverse _ _) as [l|]; [|discriminate]. cbn [bind] in Sr. destruct (argsel l) as [k|]; [|discriminate].
      destruct (nth_error (a :: b :: Uc) k) as [x|] eqn:N; [|discriminate]. injection Sr as ->. apply nth_error_In in N. exact N. }
  apply IH; [|exact SC]. intros j Hj. apply (regress_out_rel m U); try assumption; [apply incl_refl|].
  unfold remove_nat in Hj. apply filter_In in Hj. tauto.
Qed.
End Param.
