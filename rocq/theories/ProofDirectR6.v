(** * DirectLiNGAM on data: where the scores are NaN, and what happens then *)
From Coq Require Import Reals Lra Lia Arith Bool List Permutation.
From Verif Require Import Prelude LibR SpecDirectR ModelDirectR ProofDirectR ProofDirectR2 ProofDirectR5.
From Verif Require ModelDirect ProofDirect.
Import ListNotations.
Open Scope R_scope.

Section Nan.
Context (n : nat) (Pn : (0 < n)%nat).

Lemma mean_const : forall c, mean n (fun _ => c) = c.
Proof. intro c. unfold mean. rewrite rsum_const. field. apply not_0_INR. lia. Qed.
Lemma const_var : forall x c, (forall s, (s < n)%nat -> x s = c) -> var n x = 0.
Proof.
  intros x c H. assert (M : mean n x = c) by (rewrite (mean_ext n x (fun _ => c) H); apply mean_const).
  unfold var. rewrite (mean_ext n _ (fun _ => 0)); [apply mean_const|]. intros s Hs. rewrite M, (H s Hs). ring.
Qed.
Lemma cov_self : forall x, cov n x x = var n x.
Proof. intro x. unfold cov, var. apply mean_ext. intros s _. ring. Qed.
Lemma residual_const : forall x y, var n y <> 0 ->
  (var n (fun s => x s - cov n x y / var n y * y s) = 0 <-> exists a t, forall s, (s < n)%nat -> x s = a * y s + t).
Proof.
  intros x y V. split.
  - intro E. exists (cov n x y / var n y), (mean n (fun s => x s - cov n x y / var n y * y s)). intros s Hs.
    pose proof (var_zero_const n _ Pn E s Hs) as Q. cbn beta in Q. lra.
  - intros (a & t & H). assert (C : cov n x y = a * var n y).
    { assert (R1 : rel n (fun s => s) a t y x) by (intros s Hs; apply H; exact Hs).
      assert (R2 : rel n (fun s => s) 1 0 y y) by (intros s Hs; ring).
      rewrite (rel_cov n n _ (sd_id n) Pn a t 1 0 y x y y R1 R2), cov_self. ring. }
    apply (const_var _ t). intros s Hs. rewrite C, (H s Hs). field. exact V.
Qed.
Lemma related_sym : forall x y, linearly_related n x y -> linearly_related n y x.
Proof. intros x y (a & b & c & D & H). exists b, a, c. split; [tauto|]. intros s Hs. rewrite <- (H s Hs). ring. Qed.
Lemma const_related : forall x y, std n x = 0 -> linearly_related n x y.
Proof.
  intros x y E. apply std_zero in E. exists 1, 0, (mean n x). split; [left; lra|]. intros s Hs.
  rewrite (var_zero_const n x Pn E s Hs). ring.
Qed.
Lemma related_affine : forall x y, std n x <> 0 -> std n y <> 0 -> (linearly_related n x y <-> exists a t, forall s, (s < n)%nat -> x s = a * y s + t).
Proof.
  intros x y Hx Hy. split.
  - intros (a & b & c & D & H). assert (Na : a <> 0).
    { intros ->. destruct D as [D|D]; [lra|]. apply Hy. apply std_zero. apply (const_var y (c / b)). intros s Hs.
      pose proof (H s Hs). apply (Rmult_eq_reg_l b); [|exact D]. field_simplify; [lra|exact D]. }
    exists (- b / a), (c / a). intros s Hs. pose proof (H s Hs). apply (Rmult_eq_reg_l a); [|exact Na]. field_simplify; [lra|exact Na].
  - intros (a & t & H). exists 1, (- a), t. split; [left; lra|]. intros s Hs. rewrite (H s Hs). ring.
Qed.
Definition zs (x : nat -> R) : nat -> R := fun s => (x s - mean n x) / std n x.
Lemma zs_std : forall x, std n x <> 0 -> std n (zs x) = 1.
Proof.
  intros x H. assert (R1 : rel n (fun s => s) (/ std n x) (- mean n x / std n x) x (zs x)) by (intros s Hs; unfold zs; field; exact H).
  rewrite (rel_std n n _ (sd_id n) Pn _ _ _ _ R1). pose proof (std_nonneg n x). rewrite Rabs_right; [field; exact H|].
  left. apply Rinv_0_lt_compat. lra.
Qed.
Lemma related_zs : forall x y, std n x <> 0 -> std n y <> 0 ->
  ((exists a t, forall s, (s < n)%nat -> zs x s = a * zs y s + t) <-> exists a t, forall s, (s < n)%nat -> x s = a * y s + t).
Proof.
  intros x y Hx Hy. unfold zs. split; intros (a & t & H).
  - exists (std n x * a / std n y), (mean n x + std n x * t - std n x * a * mean n y / std n y). intros s Hs.
    apply (Rmult_eq_reg_r (/ std n x)); [|apply Rinv_neq_0_compat; exact Hx].
    pose proof (H s Hs) as E. apply (Rplus_eq_reg_r (- mean n x / std n x)).
    transitivity ((x s - mean n x) / std n x); [field; exact Hx|]. rewrite E. field. split; assumption.
  - exists (a * std n y / std n x), ((a * mean n y + t - mean n x) / std n x). intros s Hs. rewrite (H s Hs). field. split; assumption.
Qed.

Definition degenerate (c : col) : Prop := match c with None => True | Some x => std n x = 0 end.
Definition nan_pair (c d : col) : Prop := match c, d with Some x, Some y => linearly_related n x y | _, _ => True end.

Lemma entropy_none : forall c, entropy n c = None <-> c = None.
Proof. intros [c|]; cbn; split; congruence. Qed.
Lemma standardize_none : forall x, standardize n (Some x) = if Req_EM_T (std n x) 0 then None else Some (zs x).
Proof. reflexivity. Qed.
Lemma unit_residual_none : forall x y, std n x <> 0 -> std n y <> 0 ->
  (unit_std n (residual n (Some (zs x)) (Some (zs y))) = None <-> linearly_related n x y).
Proof.
  intros x y Hx Hy. assert (Vy : var n (zs y) <> 0) by (intro E; apply std_zero in E; rewrite zs_std in E by exact Hy; lra).
  cbn [residual]. destruct (Req_EM_T (var n (zs y)) 0); [contradiction|]. cbn [unit_std].
  pose proof (residual_const (zs x) (zs y) Vy) as C. pose proof (related_zs x y Hx Hy) as Z. pose proof (related_affine x y Hx Hy) as A.
  match goal with |- context [Req_EM_T ?a 0] => destruct (Req_EM_T a 0) as [E|E] end.
  - apply std_zero in E. split; [intros _; tauto|reflexivity].
  - split; [discriminate|]. intro L. exfalso. apply E. apply std_zero. tauto.
Qed.
Lemma pair_term_none : forall X i j, pair_term n X i j = None <-> nan_pair (X i) (X j).
Proof.
  intros X i j. unfold pair_term, nan_pair. destruct (X i) as [x|], (X j) as [y|]; cbn [standardize]; try (split; [tauto|]; intros _).
  2-4: unfold diff_mutual_info; cbn; try (destruct (Req_EM_T _ 0)); cbn; reflexivity.
  fold (zs x) (zs y). destruct (Req_EM_T (std n x) 0) as [Ex|Ex].
  - split; [intros _; apply const_related; exact Ex|]. intros _. unfold diff_mutual_info. cbn. destruct (Req_EM_T (std n y) 0); reflexivity.
  - destruct (Req_EM_T (std n y) 0) as [Ey|Ey].
    + split; [intros _; apply related_sym, const_related; exact Ey|]. intros _. reflexivity.
    + change (fun s => (x s - mean n x) / std n x) with (zs x). change (fun s => (y s - mean n y) / std n y) with (zs y).
      pose proof (unit_residual_none x y Ex Ey) as A. pose proof (unit_residual_none y x Ey Ex) as B.
      assert (S : linearly_related n x y <-> linearly_related n y x) by (split; apply related_sym).
      unfold diff_mutual_info. set (r := unit_std n (residual n (Some (zs x)) (Some (zs y)))) in *. set (q := unit_std n (residual n (Some (zs y)) (Some (zs x)))) in *.
      destruct r as [r|], q as [q|]; cbn; split; intro H; try discriminate; try reflexivity; try tauto.
      exfalso. assert (None = Some r) by (symmetry; tauto). discriminate.
Qed.
Lemma fold_none : forall (f : nat -> option R) i U, fold_left (fun M j => if (i =? j)%nat then M else oadd M (f j)) U None = None.
Proof. intros f i U. induction U as [|j U IH]; [reflexivity|]. cbn. destruct (i =? j)%nat; exact IH. Qed.
Lemma score_none : forall X U Uc i, pwling_score n X U Uc [] i = Ok None <-> exists j, In j U /\ j <> i /\ nan_pair (X i) (X j).
Proof.
  intros X U Uc i. rewrite score_eq.
  assert (G : forall V m, fold_left (fun M j => if (i =? j)%nat then M else oadd M (pair_term n X i j)) V (Some m) = None <->
                          exists j, In j V /\ j <> i /\ nan_pair (X i) (X j)).
  { induction V as [|j V IH]; intro m; cbn [fold_left].
    - split; [discriminate|]. intros (j & [] & _).
    - destruct (Nat.eqb_spec i j) as [->|D].
      + rewrite IH. split; intros (k & Hk & Dk & Nk); exists k; (split; [|split; assumption]); [right; exact Hk|]. destruct Hk as [->|Hk]; [contradiction|exact Hk].
      + destruct (pair_term n X i j) as [v|] eqn:E.
        * cbn [oadd]. rewrite IH. split; intros (k & Hk & Dk & Nk); exists k; (split; [|split; assumption]); [right; exact Hk|].
          destruct Hk as [->|Hk]; [|exact Hk]. exfalso. apply pair_term_none in Nk. congruence.
        * cbn [oadd]. rewrite fold_none. split; [|reflexivity]. intros _. exists j. split; [left; reflexivity|]. split; [congruence|].
          apply pair_term_none. exact E. }
  rewrite <- (G U 0). destruct (fold_left _ U (Some 0)); cbn; split; congruence.
Qed.
Lemma score_some : forall X U Uc i, ~ (exists j, In j U /\ j <> i /\ nan_pair (X i) (X j)) -> exists v, pwling_score n X U Uc [] i = Ok (Some v).
Proof.
  intros X U Uc i H. destruct (pwling_score n X U Uc [] i) as [[v|]|] eqn:E; [exists v; reflexivity| |].
  - exfalso. apply H. apply (score_none X U Uc i). exact E.
  - rewrite score_eq in E. discriminate.
Qed.

Lemma argbest_nan : forall l1 l2 b bi i, (forall x, In x l1 -> x <> None) ->
  argbest (fun v b => Rltb b v) (Some b) bi i (l1 ++ None :: l2) = (i + length l1)%nat.
Proof.
  induction l1 as [|x l1 IH]; intros l2 b bi i H; cbn [app argbest].
  - cbn. lia.
  - destruct x as [v|]; [|exfalso; apply (H None (or_introl eq_refl)); reflexivity].
    destruct (Rltb b v); rewrite IH by (intros; apply H; right; assumption); cbn [length]; lia.
Qed.
Lemma argmax_nan : forall l1 l2, (forall x, In x l1 -> x <> None) -> argmax (l1 ++ None :: l2) = Some (length l1).
Proof.
  intros [|[x|] l1] l2 H.
  - cbn. destruct l2; reflexivity.
  - cbn [app argmax]. rewrite argbest_nan by (intros; apply H; right; assumption). reflexivity.
  - exfalso. apply (H None (or_introl eq_refl)). reflexivity.
Qed.
Definition score_of (X : nat -> col) (U : list nat) (i : nat) : option R :=
  option_map (fun m => -1 * m) (fold_left (fun M j => if (i =? j)%nat then M else oadd M (pair_term n X i j)) U (Some 0)).
Lemma search_nan : forall X A k B, (forall i, In i A -> ~ exists j, In j (A ++ k :: B) /\ j <> i /\ nan_pair (X i) (X j)) ->
  (exists j, In j (A ++ k :: B) /\ j <> k /\ nan_pair (X k) (X j)) ->
  search (pwling_score n) argmax ModelDirect.NoPK [] X (A ++ k :: B) = Ok k.
Proof.
  intros X A k B HA HK. set (U := A ++ k :: B) in *.
  assert (T : traverse (pwling_score n X U U []) U = Ok (map (score_of X U) U)) by (apply traverse_ok; intros; apply score_eq).
  assert (E : map (score_of X U) U = map (score_of X U) A ++ None :: map (score_of X U) B).
  { unfold U at 2. rewrite map_app. cbn [map]. f_equal. f_equal. apply (score_none X U U k) in HK. rewrite score_eq in HK. injection HK. auto. }
  unfold search. cbn [ModelDirect.search_candidate]. destruct U as [|a [|b U'] ] eqn:EU.
  - destruct A; discriminate.
  - destruct A as [|a' [|] ]; cbn in EU; injection EU; intros; subst; try reflexivity; discriminate.
  - rewrite T, E. cbn [bind]. rewrite argmax_nan.
    + rewrite map_length. rewrite <- EU. unfold U. rewrite nth_error_app2, Nat.sub_diag by lia. reflexivity.
    + intros x Hx. apply in_map_iff in Hx. destruct Hx as (i & <- & Hi). intro Q.
      apply (HA i Hi). apply (score_none X _ (a :: b :: U') i). rewrite score_eq. f_equal. exact Q.
Qed.

(** a degenerate column is NaN with every other *)
Lemma degenerate_pair : forall c d, degenerate d -> nan_pair c d.
Proof. intros [x|] [y|] H; cbn in *; try exact I. apply related_sym. apply const_related. exact H. Qed.
Lemma degenerate_pair' : forall c d, degenerate c -> nan_pair c d.
Proof. intros [x|] [y|] H; cbn in *; try exact I. apply const_related. exact H. Qed.
Lemma nan_pair_sym : forall c d, nan_pair c d -> nan_pair d c.
Proof. intros [x|] [y|] H; cbn in *; try exact I. apply related_sym. exact H. Qed.
Lemma residual_degenerate : forall c d, nan_pair c d -> degenerate (residual n c d).
Proof.
  intros [x|] [y|] H; cbn in *; try exact I. destruct (Req_EM_T (var n y) 0) as [E|E]; [exact I|]. cbn.
  apply std_zero. apply residual_const; [exact E|]. destruct (Req_EM_T (std n x) 0) as [F|F].
  - apply std_zero in F. exists 0, (mean n x). intros s Hs. rewrite (var_zero_const n x Pn F s Hs). ring.
  - apply related_affine; try assumption. intro Q. apply E. apply std_zero. exact Q.
Qed.
Lemma remove_absent : forall x l, ~ In x l -> remove_nat x l = l.
Proof.
  intros x l. induction l as [|y l IH]; intro H; [reflexivity|]. unfold remove_nat in *. cbn [filter]. destruct (Nat.eqb_spec y x) as [->|D].
  - exfalso. apply H. left. reflexivity.
  - cbn [negb]. f_equal. apply IH. intro Q. apply H. right. exact Q.
Qed.
Lemma remove_app : forall x A B, NoDup (A ++ x :: B) -> remove_nat x (A ++ x :: B) = A ++ B.
Proof.
  intros x A B ND. apply NoDup_remove in ND. destruct ND as [_ NI].
  unfold remove_nat. rewrite filter_app. cbn [filter]. rewrite Nat.eqb_refl. cbn [negb].
  change (remove_nat x A ++ remove_nat x B = A ++ B). rewrite !remove_absent; [reflexivity| |]; intro Q; apply NI; apply in_or_app; tauto.
Qed.
Lemma loop_degenerate : forall U X K, NoDup U -> (exists c, In c U /\ degenerate (X c)) ->
  loop (pwling_score n) argmax (length U) n ModelDirect.NoPK [] X U K = Ok (K ++ U).
Proof.
  induction U as [|h T IH]; intros X K ND (c & Hc & Dc); [destruct Hc|]. cbn [length loop].
  assert (S : search (pwling_score n) argmax ModelDirect.NoPK [] X (h :: T) = Ok h).
  { destruct T as [|b T']; [reflexivity|]. apply (search_nan X [] h (b :: T')); [intros i []|].
    destruct (Nat.eq_dec c h) as [->|D].
    - exists b. split; [right; left; reflexivity|]. split; [intros ->; inversion ND; subst; apply H1; left; reflexivity|]. apply degenerate_pair'. exact Dc.
    - exists c. split; [exact Hc|]. split; [exact D|]. apply degenerate_pair. exact Dc. }
  rewrite S. cbn [bind]. pose proof (remove_app h [] T ND) as E. cbn [app] in E. rewrite E.
  destruct T as [|b T']; [reflexivity|]. inversion ND as [|? ? NI ND']; subst.
  rewrite IH; [rewrite <- app_assoc; reflexivity|exact ND'|].
  assert (C : exists d, In d (b :: T') /\ nan_pair (X d) (X h)).
  { destruct (Nat.eq_dec c h) as [->|D].
    - exists b. split; [left; reflexivity|]. apply degenerate_pair. exact Dc.
    - exists c. destruct Hc as [->|Hc]; [contradiction|]. split; [exact Hc|]. apply degenerate_pair'. exact Dc. }
  destruct C as (d & Hd & Nd). exists d. split; [exact Hd|]. rewrite regress_out_eq by exact ND.
  rewrite (proj2 (memb_in d (h :: b :: T')) (or_intror Hd)). destruct (Nat.eqb_spec d h) as [->|_]; [contradiction|]. cbn [andb negb]. apply residual_degenerate. exact Nd.
Qed.
Lemma loop_related : forall A k B X K, NoDup (A ++ k :: B) ->
  (forall i, In i A -> ~ exists j, In j (A ++ k :: B) /\ j <> i /\ nan_pair (X i) (X j)) ->
  (exists j, In j (A ++ k :: B) /\ j <> k /\ nan_pair (X k) (X j)) ->
  loop (pwling_score n) argmax (length (A ++ k :: B)) n ModelDirect.NoPK [] X (A ++ k :: B) K = Ok (K ++ k :: A ++ B).
Proof.
  intros A k B X K ND HA HK. replace (length (A ++ k :: B)) with (S (length (A ++ B))) by (rewrite !app_length; cbn; lia). cbn [loop].
  rewrite (search_nan X A k B HA HK). cbn [bind]. rewrite remove_app by exact ND.
  rewrite loop_degenerate; [rewrite <- app_assoc; reflexivity|apply (NoDup_remove_1 _ _ _ ND)|].
  destruct HK as (j & Hj & Dj & Nj). exists j.
  assert (Hj' : In j (A ++ B)) by (apply in_app_or in Hj; apply in_or_app; destruct Hj as [Hj|[<-|Hj] ]; [left; exact Hj|contradiction|right; exact Hj]).
  split; [exact Hj'|]. rewrite regress_out_eq by exact ND. rewrite (proj2 (memb_in j _) Hj).
  destruct (Nat.eqb_spec j k); [contradiction|]. cbn [andb negb]. apply residual_degenerate. apply nan_pair_sym. exact Nj.
Qed.
End Nan.

(** ** The kernel measure raises *)
Lemma traverse_err : forall (A B : Type) (f : A -> result B) l a, In a l -> (forall x e, In x l -> f x = Err e -> e = ValueError) -> f a = Err ValueError ->
  traverse f l = Err ValueError.
Proof.
  intros A B f l a. induction l as [|x l IH]; intros H HE F; [destruct H|]. cbn. destruct (f x) as [y|e] eqn:E; cbn [bind].
  - destruct H as [->|H]; [congruence|]. rewrite IH; [reflexivity|exact H|intros; eapply HE; [right|]; eassumption|exact F].
  - f_equal. apply (HE x); [left; reflexivity|exact E].
Qed.
Lemma kernel_fold_err : forall logsv n X Uc Vj j kappa sigma U e,
  fold_left (fun T i => let* T := T in if (i =? j)%nat then Ok T else
    let ri_j := if memb j Vj && memb i Uc then X i else residual n (X i) (X j) in
    let* mi := mutual_information logsv n (X j) ri_j kappa sigma in Ok (T + mi)) U (Err e) = Err e.
Proof. intros. induction U as [|i U IH]; [reflexivity|]. exact IH. Qed.
Lemma kernel_score_err : forall logsv n X U Uc Vj j e, kernel_score logsv n X U Uc Vj j = Err e -> e = ValueError.
Proof.
  intros logsv n X U Uc Vj j e. unfold kernel_score. destruct (kernel_params n) as [kappa sigma].
  assert (G : forall V T e, fold_left (fun T i => let* T := T in if (i =? j)%nat then Ok T else
    let ri_j := if memb j Vj && memb i Uc then X i else residual n (X i) (X j) in
    let* mi := mutual_information logsv n (X j) ri_j kappa sigma in Ok (T + mi)) V (Ok T) = Err e -> e = ValueError).
  { induction V as [|i V IH]; intros T e' H; [discriminate|]. cbn [fold_left bind] in H. destruct (i =? j)%nat; [apply (IH T); exact H|]. cbv zeta in H.
    destruct (mutual_information logsv n (X j) _ kappa sigma) as [mi|x] eqn:E; cbn [bind] in H; [apply (IH (T + mi)); exact H|].
    rewrite kernel_fold_err in H. injection H as <-. unfold mutual_information in E.
    destruct (X j); [|injection E; auto]. destruct (if memb j Vj && memb i Uc then X i else residual n (X i) (Some r)); [discriminate|injection E; auto]. }
  specialize (G U 0). destruct (fold_left _ U (Ok 0)) as [T|x]; cbn [bind]; intro H; [discriminate|]. injection H as <-. apply G. reflexivity.
Qed.
Lemma kernel_score_const : forall logsv n, (0 < n)%nat -> forall X U c i, In i U -> i <> c -> match X c with Some x => var n x = 0 | None => True end ->
  kernel_score logsv n X U U [] c = Err ValueError.
Proof.
  intros logsv n Hn X U c i Hi Di V. unfold kernel_score. destruct (kernel_params n) as [kappa sigma].
  assert (G : forall W T, In i W -> fold_left (fun T i => let* T := T in if (i =? c)%nat then Ok T else
    let ri_j := if memb c [] && memb i U then X i else residual n (X i) (X c) in
    let* mi := mutual_information logsv n (X c) ri_j kappa sigma in Ok (T + mi)) W (Ok T) = Err ValueError).
  { induction W as [|k W IH]; intros T H; [destruct H|]. cbn [fold_left bind]. destruct (Nat.eqb_spec k c) as [->|Dk].
    - apply IH. destruct H as [->|H]; [contradiction|exact H].
    - cbv zeta. cbn [memb existsb andb].
      assert (E : mutual_information logsv n (X c) (residual n (X k) (X c)) kappa sigma = Err ValueError).
      { unfold mutual_information. destruct (X c) as [x|]; [|reflexivity]. destruct (X k) as [y|]; cbn; [|reflexivity].
        destruct (Req_EM_T (var n x) 0); [reflexivity|contradiction]. }
      rewrite E. cbn [bind]. apply (kernel_fold_err logsv n X U [] c). }
  specialize (G U 0 Hi). destruct (fold_left _ U (Ok 0)) as [T|x]; cbn [bind]; [discriminate|injection G as ->; reflexivity].
Qed.
