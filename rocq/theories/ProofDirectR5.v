(** * DirectLiNGAM on data: the order is a permutation; renamed variables; NaN scores *)
From Coq Require Import Reals Lra Lia Arith Bool List Permutation FunctionalExtensionality.
From Verif Require Import Prelude LibR SpecFcorr SpecDirectR ModelDirectR ProofDirectR ProofDirectR2.
From Verif Require ModelDirect ProofDirect.
Import ListNotations.
Open Scope R_scope.

(** ** The order *)
Lemma search_in : forall score argsel mode po X U m, search score argsel mode po X U = Ok m -> In m U.
Proof.
  intros score argsel mode po X U m Sr. unfold search in Sr. pose proof (ProofDirect.candidate_incl mode po U) as Inc.
  destruct (ModelDirect.search_candidate mode po U) as [Uc Vj]. cbn [fst] in Inc.
  apply Inc. destruct Uc as [|a [|b Uc] ].
  - cbn in Sr. destruct (argsel []) as [k|]; [destruct k; discriminate|discriminate].
  - injection Sr as ->. left. reflexivity.
  - destruct (traverse _ _) as [l|]; [|discriminate]. cbn [bind] in Sr. destruct (argsel l) as [k|]; [|discriminate].
    destruct (nth_error (a :: b :: Uc) k) as [x|] eqn:N; [|discriminate]. injection Sr as ->. apply nth_error_In in N. exact N.
Qed.
Lemma remove_perm : forall m U, NoDup U -> In m U -> Permutation U (m :: remove_nat m U).
Proof.
  intros m U ND H. apply NoDup_Permutation; [exact ND| |].
  - constructor; [|apply NoDup_filter; exact ND]. intro Q. apply filter_In in Q. destruct Q as [_ Q]. rewrite Nat.eqb_refl in Q. discriminate.
  - intro x. split.
    + intro Hx. destruct (Nat.eq_dec x m) as [->|D]; [left; reflexivity|]. right. apply filter_In. split; [exact Hx|].
      apply negb_true_iff, Nat.eqb_neq. exact D.
    + intros [<-|Hx]; [exact H|]. apply filter_In in Hx. tauto.
Qed.
Lemma loop_perm : forall score argsel steps n mode po X U K K', NoDup U -> length U = steps ->
  loop score argsel steps n mode po X U K = Ok K' -> Permutation K' (K ++ U).
Proof.
  intros score argsel. induction steps as [|steps IH]; intros n mode po X U K K' ND L H.
  - injection H as <-. destruct U; [|discriminate]. rewrite app_nil_r. reflexivity.
  - cbn [loop] in H. destruct (search score argsel mode po X U) as [m|] eqn:S; [|discriminate]. cbn [bind] in H.
    apply search_in in S. pose proof (remove_perm m U ND S) as P. apply IH in H.
    + rewrite H, <- app_assoc. apply Permutation_app_head. cbn. symmetry. exact P.
    + apply NoDup_filter. exact ND.
    + apply Permutation_length in P. cbn in P. lia.
Qed.
Lemma fit_order_perm : forall logsv ms n p ok mode X K, fit_order logsv ms n p ok mode X = Ok K -> Permutation K (seq 0 p).
Proof.
  intros logsv ms n p ok mode X K H. unfold fit_order in H. destruct ((n =? 0)%nat || (p =? 0)%nat); [discriminate|].
  assert (A : forall po, match ms with
      | ModelDirect.Pwling => loop (pwling_score n) argmax p n mode po (fun j => Some (X j)) (seq 0 p) []
      | ModelDirect.Kernel => loop (kernel_score logsv n) argmin p n mode po (fun j => Some (scale n (X j))) (seq 0 p) []
      end = Ok K -> Permutation K (seq 0 p)).
  { intros po E. destruct ms; apply loop_perm in E; try exact E; try apply seq_NoDup; apply seq_length. }
  destruct mode as [|pk|pk]; [apply (A []); exact H| |].
  - destruct ok; [|discriminate]. destruct (ModelDirect.extract_partial_orders p pk) as [po|]; [|discriminate]. apply (A po). exact H.
  - destruct ok; [|discriminate]. apply (A []). exact H.
Qed.

(** ** regress_out in closed form *)
Lemma regress_out_eq : forall n U X m j, NoDup U ->
  regress_out n X U m j = if memb j U && negb (j =? m)%nat then residual n (X j) (X m) else X j.
Proof.
  intros n U. induction U as [|i U IH]; intros X m j ND; [reflexivity|]. inversion ND as [|? ? NI ND']; subst.
  unfold regress_out. cbn [fold_left]. unfold regress_out in IH. rewrite IH by exact ND'. clear IH.
  assert (Mi : memb i U = false) by (apply not_true_is_false; intro Q; apply existsb_exists in Q; destruct Q as (y & Hy & E); apply Nat.eqb_eq in E; subst; contradiction).
  cbn [memb existsb]. change (existsb (Nat.eqb j) U) with (memb j U).
  destruct (Nat.eqb_spec i m) as [->|D].
  - destruct (Nat.eqb_spec j m) as [->|D2]; [cbn [negb]; rewrite !andb_false_r; reflexivity|]. cbn [orb]. reflexivity.
  - unfold upd. destruct (Nat.eqb_spec j i) as [->|D2].
    + rewrite Mi. cbn [andb orb]. destruct (Nat.eqb_spec i m); [contradiction|]. cbn [negb]. rewrite Nat.eqb_refl || idtac.
      destruct (Nat.eqb_spec m i); [subst; contradiction|]. reflexivity.
    + cbn [orb]. destruct (Nat.eqb_spec m i); [subst; contradiction|]. reflexivity.
Qed.

(** ** argmax *)
Lemma argbest_max : forall (v : nat -> R) r pre bi x0, nth_error pre bi = Some x0 -> (forall y, In y pre -> v y <= v x0) ->
  exists x, nth_error (pre ++ r) (argbest (fun v b => Rltb b v) (Some (v x0)) bi (length pre) (map (fun i => Some (v i)) r)) = Some x /\
    forall y, In y (pre ++ r) -> v y <= v x.
Proof.
  intros v. induction r as [|y r IH]; intros pre bi x0 N M.
  - cbn. exists x0. rewrite app_nil_r. split; assumption.
  - cbn [map argbest]. replace (pre ++ y :: r) with ((pre ++ [y]) ++ r) by (rewrite <- app_assoc; reflexivity).
    replace (S (length pre)) with (length (pre ++ [y])) by (rewrite app_length; cbn; lia).
    unfold Rltb at 1. destruct (Rlt_dec (v x0) (v y)) as [L|L].
    + apply IH.
      * rewrite nth_error_app2, Nat.sub_diag by lia. reflexivity.
      * intros z Hz. apply in_app_or in Hz. destruct Hz as [Hz|[<-|[] ] ]; [pose proof (M z Hz); lra|lra].
    + apply IH.
      * rewrite nth_error_app1; [exact N|]. apply nth_error_Some. rewrite N. discriminate.
      * intros z Hz. apply in_app_or in Hz. destruct Hz as [Hz|[<-|[] ] ]; [apply M; exact Hz|lra].
Qed.
Lemma argmax_max : forall (v : nat -> R) l, l <> [] -> exists k x, argmax (map (fun i => Some (v i)) l) = Some k /\ nth_error l k = Some x /\ forall y, In y l -> v y <= v x.
Proof.
  intros v [|x0 r] H; [contradiction|]. destruct (argbest_max v r [x0] 0 x0 eq_refl) as (x & N & M).
  - intros y [<-|[] ]. lra.
  - eexists. exists x. split; [reflexivity|]. split; assumption.
Qed.
Lemma traverse_ok : forall (A B : Type) (f : A -> result B) g l, (forall a, In a l -> f a = Ok (g a)) -> traverse f l = Ok (map g l).
Proof.
  intros A B f g l. induction l as [|a l IH]; intro H; [reflexivity|]. cbn. rewrite (H a) by (left; reflexivity). cbn [bind].
  rewrite IH by (intros; apply H; right; assumption). reflexivity.
Qed.

(** ** Renamed variables *)
(** The run on X has no ties: the chosen variable has the strictly largest score. *)
Inductive decisive (n : nat) : (nat -> col) -> list nat -> list nat -> Prop :=
| dec_nil : forall X, decisive n X [] []
| dec_cons : forall X U m K (v : nat -> R), In m U ->
    (forall i, In i U -> pwling_score n X U U [] i = Ok (Some (v i))) -> (forall i, In i U -> i <> m -> v i < v m) ->
    decisive n (regress_out n X U m) (remove_nat m U) K -> decisive n X U (m :: K).

Lemma oadd_swap : forall M a b, oadd (oadd M a) b = oadd (oadd M b) a.
Proof. intros [m|] [a|] [b|]; cbn; try reflexivity. f_equal. ring. Qed.
Lemma fold_perm : forall (f : nat -> option R) (i : nat) l l' M, Permutation l l' ->
  fold_left (fun M j => if (i =? j)%nat then M else oadd M (f j)) l M = fold_left (fun M j => if (i =? j)%nat then M else oadd M (f j)) l' M.
Proof.
  intros f i l l' M P. revert M. induction P as [|x l l' P IH|x y l|l l' l'' P1 IH1 P2 IH2]; intro M; cbn.
  - reflexivity.
  - apply IH.
  - f_equal. destruct (i =? x)%nat, (i =? y)%nat; try reflexivity. apply oadd_swap.
  - rewrite IH1. apply IH2.
Qed.
Definition pair_term (n : nat) (X : nat -> col) (i j : nat) : option R :=
  min0_sq (diff_mutual_info n (standardize n (X i)) (standardize n (X j))
    (residual n (standardize n (X i)) (standardize n (X j))) (residual n (standardize n (X j)) (standardize n (X i)))).
Lemma score_eq : forall n X U Uc i, pwling_score n X U Uc [] i
  = Ok (option_map (fun m => -1 * m) (fold_left (fun M j => if (i =? j)%nat then M else oadd M (pair_term n X i j)) U (Some 0))).
Proof. reflexivity. Qed.
Lemma score_renamed : forall n X X' sg U U' i, Permutation (map sg U') U -> (forall j, In j U' -> X' j = X (sg j)) ->
  (forall j k, In j U' -> In k U' -> sg j = sg k -> j = k) -> In i U' ->
  pwling_score n X' U' U' [] i = pwling_score n X U U [] (sg i).
Proof.
  intros n X X' sg U U' i P HX I Hi. rewrite !score_eq. do 2 f_equal. rewrite <- (fold_perm (pair_term n X (sg i)) (sg i) _ _ (Some 0) P).
  assert (G : forall V M, incl V U' -> fold_left (fun M j => if (i =? j)%nat then M else oadd M (pair_term n X' i j)) V M
     = fold_left (fun M j => if (sg i =? j)%nat then M else oadd M (pair_term n X (sg i) j)) (map sg V) M).
  { induction V as [|j V IH]; intros M HV; [reflexivity|]. cbn [map fold_left].
    assert (Hj : In j U') by (apply HV; left; reflexivity).
    replace (pair_term n X' i j) with (pair_term n X (sg i) (sg j)) by (unfold pair_term; rewrite (HX i Hi), (HX j Hj); reflexivity).
    destruct (Nat.eqb_spec i j) as [->|D].
    - rewrite Nat.eqb_refl. apply IH. intros x Hx. apply HV. right. exact Hx.
    - destruct (Nat.eqb_spec (sg i) (sg j)) as [E|_]; [exfalso; apply D; apply I; assumption|]. apply IH. intros x Hx. apply HV. right. exact Hx. }
  apply G. apply incl_refl.
Qed.
Lemma map_remove : forall (sg : nat -> nat) m U, (forall j, In j U -> sg j = sg m -> j = m) -> map sg (remove_nat m U) = remove_nat (sg m) (map sg U).
Proof.
  intros sg m U. induction U as [|j U IH]; intro H; [reflexivity|]. unfold remove_nat in *. cbn [map filter].
  assert (IH' := IH (fun k Hk => H k (or_intror Hk))).
  destruct (Nat.eqb_spec j m) as [->|D]; cbn [negb]; [rewrite Nat.eqb_refl; exact IH'|].
  destruct (Nat.eqb_spec (sg j) (sg m)) as [E|_]; [exfalso; apply D; apply H; [left; reflexivity|exact E]|]. cbn [negb map]. f_equal. exact IH'.
Qed.
Lemma filter_perm : forall (f : nat -> bool) l l', Permutation l l' -> Permutation (filter f l) (filter f l').
Proof.
  intros f l l' P. induction P as [|x l l' P IH|x y l|l l' l'' P1 IH1 P2 IH2]; cbn.
  - constructor.
  - destruct (f x); [constructor|]; exact IH.
  - destruct (f x), (f y); try apply Permutation_refl. apply perm_swap.
  - transitivity (filter f l'); assumption.
Qed.
Lemma memb_in : forall x l, memb x l = true <-> In x l.
Proof.
  intros x l. unfold memb. rewrite existsb_exists. split.
  - intros (y & Hy & E). apply Nat.eqb_eq in E. subst. exact Hy.
  - intro H. exists x. split; [exact H|apply Nat.eqb_refl].
Qed.
Lemma loop_renamed : forall n sg X U K, decisive n X U K -> forall X' U' K', NoDup U -> NoDup U' -> Permutation (map sg U') U ->
  (forall j k, In j U' -> In k U' -> sg j = sg k -> j = k) -> (forall j, In j U' -> X' j = X (sg j)) ->
  exists L, loop (pwling_score n) argmax (length U') n ModelDirect.NoPK [] X' U' K' = Ok (K' ++ L) /\ map sg L = K.
Proof.
  intros n sg X U K D. induction D as [X|X U m K v Hm V Mx D IH]; intros X' U' K' ND ND' P I HX.
  - apply Permutation_length in P. rewrite map_length in P. destruct U'; [|discriminate]. exists []. cbn. rewrite app_nil_r. split; reflexivity.
  - assert (Hm' : exists m', In m' U' /\ sg m' = m).
    { apply (Permutation_in _ (Permutation_sym P)) in Hm. apply in_map_iff in Hm. destruct Hm as (m' & E & H). exists m'. split; assumption. }
    destruct Hm' as (m' & Hm' & Em).
    assert (S : search (pwling_score n) argmax ModelDirect.NoPK [] X' U' = Ok m').
    { unfold search. cbn [ModelDirect.search_candidate].
      destruct U' as [|a [|b U''] ] eqn:EU; [destruct Hm'|destruct Hm' as [->|[] ]; reflexivity|]. rewrite <- EU in *.
      assert (HU : U' <> []) by (rewrite EU; discriminate). clear EU a b U''.
      rewrite (traverse_ok _ _ _ (fun i => Some (v (sg i)))).
      2:{ intros i Hi. rewrite (score_renamed n X X' sg U U' i P HX I Hi). apply V. apply (Permutation_in _ P). apply in_map. exact Hi. }
      cbn [bind]. destruct (argmax_max (fun i => v (sg i)) U' HU) as (k & x & E & N & M). rewrite E, N. f_equal.
      pose proof (nth_error_In _ _ N) as Hx. apply I; [exact Hx|exact Hm'|].
      destruct (Nat.eq_dec (sg x) m) as [Ex|Ne]; [congruence|]. exfalso.
      pose proof (Mx (sg x) (Permutation_in _ P (in_map sg _ _ Hx)) Ne) as L1. pose proof (M m' Hm') as L2. cbn beta in L2. rewrite Em in L2. lra. }
    pose proof (remove_perm m' U' ND' Hm') as Pr. pose proof (Permutation_length Pr) as Lr. cbn [length] in Lr. rewrite Lr. cbn [loop]. rewrite S. cbn [bind].
    destruct (IH (regress_out n X' U' m') (remove_nat m' U') (K' ++ [m'])) as (L & E & EL).
    + apply NoDup_filter. exact ND.
    + apply NoDup_filter. exact ND'.
    + rewrite map_remove by (intros j Hj E; apply I; assumption). rewrite Em. apply filter_perm. exact P.
    + intros j k Hj Hk. apply filter_In in Hj. apply filter_In in Hk. apply I; tauto.
    + intros j Hj. apply filter_In in Hj. destruct Hj as [Hj Dj]. rewrite !regress_out_eq by assumption.
      apply negb_true_iff, Nat.eqb_neq in Dj. rewrite (proj2 (memb_in j U') Hj), (proj2 (memb_in (sg j) U) (Permutation_in _ P (in_map sg _ _ Hj))).
      destruct (Nat.eqb_spec j m'); [contradiction|]. destruct (Nat.eqb_spec (sg j) m) as [Q|_]; [exfalso; apply Dj; apply I; congruence|]. cbn [andb negb].
      rewrite (HX j Hj), (HX m' Hm'), Em. reflexivity.
    + exists (m' :: L). rewrite E, <- app_assoc. split; [reflexivity|]. cbn. rewrite Em, EL. reflexivity.
Qed.
