(** * Proofs about LongitudinalBootstrapResult. *)
From Coq Require Import List Arith Lia Bool ZArith QArith Qcanon Permutation Sorted Relations.
From Verif Require Import Prelude Spec SpecPaths SpecBootstrap SpecLong Lib LibMat ModelPaths ModelBootstrap ModelVAR ProofVAR ModelLong
  ModelLongResult ProofPaths ProofTotal ProofBootstrap ProofBootstrap2 ProofBootstrap3 ProofLong.
Import ListNotations.
Open Scope nat_scope.

Lemma selects_ext : forall P Q N idx, (forall k, k < N -> (P k <-> Q k)) -> selects P N idx -> selects Q N idx.
Proof.
  intros P Q N idx H [ND S]. split; [exact ND|]. intro k. rewrite S. split; intros [L X]; (split; [exact L|]); apply (H k L); exact X.
Qed.
Lemma number_of_ext : forall P Q N c, (forall k, k < N -> (P k <-> Q k)) -> number_of P N c <-> number_of Q N c.
Proof.
  intros P Q N c H. split; intros [idx [S L]]; exists idx; (split; [|exact L]); eapply selects_ext; [exact H|exact S| |exact S].
  intros k Hk. symmetry. apply H. exact Hk.
Qed.
Lemma median_over_ext : forall P Q N f g v, (forall k, k < N -> (P k <-> Q k)) -> (forall k, k < N -> P k -> f k = g k) ->
  median_over P N f v <-> median_over Q N g v.
Proof.
  intros P Q N f g v H E. split; intros [idx [S M]]; exists idx.
  - split; [eapply selects_ext; eassumption|]. rewrite <- (map_ext_in f g); [exact M|]. intros k Hk. apply S in Hk. apply E; tauto.
  - assert (S' : selects P N idx) by (eapply selects_ext; [|exact S]; intros k Hk; symmetry; apply H; exact Hk).
    split; [exact S'|]. rewrite (map_ext_in f g); [exact M|]. intros k Hk. apply S' in Hk. apply E; tauto.
Qed.

Lemma map_result_ok : forall A B (f : A -> result B) l (g : A -> B), (forall x, In x l -> f x = Ok (g x)) -> map_result f l = Ok (map g l).
Proof.
  intros A B f l g H. induction l as [|x l IH]; [reflexivity|]. cbn [map_result map]. rewrite (H x (or_introl eq_refl)). cbn [bind].
  rewrite IH; [reflexivity|]. intros y Hy. apply H. right. exact Hy.
Qed.
(** A table per time point. *)
Lemma map_result_seq : forall B (f : nat -> result B) T (P : nat -> B -> Prop) (d : B), (forall t, t < T -> exists y, f t = Ok y /\ P t y) ->
  exists ys, map_result f (seq 0 T) = Ok ys /\ length ys = T /\ forall t, t < T -> P t (nth t ys d).
Proof.
  intros B f T P d. cut (forall s, (forall t, s <= t < s + T -> exists y, f t = Ok y /\ P t y) ->
    exists ys, map_result f (seq s T) = Ok ys /\ length ys = T /\ forall t, t < T -> P (s + t) (nth t ys d)).
  { intros C H. destruct (C 0) as [ys Y]; [intros t Ht; apply H; lia|]. exists ys. exact Y. }
  induction T as [|T IH]; intros s H; cbn [seq map_result].
  - exists []. split; [reflexivity|]. split; [reflexivity|]. intros t Ht. lia.
  - destruct (H s) as [y [E Py]]; [lia|]. rewrite E. cbn [bind].
    destruct (IH (S s)) as [ys [E' [L Q]]]; [intros t Ht; apply H; lia|]. rewrite E'. cbn [bind]. exists (y :: ys). split; [reflexivity|].
    split; [cbn [length]; lia|]. intros [|t] Ht; cbn [nth]; [rewrite Nat.add_0_r; exact Py|]. replace (s + S t) with (S s + t) by lia. apply Q. lia.
Qed.
Lemma map_result_err : forall A B (f : A -> result B) x l e, f x = Err e -> map_result f (x :: l) = Err e.
Proof. intros A B f x l e H. cbn [map_result]. rewrite H. reflexivity. Qed.
Lemma check_top_err : forall k, (exists z, k = Some z /\ (z <= 0)%Z) -> check_top k = Err ValueError.
Proof. intros k (z & -> & H). cbn [check_top]. destruct (Z.ltb_spec 0 z); [lia|reflexivity]. Qed.
Lemma check_top_cases : forall k, (exists o, check_top k = Ok o) \/ exists z, k = Some z /\ (z <= 0)%Z.
Proof. intros [z|]; cbn [check_top]; [|left; eexists; reflexivity]. destruct (Z.ltb_spec 0 z); [left; eexists; reflexivity|right; exists z; split; [reflexivity|lia]]. Qed.

(** The samples side by side at time [t]. *)
Lemma nth_map_concat : forall p ms t b, b < length ms ->
  nth b (map (fun s => long_concat p s t) ms) (fun _ _ => None) = long_concat p (nth b ms (fun _ _ _ _ => None)) t.
Proof.
  intros p ms t b H. rewrite (nth_indep _ (fun _ _ => None) (long_concat p (fun _ _ _ _ => None) t)) by (rewrite map_length; exact H).
  apply (map_nth (fun s => long_concat p s t)).
Qed.
Lemma concat_entry : forall p s t tau i j, j < p -> long_concat p s t i (tau * p + j) = s t tau i j.
Proof. intros p s t tau i j H. unfold long_concat. rewrite (Nat.mul_comm tau p). destruct (div_mod_unique p tau j H) as [-> ->]. reflexivity. Qed.
Lemma col_split : forall p L c, 0 < p -> (c < p * (L + 1) <-> exists tau j, c = tau * p + j /\ tau <= L /\ j < p).
Proof.
  intros p L c Hp. split.
  - intro H. exists (c / p), (c mod p). pose proof (Nat.div_mod c p ltac:(lia)). pose proof (Nat.mod_upper_bound c p ltac:(lia)).
    split; [lia|]. split; [|assumption]. assert (c / p < L + 1) by (apply Nat.div_lt_upper_bound; lia). lia.
  - intros (tau & j & -> & H1 & H2). nia.
Qed.
Lemma exceeds_concat : forall p ms t m i tau j b, j < p -> b < length ms ->
  (exceeds m (map (fun s => long_concat p s t) ms) i (tau * p + j) b <-> large m (coef_of ms t tau i j b)) /\
  (exceeds_pos m (map (fun s => long_concat p s t) ms) i (tau * p + j) b <-> large_pos m (coef_of ms t tau i j b)) /\
  (exceeds_neg m (map (fun s => long_concat p s t) ms) i (tau * p + j) b <-> large_neg m (coef_of ms t tau i j b)).
Proof.
  intros p ms t m i tau j b Hj Hb. unfold exceeds, exceeds_pos, exceeds_neg, large, large_pos, large_neg, coef_of.
  rewrite (nth_map_concat p ms t b Hb), (concat_entry p _ t tau i j Hj). repeat split; intro; assumption.
Qed.

(** ** The unrolled graph *)
Lemma thr_edge_unrolled : forall p L s from_t to_t m, 0 < p -> from_t <= to_t -> (0 <= m)%Qc -> forall u v,
  thr_edge (p * (to_t - from_t + 1)) (long_expansion p L s from_t (to_t - from_t + 1)) m u v <-> unrolled_edge p L s from_t to_t m u v.
Proof.
  intros p L s from_t to_t m Hp Ht Hm u v. unfold thr_edge, unrolled_edge. set (n_t := to_t - from_t + 1).
  assert (E : u < p * n_t -> v < p * n_t -> long_expansion p L s from_t n_t v u =
     if (u / p <=? v / p) && (v / p - u / p <=? L) then s (from_t + v / p) (v / p - u / p) (v mod p) (u mod p) else Some 0%Qc).
  { intros Hu Hv. destruct (div_mod_eq p u Hp) as [Eu Mu]. destruct (div_mod_eq p v Hp) as [Ev Mv].
    pose proof (long_expansion_spec p L s from_t n_t (v / p) (u / p) (v mod p) (u mod p)) as X.
    rewrite <- Eu, <- Ev in X. rewrite (Nat.add_comm from_t). apply X; [apply Nat.div_lt_upper_bound; lia|apply Nat.div_lt_upper_bound; lia|exact Mv|exact Mu]. }
  assert (NL : forall x : num, (m < qabs (nan_to_num x))%Qc <-> large m x).
  { intros [x|]; unfold large; cbn [nan_to_num].
    - split; [intro H; exists x; split; [reflexivity|exact H]|intros (w & [= <-] & H); exact H].
    - split; [intro H|intros (w & D & _); discriminate]. exfalso. apply (Qclt_not_le _ _ H). exact Hm. }
  split.
  - intros (Hu & Hv & H). rewrite (E Hu Hv) in H. destruct (Nat.leb_spec (u / p) (v / p)); cbn [andb] in H;
      [destruct (Nat.leb_spec (v / p - u / p) L)|]; [|exfalso; apply (Qclt_not_le _ _ H); exact Hm..].
    split; [exact Hu|]. split; [exact Hv|]. split; [assumption|]. split; [lia|]. apply NL. exact H.
  - intros (Hu & Hv & H1 & H2 & H). split; [exact Hu|]. split; [exact Hv|]. rewrite (E Hu Hv).
    destruct (Nat.leb_spec (u / p) (v / p)); [|lia]. destruct (Nat.leb_spec (v / p - u / p) L); [|lia]. cbn [andb]. apply NL. exact H.
Qed.
Lemma walk_iff : forall E F p, (forall u v, E u v <-> F u v) -> walk E p <-> walk F p.
Proof.
  intros E F p H. induction p as [|a [|b r] IH]; [tauto|tauto|]. cbn [walk] in *. rewrite (H a b), IH. tauto.
Qed.
Lemma dpath_iff : forall E F a b p, (forall u v, E u v <-> F u v) -> dpath E a b p <-> dpath F a b p.
Proof. intros E F a b p H. unfold dpath, walk_from_to. rewrite (walk_iff E F p H). tauto. Qed.
Lemma unrolled_weight : forall p L s from_t to_t m, 0 < p -> forall q, walk (unrolled_edge p L s from_t to_t m) q ->
  walk_weight (denan (long_expansion p L s from_t (to_t - from_t + 1))) q = walk_weight (unrolled p L s from_t) q.
Proof.
  intros p L s from_t to_t m Hp q. induction q as [|a [|b r] IH]; [reflexivity|reflexivity|].
  intros [E W]. cbn [walk_weight] in *. rewrite (IH W). f_equal. destruct E as (Ha & Hb & H1 & H2 & _).
  destruct (div_mod_eq p a Hp) as [Ea Ma]. destruct (div_mod_eq p b Hp) as [Eb Mb]. unfold denan, unrolled.
  pose proof (long_expansion_spec p L s from_t (to_t - from_t + 1) (b / p) (a / p) (b mod p) (a mod p)) as X. rewrite <- Ea, <- Eb in X.
  rewrite X; [|apply Nat.div_lt_upper_bound; lia|apply Nat.div_lt_upper_bound; lia|exact Mb|exact Ma].
  rewrite (Nat.add_comm from_t). destruct ((a / p <=? b / p) && (b / p - a / p <=? L)); reflexivity.
Qed.
(** Acyclic when the instantaneous graphs are. *)
Lemma unrolled_acyclic : forall p L s from_t to_t m, 0 < p -> from_t <= to_t ->
  (forall t, from_t <= t -> t <= to_t -> acyclic (fun u v => u < p /\ v < p /\ large m (s t 0 v u))) ->
  acyclic (unrolled_edge p L s from_t to_t m).
Proof.
  intros p L s from_t to_t m Hp Ht HA v C.
  assert (M : forall x y, clos_trans nat (unrolled_edge p L s from_t to_t m) x y -> x / p <= y / p /\
     (x / p = y / p -> clos_trans nat (fun u w => u < p /\ w < p /\ large m (s (from_t + x / p) 0 w u)) (x mod p) (y mod p))).
  { intros x y H. induction H as [x y H|x y z H1 [I1 J1] H2 [I2 J2]].
    - destruct H as (Hx & Hy & L1 & L2 & G). split; [exact L1|]. intro E. apply t_step.
      split; [apply Nat.mod_upper_bound; lia|]. split; [apply Nat.mod_upper_bound; lia|]. rewrite <- E, Nat.sub_diag in G. exact G.
    - split; [lia|]. intro E. eapply t_trans; [apply J1; lia|]. assert (E' : y / p = x / p) by lia. rewrite E' in J2. apply J2. lia. }
  destruct (M v v C) as [_ J]. specialize (J eq_refl).
  assert (Hv : v < p * (to_t - from_t + 1)).
  { assert (K : forall x y, clos_trans nat (unrolled_edge p L s from_t to_t m) x y -> x < p * (to_t - from_t + 1)).
    { intros x y H. induction H as [x y (H & _)|]; assumption. }
    apply (K v v C). }
  assert (v / p < to_t - from_t + 1) by (apply Nat.div_lt_upper_bound; lia).
  apply (HA (from_t + v / p) ltac:(lia) ltac:(lia) (v mod p)). exact J.
Qed.
