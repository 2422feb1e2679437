From Coq Require Import List Arith Lia Bool ZArith QArith Qcanon Permutation.
From Verif Require Import Prelude Lib ModelVAR ModelVarma SpecVarma.
Import ListNotations.
Open Scope nat_scope.

(** ** Order search *)
Lemma orders_In : forall o p q, In (p, q) (orders o) <-> p <= fst o /\ q <= snd o /\ (p, q) <> (0, 0).
Proof.
  intros o p q. unfold orders. rewrite filter_In, in_flat_map. cbn [fst snd]. rewrite negb_true_iff, andb_false_iff, !Nat.eqb_neq.
  assert (NE : (p, q) <> (0, 0) <-> p <> 0 \/ q <> 0) by (destruct (Nat.eq_dec p 0) as [->|], (Nat.eq_dec q 0) as [->|]; split; intro H; try tauto; try congruence; try lia).
  rewrite NE. split.
  - intros [(a & Ha & Hb) H]. apply in_seq in Ha. apply in_map_iff in Hb. destruct Hb as (b & E & Hb). apply in_seq in Hb. injection E as -> ->. split; [lia|]. split; [lia|exact H].
  - intros (H1 & H2 & H). split; [|exact H]. exists p. split; [apply in_seq; lia|]. apply in_map_iff. exists q. split; [reflexivity|apply in_seq; lia].
Qed.
Section Search.
  Context (value : nat -> series -> nat * nat -> num) (N : nat) (X : series).
  Lemma search_fold : forall l best,
    match fold_left (search_step value N X) l best with
    | None => best = None /\ forall o, In o l -> value N X o = None
    | Some (v, o) => (best = Some (v, o) /\ forall o' w, In o' l -> value N X o' = Some w -> (v <= w)%Qc) \/
        (exists l1 l2, l = l1 ++ o :: l2 /\ value N X o = Some v /\ (forall u ob, best = Some (u, ob) -> (v < u)%Qc) /\
          (forall o' w, In o' l1 -> value N X o' = Some w -> (v < w)%Qc) /\ (forall o' w, In o' l2 -> value N X o' = Some w -> (v <= w)%Qc))
    end.
  Proof.
    induction l as [|a l IH]; intro best; cbn [fold_left].
    - destruct best as [[v o]|]; [left; split; [reflexivity|intros ? ? []]|split; [reflexivity|intros ? []]].
    - specialize (IH (search_step value N X best a)). destruct (fold_left (search_step value N X) l (search_step value N X best a)) as [[v o]|].
      + unfold search_step in IH. destruct (value N X a) as [va|] eqn:Ea.
        * destruct best as [[u ob]|].
          { destruct (qltb va u) eqn:L.
            - apply qltb_lt in L. right. destruct IH as [[E H]|(l1 & l2 & -> & Vo & Hb & H1 & H2)].
              + injection E as -> ->. exists [], l. split; [reflexivity|]. split; [exact Ea|]. split; [intros u' ob' E; injection E as <- <-; exact L|]. split; [intros ? ? []|exact H].
              + exists (a :: l1), l2. split; [reflexivity|]. split; [exact Vo|]. assert (Lv : (v < va)%Qc) by (apply (Hb va a); reflexivity).
                split; [intros u' ob' E; injection E as <- <-; exact (Qclt_trans _ _ _ Lv L)|]. split; [|exact H2]. intros o' w [<-|I] W; [rewrite Ea in W; injection W as <-; exact Lv|exact (H1 o' w I W)].
            - apply qltb_nlt in L. destruct IH as [[E H]|(l1 & l2 & -> & Vo & Hb & H1 & H2)].
              + left. split; [exact E|]. injection E as -> ->. intros o' w [<-|I] W; [rewrite Ea in W; injection W as <-; exact L|exact (H o' w I W)].
              + right. exists (a :: l1), l2. split; [reflexivity|]. split; [exact Vo|]. assert (Lv : (v < u)%Qc) by (apply (Hb u ob); reflexivity).
                split; [exact Hb|]. split; [|exact H2]. intros o' w [<-|I] W; [rewrite Ea in W; injection W as <-; exact (Qclt_le_trans _ _ _ Lv L)|exact (H1 o' w I W)]. }
          { right. destruct IH as [[E H]|(l1 & l2 & -> & Vo & Hb & H1 & H2)].
            - injection E as -> ->. exists [], l. split; [reflexivity|]. split; [exact Ea|]. split; [discriminate|]. split; [intros ? ? []|exact H].
            - exists (a :: l1), l2. split; [reflexivity|]. split; [exact Vo|]. assert (Lv : (v < va)%Qc) by (apply (Hb va a); reflexivity).
              split; [discriminate|]. split; [|exact H2]. intros o' w [<-|I] W; [rewrite Ea in W; injection W as <-; exact Lv|exact (H1 o' w I W)]. }
        * destruct IH as [[E H]|(l1 & l2 & -> & Vo & Hb & H1 & H2)].
          { left. split; [exact E|]. intros o' w [<-|I] W; [congruence|exact (H o' w I W)]. }
          { right. exists (a :: l1), l2. split; [reflexivity|]. split; [exact Vo|]. split; [exact Hb|]. split; [|exact H2]. intros o' w [<-|I] W; [congruence|exact (H1 o' w I W)]. }
      + destruct IH as [E H]. unfold search_step in E. destruct (value N X a) as [va|] eqn:Ea; [destruct best as [[u ob]|]; [destruct (qltb va u); discriminate|discriminate]|].
        split; [exact E|]. intros o [<-|I]; [exact Ea|exact (H o I)].
  Qed.
End Search.
Lemma app_split_ge : forall A (L T m z : list A), length L <= length m -> L ++ T = m ++ z -> exists k, m = L ++ k /\ T = k ++ z.
Proof.
  intros A L T m. revert L. induction m as [|x m IH]; intros [|y L] z H E; cbn in *; try lia.
  - exists []. split; [reflexivity|exact E].
  - exists (x :: m). split; [reflexivity|exact E].
  - injection E as -> E. destruct (IH L z ltac:(lia) E) as (k & -> & ->). exists k. split; reflexivity.
Qed.
Lemma app_split_lt : forall A (L T m z : list A), length m < length L -> L ++ T = m ++ z -> exists k, L = m ++ k /\ z = k ++ T.
Proof.
  intros A L T m. revert L. induction m as [|x m IH]; intros [|y L] z H E; cbn in *; try lia.
  - exists (y :: L). split; [reflexivity|symmetry; exact E].
  - injection E as -> E. destruct (IH L z ltac:(lia) E) as (k & -> & ->). exists k. split; reflexivity.
Qed.
(** earlier in the list of orders means lexicographically smaller *)
Lemma orders_split : forall o l1 a l2, orders o = l1 ++ a :: l2 -> forall b, In b l1 <-> In b (orders o) /\ lexlt b a.
Proof.
  intros o l1 a l2 E.
  assert (S : forall l : list (nat * nat), (forall l1 a l2 b, l = l1 ++ a :: l2 -> In b l1 -> lexlt b a) -> l = l1 ++ a :: l2 -> forall b, In b l1 <-> In b l /\ lexlt b a).
  { intros l H -> b. split.
    - intro I. split; [apply in_or_app; left; exact I|]. exact (H l1 a l2 b eq_refl I).
    - intros [I L]. apply in_app_iff in I. destruct I as [I|[<-|I]]; [exact I|unfold lexlt in L; lia|exfalso].
      apply in_split in I. destruct I as (m1 & m2 & ->). pose proof (H (l1 ++ a :: m1) b m2 a) as W. rewrite <- app_assoc in W. specialize (W eq_refl ltac:(apply in_or_app; right; left; reflexivity)). unfold lexlt in L, W. lia. }
  apply (S (orders o)); [|exact E]. clear.
  assert (F : forall (f : nat * nat -> bool) l, (forall l1 a l2 b, l = l1 ++ a :: l2 -> In b l1 -> lexlt b a) -> forall l1 a l2 b, filter f l = l1 ++ a :: l2 -> In b l1 -> lexlt b a).
  { intros f l H l1 a l2 b E I. revert l1 E I H. induction l as [|x l IH]; intros l1 E I H; [destruct l1; discriminate|]. cbn [filter] in E.
    assert (H' : forall l1 a l2 b, l = l1 ++ a :: l2 -> In b l1 -> lexlt b a) by (intros m1 c m2 e -> Im; apply (H (x :: m1) c m2 e eq_refl); right; exact Im).
    destruct (f x).
    - destruct l1 as [|y l1]; [destruct I|]. injection E as <- E. destruct I as [<-|I]; [|exact (IH l1 E I H')].
      assert (Ia : In a l) by (apply (proj1 (proj1 (filter_In f a l) ltac:(rewrite E; apply in_or_app; right; left; reflexivity)))).
      apply in_split in Ia. destruct Ia as (m1 & m2 & ->). apply (H (x :: m1) a m2 x eq_refl). left. reflexivity.
    - exact (IH l1 E I H'). }
  unfold orders. apply F. generalize (fst o + 1) as P. generalize 0 at 3. intros s P. revert s. induction P as [|P IH]; intros s l1 a l2 b E I; [destruct l1; discriminate|]. cbn [seq flat_map] in E.
  set (L := map (fun q => (s, q)) (seq 0 (snd o + 1))) in *. set (T := flat_map _ _) in *.
  assert (TL : forall x, In x T -> S s <= fst x) by (intros x Hx; unfold T in Hx; apply in_flat_map in Hx; destruct Hx as (p & Hp & Hx); apply in_map_iff in Hx; destruct Hx as (q & <- & _); apply in_seq in Hp; cbn; lia).
  destruct (le_lt_dec (length L) (length l1)) as [H|H].
  - destruct (app_split_ge _ L T l1 _ H E) as (k & -> & ET). apply in_app_iff in I. destruct I as [I|I].
    + unfold L in I. apply in_map_iff in I. destruct I as (q & <- & _). left. specialize (TL a ltac:(rewrite ET; apply in_or_app; right; left; reflexivity)). cbn. lia.
    + exact (IH (S s) k a l2 b ET I).
  - destruct (app_split_lt _ L T l1 _ H E) as (k & EL & Ek). destruct k as [|a' k]; [rewrite app_nil_r in EL; subst l1; lia|]. cbn in Ek; injection Ek as <- _. right. clear IH TL T E. unfold L in EL. clear L H.
    assert (Q : forall m st l1, map (fun q => (s, q)) (seq st m) = l1 ++ a :: k -> In b l1 -> fst b = fst a /\ snd b < snd a); [|exact (Q _ _ _ EL I)]. clear l1 EL I.
    induction m as [|n IH]; intros st l1 EL I; [destruct l1; discriminate|]. cbn [seq map] in EL. destruct l1 as [|y l1]; [destruct I|]. injection EL as <- EL.
    destruct I as [<-|I]; [|exact (IH (S st) l1 EL I)]. assert (Ia : In a (map (fun q => (s, q)) (seq (S st) n))) by (rewrite EL; apply in_or_app; right; left; reflexivity).
    apply in_map_iff in Ia. destruct Ia as (q & <- & Hq). apply in_seq in Hq. cbn. lia.
Qed.

(** ** Fit *)
Lemma take_coefs_all : forall l, take_coefs (length l) l = Ok l.
Proof. induction l as [|x l IH]; [reflexivity|]. cbn. rewrite IH. reflexivity. Qed.
Lemma present_list : forall l, match present l with Some l => l | None => [] end = l.
Proof. intros [|x l]; reflexivity. Qed.
Lemma psi_omega_ok : forall n psi0 A M, exists po, psi_omega n psi0 A M (length A) (length M) = Ok po /\ length (fst po) = 1 + length A /\ length (snd po) = length M.
Proof.
  intros n psi0 A M. unfold psi_omega. rewrite !take_coefs_all. cbn [bind]. eexists. split; [reflexivity|]. cbn [fst snd length]. rewrite !map_length. split; reflexivity.
Qed.
Lemma pruning_ok : forall n lasso N X ee pq order, exists po, varma_pruning n lasso N X N ee pq order = Ok po /\ length (fst po) = 1 + fst pq /\ length (snd po) = snd pq.
Proof.
  intros n lasso N X ee [p q] order. unfold varma_pruning, join_rows_ok, fits_rows. rewrite Nat.eqb_refl, orb_true_r. cbn [bind]. eexists. split; [reflexivity|].
  cbn [fst snd]. rewrite !map_length, !seq_length. split; reflexivity.
Qed.
Section Fit.
  Context (n : nat) (prune : bool) (varmax : nat -> series -> nat * nat -> list (mat Qc) * list (mat Qc) * series) (value : nat -> series -> nat * nat -> num)
    (lingam : nat -> series -> list nat * mat Qc) (lasso : nat -> (nat -> nat -> Qc) -> list nat -> nat -> nat -> Qc).
  Notation FIT := (varma_fit n prune varmax value lingam lasso).
  Definition after_fit (w : varma_obj) (o : nat * nat) (N : nat) (X : series) : varma_obj :=
    {| wo_order := o; wo_criterion := wo_criterion w; wo_ar := present (fst (fst (varmax N X o))); wo_ma := present (snd (fst (varmax N X o))); wo_rows := N; wo_resid := snd (varmax N X o) |}.
  Lemma fit_estimates : varmax_shapes varmax -> forall noise w N X o, fresh w ->
    (if wo_criterion w then exists v, search_order value N X (wo_order w) = Some (v, o) else o = wo_order w) ->
    exists order po, FIT noise w N X = Ok (after_fit w o N X, (order, po)) /\ length (fst po) = 1 + fst o /\ length (snd po) = snd o.
  Proof.
    intros SH noise w N X o FR HO. unfold varma_fit.
    assert (E : estimate varmax value (wo_criterion w) (wo_order w) N X = Ok (present (fst (fst (varmax N X o))), present (snd (fst (varmax N X o))), o, snd (varmax N X o))).
    { unfold estimate. destruct (wo_criterion w); [destruct HO as [v HO]; rewrite HO|subst o]; cbn [bind]; destruct (varmax N X _) as [[a m] R]; reflexivity. }
    destruct (varmax N X o) as [[A M] R] eqn:EV. cbn [fst snd] in E. destruct o as [p q]. specialize (SH N X p q). rewrite EV in SH. cbn [fst snd] in SH. destruct SH as [LA LM].
    replace (match wo_ar w with Some A0 => _ | None => _ end) with (Ok (present A, present M, (p, q), N, R)).
    2:{ rewrite E. cbn [bind]. destruct FR as [F|F]; rewrite F; [reflexivity|destruct (wo_ar w); reflexivity]. }
    cbn [bind]. destruct (lingam N R) as [order psi0]. cbn [fst snd]. rewrite !present_list. subst p q. destruct (psi_omega_ok n psi0 A M) as (po & -> & L1 & L2). cbn [bind].
    destruct prune.
    - destruct (pruning_ok n lasso N X (fun t => Spec.mvec n (Spec.msub Spec.midn psi0) (R t)) (length A, length M) order) as (po' & -> & L1' & L2'). cbn [bind]. exists order, po'. split; [|split; assumption]. unfold after_fit. rewrite EV. reflexivity.
    - cbn [bind]. exists order, po. split; [|rewrite L1, L2; split; reflexivity]. unfold after_fit. rewrite EV. reflexivity.
  Qed.
  Lemma fit_needs_value : forall noise w N X, fresh w -> wo_criterion w = true -> search_order value N X (wo_order w) = None -> FIT noise w N X = Err AttributeError.
  Proof.
    intros noise w N X FR HC E. unfold varma_fit, estimate. rewrite HC, E. cbn [bind]. destruct FR as [F|F]; rewrite F; [reflexivity|destruct (wo_ar w); reflexivity].
  Qed.
End Fit.

(** ** The resampled series *)
Lemma fold_vplus : forall (f : nat -> nat -> Qc) l z i, fold_left (fun a t => vplus a (f t)) l z i = (z i + qsum (map (fun t => f t i) l))%Qc.
Proof.
  intros f l. induction l as [|t l IH]; intros z i; cbn [fold_left map]; [unfold qsum; cbn; ring|]. rewrite IH. unfold vplus, qsum. cbn [fold_right]. ring.
Qed.
Lemma resampled_stable : forall n A M start e m s, s < m -> varma_resampled n A M start e m s = varma_resampled n A M start e (S s) s.
Proof.
  intros n A M start e m s H. induction m as [|m IH]; [lia|]. destruct (Nat.eq_dec s m) as [->|NE]; [reflexivity|]. rewrite <- (IH ltac:(lia)).
  cbn [varma_resampled]. cbv zeta. destruct (Nat.eqb_spec s m); [contradiction|reflexivity].
Qed.
Lemma fold_ext_in : forall (f g : nat -> nat -> Qc) l z, (forall t, In t l -> f t = g t) -> fold_left (fun a t => vplus a (f t)) l z = fold_left (fun a t => vplus a (g t)) l z.
Proof. intros f g l. induction l as [|t l IH]; intros z H; [reflexivity|]. cbn [fold_left]. rewrite (H t (or_introl eq_refl)). apply IH. intros u Hu. apply H. right. exact Hu. Qed.
Lemma resampled_start : forall n A M start e m j, j < m -> j < start -> varma_resampled n A M start e m j = e j.
Proof.
  intros n A M start e m j H1 H2. rewrite resampled_stable by exact H1. cbn [varma_resampled]. cbv zeta. rewrite Nat.eqb_refl. destruct (Nat.ltb_spec j start); [reflexivity|lia].
Qed.
Lemma resampled_rec : forall n A M start e m j i, length A <= start -> j < m -> start <= j ->
  varma_resampled n A M start e m j i =
    (qsum (map (fun t => Spec.mvec n (nth t A zmat) (varma_resampled n A M start e m (j - t - 1)%nat) i) (seq 0 (length A))) + e j i
     + qsum (map (fun t => Spec.mvec n (nth t M zmat) (e (j - t - 1)%nat) i) (seq 0 (length M))))%Qc.
Proof.
  intros n A M start e m j i HL H1 H2. rewrite resampled_stable by exact H1.
  assert (E : forall t, In t (seq 0 (length A)) -> Spec.mvec n (nth t A zmat) (varma_resampled n A M start e m (j - t - 1)) i = Spec.mvec n (nth t A zmat) (varma_resampled n A M start e j (j - t - 1)) i).
  { intros t Ht. apply in_seq in Ht. rewrite (resampled_stable n A M start e m) by lia. rewrite (resampled_stable n A M start e j) by lia. reflexivity. }
  rewrite (map_ext_in _ _ _ E). cbn [varma_resampled]. cbv zeta. rewrite Nat.eqb_refl. destruct (Nat.ltb_spec j start); [lia|].
  unfold vplus at 1 2. rewrite (fold_vplus (fun t => Spec.mvec n (nth t A zmat) (varma_resampled n A M start e j (j - t - 1)))), (fold_vplus (fun t => Spec.mvec n (nth t M zmat) (e (j - t - 1)))). unfold vzero. ring.
Qed.

(** ** Pruning *)
Lemma prune_row : forall lasso N total Z order i r c, nth i order 0 = r -> forall l M, NoDup l -> (forall j, In j l -> nth j order 0 = r -> j = i) ->
  fold_left (prune_target lasso N total Z order) l M r c =
    if memb i l then match index_of c (lasso_predictors total (skipn i order)) with Some k => lasso N Z (lasso_predictors total (skipn i order)) r k | None => M r c end else M r c.
Proof.
  intros lasso N total Z order i r c Hi l. induction l as [|a l IH]; intros M ND U; [reflexivity|]. cbn [fold_left]. inversion ND as [|? ? Na ND']; subst.
  rewrite IH; [|exact ND'|intros j Hj; apply U; right; exact Hj].
  assert (EM : memb i (a :: l) = (a =? i) || memb i l) by (unfold memb; cbn [existsb]; rewrite (Nat.eqb_sym a i); reflexivity). rewrite EM.
  unfold prune_target at 1 2. cbv zeta. destruct (Nat.eqb_spec a i) as [->|NE].
  - destruct (memb i l) eqn:ME; [exfalso; apply Na, memb_In, ME|]. cbn [orb]. rewrite Nat.eqb_refl. reflexivity.
  - cbn [orb]. destruct (Nat.eqb_spec (nth i order 0) (nth a order 0)) as [E|_]; [exfalso; apply NE, U; [left; reflexivity|symmetry; exact E]|]. reflexivity.
Qed.
Lemma index_of_NoDup : forall l m x, NoDup l -> nth_error l m = Some x -> index_of x l = Some m.
Proof.
  intros l m x ND H. destruct (index_of x l) as [k|] eqn:E.
  - apply index_of_some in E. f_equal. apply (proj1 (NoDup_nth_error l) ND); [apply nth_error_Some; congruence|congruence].
  - exfalso. apply index_of_none in E. apply E. exact (nth_error_In _ _ H).
Qed.
