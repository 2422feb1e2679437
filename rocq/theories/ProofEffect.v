From Coq Require Import List Arith Lia Bool ZArith QArith Qcanon Permutation.
From Verif Require Import Prelude Spec SpecEffect Lib LibMat ModelEffect.
Import ListNotations.
Open Scope nat_scope.

Lemma edge_of_dec : forall n B a b, {edge_of n B a b} + {~ edge_of n B a b}.
Proof.
  intros n B a b. unfold edge_of. destruct (lt_dec b n); [|right; tauto]. destruct (lt_dec a n); [|right; tauto].
  destruct (Qc_eq_dec (B b a) 0); [right; tauto|left; tauto].
Qed.
(** Strong induction along an acyclic graph on 0..n-1. *)
Lemma acyclic_ind : forall n (E : graph) (P : nat -> Prop), (forall a b, {E a b} + {~ E a b}) -> acyclic E ->
  (forall i, i < n -> (forall j, j < n -> E j i -> P j) -> P i) -> forall i, i < n -> P i.
Proof.
  intros n E P dec A H. destruct (topo_exists E n dec A) as [l [O T]].
  assert (ND := is_order_NoDup n l O).
  assert (forall l1 l2, l = l1 ++ l2 -> forall i, In i l1 -> P i) as G.
  { intro l1. induction l1 as [|x l1 IH] using rev_ind; intros l2 El i I; [contradiction|].
    apply in_app_iff in I. destruct I as [I|[<-|[]]].
    - apply (IH ([x] ++ l2)); [rewrite El, <- app_assoc; reflexivity|exact I].
    - assert (x < n). { apply (is_order_In n l O). rewrite El. apply in_app_iff. left. apply in_app_iff. right. left. reflexivity. }
      apply H; [assumption|]. intros j Hj Ej.
      apply (IH ([x] ++ l2)); [rewrite El, <- app_assoc; reflexivity|].
      assert (Pj := T j x Hj H0 Ej). rewrite El in Pj. rewrite <- app_assoc in Pj. cbn [app] in Pj.
      apply precedes_app_inv in Pj. rewrite El in ND. rewrite <- app_assoc in ND. cbn [app] in ND.
      apply NoDup_app_iff' in ND. destruct ND as [_ [ND2 Dis]].
      destruct Pj as [Pj|[[Ij _]|Pj]].
      + apply precedes_In in Pj. tauto.
      + exact Ij.
      + exfalso. inversion ND2; subst. change (x :: l2) with ([x] ++ l2) in Pj.
        apply precedes_app_inv in Pj. destruct Pj as [Pj|[[_ J]|Pj]].
        * destruct Pj as [a [b [c Eq]]]. assert (L := f_equal (@length nat) Eq).
          rewrite !app_length in L. cbn [length] in L. rewrite app_length in L. cbn [length] in L. lia.
        * contradiction.
        * apply precedes_In in Pj. destruct Pj. contradiction. }
  intros i Hi. apply (G l []); [symmetry; apply app_nil_r|]. apply (is_order_In n l O). exact Hi.
Qed.

Lemma do_solution_unique : forall n B En iv v x y, acyclic (edge_of n B) ->
  do_solution n B En iv v x -> do_solution n B En iv v y -> forall j, j < n -> x j = y j.
Proof.
  intros n B En iv v x y A [X1 X2] [Y1 Y2].
  apply (acyclic_ind n (edge_of n B)); [apply edge_of_dec|exact A|].
  intros i Hi IH. destruct (Nat.eq_dec i iv) as [->|D]; [congruence|].
  rewrite X2, Y2 by assumption. f_equal. apply sumn_ext. intros k Hk.
  destruct (Qc_eq_dec (B i k) 0) as [e|e]; [rewrite e; ring|]. rewrite (IH k Hk); [reflexivity|].
  unfold edge_of. auto.
Qed.

(** ** Propagation along the order *)
Section Propag.
  Variables (n : nat) (B : mat Qc) (En : nat -> Qc) (iv : nat) (v : Qc).
  Lemma prop_notin : forall l e i, ~ In i l -> fold_left (prop_step n B En iv v) l e i = e i.
  Proof.
    induction l as [|x l IH]; intros e i H; [reflexivity|]. cbn [fold_left]. rewrite IH by (intro; apply H; right; assumption).
    unfold prop_step, upd. destruct (Nat.eqb_spec i x) as [->|]; [|reflexivity]. exfalso. apply H. left. reflexivity.
  Qed.
  Lemma prop_fold : forall l done e, NoDup (done ++ l) ->
    (forall a b, edge_of n B a b -> precedes (done ++ l) a b) ->
    (forall i, In i done -> i < n) -> (forall i, In i l -> i < n) ->
    (forall i, ~ In i done -> e i = 0%Qc) ->
    (forall i, In i done -> e i = if i =? iv then v else (dot n (B i) e + En i)%Qc) ->
    let r := fold_left (prop_step n B En iv v) l e in
    forall i, In i (done ++ l) -> r i = if i =? iv then v else (dot n (B i) r + En i)%Qc.
  Proof.
    induction l as [|x l IH]; intros done e ND T Hd Hl Z S; cbv zeta.
    - rewrite app_nil_r. exact S.
    - cbn [fold_left].
      assert (done ++ x :: l = (done ++ [x]) ++ l) as EQ by (rewrite <- app_assoc; reflexivity).
      rewrite EQ in *. apply IH; auto.
      + intros i I. apply in_app_iff in I. destruct I as [I|[<-|[]]]; [auto|]. apply Hl. left. reflexivity.
      + intros i I. apply Hl. right. exact I.
      + intros i NI. unfold prop_step, upd. destruct (Nat.eqb_spec i x) as [->|].
        * exfalso. apply NI. apply in_app_iff. right. left. reflexivity.
        * apply Z. intro. apply NI. apply in_app_iff. left. assumption.
      + assert (~ In x done) as Nx.
        { rewrite <- EQ in ND. apply NoDup_app_iff' in ND. destruct ND as [_ [_ D]].
          intro I. apply (D x I). left. reflexivity. }
        assert (forall i, In i (done ++ [x]) -> dot n (B i) (prop_step n B En iv v e x) = dot n (B i) e) as DD.
        { intros i I. unfold dot. apply sumn_ext. intros k Hk. unfold prop_step, upd.
          destruct (Nat.eqb_spec k x) as [->|]; [|reflexivity].
          destruct (Qc_eq_dec (B i x) 0) as [e0|e0]; [rewrite e0; ring|]. exfalso.
          assert (Hi : i < n). { apply in_app_iff in I. destruct I as [I|[<-|[]]]; [auto|exact Hk]. }
          assert (P := T x i (conj Hi (conj Hk e0))).
          assert (precedes ((done ++ [x]) ++ l) x i -> False); [|tauto]. clear P. intro P.
          apply in_app_iff in I. destruct I as [I|[<-|[]]].
          - assert (precedes ((done ++ [x]) ++ l) i x).
            { rewrite <- EQ. apply precedes_app_cross; [exact I|left; reflexivity]. }
            exact (precedes_asym _ _ _ ND H P).
          - exact (precedes_irrefl _ _ ND P). }
        intros i I. rewrite DD by exact I. unfold prop_step at 1. unfold upd.
        destruct (Nat.eqb_spec i x) as [->|D]; [reflexivity|].
        apply in_app_iff in I. destruct I as [I|[<-|[]]]; [apply S; exact I|contradiction].
  Qed.
  Lemma propagated_solution : forall K, is_order n K -> topological (edge_of n B) K -> iv < n ->
    do_solution n B En iv v (propagated n B K En iv v).
  Proof.
    intros K O T Hi. unfold propagated.
    assert (G := prop_fold K [] (fun _ => 0%Qc)). cbn [app] in G.
    specialize (G (is_order_NoDup n K O) T (fun i (F : In i []) => False_ind _ F)
                  (fun i => proj1 (is_order_In n K O i)) (fun _ _ => eq_refl) (fun i (F : In i []) => False_ind _ F)).
    cbv zeta in G. split.
    - rewrite G by (apply (is_order_In n K O); exact Hi). rewrite Nat.eqb_refl. reflexivity.
    - intros j Hj D. rewrite G at 1 by (apply (is_order_In n K O); exact Hj).
      destruct (Nat.eqb_spec j iv); [contradiction|]. reflexivity.
  Qed.
End Propag.

Lemma noise_explains : forall n B Ex, explains n B Ex (noise_means n B Ex).
Proof. intros n B Ex i Hi. unfold noise_means, dot. ring. Qed.

Lemma do_solution_shift : forall n B En iv v d x T, acyclic (edge_of n B) -> iv < n ->
  meq n (mmul n (msub midn B) T) midn ->
  do_solution n B En iv v x -> do_solution n B En iv (v + d)%Qc (fun j => x j + d * T j iv)%Qc.
Proof.
  intros n B En iv v d x T A Hi HT [X1 X2].
  assert (meq n T (neumann n B)) as TN by (apply right_inverse_unique; assumption).
  split.
  - rewrite X1, TN by exact Hi. rewrite neumann_diag by assumption. ring.
  - intros j Hj D. rewrite X2 by assumption.
    rewrite TN, neumann_rec by assumption. unfold midn.
    destruct (Nat.eqb_spec j iv); [contradiction|].
    replace (sumn n (fun k => B j k * (x k + d * T k iv)))%Qc
      with (sumn n (fun k => B j k * x k) + d * sumn n (fun k => B j k * neumann n B k iv))%Qc; [ring|].
    rewrite <- sumn_scal, <- sumn_plus. apply sumn_ext. intros k Hk. rewrite TN by assumption. ring.
Qed.

Lemma propagated_observed : forall n B K Ex iv, is_order n K -> topological (edge_of n B) K -> iv < n ->
  forall j, j < n -> propagated n B K (noise_means n B Ex) iv (Ex iv) j = Ex j.
Proof.
  intros n B K Ex iv O T Hi. assert (A := topological_acyclic _ _ (is_order_NoDup n K O) T).
  apply (do_solution_unique n B (noise_means n B Ex) iv (Ex iv)); [exact A| |].
  - apply propagated_solution; assumption.
  - split; [reflexivity|]. intros j Hj _. apply noise_explains. exact Hj.
Qed.
Lemma propagated_shift : forall n B K En iv v d T, is_order n K -> topological (edge_of n B) K -> iv < n ->
  meq n (mmul n (msub midn B) T) midn ->
  forall j, j < n -> propagated n B K En iv (v + d)%Qc j = (propagated n B K En iv v j + d * T j iv)%Qc.
Proof.
  intros n B K En iv v d T O Tp Hi HT. assert (A := topological_acyclic _ _ (is_order_NoDup n K O) Tp).
  apply (do_solution_unique n B En iv (v + d)%Qc); [exact A| |].
  - apply propagated_solution; assumption.
  - apply do_solution_shift; try assumption. apply propagated_solution; assumption.
Qed.

(** ** Effects on a linear prediction *)
Lemma lin_others : forall n target c b x, 
  (lin_list (others n target c) (others n target x) + b)%Qc = lin_pred n target c b x.
Proof.
  intros n target c b x. unfold lin_pred, others. f_equal. unfold sumn.
  induction (seq 0 n) as [|k l IH]; [reflexivity|]. cbn [filter]. rewrite sumf_cons.
  destruct (k =? target); cbn [negb map lin_list]; rewrite IH; ring.
Qed.
Lemma qabs_opp : forall x, qabs (- x)%Qc = qabs x.
Proof.
  intro x. unfold qabs. destruct (qltb x 0) eqn:E; destruct (qltb (- x) 0) eqn:F.
  - apply qltb_lt in E. apply qltb_lt in F. exfalso. apply (Qclt_not_le _ _ E). qclra.
  - ring.
  - ring.
  - apply qltb_nlt in E. apply qltb_nlt in F. apply Qcle_antisym; qclra.
Qed.
Lemma lin_pred_minus : forall n t c b x y, (forall j, j < n -> j <> t -> (y j = x j)%Qc) ->
  lin_pred n t c b x = lin_pred n t c b y.
Proof.
  intros n t c b x y H. unfold lin_pred. f_equal. apply sumn_ext. intros k Hk.
  destruct (Nat.eqb_spec k t); [reflexivity|]. rewrite H by assumption. reflexivity.
Qed.
Lemma lin_pred_shift : forall n t c b x d (T : mat Qc) iv,
  (lin_pred n t c b (fun j => x j + d * T j iv) = lin_pred n t c b x
     + d * sumn n (fun j => if j =? t then 0 else c j * T j iv))%Qc.
Proof.
  intros. unfold lin_pred. rewrite <- sumn_scal.
  transitivity (sumn n (fun k => (if k =? t then 0 else c k * x k) + d * (if k =? t then 0 else c k * T k iv)) + b)%Qc.
  - f_equal. apply sumn_ext. intros k _. destruct (k =? t); ring.
  - rewrite sumn_plus. ring.
Qed.
Lemma linear_effects : forall n B K Ex sd target c b T,
  is_order n K -> topological (edge_of n B) K -> meq n (mmul n (msub midn B) T) midn ->
  effects_on_prediction n B K Ex sd target (fun xs => lin_list (others n target c) xs + b)%Qc =
  map (fun i => let e := qabs (sd i * sumn n (fun j => if j =? target then 0 else c j * T j i))%Qc in (e, e)) (seq 0 n).
Proof.
  intros n B K Ex sd target c b T O Tp HT. unfold effects_on_prediction. apply map_ext_in. intros i Ii.
  apply in_seq in Ii. cbv zeta. rewrite !lin_others.
  assert (forall d, lin_pred n target c b (propagated n B K (noise_means n B Ex) i (Ex i + d)%Qc) =
     (lin_pred n target c b (propagated n B K (noise_means n B Ex) i (Ex i)) +
      d * sumn n (fun j => if j =? target then 0 else c j * T j i))%Qc) as G.
  { intro d. rewrite <- lin_pred_shift. apply lin_pred_minus. intros j Hj _. symmetry.
    apply propagated_shift; try assumption. lia. }
  rewrite G. replace (Ex i - sd i)%Qc with (Ex i + - sd i)%Qc by ring. rewrite G.
  generalize (lin_pred n target c b (propagated n B K (noise_means n B Ex) i (Ex i))) as p.
  generalize (sumn n (fun j => if j =? target then 0 else c j * T j i))%Qc as q. intros q p.
  f_equal.
  - rewrite <- qabs_opp. f_equal. ring.
  - f_equal. ring.
Qed.

(** ** Optimal intervention *)
Section OI.
  Variables (n : nat) (B : mat Qc) (Ex0 : nat -> Qc) (iv : nat).
  Hypothesis Hiv : iv < n.
  Let En := upd (noise_means n B Ex0) iv 0%Qc.

  Definition oi_inv (st : oi_state) : Prop :=
    let '(s, Ex, alpha) := st in
    NoDup s /\ ~ In iv s /\ (forall k, In k s -> k < n) /\ Ex iv = 0%Qc /\ alpha iv = 1%Qc /\
    (forall k, k < n -> ~ In k s -> k <> iv ->
       (forall q, q < n -> B k q <> 0%Qc -> ~ In q s) /\
       Ex k = (sumn n (fun q => B k q * Ex q) + En k)%Qc /\
       alpha k = sumn n (fun q => B k q * alpha q)%Qc).

  Lemma fold_parents : forall k (f : nat -> Qc),
    fold_left (fun a q => a + B k q * f q)%Qc (parents_of n B k) 0%Qc = sumn n (fun q => B k q * f q)%Qc.
  Proof.
    intros k f. unfold parents_of, sumn.
    assert (forall l acc, fold_left (fun a q => a + B k q * f q)%Qc
              (filter (fun q => qltb 0 (qabs (B k q))) l) acc = (acc + sumf l (fun q => B k q * f q))%Qc) as G.
    { induction l as [|q l IH]; intro acc; [cbn; unfold sumf; cbn; ring|]. cbn [filter]. rewrite sumf_cons.
      destruct (qltb 0 (qabs (B k q))) eqn:E.
      - cbn [fold_left]. rewrite IH. ring.
      - rewrite IH. apply qltb_nlt in E. assert (B k q = 0%Qc) as ->; [|ring].
        apply (proj1 (qabs_0 (B k q))). apply Qcle_antisym; [exact E|apply qabs_nonneg]. }
    rewrite G. ring.
  Qed.
  Lemma fold_parents_u : forall k (f : nat -> Qc), f iv = 0%Qc ->
    fold_left (fun u q => if q =? iv then u else u + B k q * f q)%Qc (parents_of n B k) 0%Qc
    = sumn n (fun q => B k q * f q)%Qc.
  Proof.
    intros k f H. rewrite <- fold_parents. generalize (parents_of n B k) 0%Qc.
    induction l as [|q l IH]; intro acc; [reflexivity|]. cbn [fold_left]. rewrite IH.
    destruct (Nat.eqb_spec q iv) as [->|]; [|reflexivity]. rewrite H. f_equal. ring.
  Qed.
  Lemma parents_in : forall k q, In q (parents_of n B k) <-> q < n /\ B k q <> 0%Qc.
  Proof.
    intros k q. unfold parents_of. rewrite filter_In, in_seq, qltb_lt, qabs_pos. split; intros [? ?]; split; auto; lia.
  Qed.

  Lemma oi_step_inv : forall k st, In k (fst (fst st)) -> oi_inv st -> oi_inv (oi_step n B En iv k st).
  Proof.
    intros k [[s Ex] alpha] Ik [ND [NI [Hs [E0 [A1 H]]]]]. cbn [fst] in Ik. unfold oi_step.
    destruct (existsb (fun q => memb q s) (parents_of n B k)) eqn:P; [repeat split; try assumption; apply H; assumption|].
    assert (forall q, q < n -> B k q <> 0%Qc -> ~ In q s) as PN.
    { intros q Hq Nq I. assert (existsb (fun q => memb q s) (parents_of n B k) = true); [|congruence].
      apply existsb_exists. exists q. split; [apply parents_in; auto|apply memb_In; exact I]. }
    rewrite fold_parents, fold_parents_u by exact E0.
    assert (k <> iv) as Dk by congruence.
    unfold oi_inv. split; [apply remove_nat_NoDup; exact ND|]. split; [intro I; apply remove_nat_In in I; tauto|].
    split; [intros j I; apply remove_nat_In in I; apply Hs; tauto|].
    unfold upd at 1 2. destruct (Nat.eqb_spec iv k); [congruence|]. split; [exact E0|]. split; [exact A1|].
    assert (forall j (f : nat -> Qc) w, (forall q, q < n -> B j q <> 0%Qc -> q <> k) ->
       sumn n (fun q => B j q * upd f k w q)%Qc = sumn n (fun q => B j q * f q)%Qc) as UP.
    { intros j f w Hq. apply sumn_ext. intros q Lq. unfold upd. destruct (Nat.eqb_spec q k) as [->|]; [|reflexivity].
      destruct (Qc_eq_dec (B j k) 0) as [e|e]; [rewrite e; ring|]. exfalso. exact (Hq k Lq e eq_refl). }
    intros j Hj NJ Dj. destruct (Nat.eq_dec j k) as [->|D].
    - split; [intros q Hq Nq I; apply remove_nat_In in I; apply (PN q Hq Nq); tauto|].
      assert (forall q, q < n -> B k q <> 0%Qc -> q <> k) as QK.
      { intros q Hq Nq ->. exact (PN k Hq Nq Ik). }
      rewrite !UP by exact QK. unfold upd. rewrite Nat.eqb_refl. split; reflexivity.
    - assert (~ In j s) as NJ'. { intro I. apply NJ. apply remove_nat_In. auto. }
      destruct (H j Hj NJ' Dj) as [Hq [HE HA]].
      split; [intros q Lq Nq I; apply remove_nat_In in I; apply (Hq q Lq Nq); tauto|].
      assert (forall q, q < n -> B j q <> 0%Qc -> q <> k) as QK.
      { intros q Lq Nq ->. exact (Hq k Lq Nq Ik). }
      rewrite !UP by exact QK. unfold upd. destruct (Nat.eqb_spec j k); [contradiction|]. auto.
  Qed.
  Lemma nth_mod_In : forall c (s : list nat), s <> [] -> In (nth (c mod length s) s 0) s.
  Proof. intros c s H. apply nth_In. apply Nat.mod_upper_bound. destruct s; [congruence|cbn; lia]. Qed.
  Lemma oi_loop_inv : forall draws st Ex alpha, oi_inv st -> oi_loop n B En iv draws st = Some (Ex, alpha) ->
    oi_inv ([], Ex, alpha).
  Proof.
    induction draws as [|c draws IH]; intros [[s Ex0'] alpha0] Ex alpha I H; cbn [oi_loop] in H.
    - destruct s; [|discriminate]. inversion H; subst. exact I.
    - destruct s as [|x s]; [inversion H; subst; exact I|].
      eapply IH; [|exact H]. apply oi_step_inv; [|exact I]. cbn [fst]. apply nth_mod_In. discriminate.
  Qed.
  Lemma root_vars_In : forall i, In i (root_vars n B) <-> i < n /\ sumn n (B i) = 0%Qc.
  Proof. intro i. unfold root_vars. rewrite filter_In, in_seq, qeqb_eq. split; intros [? ?]; split; auto; lia. Qed.
  Lemma oi_init_inv : (forall k, k < n -> k <> iv -> sumn n (B k) = 0%Qc -> forall q, q < n -> B k q = 0%Qc) ->
    oi_inv (oi_init n B Ex0 iv).
  Proof.
    intro NC. unfold oi_init, oi_inv. split; [repeat apply NoDup_filter; apply seq_NoDup|].
    split. { rewrite !filter_In, negb_true_iff. intros [[_ H] _]. rewrite Nat.eqb_refl in H. discriminate. }
    split. { intros k I. rewrite !filter_In, in_seq in I. lia. }
    unfold upd at 1 2. rewrite Nat.eqb_refl. split; [reflexivity|]. split; [reflexivity|].
    intros k Hk NI Dk.
    assert (In k (root_vars n B)) as R.
    { destruct (memb k (root_vars n B)) eqn:M; [apply memb_In; exact M|]. exfalso. apply NI.
      apply filter_In. rewrite M. split; [|reflexivity]. apply filter_In. split; [apply in_seq; lia|].
      apply negb_true_iff, Nat.eqb_neq. exact Dk. }
    apply root_vars_In in R. destruct R as [_ R].
    assert (forall q, q < n -> B k q = 0%Qc) as Z by (apply NC; assumption).
    split; [intros q Hq Nq; rewrite Z in Nq by exact Hq; congruence|].
    rewrite !sumn_zero by (intros q Hq; rewrite Z by exact Hq; ring).
    unfold upd. destruct (Nat.eqb_spec k iv); [contradiction|]. split; [|reflexivity].
    unfold En, upd. destruct (Nat.eqb_spec k iv); [contradiction|]. unfold noise_means, dot.
    rewrite sumn_zero by (intros q Hq; rewrite Z by exact Hq; ring). ring.
  Qed.

  (** Progress: from every reachable state some draw shrinks the worklist. *)
  Lemma oi_progress : forall st, acyclic (edge_of n B) -> oi_inv st -> fst (fst st) <> [] ->
    exists c, length (fst (fst (oi_step n B En iv (nth (c mod length (fst (fst st))) (fst (fst st)) 0) st)))
              < length (fst (fst st)).
  Proof.
    intros [[s Ex] alpha] A [ND [_ [Hs _]]] NE. cbn [fst] in *.
    destruct (acyclic_source (edge_of n B) s (edge_of_dec n B) A NE) as [k [Ik Hk]].
    destruct (In_nth s k 0 Ik) as [c [Lc Ec]]. exists c. rewrite Nat.mod_small by exact Lc. rewrite Ec.
    unfold oi_step. destruct (existsb (fun q => memb q s) (parents_of n B k)) eqn:P.
    - exfalso. apply existsb_exists in P. destruct P as [q [Iq M]]. apply parents_in in Iq. apply memb_In in M.
      apply (Hk q M). unfold edge_of. destruct Iq. auto.
    - cbn [fst]. assert (L := remove_nat_length k s ND Ik). lia.
  Qed.
  Lemma oi_completes : forall m st, acyclic (edge_of n B) -> oi_inv st -> length (fst (fst st)) <= m ->
    exists draws r, oi_loop n B En iv draws st = Some r.
  Proof.
    induction m as [|m IH]; intros [[s Ex] alpha] A I L.
    - exists [], (Ex, alpha). cbn [fst] in L. destruct s; [reflexivity|cbn in L; lia].
    - destruct s as [|x s]; [exists [], (Ex, alpha); reflexivity|].
      destruct (oi_progress (x :: s, Ex, alpha) A I) as [c Hc]; [discriminate|].
      set (st' := oi_step n B En iv (nth (c mod length (x :: s)) (x :: s) 0) (x :: s, Ex, alpha)).
      destruct (IH st' A) as [draws [r E]].
      + apply oi_step_inv; [|exact I]. cbn [fst]. apply nth_mod_In. discriminate.
      + cbn [fst] in Hc, L. unfold st'. lia.
      + exists (c :: draws), r. cbn [oi_loop]. exact E.
  Qed.
  Lemma oi_loop_app : forall draws more st r, oi_loop n B En iv draws st = Some r ->
    oi_loop n B En iv (draws ++ more) st = Some r.
  Proof.
    induction draws as [|c draws IH]; intros more [[s Ex] alpha] r H; cbn [oi_loop app] in *.
    - destruct s; [|discriminate]. destruct more; exact H.
    - destruct s; [exact H|]. apply IH. exact H.
  Qed.
  (** However unlucky the draws so far, the loop can still be completed. *)
  Lemma oi_never_stuck : forall draws st, acyclic (edge_of n B) -> oi_inv st ->
    exists more r, oi_loop n B En iv (draws ++ more) st = Some r.
  Proof.
    induction draws as [|c draws IH]; intros st A I.
    - destruct (oi_completes _ st A I (le_n _)) as [more [r E]]. exists more, r. exact E.
    - destruct st as [[s Ex] alpha]. destruct s as [|x s].
      + exists [], (Ex, alpha). reflexivity.
      + destruct (IH (oi_step n B En iv (nth (c mod length (x :: s)) (x :: s) 0) (x :: s, Ex, alpha)) A) as [more [r E]].
        * apply oi_step_inv; [|exact I]. cbn [fst]. apply nth_mod_In. discriminate.
        * exists more, r. exact E.
  Qed.

  Hypothesis A : acyclic (edge_of n B).
  Hypothesis NC : forall k, k < n -> k <> iv -> sumn n (B k) = 0%Qc -> forall q, q < n -> B k q = 0%Qc.

  Lemma oi_result : forall draws Ex alpha T, oi_loop n B En iv draws (oi_init n B Ex0 iv) = Some (Ex, alpha) ->
    meq n (mmul n (msub midn B) T) midn ->
    (forall j, j < n -> alpha j = T j iv) /\
    do_solution n B (noise_means n B Ex0) iv 0%Qc Ex.
  Proof.
    intros draws Ex alpha T H HT. apply oi_loop_inv in H; [|apply oi_init_inv; exact NC].
    destruct H as [_ [_ [_ [E0 [A1 H]]]]]. split.
    - assert (do_solution n B (fun _ => 0%Qc) iv 1%Qc alpha) as SA.
      { split; [exact A1|]. intros j Hj D. destruct (H j Hj (fun F => F) D) as [_ [_ X]]. rewrite X at 1. ring. }
      assert (do_solution n B (fun _ => 0%Qc) iv (0 + 1)%Qc (fun j => 0 + 1 * T j iv)%Qc) as ST.
      { apply (do_solution_shift n B (fun _ => 0%Qc) iv 0%Qc 1%Qc (fun _ => 0%Qc) T A Hiv HT). split; [reflexivity|].
        intros. rewrite sumn_zero by (intros; ring). ring. }
      replace (0 + 1)%Qc with 1%Qc in ST by ring.
      intros j Hj. rewrite (do_solution_unique n B _ iv 1%Qc _ _ A SA ST j Hj). ring.
    - split; [exact E0|]. intros j Hj D. destruct (H j Hj (fun F => F) D) as [_ [X _]]. rewrite X at 1.
      unfold En, upd. destruct (Nat.eqb_spec j iv); [contradiction|]. reflexivity.
  Qed.
End OI.

Lemma insert_zero_spec : forall target coef k, target <= length coef ->
  insert_zero target coef k = if k =? target then 0%Qc else nth (if k <? target then k else k - 1) coef 0%Qc.
Proof.
  intros target coef k H. unfold insert_zero.
  assert (length (firstn target coef) = target) as L by (rewrite firstn_length; lia).
  destruct (Nat.eqb_spec k target) as [->|D].
  - rewrite app_nth2 by lia. rewrite L, Nat.sub_diag. reflexivity.
  - destruct (Nat.ltb_spec k target) as [Lt|Ge].
    + rewrite app_nth1 by lia. rewrite <- (firstn_skipn target coef) at 2. rewrite app_nth1 by lia. reflexivity.
    + rewrite app_nth2 by lia. rewrite L. destruct (k - target) as [|d] eqn:E; [lia|]. cbn [nth].
      rewrite <- (firstn_skipn target coef) at 2. rewrite app_nth2 by lia. rewrite L. f_equal. lia.
Qed.


Lemma dot_insert : forall n target coef b x, target <= length coef ->
  (dot n (insert_zero target coef) x + b = lin_pred n target (coef_at target coef) b x)%Qc.
Proof.
  intros n target coef b x H. unfold dot, lin_pred. f_equal. apply sumn_ext. intros k _.
  rewrite insert_zero_spec by exact H. unfold coef_at. destruct (k =? target); ring.
Qed.

Lemma optimal_intervention_spec : forall n B Ex target coef b iv desired draws T,
  iv < n -> target < n -> length coef = n - 1 ->
  acyclic (edge_of n B) ->
  (forall k, k < n -> k <> iv -> sumn n (B k) = 0%Qc -> forall q, q < n -> B k q = 0%Qc) ->
  meq n (mmul n (msub midn B) T) midn ->
  let p := {| p_coef := Some coef; p_intercept := Some b; p_proba := false |} in
  let infl := sumn n (fun j => if j =? target then 0 else coef_at target coef j * T j iv)%Qc in
  match optimal_intervention n B Ex target p iv desired draws with
  | Err _ => False
  | Ok None => True
  | Ok (Some None) => infl = 0%Qc
  | Ok (Some (Some c)) => infl <> 0%Qc /\
      forall x, do_solution n B (noise_means n B Ex) iv c x ->
        lin_pred n target (coef_at target coef) b x = desired
  end.
Proof.
  intros n B Ex target coef b iv desired draws T Hi Ht Lc A NC HT p infl.
  unfold optimal_intervention, p. cbn [p_coef p_intercept p_proba].
  destruct (oi_loop n B (upd (noise_means n B Ex) iv 0%Qc) iv draws (oi_init n B Ex iv)) as [[Ex' alpha]|] eqn:E; [|exact I].
  destruct (oi_result n B Ex iv Hi A NC draws Ex' alpha T E HT) as [HA HX].
  assert (target <= length coef) as Lt by lia.
  replace (target <=? length coef) with true by (symmetry; apply Nat.leb_le; exact Lt).
  replace (S (length coef) =? n) with true by (symmetry; apply Nat.eqb_eq; lia). cbn [andb].
  assert (dot n (insert_zero target coef) alpha = infl) as DI.
  { unfold infl, dot. apply sumn_ext. intros k Hk. rewrite insert_zero_spec by exact Lt.
    unfold coef_at. rewrite HA by exact Hk. destruct (k =? target); ring. }
  rewrite DI. destruct (qeqb infl 0) eqn:Z; [apply qeqb_eq; exact Z|]. apply qeqb_neq in Z.
  split; [exact Z|]. intros x Hx.
  set (c := ((desired - dot n (insert_zero target coef) Ex' - b) / infl)%Qc) in *.
  assert (do_solution n B (noise_means n B Ex) iv (0 + c)%Qc (fun j => Ex' j + c * T j iv)%Qc) as SX.
  { apply do_solution_shift; assumption. }
  replace (0 + c)%Qc with c in SX by ring.
  rewrite (lin_pred_minus n target _ b x (fun j => Ex' j + c * T j iv)%Qc).
  - rewrite lin_pred_shift. fold infl. rewrite <- dot_insert by exact Lt. unfold c. field. exact Z.
  - intros j Hj _. symmetry. exact (do_solution_unique n B _ iv c _ _ A Hx SX j Hj).
Qed.
Lemma optimal_intervention_schedule : forall n B Ex target p iv desired draws draws' r r',
  iv < n -> acyclic (edge_of n B) ->
  (forall k, k < n -> k <> iv -> sumn n (B k) = 0%Qc -> forall q, q < n -> B k q = 0%Qc) ->
  optimal_intervention n B Ex target p iv desired draws = Ok (Some r) ->
  optimal_intervention n B Ex target p iv desired draws' = Ok (Some r') -> r = r'.
Proof.
  intros n B Ex target p iv desired draws draws' r r' Hi A NC.
  unfold optimal_intervention.
  destruct (oi_loop n B (upd (noise_means n B Ex) iv 0%Qc) iv draws (oi_init n B Ex iv)) as [[E1 a1]|] eqn:H1.
  2:{ destruct (p_coef p), (p_intercept p); try discriminate; destruct (p_proba p); discriminate. }
  destruct (oi_loop n B (upd (noise_means n B Ex) iv 0%Qc) iv draws' (oi_init n B Ex iv)) as [[E2 a2]|] eqn:H2.
  2:{ destruct (p_coef p), (p_intercept p); try discriminate; destruct (p_proba p); discriminate. }
  assert (HT := neumann_inv_l n B A).
  destruct (oi_result n B Ex iv Hi A NC _ _ _ _ H1 HT) as [Ha1 S1].
  destruct (oi_result n B Ex iv Hi A NC _ _ _ _ H2 HT) as [Ha2 S2].
  assert (forall c, dot n c a1 = dot n c a2) as D1.
  { intro c. unfold dot. apply sumn_ext. intros k Hk. rewrite Ha1, Ha2 by exact Hk. reflexivity. }
  assert (forall c, dot n c E1 = dot n c E2) as D2.
  { intro c. unfold dot. apply sumn_ext. intros k Hk. rewrite (do_solution_unique n B _ iv _ _ _ A S1 S2 k Hk). reflexivity. }
  destruct (p_coef p) as [coef|], (p_intercept p) as [b|]; try discriminate; destruct (p_proba p); try discriminate.
  destruct ((target <=? length coef) && (S (length coef) =? n)); [|destruct (target <=? length coef); discriminate].
  rewrite D1, D2. congruence.
Qed.
(** Whatever has been drawn so far, some continuation completes the loop, and longer schedules
    do not change a completed result. *)
Lemma optimal_intervention_can_finish : forall n B Ex target coef b iv desired draws,
  iv < n -> target < n -> length coef = n - 1 -> acyclic (edge_of n B) ->
  (forall k, k < n -> k <> iv -> sumn n (B k) = 0%Qc -> forall q, q < n -> B k q = 0%Qc) ->
  let p := {| p_coef := Some coef; p_intercept := Some b; p_proba := false |} in
  exists more r, optimal_intervention n B Ex target p iv desired (draws ++ more) = Ok (Some r).
Proof.
  intros n B Ex target coef b iv desired draws Hi Ht Lc A NC p.
  destruct (oi_never_stuck n B Ex iv Hi draws (oi_init n B Ex iv) A (oi_init_inv n B Ex iv Hi NC)) as [more [[E a] H]].
  exists more. unfold optimal_intervention, p. cbn [p_coef p_intercept p_proba]. rewrite H.
  replace (target <=? length coef) with true by (symmetry; apply Nat.leb_le; lia).
  replace (S (length coef) =? n) with true by (symmetry; apply Nat.eqb_eq; lia). cbn [andb]. eauto.
Qed.
