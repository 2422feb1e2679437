(** * Proofs about MultiGroupCAMUV *)
From Coq Require Import List Arith Lia Bool ZArith QArith Qcanon Permutation.
From Verif Require Import Prelude Lib Loop ModelRCD ModelCAMUV ModelParce ModelMGCamuv.
Import ListNotations.
Open Scope nat_scope.

Lemma fold_left_ext_in : forall A B (f g : A -> B -> A) l a, (forall a b, In b l -> f a b = g a b) -> fold_left f l a = fold_left g l a.
Proof. intros A B f g l. induction l as [|b l IH]; intros a H; [reflexivity|]. cbn. rewrite (H a b (or_introl eq_refl)). apply IH. intros c d I. apply H. right. exact I. Qed.
Lemma loop_ext : forall S R (f g : S -> S + R) k s, (forall s, f s = g s) -> loop f k s = loop g k s.
Proof.
  intros S R f g k. induction k as [|k IH]; intros s H; [cbn; apply H|]. cbn. rewrite (IH s H). destruct (loop g k s); [apply IH; exact H|reflexivity].
Qed.

Section Ext.
  Variables (d maxnum : nat) (hsic : bool) (thr : Qc) (pk : option (list (nat * nat))) (iter : list nat -> list nat).
  Variables (ind ind' : nat -> list nat -> nat -> list nat -> bool) (value value' : nat -> list nat -> list (nat * list nat) -> num).
  Hypothesis HI : forall i A j B, ind i A j B = ind' i A j B.
  Hypothesis HV : forall c A qs, value c A qs = value' c A qs.
  Lemma neighborhoods_ext : neighborhoods d ind = neighborhoods d ind'.
  Proof. unfold neighborhoods. apply fold_left_ext_in. intros N [i j] _. rewrite HI. reflexivity. Qed.
  Lemma get_child_ext : forall N P vs, get_child d hsic thr pk value iter N P vs = get_child d hsic thr pk value' iter N P vs.
  Proof.
    intros N P vs. unfold get_child. erewrite fold_left_ext_in; [reflexivity|]. intros [prev best] c _. rewrite HV. reflexivity.
  Qed.
  Lemma cam_step_ext : forall N st, cam_step d maxnum hsic thr pk ind value iter N st = cam_step d maxnum hsic thr pk ind' value' iter N st.
  Proof.
    intros N [P t]. unfold cam_step. rewrite (fold_left_ext_in _ _ (cam_visit d hsic thr pk ind value iter N) (cam_visit d hsic thr pk ind' value' iter N)); [reflexivity|].
    intros [Q ch] vs _. unfold cam_visit. rewrite get_child_ext. destruct (negb (not_identified Q vs)); [reflexivity|]. destruct (get_child d hsic thr pk value' iter N Q vs) as [[c|] [|]]; try reflexivity.
    assert (DW : dependent_without d ind Q (remove_nat c vs) c = dependent_without d ind' Q (remove_nat c vs) c).
    { unfold dependent_without. induction (remove_nat c vs) as [|q l IH]; [reflexivity|]. cbn. rewrite HI, IH. reflexivity. }
    rewrite DW. reflexivity.
  Qed.
  Lemma elems_ext : forall f g, (forall x, f x = g x) -> elems d f = elems d g.
  Proof. intros f g H. unfold elems. apply filter_ext. exact H. Qed.
  Lemma prune_row_ext : forall P P' i, (forall a b, P a b = P' a b) -> forall a b, prune_row d ind P i a b = prune_row d ind' P' i a b.
  Proof.
    intros P P' i H a b. unfold prune_row. rewrite H, HI. rewrite (elems_ext (P b) (P' b) (H b)).
    rewrite (elems_ext (fun x => P i x && negb (x =? b)) (fun x => P' i x && negb (x =? b))); [reflexivity|]. intro x. rewrite H. reflexivity.
  Qed.
  Lemma prune_ext : forall P a b, prune d ind P a b = prune d ind' P a b.
  Proof.
    intros P. unfold prune. assert (G : forall l P P', (forall a b, P a b = P' a b) -> forall a b, fold_left (prune_row d ind) l P a b = fold_left (prune_row d ind') l P' a b).
    { induction l as [|i l IH]; intros Q Q' H; [exact H|]. cbn [fold_left]. apply IH. apply prune_row_ext. exact H. }
    apply G. reflexivity.
  Qed.
  Definition same_result (r r' : result (sets * mat num)) : Prop :=
    match r, r' with
    | Ok (P, B), Ok (P', B') => (forall i j, P i j = P' i j) /\ (forall i j, B i j = B' i j)
    | Err e, Err e' => e = e'
    | _, _ => False
    end.
  Lemma confounded_ext : forall N P P', (forall a b, P a b = P' a b) -> cam_confounded d ind N P = cam_confounded d ind' N P'.
  Proof.
    intros N P P' H. unfold cam_confounded. apply fold_left_ext_in. intros U [i j] _. rewrite !H, HI.
    rewrite (elems_ext (P i) (P' i) (H i)), (elems_ext (P j) (P' j) (H j)). reflexivity.
  Qed.
  Lemma cam_fit_ext : same_result (cam_fit d maxnum hsic thr pk ind value iter) (cam_fit d maxnum hsic thr pk ind' value' iter).
  Proof.
    unfold cam_fit. destruct (maxnum =? 0); [reflexivity|]. unfold find_parents. rewrite neighborhoods_ext.
    rewrite (loop_ext _ _ (cam_step d maxnum hsic thr pk ind value iter (neighborhoods d ind')) (cam_step d maxnum hsic thr pk ind' value' iter (neighborhoods d ind')) _ _ (cam_step_ext _)).
    destruct (loop _ _ _) as [s|P]; [reflexivity|]. cbn. split; [apply prune_ext|]. intros i j. unfold cam_adjacency.
    rewrite (confounded_ext _ (prune d ind P) (prune d ind' P) (prune_ext P)), prune_ext. reflexivity.
  Qed.
End Ext.

(** ** Combined tests *)
Lemma ext_plus_comm : forall a b, ext_plus a b = ext_plus b a.
Proof. intros a b; destruct a, b; cbn; try reflexivity. f_equal. ring. Qed.
Lemma ext_plus_assoc : forall a b c, ext_plus a (ext_plus b c) = ext_plus (ext_plus a b) c.
Proof. intros a b c; destruct a, b, c; cbn; try reflexivity. f_equal. ring. Qed.
Lemma fold_perm : forall A B (f : A -> B -> A), (forall a x y, f (f a x) y = f (f a y) x) ->
  forall l l', Permutation l l' -> forall a, fold_left f l a = fold_left f l' a.
Proof.
  intros A B f C l l' P. induction P as [|x l l' P IH|x y l|l l' l'' P1 IH1 P2 IH2]; intro a; cbn; [reflexivity|apply IH|rewrite C; reflexivity|rewrite IH1; apply IH2].
Qed.
Lemma fisher_perm : forall m2log sf l l', Permutation l l' -> fisher m2log sf l = fisher m2log sf l'.
Proof.
  intros m2log sf l l' P. unfold fisher. rewrite (Permutation_length P). f_equal. apply fold_perm; [|exact P]. intros a x y. cbv beta. rewrite <- !ext_plus_assoc. f_equal. apply ext_plus_comm.
Qed.
Lemma largest_step : forall l m, exists q, fold_left (fun mx f => if nltb mx f then f else mx) l (Some m) = Some q.
Proof.
  induction l as [|f l IH]; intro m; [exists m; reflexivity|]. cbn [fold_left]. destruct f as [f|]; cbn [nltb]; [destruct (qltb m f)|]; apply IH.
Qed.
(** the fold is the maximum of the start value and the numbers of the list *)
Lemma largest_fold : forall l m q, fold_left (fun mx f => if nltb mx f then f else mx) l (Some m) = Some q ->
  (m <= q)%Qc /\ (forall f, In (Some f) l -> (f <= q)%Qc) /\ (q = m \/ In (Some q) l).
Proof.
  induction l as [|f l IH]; intros m q H; cbn [fold_left] in H.
  - injection H as <-. split; [apply Qcle_refl|]. split; [intros f []|auto].
  - destruct f as [f|]; cbn [nltb] in H.
    + destruct (qltb m f) eqn:E; destruct (IH _ _ H) as (H1 & H2 & H3).
      * apply qltb_lt in E. split; [apply Qcle_trans with f; [apply Qclt_le_weak, E|exact H1]|]. split; [intros g [[= <-]|I]; [exact H1|auto]|].
        destruct H3 as [-> |H3]; [right; left; reflexivity|right; right; exact H3].
      * apply qltb_nlt in E. split; [exact H1|]. split; [intros g [[= <-]|I]; [apply Qcle_trans with m; [exact E|exact H1]|auto]|]. destruct H3 as [-> |H3]; [auto|right; right; exact H3].
    + destruct (IH _ _ H) as (H1 & H2 & H3). split; [exact H1|]. split; [intros g [D|I]; [discriminate|auto]|]. destruct H3 as [-> |H3]; [auto|right; right; exact H3].
Qed.
Lemma largest_perm : forall l l', Permutation l l' -> largest l = largest l'.
Proof.
  intros l l' P. unfold largest. destruct (largest_step l 0%Qc) as (q & E), (largest_step l' 0%Qc) as (q' & E'). rewrite E, E'. f_equal.
  destruct (largest_fold _ _ _ E) as (A1 & A2 & A3), (largest_fold _ _ _ E') as (B1 & B2 & B3). apply Qcle_antisym.
  - destruct A3 as [-> |A3]; [exact B1|]. apply B2. eapply Permutation_in; eassumption.
  - destruct B3 as [-> |B3]; [exact A1|]. apply A2. eapply Permutation_in; [apply Permutation_sym; eassumption|exact B3].
Qed.
Lemma check_X_list_spec : forall D features (Xs : option (list D)),
  match check_X_list D features Xs with
  | Ok d => exists l, Xs = Some l /\ 2 <= length l /\ forall X, In X l -> features X = Some d
  | Err e => e = ValueError /\ forall l d, Xs = Some l -> 2 <= length l -> ~ (forall X, In X l -> features X = Some d)
  end.
Proof.
  intros D features [l|]; cbn [check_X_list]; [|split; [reflexivity|discriminate]].
  destruct (Nat.ltb_spec (length l) 2) as [L|L]; [split; [reflexivity|intros l' d [= <-] H; lia]|]. destruct l as [|X l]; [cbn in L; lia|].
  destruct (features X) as [d|] eqn:E.
  - destruct (forallb _ (X :: l)) eqn:F.
    + exists (X :: l). split; [reflexivity|]. split; [exact L|]. rewrite forallb_forall in F. intros Y I. specialize (F Y I). destruct (features Y) as [d'|]; [|discriminate]. apply Nat.eqb_eq in F. congruence.
    + split; [reflexivity|]. intros l' d' [= <-] _ H. assert (d' = d) by (rewrite (H X (or_introl eq_refl)) in E; congruence). subst d'.
      assert (T : forallb (fun X => match features X with Some d' => d' =? d | None => false end) (X :: l) = true); [|congruence].
      apply forallb_forall. intros Y I. rewrite (H Y I). apply Nat.eqb_refl.
  - split; [reflexivity|]. intros l' d' [= <-] _ H. rewrite (H X (or_introl eq_refl)) in E. discriminate.
Qed.
Lemma fisher_numbers : forall m2log (l : list Qc) s, (forall p, In p l -> p <> 0%Qc) ->
  fold_left (fun s p => ext_plus s (match p with None => NaN | Some p => if qeqb p 0 then PInf else Fin (m2log p) end)) (map Some l) (Fin s)
  = Fin (s + qsum (map m2log l)).
Proof.
  intros m2log l. induction l as [|p l IH]; intros s H; [cbn; f_equal; ring|]. cbn [map fold_left]. rewrite (proj2 (qeqb_neq p 0)) by (apply H; left; reflexivity).
  cbn [ext_plus]. rewrite IH by (intros x I; apply H; right; exact I). f_equal. cbn. fold (qsum (map m2log l)). ring.
Qed.
Lemma fisher_zero : forall m2log (l : list Qc) s, In 0%Qc l ->
  fold_left (fun s p => ext_plus s (match p with None => NaN | Some p => if qeqb p 0 then PInf else Fin (m2log p) end)) (map Some l) (Fin s) = PInf.
Proof.
  intros m2log. assert (PI : forall l : list Qc, fold_left (fun s p => ext_plus s (match p with None => NaN | Some p => if qeqb p 0 then PInf else Fin (m2log p) end)) (map Some l) PInf = PInf).
  { induction l as [|p l IH]; [reflexivity|]. cbn [map fold_left]. destruct (qeqb p 0); exact IH. }
  intros l. induction l as [|p l IH]; intros s I; [destruct I|]. cbn [map fold_left]. destruct (qeqb p 0) eqn:E; [apply PI|]. cbn [ext_plus]. apply IH.
  destruct I as [->|I]; [|exact I]. apply qeqb_neq in E. congruence.
Qed.
Lemma combined_fisher : forall D test m2log sf l i A qs p, (forall X, In X l -> test X i A qs = Some (p X)) ->
  combined D test m2log sf true l i A qs = fisher m2log sf (map Some (map p l)).
Proof. intros D test m2log sf l i A qs p H. unfold combined. cbv zeta. f_equal. rewrite map_map. apply map_ext_in. exact H. Qed.
