(** * Property theorems: MultiGroupCAMUV (C133, C134) *)
From Coq Require Import List Arith Lia Bool ZArith QArith Qcanon Permutation Relations.
From Verif Require Import Prelude Spec SpecCAMUV Lib ModelRCD ModelCAMUV ModelParce ModelMGCamuv ProofMGCamuv.
From Verif Require Props_CAMUV.
Import ListNotations.
Open Scope nat_scope.

(** ** C133 *)
Theorem C133_constructor : forall maxnum alpha ind_corr known,
  (mgc_init maxnum alpha ind_corr known = Ok tt <-> (0 < maxnum)%Z /\ (0 <= alpha)%Qc /\ known = true /\ (0 <= ind_corr)%Qc) /\
  (mgc_init maxnum alpha ind_corr known = Ok tt \/ mgc_init maxnum alpha ind_corr known = Err ValueError).
Proof.
  intros maxnum alpha ind_corr known. unfold mgc_init.
  destruct (Z.leb_spec maxnum 0) as [M|M]; [split; [split; [discriminate|intros (H & _); lia]|auto]|].
  destruct (qltb alpha 0) eqn:A; [apply qltb_lt in A; split; [split; [discriminate|intros (_ & H & _); exfalso; exact (Qclt_not_le _ _ A H)]|auto]|]. apply qltb_nlt in A.
  destruct known; cbn [negb]; [|split; [split; [discriminate|intros (_ & _ & H & _); discriminate]|auto]].
  destruct (qltb ind_corr 0) eqn:I; [apply qltb_lt in I; split; [split; [discriminate|intros (_ & _ & _ & H); exfalso; exact (Qclt_not_le _ _ I H)]|auto]|]. apply qltb_nlt in I. split; [tauto|auto].
Qed.
Print Assumptions C133_constructor.
(** fit succeeds exactly for a list of two or more valid data sets with the same number of features; every
    other argument raises ValueError. *)
Theorem C133_fit_always_returns : forall D features test m2log sf maxnum hsic thr pk iter (Xs : option (list D)),
  (forall l, Permutation (iter l) l) -> 1 <= maxnum ->
  let fit := mgc_fit D features test m2log sf maxnum hsic thr pk iter Xs in
  ((exists l d, Xs = Some l /\ 2 <= length l /\ forall X, In X l -> features X = Some d) -> exists P B, fit = Ok (P, B)) /\
  (~ (exists l d, Xs = Some l /\ 2 <= length l /\ forall X, In X l -> features X = Some d) -> fit = Err ValueError).
Proof.
  intros D features test m2log sf maxnum hsic thr pk iter Xs IP M fit. unfold fit, mgc_fit. pose proof (check_X_list_spec D features Xs) as C.
  destruct (check_X_list D features Xs) as [d|e]; cbn [bind].
  - destruct C as (l & -> & L & F). split.
    + intros _. destruct (Props_CAMUV.C34_fit_always_returns d maxnum hsic thr pk (combined_ind D test m2log sf hsic thr l) (combined D test m2log sf hsic l) iter IP) as [[H _]|[_ H]]; [lia|exact H].
    + intro N. exfalso. apply N. exists l, d. auto.
  - destruct C as [-> C]. split; [|auto]. intros (l & d & E & L & F). exfalso. exact (C l d E L F).
Qed.
Print Assumptions C133_fit_always_returns.
(** The result: 0/1/NaN entries, no variable causes itself, no pair is directed both ways, edges only between
    dependent variables, NaN exactly for the undirected pairs that stay dependent given their parents, in both
    directions; nothing that the prior knowledge excludes. *)
Theorem C133_result : forall D features test m2log sf maxnum hsic thr pk iter l P B,
  (forall l, Permutation (iter l) l) ->
  mgc_fit D features test m2log sf maxnum hsic thr pk iter (Some l) = Ok (P, B) ->
  exists d, (forall X, In X l -> features X = Some d) /\
  let ind i A j C := combined_ind D test m2log sf hsic thr l i A j C in
  let dependent a b := if a <? b then ind a [] b [] = false else ind b [] a [] = false in
  let residual_dependent a b :=
    if a <? b then ind a (filter (P a) (seq 0 d)) b (filter (P b) (seq 0 d)) = false
    else ind b (filter (P b) (seq 0 d)) a (filter (P a) (seq 0 d)) = false in
  (forall i, B i i = Some 0%Qc) /\
  (forall i j, B i j = Some 0%Qc \/ B i j = Some 1%Qc \/ B i j = None) /\
  (forall i j, B i j = Some 1%Qc -> B j i = Some 0%Qc /\ i < d /\ j < d /\ dependent i j) /\
  (forall i j, i < d -> j < d -> (B i j = None <->
      B i j <> Some 1%Qc /\ B j i <> Some 1%Qc /\ i <> j /\ dependent i j /\ residual_dependent i j)) /\
  (forall i j, B i j = None -> B j i = None) /\
  (forall L a b, pk = Some L -> In (a, b) L -> B b a <> Some 1%Qc).
Proof.
  intros D features test m2log sf maxnum hsic thr pk iter l P B IP H. unfold mgc_fit in H. pose proof (check_X_list_spec D features (Some l)) as C.
  destruct (check_X_list D features (Some l)) as [d|e]; [|discriminate]. cbn [bind] in H. destruct C as (l' & [= <-] & L & F). exists d. split; [exact F|].
  cbv zeta. destruct (Props_CAMUV.C35_adjacency_shape d maxnum hsic thr pk (combined_ind D test m2log sf hsic thr l) (combined D test m2log sf hsic l) iter P B IP H) as (H1 & H2 & H3 & H4 & H5).
  split; [exact H1|]. split; [exact H2|]. split; [exact H3|]. split; [exact H4|]. split; [exact H5|].
  intros Lk a b -> I. destruct (Props_CAMUV.C34_prior_knowledge_respected d maxnum hsic thr Lk _ _ iter P B a b IP H I) as [Q|Q]; rewrite Q; discriminate.
Qed.
Print Assumptions C133_result.
(** The parents are the ones the combined tests justify (the rules of SpecCAMUV.v). *)
Theorem C133_search_exact : forall D features test m2log sf maxnum hsic thr pk iter l P B,
  (forall l, Permutation (iter l) l) ->
  mgc_fit D features test m2log sf maxnum hsic thr pk iter (Some l) = Ok (P, B) ->
  let forbidden a b := match pk with None => False | Some l => In (a, b) l end in
  let ind := combined_ind D test m2log sf hsic thr l in
  let value := combined D test m2log sf hsic l in
  exists d Q, (forall X, In X l -> features X = Some d) /\
    discovered d hsic thr forbidden ind value iter (Nat.max 2 maxnum) Q /\
    (forall t K c, 2 <= t <= Nat.max 2 maxnum -> var_set d t K -> ~ establishes d hsic thr forbidden ind value iter Q K c) /\
    pruned d ind Q P /\ (forall i j, B i j = Some 1%Qc <-> P i j = true).
Proof.
  intros D features test m2log sf maxnum hsic thr pk iter l P B IP H forbidden ind value. unfold mgc_fit in H. pose proof (check_X_list_spec D features (Some l)) as C.
  destruct (check_X_list D features (Some l)) as [d|e]; [|discriminate]. cbn [bind] in H. destruct C as (l' & [= <-] & L & F).
  destruct (Props_CAMUV.C110_search_exact d maxnum hsic thr pk _ _ iter P B IP H) as (Q & H1 & H2 & H3 & H4). exists d, Q. auto.
Qed.
Print Assumptions C133_search_exact.

(** ** C134 *)
(** F-correlation: independent exactly if the F-correlation is below the threshold in every data set. *)
Theorem C134_fcorr_every_data_set : forall D test m2log sf thr l i A j B, (0 < thr)%Qc ->
  (forall X, In X l -> exists f, test X i A [(j, B)] = Some f) ->
  (combined_ind D test m2log sf false thr l i A j B = true <->
   forall X f, In X l -> test X i A [(j, B)] = Some f -> (f < thr)%Qc).
Proof.
  intros D test m2log sf thr l i A j B T N. unfold combined_ind. cbv zeta. destruct (largest_step (map (fun X => test X i A [(j, B)]) l) 0%Qc) as (q & E).
  assert (E' : combined D test m2log sf false l i A [(j, B)] = Some q) by exact E. rewrite E'. cbn [nltb]. rewrite qltb_lt.
  destruct (largest_fold _ _ _ E) as (Q1 & Q2 & Q3). split.
  - intros Q X f I F. apply Qcle_lt_trans with q; [|exact Q]. apply Q2. apply in_map_iff. exists X. auto.
  - intro Q. destruct Q3 as [-> |Q3]; [exact T|]. apply in_map_iff in Q3. destruct Q3 as (X & F & I). exact (Q X q I F).
Qed.
Print Assumptions C134_fcorr_every_data_set.
(** HSIC: Fisher's method on the p-values of all data sets. *)
Theorem C134_hsic_fisher : forall D test m2log sf thr l i A j B p,
  (forall X, In X l -> test X i A [(j, B)] = Some (p X) /\ p X <> 0%Qc) ->
  (combined_ind D test m2log sf true thr l i A j B = true <->
   exists v, sf (Fin (qsum (map (fun X => m2log (p X)) l))) (2 * length l) = Some v /\ (thr < v)%Qc).
Proof.
  intros D test m2log sf thr l i A j B p H. unfold combined_ind. cbv zeta. rewrite (combined_fisher D test m2log sf l i A [(j, B)] p) by (intros X I; apply H; exact I).
  unfold fisher. rewrite !map_length, fisher_numbers by (intros q I; apply in_map_iff in I; destruct I as (X & <- & I); apply H; exact I). rewrite map_map, Qcplus_0_l.
  destruct (sf _ _) as [v|]; cbn [nltb]; [rewrite qltb_lt; split; [intro Q; exists v; auto|intros (w & [= <-] & Q); exact Q]|split; [discriminate|intros (w & Q & _); discriminate]].
Qed.
Print Assumptions C134_hsic_fisher.
(** One data set with p-value 0 decides for dependence. *)
Theorem C134_hsic_zero : forall D test m2log sf thr l i A j B p X, (0 <= thr)%Qc -> (forall k, sf PInf k = Some 0%Qc) ->
  (forall X, In X l -> test X i A [(j, B)] = Some (p X)) -> In X l -> p X = 0%Qc ->
  combined_ind D test m2log sf true thr l i A j B = false.
Proof.
  intros D test m2log sf thr l i A j B p X T S H I Z. unfold combined_ind. cbv zeta. rewrite (combined_fisher D test m2log sf l i A [(j, B)] p H). unfold fisher.
  rewrite fisher_zero by (rewrite <- Z; apply in_map; exact I). rewrite S. cbn [nltb]. apply qltb_nlt. exact T.
Qed.
Print Assumptions C134_hsic_zero.
(** Larger p-values never turn independence into dependence. *)
Theorem C134_hsic_monotone : forall D test test' m2log sf thr l i A j B p p',
  (forall x y, (0 < x)%Qc -> (x <= y)%Qc -> (m2log y <= m2log x)%Qc) ->
  (forall s t k, (s <= t)%Qc -> exists a b, sf (Fin s) k = Some a /\ sf (Fin t) k = Some b /\ (b <= a)%Qc) ->
  (forall X, In X l -> test X i A [(j, B)] = Some (p X) /\ test' X i A [(j, B)] = Some (p' X) /\ (0 < p X)%Qc /\ (p X <= p' X)%Qc) ->
  combined_ind D test m2log sf true thr l i A j B = true -> combined_ind D test' m2log sf true thr l i A j B = true.
Proof.
  intros D test test' m2log sf thr l i A j B p p' ML SF H. assert (NZ : forall q, (0 < q)%Qc -> q <> 0%Qc) by (intros q Q ->; exact (Qclt_not_eq _ _ Q eq_refl)).
  rewrite (C134_hsic_fisher D test m2log sf thr l i A j B p) by (intros X I; destruct (H X I) as (H1 & _ & H3 & _); auto).
  rewrite (C134_hsic_fisher D test' m2log sf thr l i A j B p') by (intros X I; destruct (H X I) as (_ & H2 & H3 & H4); split; [exact H2|apply NZ; eapply Qclt_le_trans; eassumption]).
  intros (v & E & T). assert (S : (qsum (map (fun X => m2log (p' X)) l) <= qsum (map (fun X => m2log (p X)) l))%Qc).
  { clear E. induction l as [|X l IH]; [apply Qcle_refl|]. cbn. apply Qcplus_le_compat; [destruct (H X (or_introl eq_refl)) as (_ & _ & H3 & H4); apply ML; assumption|]. apply IH. intros Y I. apply H. right. exact I. }
  destruct (SF _ _ (2 * length l) S) as (a & b & E1 & E2 & E3). exists a. split; [exact E1|]. rewrite E in E2. injection E2 as <-. eapply Qclt_le_trans; eassumption.
Qed.
Print Assumptions C134_hsic_monotone.
(** The order of the data sets does not matter. *)
Theorem C134_data_set_order_irrelevant : forall D features test m2log sf maxnum hsic thr pk iter l l', Permutation l l' ->
  match mgc_fit D features test m2log sf maxnum hsic thr pk iter (Some l), mgc_fit D features test m2log sf maxnum hsic thr pk iter (Some l') with
  | Ok (P, B), Ok (P', B') => (forall i j, P i j = P' i j) /\ (forall i j, B i j = B' i j)
  | Err e, Err e' => e = e'
  | _, _ => False
  end.
Proof.
  intros D features test m2log sf maxnum hsic thr pk iter l l' PM. unfold mgc_fit. pose proof (check_X_list_spec D features (Some l)) as C. pose proof (check_X_list_spec D features (Some l')) as C'.
  destruct (check_X_list D features (Some l)) as [d|e], (check_X_list D features (Some l')) as [d'|e']; cbn [bind].
  - destruct C as (l0 & [= <-] & L & F), C' as (l1 & [= <-] & L' & F'). assert (d' = d).
    { destruct l as [|X l]; [cbn in L; lia|]. pose proof (F X (or_introl eq_refl)) as E. rewrite (F' X) in E by (eapply Permutation_in; [exact PM|left; reflexivity]). congruence. }
    subst d'. assert (V : forall c A qs, combined D test m2log sf hsic l c A qs = combined D test m2log sf hsic l' c A qs).
    { intros c A qs. unfold combined. destruct hsic; [apply fisher_perm|apply largest_perm]; apply Permutation_map; exact PM. }
    apply (cam_fit_ext d maxnum hsic thr pk iter); [|exact V]. intros i A j B. unfold combined_ind. rewrite V. reflexivity.
  - destruct C as (l0 & [= <-] & L & F), C' as [_ C']. exfalso. apply (C' l' d eq_refl); [rewrite <- (Permutation_length PM); exact L|]. intros X I. apply F. eapply Permutation_in; [apply Permutation_sym; exact PM|exact I].
  - destruct C' as (l0 & [= <-] & L & F), C as [_ C]. exfalso. apply (C l d' eq_refl); [rewrite (Permutation_length PM); exact L|]. intros X I. apply F. eapply Permutation_in; [exact PM|exact I].
  - destruct C as [-> _], C' as [-> _]. reflexivity.
Qed.
Print Assumptions C134_data_set_order_irrelevant.
(** Copies of one data set: with F-correlation the result is the one of CAMUV on that data set. *)
Theorem C134_copies_fcorr : forall D features test m2log sf maxnum thr pk iter X d k,
  2 <= k -> features X = Some d -> (forall c A qs, exists f, test X c A qs = Some f /\ (0 <= f)%Qc) ->
  match mgc_fit D features test m2log sf maxnum false thr pk iter (Some (repeat X k)),
        cam_fit d maxnum false thr pk (fun i A j B => nltb (test X i A [(j, B)]) (Some thr)) (test X) iter with
  | Ok (P, B), Ok (P', B') => (forall i j, P i j = P' i j) /\ (forall i j, B i j = B' i j)
  | Err e, Err e' => e = e'
  | _, _ => False
  end.
Proof.
  intros D features test m2log sf maxnum thr pk iter X d k K F N. unfold mgc_fit. pose proof (check_X_list_spec D features (Some (repeat X k))) as C.
  assert (FA : forall Y, In Y (repeat X k) -> features Y = Some d) by (intros Y I; apply repeat_spec in I; subst; exact F).
  destruct (check_X_list D features (Some (repeat X k))) as [d'|e]; cbn [bind].
  - destruct C as (l & [= <-] & L & F'). assert (d' = d). { destruct k as [|k]; [lia|]. specialize (F' X (or_introl eq_refl)). congruence. } subst d'.
    assert (V : forall c A qs, combined D test m2log sf false (repeat X k) c A qs = test X c A qs).
    { intros c A qs. destruct (N c A qs) as (f & E & P). destruct (largest_step (map (fun X0 => test X0 c A qs) (repeat X k)) 0%Qc) as (q & Q).
      assert (Q' : combined D test m2log sf false (repeat X k) c A qs = Some q) by exact Q. rewrite Q', E. f_equal.
      destruct (largest_fold _ _ _ Q) as (Q1 & Q2 & Q3). apply Qcle_antisym.
      - destruct Q3 as [-> |Q3]; [exact P|]. apply in_map_iff in Q3. destruct Q3 as (Y & EY & I). apply repeat_spec in I. subst Y. rewrite E in EY. injection EY as ->. apply Qcle_refl.
      - apply Q2. apply in_map_iff. exists X. split; [exact E|]. destruct k as [|k]; [lia|]. left. reflexivity. }
    apply (cam_fit_ext d maxnum false thr pk iter); [|exact V]. intros i A j B. unfold combined_ind. rewrite V. reflexivity.
  - destruct C as [_ C]. exfalso. apply (C _ d eq_refl); [rewrite repeat_length; exact K|exact FA].
Qed.
Print Assumptions C134_copies_fcorr.

(** Two data sets; the F-correlation of 0 and 1 is small in the first only, so they count as dependent, and the
    residual of 1 on 0 is independent of 0 in both. *)
Definition ex_test (g : bool) (c : nat) (A : list nat) (qs : list (nat * list nat)) : num :=
  match c, A, qs with
  | 0, [], [(1, [])] => Some (if g then qf 1 10 else qf 9 10)
  | 1, [], [(0, [])] => Some (if g then qf 1 10 else qf 9 10)
  | 1, [0], _ => Some (qf 1 100)
  | _, _, _ => Some (qf 8 10)
  end.
Example C134_example :
  Props_CAMUV.shown2 2 (mgc_fit bool (fun _ => Some 2) ex_test (fun x => x) (fun _ _ => None) 2 false (qf 1 2) None Props_CAMUV.ident (Some [true; false]))
  = Ok [[Some 0; Some 0]; [Some 1; Some 0]]%Q /\
  Props_CAMUV.shown2 2 (mgc_fit bool (fun _ => Some 2) ex_test (fun x => x) (fun _ _ => None) 2 false (qf 1 2) None Props_CAMUV.ident (Some [true; true]))
  = Ok [[Some 0; Some 0]; [Some 0; Some 0]]%Q.
Proof. split; vm_compute; reflexivity. Qed.
Example C133_example : exists P B, mgc_fit bool (fun _ => Some 2) ex_test (fun x => x) (fun _ _ => None) 2 false (qf 1 2) None Props_CAMUV.ident (Some [true; false]) = Ok (P, B).
Proof. eexists. eexists. reflexivity. Qed.
