(** * C234: queries of HighDimDirectLiNGAM objects *)
From Coq Require Import List Arith Lia Bool ZArith QArith Qcanon Permutation.
From Verif Require Import Prelude Spec Lib ModelDirect ModelTotal ProofDirect2 ModelRCD ProofRCD ModelBootstrap ModelHighDim ProofHighDim ModelHdQuery.
Import ListNotations.
Open Scope nat_scope.

Section Queries.
  Context (enum : list nat -> list nat) (J : nat) (alpha : Qc) (n : nat).
  Notation FIT est := (hd_fit_call enum J alpha est n).
  Notation BOOT est := (hd_boot_loop enum J alpha est n).

  (** Every fit returns; the order is one of all variables and depends on the data only. *)
  Theorem C234_fit : forall est o x, exists o' K, FIT est o x = (o', Ok tt) /\ ho_order o' = Some K /\ is_order n K /\
    (est = true -> exists A, ho_adj o' = Some A /\ topological (edge_of_num n A) K /\ forall o2, FIT est o2 x = (o', Ok tt)) /\ (est = false -> ho_adj o' = ho_adj o).
  Proof.
    intros est o x. destruct (hd_order_ok (hx_tau0 x) (hx_tau x) enum J alpha true n) as [K [E HO]]. unfold hd_fit_call, hd_fit. rewrite E. cbn [bind]. exists {| ho_order := Some K; ho_adj := if est then Some (estimate_adjacency_matrix (if hx_rows x <=? n then hx_lassocv x else hx_lasso x) None K) else ho_adj o |}, K.
    split; [destruct est; reflexivity|]. split; [reflexivity|]. split; [exact HO|]. destruct est; split; try discriminate; intros _.
    - eexists. split; [reflexivity|]. split; [apply adjacency_topological; apply (is_order_NoDup n); exact HO|reflexivity].
    - reflexivity.
  Qed.
  (** With a matrix: total effects of all variables and p-values are available. *)
  Theorem C234_queries : forall o x o' ols pv from to_, FIT true o x = (o', Ok tt) -> from < n -> to_ < n ->
    (exists v, hd_total_effect n ols o' from to_ = Ok v) /\ exists P, hd_p_values n pv o' = Ok P.
  Proof.
    intros o x o' ols pv from to_ E Hf Ht. destruct (C234_fit true o x) as (o1 & K & E1 & HK & HO & HA & _). rewrite E1 in E. injection E as ->. destruct (HA eq_refl) as (A & EA & _). unfold hd_total_effect, hd_p_values, base_total_effect. rewrite HK, EA. split; [|eexists; reflexivity].
    assert (IX : forall a, a < n -> exists k, index_of a K = Some k). { intros a Ha. destruct (index_of a K) as [k|] eqn:Q; [exists k; reflexivity|]. exfalso. apply index_of_none in Q. apply Q. apply (Permutation_in a (Permutation_sym HO)). apply in_seq. lia. }
    destruct (IX from Hf) as [a ->]. destruct (IX to_ Ht) as [b ->]. eexists. reflexivity.
  Qed.
  (** Without estimate_adj_mat no query about effects or errors works, however often the object was fitted: TypeError. *)
  Fixpoint fit_all (est : bool) (o : hd_obj) (xs : list hd_data) : hd_obj := match xs with [] => o | x :: r => fit_all est (fst (FIT est o x)) r end.
  Lemma fit_all_none : forall xs o, ho_adj o = None -> ho_adj (fit_all false o xs) = None.
  Proof. induction xs as [|x xs IH]; intros o H; [exact H|]. cbn [fit_all]. apply IH. destruct (C234_fit false o x) as (o1 & K & E1 & _ & _ & _ & HN). rewrite E1. cbn [fst]. rewrite (HN eq_refl). exact H. Qed.
  Theorem C234_no_matrix_refuted : forall xs x ols pv from to_, from < n -> to_ < n -> let o := fit_all false hd_new (xs ++ [x]) in
    (exists K, ho_order o = Some K /\ is_order n K) /\ hd_total_effect n ols o from to_ = Err TypeError /\ hd_p_values n pv o = Err TypeError.
  Proof.
    intros xs x ols pv from to_ Hf Ht. cbv zeta. assert (A : forall l o, fit_all false o (l ++ [x]) = fst (FIT false (fit_all false o l) x)) by (induction l as [|y l IH]; intro o; [reflexivity|cbn; apply IH]). rewrite A.
    pose proof (fit_all_none xs hd_new eq_refl) as N. destruct (C234_fit false (fit_all false hd_new xs) x) as (o1 & K & -> & HK & HO & _ & HN). cbn [fst]. specialize (HN eq_refl). rewrite N in HN. unfold hd_total_effect, hd_p_values. rewrite HK, HN. split; [exists K; split; [reflexivity|exact HO]|]. split; [|reflexivity].
    assert (IX : forall a, a < n -> exists k, index_of a K = Some k). { intros a Ha. destruct (index_of a K) as [k|] eqn:Q; [exists k; reflexivity|]. exfalso. apply index_of_none in Q. apply Q. apply (Permutation_in a (Permutation_sym HO)). apply in_seq. lia. }
    destruct (IX from Hf) as [a ->]. destruct (IX to_ Ht) as [b ->]. reflexivity.
  Qed.
  (** Nor does bootstrap: ValueError for two or more variables. *)
  Theorem C234_bootstrap_refuted : forall x xs, 2 <= n -> exists o', BOOT false hd_new (x :: xs) = (o', Err ValueError).
  Proof.
    intros x xs Hn. cbn [hd_boot_loop]. destruct (C234_fit false hd_new x) as (o1 & K & -> & HK & HO & _ & HN). rewrite HK, (HN eq_refl). cbn [ho_adj hd_new hd_sample]. assert (L : length K = n) by (rewrite (Permutation_length HO), seq_length; reflexivity).
    destruct K as [|a [|b K]]; cbn in L; try lia. eexists. reflexivity.
  Qed.
  (** A query of an object that was never fitted. *)
  Theorem C234_unfitted : forall ols pv from to_, hd_total_effect n ols hd_new from to_ = Err AttributeError /\ hd_p_values n pv hd_new = Err TypeError.
  Proof. split; reflexivity. Qed.
End Queries.
Print Assumptions C234_fit.
Print Assumptions C234_queries.
Print Assumptions C234_no_matrix_refuted.
Print Assumptions C234_bootstrap_refuted.
Print Assumptions C234_unfitted.
Definition ex_hd : hd_data := {| hx_rows := 5; hx_tau0 := fun v j => qn (v + j); hx_tau := fun v _ j => qn (v + j); hx_lasso := fun _ t p => Some (qn (t + p)); hx_lassocv := fun _ _ _ => None |}.
Example C234_example : 2 <= 2 /\ ho_order (fst (hd_fit_call (fun l => l) 3 (qf 1 2) false 2 hd_new ex_hd)) = Some [0; 1] /\ snd (hd_boot_loop (fun l => l) 3 (qf 1 2) false 2 hd_new [ex_hd]) = Err ValueError /\
  match hd_total_effect 2 (fun _ _ _ => Some (qz 7)) (fst (hd_fit_call (fun l => l) 3 (qf 1 2) true 2 hd_new ex_hd)) 0 1 with Ok (Some v, false) => this v = 7%Q | _ => False end.
Proof. split; [lia|]. split; [vm_compute; reflexivity|]. split; vm_compute; reflexivity. Qed.

(** An index that is no variable raises ValueError, whatever the options. *)
Theorem C234_unknown_variable : forall enum J alpha est n o x ols from to_, n <= from \/ n <= to_ ->
  hd_total_effect n ols (fst (hd_fit_call enum J alpha est n o x)) from to_ = Err ValueError.
Proof.
  intros enum J alpha est n o x ols from to_ H. destruct (C234_fit enum J alpha n est o x) as (o1 & K & -> & HK & HO & _). cbn [fst]. unfold hd_total_effect. rewrite HK.
  assert (IX : forall a, n <= a -> index_of a K = None).
  { intros a Ha. destruct (index_of a K) as [k|] eqn:Q; [|reflexivity]. exfalso. assert (I : ~ ~ In a K) by (intro N; apply index_of_none in N; congruence).
    apply I. intro J2. apply (Permutation_in a HO) in J2. apply in_seq in J2. lia. }
  destruct H as [H|H]; rewrite (IX _ H); [reflexivity|]. destruct (index_of from K); reflexivity.
Qed.
Print Assumptions C234_unknown_variable.
(** One variable and no matrix: bootstrap records NaN for the matrix and zero for the effect, once per resample. *)
Theorem C234_single_variable_bootstrap : forall enum J alpha xs, exists o' l, hd_boot_loop enum J alpha false 1 hd_new xs = (o', Ok l) /\ length l = length xs /\ forall B te, In (B, te) l -> B 0 0 = None /\ te 0 0 = Some 0%Qc.
Proof.
  intros enum J alpha xs. assert (G : forall xs o, ho_adj o = None -> exists o' l, hd_boot_loop enum J alpha false 1 o xs = (o', Ok l) /\ length l = length xs /\ forall B te, In (B, te) l -> B 0 0 = None /\ te 0 0 = Some 0%Qc); [|apply G; reflexivity].
  clear xs. induction xs as [|x xs0 IH]; intros o N; cbn [hd_boot_loop].
  - exists o, []. split; [reflexivity|]. split; [reflexivity|]. intros B te [].
  - destruct (C234_fit enum J alpha 1 false o x) as (o1 & K & -> & HK & HO & _ & HN). specialize (HN eq_refl). rewrite N in HN. rewrite HK, HN.
    assert (L : length K = 1) by (rewrite (Permutation_length HO), seq_length; reflexivity). destruct K as [|a [|b K] ]; cbn in L; try lia. cbn [hd_sample].
    destruct (IH o1 HN) as (o2 & l & E & LL & R). rewrite E. eexists. eexists. split; [reflexivity|]. split; [cbn [length]; lia|].
    intros B te [Q|Q]; [injection Q as <- <-; split; reflexivity|exact (R B te Q)].
Qed.
Print Assumptions C234_single_variable_bootstrap.
