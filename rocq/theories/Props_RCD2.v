(** * Property theorems: what RCD's ancestor search finds, and the decisions of MultiGroupRCD. *)
From Coq Require Import List Arith Lia Bool ZArith QArith Qcanon Permutation Sorted.
From Verif Require Import Prelude Spec SpecRCD Lib Loop ModelRCD ProofRCD ProofRCD2 Props_RCD.
Import ListNotations.
Open Scope nat_scope.

(** ** C114 *)
(** The ancestor sets grow only by discoveries on sets of 2 to max+1 variables, and every such set was
    examined with the final set of common ancestors. *)
Theorem C114_search_exact :
  forall n maxl mlhsicr nongauss correlated ols mlh cor_parent cor_resid coef M B,
  rcd_fit n maxl mlhsicr nongauss correlated ols mlh cor_parent cor_resid coef = Ok (M, B) ->
  learned n mlhsicr nongauss correlated ols mlh (S maxl) M /\
  forall t U, 2 <= t <= S maxl -> subset_of_size n t U -> examined n mlhsicr nongauss correlated ols mlh (S maxl) M U.
Proof.
  intros n maxl ml ng co io im cp cr cf M B. unfold rcd_fit. destruct (Nat.eqb_spec maxl 0); [discriminate|].
  destruct (rcd_ancestors n maxl ml ng co io im (rcd_fuel n maxl)) as [s|M0] eqn:E; [discriminate|].
  intro H. assert (M0 = M) by congruence. subst M0. apply (ancestors_exact n maxl ml ng co io im ltac:(lia) _ _ E).
Qed.
Print Assumptions C114_search_exact.
(** The pairs: an accepted, unambiguous pair without common ancestors is always recorded. *)
Theorem C114_pairs_recorded :
  forall n maxl mlhsicr nongauss correlated ols mlh cor_parent cor_resid coef M B a b,
  rcd_fit n maxl mlhsicr nongauss correlated ols mlh cor_parent cor_resid coef = Ok (M, B) ->
  a < n -> b < n -> a <> b -> (forall v, v < n -> M a v = true -> M b v = true -> False) ->
  nongauss [] a = true -> nongauss [] b = true -> correlated [] (min a b) (max a b) = true ->
  ols [] b [a] a = true -> ols [] a [b] b = false -> M a b = false -> M b a = true.
Proof.
  intros n maxl ml ng co io im cp cr cf M B a b F Ha Hb Nab NC Na Nb Co Io In_ Mab.
  assert (Hm : 1 <= maxl). { unfold rcd_fit in F. destruct (Nat.eqb_spec maxl 0); [discriminate|lia]. }
  destruct (C114_search_exact _ _ _ _ _ _ _ _ _ _ _ _ F) as [L X].
  set (U := [min a b; max a b]).
  assert (IU : forall v, In v U <-> v = a \/ v = b).
  { intro v. unfold U. cbn [In]. destruct (Nat.min_spec a b) as [[? ->]|[? ->]]; destruct (Nat.max_spec a b) as [[? ->]|[? ->]]; try lia; intuition congruence. }
  assert (SU : subset_of_size n 2 U).
  { split; [reflexivity|]. split.
    - repeat constructor. lia.
    - intros v Hv. apply IU in Hv. destruct Hv; subst; assumption. }
  destruct (X 2 U ltac:(lia) SU) as (M0 & L0 & Sub & Com & Fnd).
  destruct (M b a) eqn:Mba; [reflexivity|].
  assert (OT : forall x y, x <> y -> (x = a /\ y = b) \/ (x = b /\ y = a) -> others x U = [y]).
  { intros x y D C. unfold others, U. cbn [filter].
    destruct (Nat.min_spec a b) as [[? ->]|[? ->]]; destruct (Nat.max_spec a b) as [[? ->]|[? ->]]; try lia;
      destruct C as [[-> ->]|[-> ->]]; rewrite ?Nat.eqb_refl; cbn [negb];
      repeat match goal with |- context [?p =? ?q] => destruct (Nat.eqb_spec p q); try congruence end; reflexivity. }
  assert (C0 : common n M0 U []).
  { split; [constructor|]. intro v. split; [intros []|]. intros [Hv H].
    exfalso. apply (NC v Hv).
    - apply Sub. apply H. apply IU. auto.
    - apply Sub. apply H. apply IU. auto. }
  assert (M0f : forall x y, M x y = false -> M0 x y = false).
  { intros x y E. destruct (M0 x y) eqn:E0; [|reflexivity]. rewrite (Sub _ _ E0) in E. discriminate. }
  assert (Fb : finds n ml ng co io im M0 U b).
  { exists []. split; [exact C0|]. split; [split|split].
    - intros j Hj. apply IU in Hj. destruct Hj; subst; assumption.
    - intros x y Hx Hy Lt. apply IU in Hx. apply IU in Hy.
      assert (x = min a b /\ y = max a b) as [-> ->] by lia. exact Co.
    - split; [apply IU; auto|]. split; [|split].
      + intros j Hj Nj. apply IU in Hj. destruct Hj as [->| ->]; [|congruence]. apply M0f. exact Mab.
      + exists a. split; [apply IU; auto|]. split; [exact Nab|]. apply M0f. exact Mba.
      + left. rewrite (OT b a) by auto. intros j [<-|[]]. exact Io.
    - intros y [Hy [_ [_ R]]]. apply IU in Hy. destruct Hy as [->|Hy]; [|exact Hy].
      exfalso. rewrite (OT a b) in R by auto. destruct R as [R|[_ [R _]]]; [|apply R; reflexivity].
      rewrite (R b (or_introl eq_refl)) in In_. discriminate. }
  rewrite <- Mba. apply (Fnd b Fb); [apply IU; auto|exact Nab].
Qed.
Print Assumptions C114_pairs_recorded.
(** Chain 0 -> 1 -> 2 with 3 confounded with everything: sets of two and of three are examined. *)
Example C114_example : exists M B,
  rcd_fit 4 2 false yes1 yes2 (accept [(1, [0]); (2, [1]); (2, [0])]) never4
     (fun j _ i _ => negb ((j =? 0) && (i =? 2))) (fun i _ j _ => j =? 3) one = Ok (M, B) /\
  M 1 0 = true /\ M 2 1 = true /\ M 3 0 = false /\ subset_of_size 4 3 [0; 2; 3].
Proof.
  eexists. eexists. split; [reflexivity|]. do 3 (split; [vm_compute; reflexivity|]).
  split; [reflexivity|]. split; [repeat constructor|]. intros v [<-|[<-|[<-|[]]]]; lia.
Qed.
Example C114_pairs_example : exists M B,
  rcd_fit 4 2 false yes1 yes2 (accept [(1, [0]); (2, [1]); (2, [0])]) never4
     (fun j _ i _ => negb ((j =? 0) && (i =? 2))) (fun i _ j _ => j =? 3) one = Ok (M, B) /\
  (forall v, v < 4 -> M 0 v = true -> M 2 v = true -> False) /\
  accept [(1, [0]); (2, [1]); (2, [0])] [] 2 [0] 0 = true /\ accept [(1, [0]); (2, [1]); (2, [0])] [] 0 [2] 2 = false /\ M 0 2 = false.
Proof.
  eexists. eexists. split; [reflexivity|]. split; [|repeat split; vm_compute; reflexivity].
  intros v _ H. exfalso. revert H. do 4 (destruct v as [|v]; [vm_compute; discriminate|]). vm_compute. discriminate.
Qed.

(** ** C33 *)
(** The threshold of the F-correlation variant is strict, and the result is that of the last group. *)
Theorem C33_fcorr_decision_partial :
  forall fs thr b, mg_fcorr_independent fs thr = Ok b ->
  exists l f, fs = l ++ [f] /\ (b = true <-> (f < thr)%Qc).
Proof.
  intros fs thr b H. destruct fs as [|f0 r] using rev_ind.
  - discriminate.
  - clear IHr. exists r, f0. split; [reflexivity|]. rewrite mg_fcorr_last in H. assert (b = qltb f0 thr) as -> by congruence. apply qltb_lt.
Qed.
Print Assumptions C33_fcorr_decision_partial.
Theorem C33_fcorr_needs_a_group : forall thr, mg_fcorr_independent [] thr = Err RuntimeError.
Proof. reflexivity. Qed.
(** The HSIC variant combines the groups by Fisher's method: -2 sum log p with 2k degrees of freedom; a p-value
    of 0 makes the statistic infinite. *)
Theorem C33_hsic_decision :
  forall m2log sf alpha ps,
  (forall p, In p ps -> p <> 0%Qc) ->
  (mg_hsic_independent m2log sf alpha ps = true <-> (alpha < sf (Some (sumf ps m2log)) (2 * length ps)%nat)%Qc).
Proof.
  intros m2log sf alpha ps H. unfold mg_hsic_independent. rewrite qltb_lt.
  replace (fisher_stat m2log ps) with (Some (sumf ps m2log)); [reflexivity|].
  unfold fisher_stat. assert (G : forall l a, (forall p, In p l -> p <> 0%Qc) ->
    fold_left (fun s p => ext_add s (if qeqb p 0 then None else Some (m2log p))) l (Some a) = Some (a + sumf l m2log)%Qc).
  { clear. induction l as [|p l IH]; intros a H; cbn [fold_left].
    - unfold sumf. cbn [map]. unfold qsum. cbn. f_equal. ring.
    - assert (P := H p (or_introl eq_refl)). apply qeqb_neq in P. rewrite P. cbn [ext_add].
      rewrite IH by (intros q I; apply H; right; exact I). rewrite sumf_cons. f_equal. ring. }
  rewrite G by exact H. f_equal. ring.
Qed.
Print Assumptions C33_hsic_decision.
Theorem C33_hsic_infinite :
  forall m2log sf alpha ps, In 0%Qc ps ->
  (mg_hsic_independent m2log sf alpha ps = true <-> (alpha < sf None (2 * length ps)%nat)%Qc).
Proof.
  intros m2log sf alpha ps H. unfold mg_hsic_independent. rewrite qltb_lt.
  replace (fisher_stat m2log ps) with (@None Qc); [reflexivity|]. symmetry.
  unfold fisher_stat. assert (G0 : forall l, fold_left (fun s p => ext_add s (if qeqb p 0 then None else Some (m2log p))) l None = None).
  { clear. induction l; cbn; auto. }
  assert (G : forall l s, In 0%Qc l -> fold_left (fun s p => ext_add s (if qeqb p 0 then None else Some (m2log p))) l s = None).
  { clear - G0. induction l as [|p l IH]; [intros s []|]. intros s [->|I]; cbn [fold_left].
    - replace (qeqb 0 0) with true by reflexivity. replace (ext_add s None) with (@None Qc) by (destruct s; reflexivity). apply G0.
    - apply IH. exact I. }
  apply G. exact H.
Qed.
Print Assumptions C33_hsic_infinite.
Example C33_decision_example :
  mg_fcorr_independent [qf 9 10; qf 1 10] (qf 1 10) = Ok false /\
  (let sf := fun (s : option Qc) k => match s with Some x => (1 - x)%Qc | None => 0%Qc end in
   mg_hsic_independent (fun p => p) sf (qf 1 100) [qf 1 3; qf 1 2] = true /\
   mg_hsic_independent (fun p => p) sf (qf 1 6) [qf 1 3; qf 1 2] = false /\
   mg_hsic_independent (fun p => p) sf (qf 1 100) [qf 1 3; 0%Qc] = false).
Proof. vm_compute. repeat split. Qed.

(** ** C68 *)
(** RCD: the effect from a variable with unknown incoming edges is NaN, every other one is the sum over paths. *)
Theorem C68_rcd_effect :
  forall n te am from to_,
  ((exists j, j < n /\ am from j = None) -> rcd_total_effect n te am from to_ = None) /\
  ((forall j, j < n -> am from j <> None) -> rcd_total_effect n te am from to_ = te am from to_).
Proof.
  intros n te am f t. unfold rcd_total_effect. split.
  - intros [j [Hj E]]. replace (existsb _ (seq 0 n)) with true; [reflexivity|]. symmetry. apply existsb_exists. exists j.
    split; [apply in_seq; lia|]. rewrite E. reflexivity.
  - intro H. replace (existsb _ (seq 0 n)) with false; [reflexivity|]. symmetry. apply not_true_is_false. intro X.
    apply existsb_exists in X. destruct X as [j [I X]]. apply in_seq in I. destruct (am f j) eqn:E; [discriminate|].
    apply (H j ltac:(lia) E).
Qed.
Print Assumptions C68_rcd_effect.
(** One bootstrap round of RCD and of group [g] of MultiGroupRCD. *)
Theorem C68_bootstrap_effects_partial :
  forall n te M to_ from,
  (M to_ from = false -> (forall am, rcd_boot_te n te M am to_ from = Some 0%Qc) /\ forall ams g, mg_boot_te n te M ams g to_ from = Some 0%Qc) /\
  (M to_ from = true ->
     (forall am, rcd_boot_te n te M am to_ from = rcd_total_effect n te am from to_) /\
     forall ams g am, (forall a j, In a ams -> j < n -> a from j <> None) -> nth_error ams g = Some am ->
       mg_boot_te n te M ams g to_ from = te am from to_).
Proof.
  intros n te M t f. unfold rcd_boot_te, mg_boot_te. split; intros ->.
  - split; reflexivity.
  - split; [reflexivity|]. intros ams g am H E. rewrite C68_one_effect_per_group_partial by exact H.
    apply nth_error_nth. apply (map_nth_error (fun am => te am f t)). exact E.
Qed.
Print Assumptions C68_bootstrap_effects_partial.
Example C68_effects_example :
  let am : mat num := fun i j => if (i =? 0) && (j =? 1) || (i =? 1) && (j =? 0) then None else Some (qz 1) in
  let M : sets := fun i j => (i =? 2) && (j =? 0) || (i =? 0) && (j =? 2) in
  rcd_boot_te 3 (fun _ _ _ => Some (qz 7)) M am 2 0 = None /\ rcd_boot_te 3 (fun _ _ _ => Some (qz 7)) M am 0 2 = Some (qz 7) /\
  rcd_boot_te 3 (fun _ _ _ => Some (qz 7)) M am 1 2 = Some 0%Qc /\
  mg_boot_te 3 (fun _ _ _ => Some (qz 7)) M [am; am] 1 0 2 = Some (qz 7).
Proof. repeat split; vm_compute; reflexivity. Qed.
