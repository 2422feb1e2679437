(** * Property theorems: RCD, MultiGroupRCD. *)
From Coq Require Import List Arith Lia Bool ZArith QArith Qcanon Permutation Relations.
From Verif Require Import Prelude Spec SpecRCD Lib Loop ModelRCD ProofRCD.
Import ListNotations.
Open Scope nat_scope.

(** ** C30 *)
(** At most n*n*(max+1)+max+1 iterations of the outer loop, whatever the tests answer. *)
Theorem C30_ancestor_search_terminates :
  forall n maxl ml nongauss correlated indep_ols indep_ml, 1 <= maxl ->
  forall k, n * n * (maxl + 1) + maxl < 2 ^ k ->
  exists M, rcd_ancestors n maxl ml nongauss correlated indep_ols indep_ml k = inr M.
Proof.
  intros n maxl ml ng co io im Hm k Hk. apply ancestors_terminates; [exact Hm|].
  rewrite Nat.add_comm in Hk. rewrite (Nat.add_comm maxl 1) in Hk. cbn [plus] in Hk. lia.
Qed.
Print Assumptions C30_ancestor_search_terminates.
Theorem C30_fit_always_returns :
  forall n maxl ml nongauss correlated indep_ols indep_ml cor_parent cor_resid coef,
  let fit := rcd_fit n maxl ml nongauss correlated indep_ols indep_ml cor_parent cor_resid coef in
  (maxl = 0 /\ fit = Err ValueError) \/ (1 <= maxl /\ exists M B, fit = Ok (M, B)).
Proof.
  intros n maxl ml ng co io im cp cr cf fit. unfold fit, rcd_fit.
  destruct (Nat.eqb_spec maxl 0) as [->|D]; [left; auto|]. right. split; [lia|].
  destruct (ancestors_terminates n maxl ml ng co io im ltac:(lia) (rcd_fuel n maxl)) as [M E].
  - unfold rcd_fuel. apply Nat.log2_spec. lia.
  - rewrite E. eauto.
Qed.
Print Assumptions C30_fit_always_returns.

(** Tests used by the examples: a pair test accepts [xi] as sink of the set [xi :: xjs]. *)
Definition yes1 (_ : list nat) (_ : nat) : bool := true.
Definition yes2 (_ : list nat) (_ _ : nat) : bool := true.
Definition accept (table : list (nat * list nat)) (_ : list nat) (xi : nat) (xjs : list nat) (_ : nat) : bool :=
  existsb (fun e => (fst e =? xi) && list_eqb (snd e) xjs) table.
Definition never4 (_ : list nat) (_ : nat) (_ : list nat) (_ : nat) : bool := false.
Definition yesP (_ : nat) (_ : list nat) (_ : nat) (_ : list nat) : bool := true.
Definition noP (_ : nat) (_ : list nat) (_ : nat) (_ : list nat) : bool := false.
Definition one (_ : nat) (_ : list nat) (_ : nat) : Qc := 1%Qc.
Definition table_of (n : nat) (r : result (sets * mat num)) :=
  match r with
  | Ok (M, B) => Ok (map (fun i => elems n (M i)) (seq 0 n),
                     map (fun i => map (fun j => option_map this (B i j)) (seq 0 n)) (seq 0 n))
  | Err e => Err e
  end.
(** Chain 0 -> 1 -> 2 with 3 confounded with everything. *)
Example C30_example :
  table_of 4 (rcd_fit 4 2 false yes1 yes2 (accept [(1, [0]); (2, [1]); (2, [0])]) never4
     (fun j _ i _ => negb ((j =? 0) && (i =? 2)))
     (fun i _ j _ => j =? 3) one) =
  Ok ([[]; [0]; [0; 1]; []],
      [[Some 0; Some 0; Some 0; None]; [Some 1; Some 0; Some 0; None];
       [Some 0; Some 1; Some 0; None]; [None; None; None; Some 0]]%Q).
Proof. vm_compute. reflexivity. Qed.

(** ** C31 *)
Theorem C31_ancestor_sets :
  forall n maxl ml nongauss correlated indep_ols indep_ml cor_parent cor_resid coef M B,
  rcd_fit n maxl ml nongauss correlated indep_ols indep_ml cor_parent cor_resid coef = Ok (M, B) ->
  (forall i, M i i = false) /\ (forall i j, M i j = true -> M j i = false) /\
  (forall i j, M i j = true -> i < n /\ j < n).
Proof.
  intros n maxl ml ng co io im cp cr cf M B. unfold rcd_fit. destruct (maxl =? 0); [discriminate|].
  destruct (rcd_ancestors n maxl ml ng co io im (rcd_fuel n maxl)) as [s|M0] eqn:E; [discriminate|].
  intro H. inversion H; subst. destruct (ancestors_shape _ _ _ _ _ _ _ _ _ E) as [[A1 A2] A3]. auto.
Qed.
Print Assumptions C31_ancestor_sets.
Theorem C31_adjacency_shape :
  forall n maxl ml nongauss correlated indep_ols indep_ml cor_parent cor_resid coef M B,
  rcd_fit n maxl ml nongauss correlated indep_ols indep_ml cor_parent cor_resid coef = Ok (M, B) ->
  exists P : nat -> nat -> bool,
  (forall i j, P i j = true <-> M i j = true /\
      cor_parent j (filter (fun v => M i v && M j v) (seq 0 n)) i (filter (fun v => M i v && negb (v =? j)) (seq 0 n)) = true) /\
  (forall i j v, B i j = Some v -> v <> 0%Qc -> P i j = true /\ M i j = true /\ v = coef i (filter (P i) (seq 0 n)) j) /\
  (forall i j, P i j = true -> B i j = Some (coef i (filter (P i) (seq 0 n)) j)) /\
  (forall i j, B i j = None -> B j i = None /\ i <> j /\ i < n /\ j < n /\ P i j = false /\ P j i = false) /\
  (forall i j, i < j < n -> (B i j = None <-> P i j = false /\ P j i = false /\
      cor_resid i (filter (P i) (seq 0 n)) j (filter (P j) (seq 0 n)) = true)).
Proof.
  intros n maxl ml ng co io im cp cr cf M B. unfold rcd_fit. destruct (maxl =? 0); [discriminate|].
  destruct (rcd_ancestors n maxl ml ng co io im (rcd_fuel n maxl)) as [s|M0] eqn:E; [discriminate|].
  intro H. inversion H; subst. clear H.
  set (P := rcd_parents n cp M). exists P.
  split. { intros i j. unfold P, rcd_parents. apply andb_true_iff. }
  split. { intros i j v Bv Nv. assert (PT := adjacency_value n cr cf P i j v Bv Nv). split; [exact PT|].
    split. - unfold P, rcd_parents in PT. apply (proj1 (andb_true_iff _ _)) in PT. exact (proj1 PT).
    - unfold rcd_adjacency in Bv. destruct (rcd_confounded n cr P i j); [discriminate|]. rewrite PT in Bv.
      assert (cf i (elems n (P i)) j = v) by congruence. symmetry. assumption. }
  split. { intros i j PT. unfold rcd_adjacency. destruct (rcd_confounded n cr P i j) eqn:Cij.
    - apply (proj1 (confounded_iff n cr cf P i j)) in Cij. destruct Cij as [[_ [C1 [C2 _]]]|[_ [C1 [C2 _]]]]; congruence.
    - rewrite PT. reflexivity. }
  split. { intros i j Bn. rewrite adjacency_nan_iff. apply (proj1 (adjacency_nan_iff n cr cf P i j)) in Bn. split; [tauto|].
    destruct Bn as [[L [C1 [C2 _]]]|[L [C1 [C2 _]]]]; repeat split; try lia; assumption. }
  intros i j L. rewrite adjacency_nan_iff. unfold shares, elems. split.
  - intros [S|S]; [tauto|lia].
  - intros [S1 [S2 S3]]. left. auto.
Qed.
Print Assumptions C31_adjacency_shape.
Example C31_example : exists M B,
  rcd_fit 4 2 false yes1 yes2 (accept [(1, [0]); (2, [1]); (2, [0])]) never4
     (fun j _ i _ => negb ((j =? 0) && (i =? 2))) (fun i _ j _ => j =? 3) one = Ok (M, B) /\ M 2 0 = true /\ B 3 1 = None.
Proof. eexists. eexists. split; [reflexivity|]. split; vm_compute; reflexivity. Qed.

(** ** C32 *)
Theorem C32_ancestors_within_sound_relation_partial :
  forall n maxl ml nongauss correlated indep_ols indep_ml cor_parent cor_resid coef M B (R : nat -> nat -> Prop),
  rcd_fit n maxl ml nongauss correlated indep_ols indep_ml cor_parent cor_resid coef = Ok (M, B) ->
  (forall H xi xjs, indep_of_resid ml indep_ols indep_ml H xi xjs = true -> forall xj, In xj xjs -> R xj xi) ->
  acyclic R ->
  (forall i j, M i j = true -> R j i) /\ acyclic (anc_graph M) /\ acyclic (directed_part B).
Proof.
  intros n maxl ml ng co io im cp cr cf M B R F HR A.
  destruct (C31_adjacency_shape _ _ _ _ _ _ _ _ _ _ _ _ F) as [P [_ [HB _]]].
  unfold rcd_fit in F. destruct (maxl =? 0); [discriminate|].
  destruct (rcd_ancestors n maxl ml ng co io im (rcd_fuel n maxl)) as [s|M0] eqn:E; [discriminate|].
  assert (M0 = M) by congruence. subst M0.
  assert (G := ancestors_sound _ _ _ _ _ _ _ R HR _ _ E). split; [exact G|]. split.
  - apply (acyclic_sub (anc_graph M) R); [intros a b; apply G|exact A].
  - apply (acyclic_sub (directed_part B) R); [|exact A]. intros a b [v [Bv Nv]]. apply G. exact (proj1 (proj2 (HB _ _ _ Bv Nv))).
Qed.
Print Assumptions C32_ancestors_within_sound_relation_partial.
Example C32_example : acyclic (fun a b => a < b) /\
  (forall H xi xjs, indep_of_resid false (accept [(1, [0]); (2, [1]); (2, [0])]) never4 H xi xjs = true ->
     forall xj, In xj xjs -> xj < xi).
Proof.
  split.
  - intros v H. assert (G : forall a b, clos_trans nat (fun a b => a < b) a b -> a < b).
    { intros a b C. induction C; lia. }
    apply G in H. lia.
  - intros H xi xjs T xj I. unfold indep_of_resid in T.
    destruct (forallb (accept [(1, [0]); (2, [1]); (2, [0])] H xi xjs) xjs) eqn:F.
    + assert (X := proj1 (forallb_forall _ _) F xj I). unfold accept in X. apply existsb_exists in X.
      destruct X as [[a l] [J K]]. apply andb_true_iff in K. cbn [fst snd] in K. destruct K as [K1 K2].
      apply Nat.eqb_eq in K1. unfold list_eqb in K2. destruct (list_eq_dec Nat.eq_dec l xjs); [|discriminate].
      subst. destruct J as [J|[J|[J|[]]]]; inversion J; subst; destruct I as [<-|[]]; lia.
    + destruct ((length xjs =? 1) || negb false); [discriminate|]. cbn in T.
      rewrite forallb_forall in T. specialize (T xj I). discriminate.
Qed.
(** Three pairwise tests can declare 0 -> 1 -> 2 -> 0. *)
Theorem C32_cyclic_ancestors_refuted :
  exists indep M B, rcd_fit 3 2 true yes1 yes2 indep never4 yesP noP one = Ok (M, B) /\
    ~ acyclic (anc_graph M) /\ ~ acyclic (directed_part B).
Proof.
  exists (accept [(1, [0]); (2, [1]); (0, [2])]). eexists. eexists. split; [reflexivity|]. split.
  - intro A. apply (A 0). apply t_trans with 1; [|apply t_trans with 2]; apply t_step; vm_compute; reflexivity.
  - intro A. apply (A 0).
    assert (D : 1%Qc <> 0%Qc) by discriminate.
    apply t_trans with 1; [|apply t_trans with 2]; apply t_step; exists 1%Qc; (split; [vm_compute; reflexivity|exact D]).
Qed.
Print Assumptions C32_cyclic_ancestors_refuted.

(** ** C33 *)
Theorem C33_only_the_last_group_counts_refuted :
  (forall fs f thr, mg_fcorr_independent (fs ++ [f]) thr = Ok (qltb f thr)) /\
  exists fs fs' thr, Permutation fs fs' /\
    (exists f, In f fs /\ (thr <= f)%Qc) /\
    mg_fcorr_independent fs thr = Ok true /\ mg_fcorr_independent fs' thr = Ok false.
Proof.
  split; [exact mg_fcorr_last|].
  exists [qf 9 10; qf 1 10], [qf 1 10; qf 9 10], (qf 1 2). split; [apply perm_swap|]. split.
  - exists (qf 9 10). split; [left; reflexivity|]. discriminate.
  - split; vm_compute; reflexivity.
Qed.
Print Assumptions C33_only_the_last_group_counts_refuted.
(** The HSIC variant combines all groups, in any order. *)
Theorem C33_hsic_decision_order_independent_partial :
  forall m2log sf alpha ps ps', Permutation ps ps' ->
  mg_hsic_independent m2log sf alpha ps = mg_hsic_independent m2log sf alpha ps'.
Proof. exact mg_hsic_perm. Qed.
Print Assumptions C33_hsic_decision_order_independent_partial.
Example C33_example : Permutation [qf 1 3; 0%Qc; qf 1 2] [0%Qc; qf 1 2; qf 1 3] /\
  fisher_stat (fun p => (p + p)%Qc) [qf 1 3; qf 1 2] <> None /\ fisher_stat (fun p => p) [qf 1 3; 0%Qc] = None.
Proof.
  split; [apply (Permutation_cons_append [0%Qc; qf 1 2])|]. split; [discriminate|reflexivity].
Qed.

(** ** C68 *)
Theorem C68_confounded_source_gives_no_effects_refuted :
  forall n te ams from to,
  (forall am, In am ams -> exists j, j < n /\ am from j = None) -> mg_total_effects n te ams from to = [].
Proof.
  intros n te [|am r] from to H; [reflexivity|]. cbn [mg_total_effects].
  destruct (H am (or_introl eq_refl)) as [j [Hj E]].
  replace (existsb _ (seq 0 n)) with true; [reflexivity|]. symmetry. apply existsb_exists. exists j.
  split; [apply in_seq; lia|]. rewrite E. reflexivity.
Qed.
Print Assumptions C68_confounded_source_gives_no_effects_refuted.
(** ... and the bootstrap then stores 0 where RCD's bootstrap stores NaN. *)
Theorem C68_bootstrap_stores_zero_refuted :
  forall n te M ams g from to, M to from = true ->
  (forall am, In am ams -> exists j, j < n /\ am from j = None) -> g < length ams ->
  mg_boot_te n te M ams g to from = Some 0%Qc /\
  forall am, In am ams -> rcd_boot_te n te M am to from = None.
Proof.
  intros n te M ams g from to HM H Hg. unfold mg_boot_te, rcd_boot_te. rewrite HM. split.
  - rewrite C68_confounded_source_gives_no_effects_refuted by exact H. destruct g; reflexivity.
  - intros am I. unfold rcd_total_effect. destruct (H am I) as [j [Hj E]].
    replace (existsb _ (seq 0 n)) with true; [reflexivity|]. symmetry. apply existsb_exists. exists j.
    split; [apply in_seq; lia|]. rewrite E. reflexivity.
Qed.
Print Assumptions C68_bootstrap_stores_zero_refuted.
Theorem C68_one_effect_per_group_partial :
  forall n te ams from to,
  (forall am j, In am ams -> j < n -> am from j <> None) ->
  mg_total_effects n te ams from to = map (fun am => te am from to) ams.
Proof.
  intros n te ams from to. induction ams as [|am r IH]; intro H; [reflexivity|]. cbn [mg_total_effects map].
  replace (existsb _ (seq 0 n)) with false.
  - rewrite IH; [reflexivity|]. intros am' j I. apply H. right. exact I.
  - symmetry. apply not_true_is_false. intro X. apply existsb_exists in X. destruct X as [j [I X]].
    apply in_seq in I. destruct (am from j) eqn:E; [discriminate|]. apply (H am j); [left; reflexivity|lia|exact E].
Qed.
Print Assumptions C68_one_effect_per_group_partial.
Example C68_example :
  let am : mat num := fun i j => if (i =? 0) && (j =? 1) || (i =? 1) && (j =? 0) then None else Some (qz 1) in
  mg_total_effects 3 (fun _ _ _ => Some (qz 7)) [am; am] 0 2 = [] /\
  mg_total_effects 3 (fun _ _ _ => Some (qz 7)) [am; am] 2 0 = [Some (qz 7); Some (qz 7)].
Proof. split; vm_compute; reflexivity. Qed.

(** ** C69 *)
(** With four variables and tests that accept 0 and 1 as sinks of {0,1,2} and 1 as sink of
    {0,1,3}: the second finding makes 1 the only possible sink of {0,1,2}, but that set is not
    examined again because its set of common ancestors is unchanged. *)
Theorem C69_search_stops_before_the_fixpoint_refuted :
  exists indep M B, rcd_fit 4 2 false yes1 yes2 indep never4 yesP noP one = Ok (M, B) /\
    rule_applies M [0; 1; 2] true (fun xi => indep_of_resid false indep never4
        (filter (fun v => forallb (fun u => M u v) [0; 1; 2]) (seq 0 4)) xi (remove_nat xi [0; 1; 2])) 1 /\
    M 1 2 = false.
Proof.
  exists (accept [(0, [1; 2]); (1, [0; 2]); (1, [0; 3])]). eexists. eexists. split; [reflexivity|].
  split; [|vm_compute; reflexivity]. split; [reflexivity|].
  assert (forall P : nat -> Prop, P 0 -> P 1 -> P 2 -> forall x, In x [0; 1; 2] -> P x) as cases.
  { intros P H0 H1 H2 x [<-|[<-|[<-|[]]]]; assumption. }
  split.
  - split; [right; left; reflexivity|]. split.
    + apply (cases (fun xj => xj <> 1 -> _ xj 1 = false)); intro N; try congruence; vm_compute; reflexivity.
    + split; [|vm_compute; reflexivity]. exists 2. split; [right; right; left; reflexivity|]. split; [lia|vm_compute; reflexivity].
  - intros y [I [H1 [_ H3]]]. destruct I as [<-|[<-|[<-|[]]]]; [|reflexivity|].
    + exfalso. specialize (H1 1 (or_intror (or_introl eq_refl)) ltac:(lia)). vm_compute in H1. discriminate.
    + exfalso. vm_compute in H3. discriminate.
Qed.
Print Assumptions C69_search_stops_before_the_fixpoint_refuted.
