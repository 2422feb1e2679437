(** * Properties of RESIT (C36, C37) *)
From Coq Require Import List Arith Lia Bool QArith Qcanon Permutation.
From Verif Require Import Prelude Spec Lib ModelResit ProofResit.
Import ListNotations.
Open Scope nat_scope.

(** C36.  For every outcome of the regressions and tests, fit returns an order of all variables
    and a 0/1 matrix whose ones go from earlier to later variables. *)
Theorem C36_resit_result_shape : forall stat accepts n,
  exists pi B, resit_fit stat accepts n = Ok (pi, B) /\ is_order n pi /\
    (forall i j, i < n -> B i j = 0%Qc \/ B i j = 1%Qc) /\
    (forall i j, i < n -> B i j = 1%Qc -> precedes pi j i).
Proof. exact resit_shape. Qed.
Print Assumptions C36_resit_result_shape.

(** The graph is therefore acyclic. *)
Theorem C36_resit_acyclic : forall stat accepts n pi B,
  resit_fit stat accepts n = Ok (pi, B) -> acyclic (edge_of n B) /\ topological (edge_of n B) pi.
Proof.
  intros stat accepts n pi B H. destruct (resit_shape stat accepts n) as [pi' [B' [E [HO [H01 HP]]]]].
  rewrite H in E. inversion E; subst pi' B'.
  assert (T : topological (edge_of n B) pi).
  { intros a b [Hb [_ N]]. apply HP; [exact Hb|]. destruct (H01 b a Hb); [contradiction|assumption]. }
  split; [|exact T]. eapply topological_acyclic; [|exact T]. apply (is_order_NoDup n). exact HO.
Qed.
Print Assumptions C36_resit_acyclic.

(** Statistics that make 2 the last variable and 0 the next, tests that accept when 1 is left. *)
Example C36_example :
  exists pi B,
    resit_fit (fun ps k => Some (if k =? 2 then 0%Qc else if k =? 0 then 1%Qc else (1 + 1)%Qc))
              (fun k ps => memb 1 ps) 3 = Ok (pi, B) /\
    pi = [1; 0; 2] /\ B 2 1 = 1%Qc /\ B 2 0 = 0%Qc /\ B 0 1 = 1%Qc.
Proof. do 2 eexists. split; [vm_compute; reflexivity|]. repeat split. Qed.

(** C37, refuted.  Full statement: if every independence test accepts, no edge is left.  In fact,
    whatever the tests answer, every variable except the first of the order keeps a parent. *)
Theorem C37_every_later_variable_keeps_a_parent_refuted : forall stat accepts n pi B,
  resit_fit stat accepts n = Ok (pi, B) ->
  forall l1 v l2, pi = l1 ++ v :: l2 -> l1 <> [] -> exists j, In j l1 /\ B v j = 1%Qc.
Proof. exact resit_keeps_parent. Qed.
Print Assumptions C37_every_later_variable_keeps_a_parent_refuted.

Theorem C37_independent_variables_get_edges_refuted :
  ~ (forall stat n pi B, resit_fit stat (fun _ _ => true) n = Ok (pi, B) ->
       forall i j, i < n -> j < n -> B i j = 0%Qc).
Proof.
  intro H. specialize (H (fun _ _ => Some 0%Qc) 2). destruct (resit_shape (fun _ _ => Some 0%Qc) (fun _ _ => true) 2)
    as [pi [B [E _]]].
  specialize (H pi B E). vm_compute in E. inversion E; subst.
  specialize (H 0 1 ltac:(lia) ltac:(lia)). vm_compute in H. discriminate.
Qed.
Print Assumptions C37_independent_variables_get_edges_refuted.

(** What does hold: if every test accepts, each later variable is left with exactly one parent. *)
Theorem C37_all_tests_accept_one_parent_partial : forall stat n pi B,
  resit_fit stat (fun _ _ => true) n = Ok (pi, B) ->
  forall l1 v l2, pi = l1 ++ v :: l2 -> l1 <> [] ->
    exists j, In j l1 /\ forall i, B v i = if i =? j then 1%Qc else 0%Qc.
Proof.
  intros stat n pi B E l1 v l2 Hpi NE.
  destruct (resit_fit_ok stat (fun _ _ => true) n) as [pi' [B' [E' [HO HB]]]].
  rewrite E in E'. inversion E'; subst pi' B'.
  destruct (HB _ _ _ Hpi) as [l [l' [Pl [El Hj]]]].
  destruct l1 as [|w l1]; [congruence|].
  assert (NDl : NoDup l).
  { apply (Permutation_NoDup (Permutation_sym Pl)). apply is_order_NoDup in HO. rewrite Hpi in HO.
    apply NoDup_app_iff' in HO. tauto. }
  assert (NEl : l <> []).
  { intro; subst l. apply Permutation_nil in Pl. discriminate. }
  pose proof (all_accept_fold v l l NDl NEl (fun x H => H)) as L.
  fold (prune_parents (fun _ _ => true) v l) in L. rewrite <- El in L.
  destruct l' as [|j [|? ?]]; try discriminate. exists j. split.
  - apply (Permutation_in _ Pl). eapply (prune_fold_incl stat (fun _ _ => true) v l l).
    fold (prune_parents (fun _ _ => true) v l). rewrite <- El. left. reflexivity.
  - intro i. rewrite Hj. simpl. rewrite orb_false_r. reflexivity.
Qed.
Print Assumptions C37_all_tests_accept_one_parent_partial.

Example C37_example :
  exists pi B, resit_fit (fun ps k => Some (qn k)) (fun _ _ => true) 4 = Ok (pi, B) /\
    exists l1 v l2, pi = l1 ++ v :: l2 /\ l1 <> [].
Proof.
  do 2 eexists. split; [vm_compute; reflexivity|].
  exists [3], 2, [1; 0]. split; [reflexivity|discriminate].
Qed.
