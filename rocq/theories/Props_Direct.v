(** * Property theorems: DirectLiNGAM, prior knowledge, MultiGroupDirectLiNGAM.

    Vocabulary: Spec.v ([is_order], [precedes], [acyclic], [edge_of_num]) and SpecDirect.v
    ([must_precede], [orderable], [respects], [satisfies_pk]).  [Some q] is a float, [None] NaN. *)
From Coq Require Import List Arith Lia Bool ZArith QArith Qcanon Permutation Relations Sorted.
From Verif Require Import Prelude Spec Lib SpecDirect ModelDirect ProofDirect ProofDirect2 ProofDirectFindings.
Import ListNotations.
Open Scope nat_scope.

(** ** C01 *)
Theorem C01_direct_order_is_permutation :
  forall Col (residual : Col -> Col -> Col) score ms lasso n ok mode X K B,
  direct_fit residual score ms lasso n ok mode X = Ok (K, B) -> is_order n K.
Proof. exact direct_fit_perm. Qed.
Print Assumptions C01_direct_order_is_permutation.

Theorem C01_direct_order_without_prior_knowledge :
  forall Col (residual : Col -> Col -> Col) score ms lasso n ok X,
  exists K B, direct_fit residual score ms lasso n ok NoPK X = Ok (K, B) /\ is_order n K.
Proof. exact direct_nopk_exists. Qed.
Print Assumptions C01_direct_order_without_prior_knowledge.

(** A run with prior knowledge "2 has a path to 0", scores preferring small indices. *)
Definition pk_example : mat num :=
  match make_prior_knowledge 3 [] [] [(2, 0)] [] with
  | Ok m => pk_of_raw (raw_of_Z m) | Err _ => fun _ _ => None end.
Example C01_example :
  exists B, direct_fit ex_residual ex_score Pwling ex_lasso 3 true (Strong pk_example) ex_X
            = Ok ([1; 2; 0], B).
Proof. eexists. vm_compute. reflexivity. Qed.
Example C01_example_nan_kernel :
  exists B, direct_fit ex_residual (fun _ _ _ _ i => if i =? 1 then None else Some (qn i))
              Kernel ex_lasso 3 true (Strong pk_example) ex_X = Ok ([1; 2; 0], B).
Proof. eexists. vm_compute. reflexivity. Qed.

(** ** C02 *)
Theorem C02_direct_adjacency_acyclic :
  forall Col (residual : Col -> Col -> Col) score ms lasso n ok mode X K B,
  direct_fit residual score ms lasso n ok mode X = Ok (K, B) ->
  (forall i j, B i j <> Some 0%Qc -> precedes K j i) /\ acyclic (edge_of_num n B).
Proof.
  exact (fun Col r s ms l n ok mode X K B H =>
    conj (direct_fit_triangular Col r s ms l n ok mode X K B H)
         (direct_fit_acyclic Col r s ms l n ok mode X K B H)).
Qed.
Print Assumptions C02_direct_adjacency_acyclic.

(** Each row is the regression of its variable on exactly the earlier variables that the
    prior knowledge does not exclude. *)
Theorem C02_direct_rows_are_regressions :
  forall Col (residual : Col -> Col -> Col) score ms lasso n ok mode X K B l1 i l2,
  direct_fit residual score ms lasso n ok mode X = Ok (K, B) -> K = l1 ++ i :: l2 ->
  exists preds,
    (forall p, In p preds <->
       In p l1 /\ (forall pk, pk_of_mode mode = Some pk -> pk i p <> Some 0%Qc)) /\
    forall j, B i j = if memb j preds then lasso preds i j else Some 0%Qc.
Proof. exact direct_fit_row. Qed.
Print Assumptions C02_direct_rows_are_regressions.

Example C02_example :
  exists B, direct_fit ex_residual ex_score Pwling ex_lasso 3 true (Strong pk_example) ex_X
            = Ok ([1; 2; 0], B) /\ B 0 2 = Some 1%Qc /\ B 2 0 = Some 0%Qc /\ B 0 1 = Some 1%Qc.
Proof. eexists. split; [vm_compute; reflexivity|]. vm_compute. auto. Qed.

(** ** C03 *)
Theorem C03_prior_knowledge_respected :
  forall Col (residual : Col -> Col -> Col) score ms lasso n ok pk X K B,
  direct_fit residual score ms lasso n ok (Strong pk) X = Ok (K, B) ->
  respects n pk K.
Proof. exact direct_fit_respects. Qed.
Print Assumptions C03_prior_knowledge_respected.

Theorem C03_no_path_entries_are_zero :
  forall Col (residual : Col -> Col -> Col) score ms lasso n ok mode X K B pk,
  direct_fit residual score ms lasso n ok mode X = Ok (K, B) ->
  pk_of_mode mode = Some pk ->
  forall i j, pk i j = Some 0%Qc -> B i j = Some 0%Qc.
Proof. exact direct_fit_pk_zero. Qed.
Print Assumptions C03_no_path_entries_are_zero.

Example C03_example_constraint : must_precede pk_example 2 0.
Proof. left. vm_compute. reflexivity. Qed.

(** ** C04 *)
Theorem C04_strong_fit_iff_orderable :
  forall Col (residual : Col -> Col -> Col) score ms lasso n pk X,
  orderable n pk <-> is_ok (direct_fit residual score ms lasso n true (Strong pk) X).
Proof. exact direct_strong_iff. Qed.
Print Assumptions C04_strong_fit_iff_orderable.

Theorem C04_contradiction_raises_value_error :
  forall Col (residual : Col -> Col -> Col) score ms lasso n pk X,
  ~ orderable n pk ->
  direct_fit residual score ms lasso n true (Strong pk) X = Err ValueError.
Proof. exact direct_fit_not_orderable. Qed.
Print Assumptions C04_contradiction_raises_value_error.

Example C04_example_orderable : orderable 3 pk_example.
Proof.
  apply (C04_strong_fit_iff_orderable unit ex_residual ex_score Pwling ex_lasso 3 pk_example ex_X).
  eexists. vm_compute. reflexivity.
Qed.
Example C04_example_not_orderable : ~ orderable 3 ring_no_paths.
Proof. exact ring_not_orderable. Qed.

(** ** C05: refuted in general, proved when "no path" entries are mutual. *)
Theorem C05_satisfiable_prior_knowledge_accepted_refuted :
  exists n pk E, acyclic E /\ satisfies_pk n pk E /\
  forall Col (residual : Col -> Col -> Col) score ms lasso X,
    direct_fit residual score ms lasso n true (Strong pk) X = Err ValueError.
Proof. exact satisfiable_rejected. Qed.
Print Assumptions C05_satisfiable_prior_knowledge_accepted_refuted.

Theorem C05_satisfiable_prior_knowledge_accepted_partial :
  forall Col (residual : Col -> Col -> Col) score ms lasso n pk X E,
  acyclic E -> satisfies_pk n pk E ->
  (forall i, i < n -> pk i i <> Some 1%Qc) ->
  (forall i j, i < n -> j < n -> pk i j = Some 0%Qc ->
     pk j i = Some 0%Qc \/ pk j i = Some 1%Qc) ->
  is_ok (direct_fit residual score ms lasso n true (Strong pk) X).
Proof. exact satisfiable_two_way_accepted. Qed.
Print Assumptions C05_satisfiable_prior_knowledge_accepted_partial.

Example C05_example :
  satisfies_pk 3 two_way_no_path (fun _ _ => False) /\
  (forall i j, i < 3 -> j < 3 -> two_way_no_path i j = Some 0%Qc ->
     two_way_no_path j i = Some 0%Qc \/ two_way_no_path j i = Some 1%Qc).
Proof.
  split.
  - intros i j Hi Hj D. split.
    + intro H. exfalso. revert H.
      destruct i as [|[|[|i]]]; destruct j as [|[|[|j]]]; try lia; vm_compute; discriminate.
    + intros _ C. apply clos_trans_t1n in C. destruct C as [? H|? ? H _]; exact H.
  - intros i j Hi Hj.
    destruct i as [|[|[|i]]]; destruct j as [|[|[|j]]]; try lia; vm_compute; intro H;
      try discriminate; left; reflexivity.
Qed.

(** ** C06: only 1-cycles and 2-cycles of path entries are diagnosed up front. *)
Theorem C06_mutual_paths_rejected_partial :
  forall n pk,
  extract_partial_orders n pk = Err ValueError <->
  exists i j, i < n /\ j < n /\ pk i j = Some 1%Qc /\ pk j i = Some 1%Qc.
Proof. exact extract_inconsistent. Qed.
Print Assumptions C06_mutual_paths_rejected_partial.

Theorem C06_cyclic_paths_diagnosed_refuted :
  exists n pk, clos_trans nat (fun a b => a < n /\ b < n /\ pk b a = Some 1%Qc) 0 0 /\
  exists po, extract_partial_orders n pk = Ok po.
Proof. exact (ex_intro _ 3 (ex_intro _ ring_paths ring_paths_undiagnosed)). Qed.
Print Assumptions C06_cyclic_paths_diagnosed_refuted.

Example C06_example : extract_partial_orders 2 soft_bad = Err ValueError.
Proof. vm_compute. reflexivity. Qed.

(** ** C07 *)
Theorem C07_make_prior_knowledge_entries :
  forall n exo sink paths no_paths m i j,
  make_prior_knowledge n exo sink paths no_paths = Ok m ->
  m i j = if i =? j then (-1)%Z
          else if memb i exo then 0%Z
          else if memb j sink then 0%Z
          else if existsb (pair_eqb (j, i)) paths then 1%Z
          else if existsb (pair_eqb (j, i)) no_paths then 0%Z
          else (-1)%Z.
Proof. exact make_pk_at. Qed.
Print Assumptions C07_make_prior_knowledge_entries.

Theorem C07_make_prior_knowledge_succeeds_iff_in_range :
  forall n exo sink paths no_paths,
  (exists m, make_prior_knowledge n exo sink paths no_paths = Ok m) <->
  (forall v, In v exo \/ In v sink -> v < n) /\
  (forall p, In p paths \/ In p no_paths -> fst p < n /\ snd p < n).
Proof. exact make_pk_ok. Qed.
Print Assumptions C07_make_prior_knowledge_succeeds_iff_in_range.

Example C07_example :
  exists m, make_prior_knowledge 4 [0] [3] [(1, 2); (3, 1)] [(2, 1); (1, 2)] = Ok m /\
    m 0 2 = 0%Z /\ m 1 3 = 0%Z /\ m 2 1 = 1%Z /\ m 1 2 = 0%Z /\ m 2 2 = (-1)%Z /\ m 3 0 = (-1)%Z.
Proof. eexists. split; [vm_compute; reflexivity|]. vm_compute. repeat split; reflexivity. Qed.

(** ** C08 *)
Theorem C08_exogenous_and_sink_end_to_end :
  forall Col (residual : Col -> Col -> Col) score ms lasso n ok exo sink paths no_paths m X K B,
  make_prior_knowledge n exo sink paths no_paths = Ok m ->
  direct_fit residual score ms lasso n ok (Strong (pk_of_raw (raw_of_Z m))) X = Ok (K, B) ->
  (forall v, In v exo -> ~ In v sink) ->
  (forall v u, In v exo -> ~ In u exo -> u < n -> ~ In (v, u) no_paths -> precedes K v u) /\
  (forall s u, In s sink -> ~ In u sink -> u < n -> ~ In (u, s) no_paths -> precedes K u s) /\
  (forall v j, In v exo -> B v j = Some 0%Qc) /\
  (forall s i, In s sink -> B i s = Some 0%Qc).
Proof. exact exo_sink_end_to_end. Qed.
Print Assumptions C08_exogenous_and_sink_end_to_end.

Definition order_of {M} (r : result (list nat * M)) : result (list nat) :=
  match r with Ok (K, _) => Ok K | Err e => Err e end.
Example C08_example :
  order_of (let* m := make_prior_knowledge 3 [2] [0] [] [] in
            direct_fit ex_residual ex_score Pwling ex_lasso 3 true
              (Strong (pk_of_raw (raw_of_Z m))) ex_X) = Ok [2; 1; 0].
Proof. vm_compute. reflexivity. Qed.

(** ** C09: refuted; proved when the path entries are not cyclic. *)
Theorem C09_soft_prior_knowledge_never_fails_refuted :
  exists n pk, forall Col (residual : Col -> Col -> Col) score ms lasso X,
  direct_fit residual score ms lasso n true (Soft pk) X = Err ValueError.
Proof. exact (ex_intro _ 2 (ex_intro _ soft_bad soft_bad_fails)). Qed.
Print Assumptions C09_soft_prior_knowledge_never_fails_refuted.

Theorem C09_soft_prior_knowledge_partial :
  forall Col (residual : Col -> Col -> Col) score ms lasso n pk X,
  (forall i j, i < n -> j < n ->
     pk i j = None \/ pk i j = Some 0%Qc \/ pk i j = Some 1%Qc) ->
  acyclic (fun a b => a < n /\ b < n /\ a <> b /\ pk b a = Some 1%Qc) ->
  is_ok (direct_fit residual score ms lasso n true (Soft pk) X).
Proof. exact direct_soft_ok. Qed.
Print Assumptions C09_soft_prior_knowledge_partial.

Example C09_example :
  order_of (direct_fit ex_residual ex_score Pwling ex_lasso 3 true (Soft pk_example) ex_X)
    = Ok [1; 2; 0].
Proof. vm_compute. reflexivity. Qed.

(** ** C10 *)
Theorem C10_refit_depends_only_on_settings_and_data :
  forall Col (residual : Col -> Col -> Col) score ms lasso n ok X (o1 o2 : direct_obj),
  d_mode o1 = d_mode o2 ->
  let r1 := direct_fit_obj residual score ms lasso n ok X o1 in
  let r2 := direct_fit_obj residual score ms lasso n ok X o2 in
  snd r1 = snd r2 /\
  (snd r1 = None -> d_order (fst r1) = d_order (fst r2) /\ d_adj (fst r1) = d_adj (fst r2)) /\
  (snd r1 <> None -> d_order (fst r1) = d_order o1 /\ d_adj (fst r1) = d_adj o1).
Proof. exact direct_history. Qed.
Print Assumptions C10_refit_depends_only_on_settings_and_data.

(** The object's fit produces what [direct_fit] says. *)
Theorem C10_object_fit_is_direct_fit :
  forall Col (residual : Col -> Col -> Col) score ms lasso n ok X (o : direct_obj),
  match direct_fit residual score ms lasso n ok (d_mode o) X with
  | Err e => snd (direct_fit_obj residual score ms lasso n ok X o) = Some e /\
             d_order (fst (direct_fit_obj residual score ms lasso n ok X o)) = d_order o /\
             d_adj (fst (direct_fit_obj residual score ms lasso n ok X o)) = d_adj o
  | Ok (K, B) => snd (direct_fit_obj residual score ms lasso n ok X o) = None /\
             d_order (fst (direct_fit_obj residual score ms lasso n ok X o)) = Some K /\
             d_adj (fst (direct_fit_obj residual score ms lasso n ok X o)) = Some B
  end /\ d_mode (fst (direct_fit_obj residual score ms lasso n ok X o)) = d_mode o.
Proof. exact direct_fit_obj_spec. Qed.
Print Assumptions C10_object_fit_is_direct_fit.

Example C10_example :
  let fresh := {| d_mode := Strong pk_example; d_po := []; d_order := None; d_adj := None |} in
  let used := fst (direct_fit_obj ex_residual ex_score Pwling ex_lasso 3 true ex_X fresh) in
  d_order used = Some [1; 2; 0] /\
  d_order (fst (direct_fit_obj ex_residual (fun _ _ _ _ i => Some (qn i)) Pwling ex_lasso 3 true ex_X used))
    = Some [2; 1; 0].
Proof. vm_compute. split; reflexivity. Qed.

(** ** C11 *)
Theorem C11_multi_group_shared_order :
  forall Col (residual : Col -> Col -> Col) gM n ok mode ds K lasso,
  mg_fit_order residual gM n ok mode ds = Ok K ->
  is_order n K /\
  (forall g i j, mg_adjacency lasso (pk_of_mode mode) K g i j <> Some 0%Qc -> precedes K j i) /\
  (forall g pk i j, pk_of_mode mode = Some pk -> pk i j = Some 0%Qc ->
     mg_adjacency lasso (pk_of_mode mode) K g i j = Some 0%Qc) /\
  acyclic (fun a b => exists g, edge_of_num n (mg_adjacency lasso (pk_of_mode mode) K g) a b) /\
  (forall pk, mode = Strong pk -> respects n pk K).
Proof. exact mg_fit_spec. Qed.
Print Assumptions C11_multi_group_shared_order.

Theorem C11_group_order_irrelevant :
  forall Col (residual : Col -> Col -> Col) gM n ok mode ds1 ds2,
  Permutation ds1 ds2 ->
  mg_fit_order residual gM n ok mode ds1 = mg_fit_order residual gM n ok mode ds2.
Proof. exact mg_fit_order_perm_groups. Qed.
Print Assumptions C11_group_order_irrelevant.

Example C11_example :
  mg_fit_order ex_residual (fun _ _ _ _ i => Some (qn (i * i))) 3 true (Strong pk_example)
     [(10, ex_X); (20, ex_X)] = Ok [1; 2; 0].
Proof. vm_compute. reflexivity. Qed.

(** ** C61 *)
Theorem C61_exogenous_variables_exact :
  forall n B i, In i (get_exo_variables n B) <->
  i < n /\ forall k, k < n -> k <> i -> B i k = 0%Qc.
Proof. exact get_exo_variables_In. Qed.
Print Assumptions C61_exogenous_variables_exact.
Theorem C61_sink_variables_exact :
  forall n B i, In i (get_sink_variables n B) <->
  i < n /\ forall k, k < n -> k <> i -> B k i = 0%Qc.
Proof. exact get_sink_variables_In. Qed.
Print Assumptions C61_sink_variables_exact.
Theorem C61_queries_sorted :
  forall n B, StronglySorted lt (get_exo_variables n B) /\ StronglySorted lt (get_sink_variables n B).
Proof. exact (fun n B => conj (get_exo_sorted n B) (get_sink_sorted n B)). Qed.
Print Assumptions C61_queries_sorted.
Example C61_example :
  let B : mat Qc := fun i j => if (i =? 2) && (j =? 0) then qz 1
                     else if (i =? 2) && (j =? 1) then qz (-1)
                     else if i =? j then qz 5 else 0%Qc in
  get_exo_variables 4 B = [0; 1; 3] /\ get_sink_variables 4 B = [2; 3].
Proof. vm_compute. split; reflexivity. Qed.

(** ** C62 *)
Theorem C62_error_p_values_symmetric :
  forall pval n i j, i < n -> j < n ->
  error_independence_p_values pval n i j = error_independence_p_values pval n j i /\
  error_independence_p_values pval n i i = Some 0%Qc /\
  (i < j -> error_independence_p_values pval n i j = pval i j).
Proof. exact p_values_symmetric. Qed.
Print Assumptions C62_error_p_values_symmetric.
Example C62_example :
  error_independence_p_values (fun i j => Some (qn (10 * i + j))) 3 2 1 = Some (qn 12).
Proof. vm_compute. reflexivity. Qed.

(** ** C66: the estimated graph obeys "no directed path" entries. *)
Theorem C66_no_directed_path_partial :
  forall Col (residual : Col -> Col -> Col) score ms lasso n ok pk X K B i j,
  direct_fit residual score ms lasso n ok (Strong pk) X = Ok (K, B) ->
  i < n -> j < n -> pk i j = Some 0%Qc -> pk j i <> Some 0%Qc ->
  ~ clos_trans nat (edge_of_num n B) j i.
Proof. exact direct_fit_no_path. Qed.
Print Assumptions C66_no_directed_path_partial.
Theorem C66_no_directed_path_refuted :
  exists K B,
  direct_fit ex_residual ex_score Pwling ex_lasso 3 true (Strong two_way_no_path) ex_X = Ok (K, B) /\
  two_way_no_path 2 0 = Some 0%Qc /\ clos_trans nat (edge_of_num 3 B) 0 2.
Proof. exact two_way_no_path_violated. Qed.
Print Assumptions C66_no_directed_path_refuted.
Example C66_example :
  exists K B, direct_fit ex_residual ex_score Pwling ex_lasso 3 true
     (Strong (pk_of_raw (raw_of_Z (fun i j => if (i =? 2) && (j =? 0) then 0%Z else (-1)%Z)))) ex_X
   = Ok (K, B) /\ precedes K 2 0.
Proof. eexists _, _. split; [vm_compute; reflexivity|]. exists [1], [], []. reflexivity. Qed.
