(** * Property theorems: find_all_paths and calculate_total_effect. *)
From Coq Require Import List Arith Lia Bool ZArith QArith Qcanon Permutation Relations.
From Verif Require Import Prelude Spec SpecPaths Lib LibMat Loop ModelPaths ProofPaths ProofTotal.
Import ListNotations.
Open Scope nat_scope.

(** Matrix from a list of weighted edges (from, to, weight); other entries are 0. *)
Definition mk_dag (es : list (nat * nat * Z)) : mat num := fun i j =>
  match find (fun e => (fst (fst e) =? j) && (snd (fst e) =? i)) es with
  | Some (_, w) => Some (qz w)
  | None => Some 0%Qc
  end.

(** ** C15 *)
Theorem C15_find_all_paths_exact :
  forall n dag from to_ m, from < n -> from <> to_ ->
  acyclic (thr_edge n dag m) ->
  exists P, find_all_paths n dag from to_ m = Ok (P, map (walk_weight_num dag) P) /\ NoDup P /\
            forall p, In p P <-> dpath (thr_edge n dag m) from to_ p.
Proof. exact find_all_paths_acyclic. Qed.
Print Assumptions C15_find_all_paths_exact.

Definition diamond : mat num := mk_dag [((0,1),2%Z); ((0,2),3%Z); ((1,3),5%Z); ((2,3),7%Z); ((0,3),(-1)%Z)].
Example C15_example :
  acyclic (thr_edge 4 diamond 0%Qc) /\
  exists es, find_all_paths 4 diamond 0 3 0%Qc = Ok ([[0; 1; 3]; [0; 2; 3]; [0; 3]], es) /\
             es = [Some (qz 10); Some (qz 21); Some (qz (-1))].
Proof.
  split.
  - apply (rank_acyclic _ (fun v => v)). intros a b [Ha [Hb H]].
    destruct a as [|[|[|[|a]]]]; [| | | |lia]; destruct b as [|[|[|[|b]]]]; try lia;
      exfalso; apply qabs_pos in H; apply H; vm_compute; reflexivity.
  - eexists. split; [vm_compute; reflexivity|]. vm_compute. reflexivity.
Qed.
Example C15_example_threshold :
  exists es, find_all_paths 4 diamond 0 3 (qz 2) = Ok ([[0; 2; 3]], es).
Proof. eexists. vm_compute. reflexivity. Qed.

(** ** C16 *)
Theorem C16_find_all_paths_terminates :
  forall n dag from to_ m, from < n -> from <> to_ ->
  (exists P, find_all_paths n dag from to_ m = Ok (P, map (walk_weight_num dag) P)) \/
  find_all_paths n dag from to_ m = Err ValueError.
Proof. exact find_all_paths_total. Qed.
Print Assumptions C16_find_all_paths_terminates.
Example C16_example :
  find_all_paths 3 (mk_dag [((0,1),1%Z); ((1,2),1%Z); ((2,1),1%Z)]) 0 4 0%Qc = Err ValueError.
Proof. vm_compute. reflexivity. Qed.

(** ** C17: cycles through the start node are not reported. *)
Theorem C17_cycles_reported_refuted :
  exists n dag from to_ P es, from < n /\ from <> to_ /\
    reaches_cycle (stop_at to_ (thr_edge n dag 0%Qc)) from /\
    find_all_paths n dag from to_ 0%Qc = Ok (P, es) /\ In [0; 1; 0; 2] P.
Proof.
  exists 4, (mk_dag [((0,1),1%Z); ((1,0),2%Z); ((0,2),3%Z)]), 0, 2. eexists _, _.
  split; [lia|]. split; [lia|]. split.
  - exists 0. split; [left; reflexivity|].
    apply t_trans with 1; apply t_step; (split; [lia|]); repeat split; try lia;
      apply qltb_lt; vm_compute; reflexivity.
  - split; [vm_compute; reflexivity|]. left. reflexivity.
Qed.
Print Assumptions C17_cycles_reported_refuted.

(** If no cycle avoiding [to_] leads back to the start, cycles are reported exactly and the
    answer is exact otherwise. *)
Theorem C17_cycles_reported_partial :
  forall n dag from to_ m, from < n -> from <> to_ ->
  ~ clos_trans nat (stop_at to_ (thr_edge n dag m)) from from ->
  (reaches_cycle (stop_at to_ (thr_edge n dag m)) from /\
   find_all_paths n dag from to_ m = Err ValueError) \/
  (~ reaches_cycle (stop_at to_ (thr_edge n dag m)) from /\
   exists P, find_all_paths n dag from to_ m = Ok (P, map (walk_weight_num dag) P) /\ NoDup P /\
             forall p, In p P <-> dpath (thr_edge n dag m) from to_ p).
Proof. exact find_all_paths_noret. Qed.
Print Assumptions C17_cycles_reported_partial.
Example C17_example :
  (* a cycle behind [to_] does not matter *)
  exists es, find_all_paths 4 (mk_dag [((0,1),1%Z); ((1,2),1%Z); ((2,3),1%Z); ((3,2),1%Z)]) 0 1 0%Qc
             = Ok ([[0; 1]], es).
Proof. eexists. vm_compute. reflexivity. Qed.

(** ** C18 *)
Theorem C18_total_effect_is_inverse_entry :
  forall n dag from to_,
  2 <= n -> from < n -> to_ < n -> from <> to_ ->
  acyclic (edge_of n (denan dag)) ->
  exists t, calculate_total_effect n dag from to_ None = Ok (Some t) /\
    t = sumn n (fun k => mpow n (denan dag) k to_ from) /\
    (forall T, meq n (mmul n (msub midn (denan dag)) T) midn -> t = T to_ from) /\
    (forall K, is_order n K -> topological (edge_of n (denan dag)) K ->
       precedes K to_ from -> t = 0%Qc).
Proof. exact total_effect_spec. Qed.
Print Assumptions C18_total_effect_is_inverse_entry.

(** (I - B) does have an inverse, on both sides and unique. *)
Theorem C18_inverse_exists :
  forall n B, acyclic (edge_of n B) ->
  exists T, meq n (mmul n (msub midn B) T) midn /\ meq n (mmul n T (msub midn B)) midn /\
    forall T', meq n (mmul n (msub midn B) T') midn -> meq n T' T.
Proof.
  exact (fun n B A => ex_intro _ (neumann n B)
    (conj (neumann_inv_l n B A) (conj (neumann_inv_r n B A)
      (fun T' => right_inverse_unique n B T' A)))).
Qed.
Print Assumptions C18_inverse_exists.

(** Types of variables: rejected exactly when a path enters a discrete variable. *)
Theorem C18_discrete_variables_rejected :
  forall n dag from to_ l,
  2 <= n -> from < n -> to_ < n -> from <> to_ -> n <= length l ->
  acyclic (edge_of n (denan dag)) ->
  (calculate_total_effect n dag from to_ (Some l) = Err ValueError <->
   exists p v, dpath (edge_of n (denan dag)) from to_ p /\ In v (tl p) /\ nth v l true = false) /\
  (forall e, calculate_total_effect n dag from to_ (Some l) = Ok e ->
     calculate_total_effect n dag from to_ None = Ok e).
Proof. exact total_effect_discrete. Qed.
Print Assumptions C18_discrete_variables_rejected.

Example C18_example :
  calculate_total_effect 4 diamond 0 3 None = Ok (Some (qz 30)) /\
  calculate_total_effect 4 diamond 3 0 None = Ok (Some 0%Qc) /\
  calculate_total_effect 4 diamond 0 3 (Some [true; true; false; true]) = Err ValueError.
Proof. vm_compute. repeat split; reflexivity. Qed.

(** ** C19 *)
Theorem C19_identical_endpoints_refuted :
  forall n dag a m, a < n -> find_all_paths n dag a a m = Err IndexError.
Proof. exact find_all_paths_same. Qed.
Print Assumptions C19_identical_endpoints_refuted.
Theorem C19_identical_endpoints_partial :
  forall n dag a cont, a < n -> calculate_total_effect n dag a a cont = Err ValueError.
Proof. exact total_effect_same. Qed.
Print Assumptions C19_identical_endpoints_partial.
Example C19_example : find_all_paths 4 diamond 1 1 0%Qc = Err IndexError.
Proof. vm_compute. reflexivity. Qed.
