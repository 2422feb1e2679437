(** * Property theorems: ICALiNGAM's order search and CausalEffect's order. *)
From Coq Require Import List Arith Lia Bool ZArith QArith Qcanon Permutation Relations Sorted.
From Verif Require Import Prelude Spec Lib ModelDirect ModelOrder ProofOrder.
Import ListNotations.
Open Scope nat_scope.

(** ** C12 *)
Theorem C12_order_search_exact :
  forall n M,
  (forall K, ica_search n M = Some K -> is_order n K /\ topological (edge_of_num n M) K) /\
  ((exists K, ica_search n M = Some K) <-> acyclic (edge_of_num n M)).
Proof. exact ica_search_exact. Qed.
Print Assumptions C12_order_search_exact.

Definition mat_of (rows : list (list Z)) : mat num := fun i j => Some (qz (nth j (nth i rows []) 0%Z)).
Example C12_example :
  ica_search 3 (mat_of [[0; 2; 0]; [0; 0; 0]; [1; -1; 0]]%Z) = Some [1; 0; 2] /\
  ica_search 3 (mat_of [[0; 2; 0]; [0; 0; 3]; [1; -1; 0]]%Z) = None /\
  ica_search 2 (mat_of [[5; 0]; [0; 0]]%Z) = None.
Proof. vm_compute. repeat split; reflexivity. Qed.

(** ** C13 *)
Theorem C13_order_always_found :
  forall n pos M, 2 <= n -> Permutation pos (list_prod (seq 0 n) (seq 0 n)) ->
  (forall i, i < n -> M i i = Some 0%Qc) ->
  exists K Mf r1 r2, ica_estimate_order n pos M = (Some K, Mf) /\
    pos = r1 ++ r2 /\ n * (n + 1) / 2 <= length r1 /\
    (forall i j, Mf i j = if existsb (fun p => (i =? fst p) && (j =? snd p)) r1
                          then Some 0%Qc else M i j) /\
    is_order n K /\ topological (edge_of_num n Mf) K /\
    (forall s1 s2, r1 = s1 ++ s2 -> s2 <> [] -> n * (n + 1) / 2 <= length s1 ->
       ~ acyclic (edge_of_num n (fold_left zero_at s1 M))).
Proof. exact ica_estimate_ok. Qed.
Print Assumptions C13_order_always_found.

(** The whole fit: order, acyclic adjacency; with a sorted position list no kept entry is
    smaller in magnitude than an entry that was set to zero. *)
Theorem C13_fit_succeeds :
  forall n pos lasso M, 2 <= n -> Permutation pos (list_prod (seq 0 n) (seq 0 n)) ->
  (forall i, i < n -> M i i = Some 0%Qc) ->
  exists K, ica_fit n pos lasso M = Ok (K, estimate_adjacency_matrix lasso None K) /\
    is_order n K /\
    acyclic (edge_of_num n (estimate_adjacency_matrix lasso None K)) /\
    (sorted_pos M pos -> exists Mf, topological (edge_of_num n Mf) K /\
      (forall i j, i < n -> j < n -> Mf i j = M i j \/ Mf i j = Some 0%Qc) /\
      (forall i j i' j', i < n -> j < n -> i' < n -> j' < n ->
         Mf i j <> M i j -> Mf i' j' = M i' j' -> Mf i' j' <> Some 0%Qc ->
         nle_abs (M i j) (M i' j'))).
Proof. exact ica_fit_ok. Qed.
Print Assumptions C13_fit_succeeds.

(** The matrix built from the unmixing matrix has a zero diagonal whenever the assignment
    avoids zero entries. *)
Theorem C13_estimate_has_zero_diagonal :
  forall n W (c cinv : nat -> nat),
  (forall i, i < n -> cinv i < n /\ c (cinv i) = i) ->
  (forall r, r < n -> W r (c r) <> 0%Qc) ->
  forall i, i < n -> ica_B W cinv i i = 0%Qc.
Proof. exact ica_B_diag. Qed.
Print Assumptions C13_estimate_has_zero_diagonal.

Definition m3 : mat num := mat_of [[0; 5; 1]; [2; 0; 4]; [6; 3; 0]]%Z.
Definition pos3 : list (nat * nat) :=
  [(0,0); (1,1); (2,2); (0,2); (1,0); (2,1); (1,2); (0,1); (2,0)].
Example C13_example :
  Permutation pos3 (list_prod (seq 0 3) (seq 0 3)) /\ sorted_pos m3 pos3 /\
  fst (ica_estimate_order 3 pos3 m3) = Some [1; 0; 2].
Proof.
  split; [|split].
  - apply NoDup_Permutation_bis.
    + repeat constructor; cbn; intuition discriminate.
    + vm_compute. lia.
    + intros [i j] H. cbn in H. apply in_prod_iff. rewrite !in_seq.
      intuition (try congruence); match goal with E : (_, _) = (i, j) |- _ => inversion E; lia end.
  - unfold sorted_pos. repeat constructor; vm_compute; discriminate.
  - vm_compute. reflexivity.
Qed.

(** ** C14 *)
Theorem C14_single_column_refuted :
  forall lasso M pos, Permutation pos (list_prod (seq 0 1) (seq 0 1)) ->
  ica_fit 1 pos lasso M = Err TypeError.
Proof. exact ica_fit_one_column. Qed.
Print Assumptions C14_single_column_refuted.
Example C14_example : Permutation [(0, 0)] (list_prod (seq 0 1) (seq 0 1)).
Proof. apply Permutation_refl. Qed.

(** ** C27 *)
Theorem C27_causal_effect_order :
  forall n M,
  (ce_order n M = Err ValueError \/ exists K, ce_order n M = Ok K) /\
  (ce_order n M = Err ValueError <->
   ~ exists K, is_order n K /\
       forall l1 i l2, K = l1 ++ i :: l2 ->
         nltb (nsum (map (fun j => nabs (M i j)) (i :: l2))) (Some eps10) = true) /\
  (forall K, ce_order n M = Ok K -> is_order n K /\
       forall l1 i l2, K = l1 ++ i :: l2 ->
         nltb (nsum (map (fun j => nabs (M i j)) (i :: l2))) (Some eps10) = true).
Proof. exact ce_order_spec. Qed.
Print Assumptions C27_causal_effect_order.
Theorem C27_large_coefficients_point_forward :
  forall n M K i j, ce_order n M = Ok K -> i < n -> j < n ->
  (M i j = None \/ exists v, M i j = Some v /\ (eps10 <= qabs v)%Qc) -> precedes K j i.
Proof. exact ce_order_forward. Qed.
Print Assumptions C27_large_coefficients_point_forward.
Example C27_example :
  ce_order 3 (mat_of [[0; 2; 0]; [0; 0; 0]; [1; -1; 0]]%Z) = Ok [1; 0; 2] /\
  ce_order 2 (mat_of [[0; 2]; [1; 0]]%Z) = Err ValueError /\
  ce_order 2 (fun i j => if i =? j then Some (qf 1 100000000000) else Some 0%Qc) = Ok [0; 1].
Proof. vm_compute. repeat split; reflexivity. Qed.
