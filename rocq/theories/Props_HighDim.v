(** * Properties of HighDimDirectLiNGAM (C40, C41) *)
From Coq Require Import List Arith Lia Bool ZArith QArith Qcanon Permutation.
From Verif Require Import Prelude Spec Lib ModelDirect ProofDirect2 ModelRCD ProofRCD ModelHighDim ProofHighDim.
Import ListNotations.
Open Scope nat_scope.

(** C40.  fit terminates with an order of all variables; the matrix, if requested, has non-zero
    entries only from earlier to later variables. *)
Theorem C40_highdim_order_and_triangular :
  forall tau0 tau enum J alpha lasso lassocv n_samples n est, exists K B,
    hd_fit tau0 tau enum J alpha true lasso lassocv n_samples n est = Ok (K, B) /\ is_order n K /\
    (est = true <-> B <> None) /\
    forall M, B = Some M -> topological (edge_of_num n M) K.
Proof.
  intros tau0 tau enum J alpha lasso lassocv ns n est.
  destruct (hd_order_ok tau0 tau enum J alpha true n) as [K [E HO]].
  unfold hd_fit. rewrite E. cbn [bind]. do 2 eexists. split; [reflexivity|]. split; [exact HO|]. split.
  - destruct est; split; congruence.
  - intros M HM. destruct est; [|discriminate]. inversion HM; subst.
    apply adjacency_topological. apply (is_order_NoDup n). exact HO.
Qed.
Print Assumptions C40_highdim_order_and_triangular.

Definition ex_tau0 (v j : nat) : Qc :=
  if v =? 0 then 0%Qc else
  if (v =? 4) && (j =? 5) then qz 5 else if (v =? 5) && (j =? 4) then qz 9 else qz 10.
Definition ex_tau (v : nat) (cond : list nat) (j : nat) : Qc :=
  if v =? S (hd 0 cond) then (if v <=? 3 then 0%Qc else if (v =? 4) && (j =? 5) then qz 5 else qz 10)
  else if (v =? 4) && (j =? 5) then qz 5
  else if (v =? 5) && (j =? 4) then (if list_eqb cond [3; 0; 2] then 1%Qc else qz 9)
  else qz 10.

Example C40_example :
  hd_order ex_tau0 ex_tau (fun l => l) 3 (qf 1 2) true 6 = Ok [0; 1; 2; 3; 4; 5].
Proof. vm_compute. reflexivity. Qed.

(** C41, refuted.  The statistic of a remaining variable [j] is that of the first conditioning set
    in the iteration order; later sets are never looked at (the [return] is inside the loop). *)
Theorem C41_only_first_conditioning_set_refuted :
  forall tau0 tau enum J, (forall l, Permutation (enum l) l) ->
  forall v psi r cs j, NoDup psi -> NoDup cs -> In r cs -> (forall x, In x cs -> ~ In x psi) ->
    In j psi -> j <> v ->
    exists x, length x = Nat.min J (length cs) - 1 /\ incl x cs /\
      get_prune_stats tau0 tau enum J true v psi (Some r) cs j = qmin (qz 10000000000) (tau v (r :: x) j).
Proof.
  intros tau0 tau enum J HE v psi r cs j NDp NDc Hr D Hj Nv.
  destruct (cond_sets_head tau0 tau enum J HE cs r NDc Hr) as [x [an [rest [E [L [I1 I2]]]]]].
  exists x. split; [exact L|]. split; [exact I1|]. unfold get_prune_stats. rewrite E.
  apply calc_taus_first.
  - apply remove_nat_NoDup. exact NDp.
  - apply remove_nat_In. tauto.
  - intro Ha. apply (D j); [apply I2; exact Ha|exact Hj].
Qed.
Print Assumptions C41_only_first_conditioning_set_refuted.

(** The difference is visible in causal_order_: six variables, J = 3, and one table of
    statistics for which minimising over all sets gives another order. *)
Theorem C41_order_differs_from_full_minimum_refuted :
  hd_order ex_tau0 ex_tau (fun l => l) 3 (qf 1 2) true 6 = Ok [0; 1; 2; 3; 4; 5] /\
  hd_order ex_tau0 ex_tau (fun l => l) 3 (qf 1 2) false 6 = Ok [0; 1; 2; 3; 5; 4].
Proof. split; vm_compute; reflexivity. Qed.
Print Assumptions C41_order_differs_from_full_minimum_refuted.

(** The loop with the return after it computes the minimum over all subsets of the size used. *)
Theorem C41_loop_without_early_return_is_minimum :
  forall tau0 tau enum J, (forall l, Permutation (enum l) l) ->
  forall v psi r cs j, NoDup psi -> (forall x, In x cs -> ~ In x psi) -> In j psi -> j <> v ->
    get_prune_stats tau0 tau enum J false v psi (Some r) cs j =
    fold_left qmin (map (fun x => tau v (r :: x) j)
                        (combs (Nat.min J (length cs) - 1) (enum (remove_nat r cs)))) (qz 10000000000).
Proof.
  intros tau0 tau enum J HE v psi r cs j NDp D Hj Nv. unfold get_prune_stats.
  rewrite calc_taus_all.
  - unfold cond_sets. rewrite map_map. reflexivity.
  - apply remove_nat_NoDup. exact NDp.
  - apply remove_nat_In. tauto.
  - intros s Hs Ha. unfold cond_sets in Hs. apply in_map_iff in Hs. destruct Hs as [x [<- _]].
    cbn [snd] in Ha. apply (Permutation_in _ (HE _)) in Ha. apply filter_In in Ha. apply (D j); tauto.
Qed.
Print Assumptions C41_loop_without_early_return_is_minimum.

(** What holds: with at most J+2 variables there is only one conditioning set, so the result is
    that of the full minimisation. *)
Theorem C41_full_minimum_up_to_J_plus_2_partial :
  forall tau0 tau enum J alpha, (forall l, Permutation (enum l) l) -> forall n, n <= J + 2 ->
    hd_order tau0 tau enum J alpha true n = hd_order tau0 tau enum J alpha false n.
Proof.
  intros tau0 tau enum J alpha HE n Hn. unfold hd_order. eapply hd_loop_same; [exact HE| |exact Hn|reflexivity].
  apply Permutation_refl.
Qed.
Print Assumptions C41_full_minimum_up_to_J_plus_2_partial.

Example C41_example : exists v psi r cs j, NoDup psi /\ NoDup cs /\ In r cs /\
  (forall x, In x cs -> ~ In x psi) /\ In j psi /\ j <> v /\
  get_prune_stats ex_tau0 ex_tau (fun l => l) 3 true v psi (Some r) cs j <>
  get_prune_stats ex_tau0 ex_tau (fun l => l) 3 false v psi (Some r) cs j.
Proof.
  exists 5, [4; 5], 3, [0; 1; 2; 3], 4. repeat split; try (repeat constructor; simpl; lia); try (simpl; lia).
  intro E. apply (f_equal this) in E. vm_compute in E. discriminate.
Qed.
