(** * Counterexamples and corollaries for the DirectLiNGAM properties. *)
From Coq Require Import List Arith Lia Bool ZArith QArith Qcanon Permutation Relations.
From Verif Require Import Prelude Spec Lib SpecDirect ModelDirect ProofDirect ProofDirect2.
Import ListNotations.
Open Scope nat_scope.

(** no_paths = [(0,1);(1,2);(2,0)]: satisfied by the graph without edges. *)
Definition ring_no_paths : mat num :=
  match make_prior_knowledge 3 [] [] [] [(0,1);(1,2);(2,0)] with
  | Ok m => pk_of_raw (raw_of_Z m) | Err _ => fun _ _ => None
  end.
Lemma ring_no_paths_satisfiable : satisfies_pk 3 ring_no_paths (fun _ _ => False).
Proof.
  intros i j Hi Hj D. split.
  - intro H. exfalso. revert H. 
    destruct i as [|[|[|i]]]; destruct j as [|[|[|j]]]; try lia; vm_compute; discriminate.
  - intros _ C. apply clos_trans_t1n in C. destruct C as [? H|? ? H _]; exact H.
Qed.
Lemma empty_acyclic : acyclic (fun _ _ : nat => False).
Proof. intros v C. apply clos_trans_t1n in C. destruct C as [? H|? ? H _]; exact H. Qed.
Lemma ring_not_orderable : ~ orderable 3 ring_no_paths.
Proof.
  intros [l [Hl H]].
  assert (P1 : precedes l 1 0).
  { apply H; try lia. right. split; [vm_compute; reflexivity|vm_compute; discriminate]. }
  assert (P2 : precedes l 2 1).
  { apply H; try lia. right. split; [vm_compute; reflexivity|vm_compute; discriminate]. }
  assert (P3 : precedes l 0 2).
  { apply H; try lia. right. split; [vm_compute; reflexivity|vm_compute; discriminate]. }
  assert (ND := is_order_NoDup _ _ Hl).
  apply (precedes_irrefl l 0 ND).
  eapply precedes_trans; [exact ND|exact P3|].
  eapply precedes_trans; [exact ND|exact P2|exact P1].
Qed.
Lemma direct_fit_not_orderable : forall Col residual score ms lasso n pk X, ~ orderable n pk ->
  @direct_fit Col residual score ms lasso n true (Strong pk) X = Err ValueError.
Proof.
  intros. unfold direct_fit.
  rewrite fit_order_strong_not_orderable; [reflexivity|apply argsel_of_ok|assumption].
Qed.
Lemma satisfiable_rejected : exists n pk E,
  acyclic E /\ satisfies_pk n pk E /\
  forall Col residual score ms lasso X,
    @direct_fit Col residual score ms lasso n true (Strong pk) X = Err ValueError.
Proof.
  exists 3, ring_no_paths, (fun _ _ => False). split; [apply empty_acyclic|].
  split; [apply ring_no_paths_satisfiable|].
  intros. apply direct_fit_not_orderable, ring_not_orderable.
Qed.

(** paths = [(0,1);(1,2);(2,0)]: a directed cycle of asserted paths. *)
Definition ring_paths : mat num :=
  match make_prior_knowledge 3 [] [] [(0,1);(1,2);(2,0)] [] with
  | Ok m => pk_of_raw (raw_of_Z m) | Err _ => fun _ _ => None
  end.
Lemma ring_paths_undiagnosed :
  clos_trans nat (fun a b => a < 3 /\ b < 3 /\ ring_paths b a = Some 1%Qc) 0 0 /\
  (exists po, extract_partial_orders 3 ring_paths = Ok po).
Proof.
  split.
  - eapply t_trans; [apply t_step with (y := 1)|eapply t_trans; [apply t_step with (y := 2)|apply t_step]];
      repeat split; try lia; vm_compute; reflexivity.
  - eexists. vm_compute. reflexivity.
Qed.

(** Soft mode with two contradictory path entries. *)
Definition soft_bad : mat num := fun i j => if i =? j then None else Some 1%Qc.
Lemma soft_bad_fails : forall Col residual score ms lasso X,
  @direct_fit Col residual score ms lasso 2 true (Soft soft_bad) X = Err ValueError.
Proof.
  intros. unfold direct_fit, fit_order, fit_loop, search_causal_order.
  destruct ms; reflexivity.
Qed.

(** Mutual no_paths [(0,2);(2,0)] still allow the path 0 -> 1 -> 2. *)
Definition two_way_no_path : mat num :=
  match make_prior_knowledge 3 [] [] [] [(0,2);(2,0)] with
  | Ok m => pk_of_raw (raw_of_Z m) | Err _ => fun _ _ => None
  end.
Definition ex_score (X : nat -> unit) (U Uc Vj : list nat) (i : nat) : num := Some (- qn i)%Qc.
Definition ex_lasso (ps : list nat) (t p : nat) : num := Some 1%Qc.
Definition ex_residual (a b : unit) : unit := tt.
Definition ex_X (i : nat) : unit := tt.
Lemma two_way_no_path_violated :
  exists K B, direct_fit ex_residual ex_score Pwling ex_lasso 3 true (Strong two_way_no_path) ex_X
                = Ok (K, B) /\
    two_way_no_path 2 0 = Some 0%Qc /\ clos_trans nat (edge_of_num 3 B) 0 2.
Proof.
  eexists _, _. split; [vm_compute; reflexivity|]. split; [vm_compute; reflexivity|].
  eapply t_trans; [apply t_step with (y := 1)|apply t_step];
    repeat split; try lia; vm_compute; discriminate.
Qed.

Lemma exo_sink_end_to_end : forall Col residual score ms lasso n ok exo sink paths no_paths m X K B,
  make_prior_knowledge n exo sink paths no_paths = Ok m ->
  @direct_fit Col residual score ms lasso n ok (Strong (pk_of_raw (raw_of_Z m))) X = Ok (K, B) ->
  (forall v, In v exo -> ~ In v sink) ->
  (forall v u, In v exo -> ~ In u exo -> u < n -> ~ In (v, u) no_paths -> precedes K v u) /\
  (forall s u, In s sink -> ~ In u sink -> u < n -> ~ In (u, s) no_paths -> precedes K u s) /\
  (forall v j, In v exo -> B v j = Some 0%Qc) /\
  (forall s i, In s sink -> B i s = Some 0%Qc).
Proof.
  intros Col residual score ms lasso n ok exo sink paths no_paths m X K B Hm Hf Hd.
  assert (R := direct_fit_respects _ _ _ _ _ _ _ _ _ _ _ Hf).
  assert (HB : (forall v, In v exo \/ In v sink -> v < n)).
  { apply (make_pk_ok n exo sink paths no_paths). exists m. exact Hm. }
  assert (Diag : forall i, B i i = Some 0%Qc).
  { intro i. destruct (neqb (B i i) (Some 0%Qc)) eqn:E; [apply neqb_Some; exact E|].
    apply neqb_Some_false in E. exfalso.
    assert (P := direct_fit_triangular _ _ _ _ _ _ _ _ _ _ _ Hf i i E).
    revert P. apply precedes_irrefl. eapply is_order_NoDup, direct_fit_perm. exact Hf. }
  split; [|split; [|split]].
  - intros v u Hv Hu Hun Hn. apply R; [apply HB; auto|exact Hun|].
    eapply exo_must_precede; try eassumption. apply Hd. exact Hv.
  - intros s u Hs Hu Hun Hn. apply R; [exact Hun|apply HB; auto|].
    eapply sink_must_precede; try eassumption. intro He. apply (Hd s He Hs).
  - intros v j Hv. destruct (Nat.eq_dec v j) as [->|D]; [apply Diag|].
    eapply direct_fit_pk_zero; [exact Hf|reflexivity|]. apply pk_of_Z_0.
    rewrite (make_pk_at _ _ _ _ _ _ v j Hm). apply Nat.eqb_neq in D. rewrite D.
    apply memb_In in Hv. rewrite Hv. reflexivity.
  - intros s i Hs. destruct (Nat.eq_dec i s) as [->|D]; [apply Diag|].
    eapply direct_fit_pk_zero; [exact Hf|reflexivity|]. apply pk_of_Z_0.
    rewrite (make_pk_at _ _ _ _ _ _ i s Hm). apply Nat.eqb_neq in D. rewrite D.
    apply memb_In in Hs. rewrite Hs. destruct (memb i exo); reflexivity.
Qed.

Lemma direct_nopk_exists : forall Col residual score ms lasso n ok X,
  exists K B, @direct_fit Col residual score ms lasso n ok NoPK X = Ok (K, B) /\ is_order n K.
Proof.
  intros. destruct (fit_order_nopk_ok Col residual score (argsel_of ms) (argsel_of_ok ms) n ok X) as [K [E P]].
  unfold direct_fit. rewrite E. simpl. eexists _, _. split; [reflexivity|exact P].
Qed.
Lemma direct_strong_iff : forall Col residual score ms lasso n pk X,
  orderable n pk <-> is_ok (@direct_fit Col residual score ms lasso n true (Strong pk) X).
Proof.
  intros. unfold is_ok. rewrite <- (direct_fit_ok_iff Col residual score ms lasso).
  apply fit_order_strong_iff, argsel_of_ok.
Qed.
Lemma direct_soft_ok : forall Col residual score ms lasso n pk X, entries01 n pk ->
  acyclic (fun a b => a < n /\ b < n /\ a <> b /\ pk b a = Some 1%Qc) ->
  is_ok (@direct_fit Col residual score ms lasso n true (Soft pk) X).
Proof.
  intros. unfold is_ok. rewrite <- (direct_fit_ok_iff Col residual score ms lasso).
  apply fit_order_soft_ok; [apply argsel_of_ok|assumption|assumption].
Qed.
Lemma satisfiable_two_way_accepted : forall Col residual score ms lasso n pk X E,
  acyclic E -> satisfies_pk n pk E ->
  (forall i, i < n -> pk i i <> Some 1%Qc) ->
  (forall i j, i < n -> j < n -> pk i j = Some 0%Qc -> pk j i = Some 0%Qc \/ pk j i = Some 1%Qc) ->
  is_ok (@direct_fit Col residual score ms lasso n true (Strong pk) X).
Proof.
  intros. apply direct_strong_iff. eapply satisfiable_two_way_orderable; eassumption.
Qed.
Lemma direct_history : forall Col residual score ms lasso n ok X (o1 o2 : direct_obj),
  d_mode o1 = d_mode o2 ->
  let r1 := @direct_fit_obj Col residual score ms lasso n ok X o1 in
  let r2 := direct_fit_obj residual score ms lasso n ok X o2 in
  snd r1 = snd r2 /\
  (snd r1 = None -> d_order (fst r1) = d_order (fst r2) /\ d_adj (fst r1) = d_adj (fst r2)) /\
  (snd r1 <> None -> d_order (fst r1) = d_order o1 /\ d_adj (fst r1) = d_adj o1).
Proof.
  intros Col residual score ms lasso n ok X o1 o2 Hm r1 r2.
  destruct (direct_fit_obj_spec Col residual score ms lasso n ok X o1) as [S1 M1].
  destruct (direct_fit_obj_spec Col residual score ms lasso n ok X o2) as [S2 M2].
  fold r1 in S1, M1. fold r2 in S2, M2. rewrite <- Hm in S2.
  destruct (direct_fit residual score ms lasso n ok (d_mode o1) X) as [[K B]|e].
  - destruct S1 as [A1 [A2 A3]]. destruct S2 as [B1 [B2 B3]].
    split; [congruence|]. split; [intros _; split; congruence|]. congruence.
  - destruct S1 as [A1 [A2 A3]]. destruct S2 as [B1 [B2 B3]].
    split; [congruence|]. split; [congruence|]. auto.
Qed.
Lemma mg_fit_spec : forall Col residual gM n ok mode ds K lasso,
  @mg_fit_order Col residual gM n ok mode ds = Ok K ->
  is_order n K /\
  (forall g i j, mg_adjacency lasso (pk_of_mode mode) K g i j <> Some 0%Qc -> precedes K j i) /\
  (forall g pk i j, pk_of_mode mode = Some pk -> pk i j = Some 0%Qc ->
     mg_adjacency lasso (pk_of_mode mode) K g i j = Some 0%Qc) /\
  acyclic (fun a b => exists g, edge_of_num n (mg_adjacency lasso (pk_of_mode mode) K g) a b) /\
  (forall pk, mode = Strong pk -> respects n pk K).
Proof.
  intros Col residual gM n ok mode ds K lasso H.
  assert (P := mg_fit_order_perm _ _ _ _ _ _ _ _ H).
  assert (ND := is_order_NoDup _ _ P).
  assert (T : forall g i j, mg_adjacency lasso (pk_of_mode mode) K g i j <> Some 0%Qc -> precedes K j i).
  { intros g i j Hij. apply adjacency_nonzero in Hij; [tauto|exact ND]. }
  split; [exact P|]. split; [exact T|]. split; [|split].
  - intros g pk i j Hpk Hij.
    destruct (neqb (mg_adjacency lasso (pk_of_mode mode) K g i j) (Some 0%Qc)) eqn:E;
      [apply neqb_Some; exact E|].
    apply neqb_Some_false in E. exfalso. apply adjacency_nonzero in E; [|exact ND].
    destruct E as [_ E]. apply (E pk Hpk Hij).
  - apply (topological_acyclic _ K ND). intros a b [g [_ [_ Hg]]]. eapply T. exact Hg.
  - intros pk ->. eapply mg_fit_order_respects. exact H.
Qed.
Lemma p_values_symmetric : forall pval n i j, i < n -> j < n ->
  error_independence_p_values pval n i j = error_independence_p_values pval n j i /\
  error_independence_p_values pval n i i = Some 0%Qc /\
  (i < j -> error_independence_p_values pval n i j = pval i j).
Proof.
  intros pval n i j Hi Hj. rewrite !p_values_spec by assumption. repeat split.
  - destruct (Nat.ltb_spec i j); destruct (Nat.ltb_spec j i); try reflexivity. lia.
  - rewrite Nat.ltb_irrefl. reflexivity.
  - intro L. destruct (Nat.ltb_spec i j); [reflexivity|lia].
Qed.
