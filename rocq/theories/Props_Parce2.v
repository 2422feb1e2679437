(** * BottomUpParceLiNGAM: what the search decides, and its correctness (C112, C113) *)
From Coq Require Import List Arith Lia Bool ZArith QArith Qcanon Permutation Sorted.
From Verif Require Import Prelude Spec Lib SpecDirect SpecPop ModelDirect ProofDirect ProofEffect ModelParce ProofParce ProofParce3 SpecParce ProofParce4 ProofPop2 ProofPop3 Props_Pop.
Import ListNotations.
Open Scope nat_scope.

(** C112.  The returned order is the outcome of the bottom-up search with HSIC tests: at each step the
    candidate least dependent on the others is taken, it is placed last if its p-value is not below the
    threshold, and otherwise the variables that remain form the unordered block. *)
Theorem C112_hsic_search_exact :
  forall hsic2 fcorr m2log sf thr ind_corr lasso n pk st pv order B, 2 <= n ->
    (forall t ps i, hsic2 t ps i = (Some (st t ps i), Some (pv t ps i)) /\ pv t ps i <> 0%Qc /\ (0 <= m2log (pv t ps i))%Qc) ->
    (forall m, pk = Some m -> orderable n m) ->
    parce_fit hsic2 fcorr m2log sf thr ind_corr Hsic lasso n pk true = Ok (order, B) ->
    exists K rest,
      bottom_up (hsic_stat_of st pv m2log)
        (fun T j => forall p, hsic_p_of st pv m2log (fun s => sf (Fin s)) T j = Some p -> ~ (p < thr)%Qc)
        (fun a b => match pk with None => False | Some m => a < n /\ b < n /\ must_precede m a b end) (seq 0 n) K /\
      StronglySorted lt rest /\ is_order n (rest ++ K) /\
      order = (match rest with [] => [] | _ => [Block rest] end) ++ map Single K.
Proof.
  intros hsic2 fcorr m2log sf thr ind_corr lasso n pk st pv order B Hn HF HO E.
  destruct (fit_exact hsic2 fcorr m2log sf thr ind_corr Hsic lasso st pv st (fun _ => HF) ltac:(discriminate) n pk order B Hn HO E)
    as (K & BU & OR & EO & _). exists K, (setdiff (seq 0 n) K). split; [exact BU|]. split; [apply sorted_filter, sorted_seq|]. split; assumption.
Qed.
Print Assumptions C112_hsic_search_exact.
(** The same with F-correlation: accepted if the largest correlation is below the threshold. *)
Theorem C112_fcorr_search_exact :
  forall hsic2 fcorr m2log sf thr ind_corr lasso n pk fc order B, 2 <= n ->
    (forall t ps i, fcorr t ps i = Some (fc t ps i)) ->
    (forall m, pk = Some m -> orderable n m) ->
    parce_fit hsic2 fcorr m2log sf thr ind_corr Fcorr lasso n pk true = Ok (order, B) ->
    exists K rest,
      bottom_up (fcorr_of fc) (fun T j => (fcorr_of fc T j < ind_corr)%Qc)
        (fun a b => match pk with None => False | Some m => a < n /\ b < n /\ must_precede m a b end) (seq 0 n) K /\
      StronglySorted lt rest /\ is_order n (rest ++ K) /\
      order = (match rest with [] => [] | _ => [Block rest] end) ++ map Single K.
Proof.
  intros hsic2 fcorr m2log sf thr ind_corr lasso n pk fc order B Hn HF HO E.
  destruct (fit_exact hsic2 fcorr m2log sf thr ind_corr Fcorr lasso fc fc fc ltac:(discriminate) (fun _ => HF) n pk order B Hn HO E)
    as (K & BU & OR & EO & _). exists K, (setdiff (seq 0 n) K). split; [exact BU|]. split; [apply sorted_filter, sorted_seq|]. split; assumption.
Qed.
Print Assumptions C112_fcorr_search_exact.

(** Three variables; the correlation of a residual with x_i is 0 exactly for the chain 0 -> 1 -> 2. *)
Definition ex_fc (t : nat) (ps : list nat) (i : nat) : Qc := if forallb (fun p => p <? t) ps then 0%Qc else 1%Qc.
Example C112_example :
  (exists B, parce_fit (fun _ _ _ => (None, None)) (fun t ps i => Some (ex_fc t ps i)) (fun x => x) (fun _ _ => None) 0%Qc (qf 1 2) Fcorr
    (fun _ _ _ => Some 1%Qc) 3 None true = Ok ([Single 0; Single 1; Single 2], B)) /\
  (exists B, parce_fit (fun _ _ _ => (None, None)) (fun t ps i => Some (if t =? 2 then 0 else 1)%Qc) (fun x => x) (fun _ _ => None) 0%Qc (qf 1 2) Fcorr
    (fun _ _ _ => Some 1%Qc) 3 None true = Ok ([Block [0; 1]; Single 2], B)).
Proof. split; eexists; (etransitivity; [unfold parce_fit; cbv zeta; vm_compute; reflexivity|reflexivity]). Qed.

(** C113.  Correctness without prior knowledge, whatever the true graph [E] (latent common causes may make
    some sets untestable).  If the test never accepts a variable that has an effect among the remaining
    ones, no reported position contradicts the truth: effects of an ordered variable are ordered
    after it, so no variable of the unordered block is an effect of an ordered one. *)
Theorem C113_hsic_positions_are_sound :
  forall hsic2 fcorr m2log sf thr ind_corr lasso n st pv order B (E : graph), 2 <= n ->
    (forall t ps i, hsic2 t ps i = (Some (st t ps i), Some (pv t ps i)) /\ pv t ps i <> 0%Qc /\ (0 <= m2log (pv t ps i))%Qc) ->
    acyclic E ->
    rejects_causes n E (fun T j => forall p, hsic_p_of st pv m2log (fun s => sf (Fin s)) T j = Some p -> ~ (p < thr)%Qc) ->
    parce_fit hsic2 fcorr m2log sf thr ind_corr Hsic lasso n None true = Ok (order, B) ->
    forall a b, a < n -> b < n -> E a b ->
      precedes (flatten order) a b \/ exists block, In (Block block) order /\ In a block /\ In b block.
Proof.
  intros hsic2 fcorr m2log sf thr ind_corr lasso n st pv order B E Hn HF AC RJ FIT.
  exact (fit_sound hsic2 fcorr m2log sf thr ind_corr Hsic lasso st pv st (fun _ => HF) ltac:(discriminate) n E order B Hn AC FIT RJ).
Qed.
Print Assumptions C113_hsic_positions_are_sound.
Theorem C113_fcorr_positions_are_sound :
  forall hsic2 fcorr m2log sf thr ind_corr lasso n fc order B (E : graph), 2 <= n ->
    (forall t ps i, fcorr t ps i = Some (fc t ps i)) -> acyclic E ->
    rejects_causes n E (fun T j => (fcorr_of fc T j < ind_corr)%Qc) ->
    parce_fit hsic2 fcorr m2log sf thr ind_corr Fcorr lasso n None true = Ok (order, B) ->
    forall a b, a < n -> b < n -> E a b ->
      precedes (flatten order) a b \/ exists block, In (Block block) order /\ In a block /\ In b block.
Proof.
  intros hsic2 fcorr m2log sf thr ind_corr lasso n fc order B E Hn HF AC RJ FIT.
  exact (fit_sound hsic2 fcorr m2log sf thr ind_corr Fcorr lasso fc fc fc ltac:(discriminate) (fun _ => HF) n E order B Hn AC FIT RJ).
Qed.
Print Assumptions C113_fcorr_positions_are_sound.

(** On data from a linear acyclic model, with tests that accept the sinks of every ancestral set of variables
    and find them less dependent than the others, and exact regressions, the order is complete and
    causal and the adjacency matrix is the true one. *)
Theorem C113_hsic_correct :
  forall hsic2 fcorr m2log sf thr ind_corr lasso N n Bt e x st pv order B, 2 <= n -> 0 < N ->
    linear_model N n Bt e x -> exact_regression N n x lasso ->
    (forall t ps i, hsic2 t ps i = (Some (st t ps i), Some (pv t ps i)) /\ pv t ps i <> 0%Qc /\ (0 <= m2log (pv t ps i))%Qc) ->
    favours_sinks n (edge_of n Bt) (hsic_stat_of st pv m2log)
      (fun T j => forall p, hsic_p_of st pv m2log (fun s => sf (Fin s)) T j = Some p -> ~ (p < thr)%Qc) ->
    parce_fit hsic2 fcorr m2log sf thr ind_corr Hsic lasso n None true = Ok (order, B) ->
    exists K, order = map Single K /\ is_order n K /\ topological (edge_of n Bt) K /\
      forall i j, i < n -> j < n -> B i j = Some (Bt i j).
Proof.
  intros hsic2 fcorr m2log sf thr ind_corr lasso N n Bt e x st pv order B Hn HN LM RG HF FV FIT.
  destruct (fit_complete hsic2 fcorr m2log sf thr ind_corr Hsic lasso st pv st (fun _ => HF) ltac:(discriminate) n (edge_of n Bt) order B Hn
    (lm_acyclic _ _ _ _ _ LM) FIT (edge_of_dec n Bt) FV) as (K & EO & OR & TP & EB).
  assert (T : topological (edge_of n Bt) K) by (intros a b Eab; pose proof Eab as [X [Y _]]; apply TP; assumption).
  exists K. split; [exact EO|]. split; [exact OR|]. split; [exact T|].
  intros i j Hi Hj. rewrite EB by assumption. eapply adjacency_exact; try eassumption; [discriminate|].
  intros ps k Hk _. apply RG. exact Hk.
Qed.
Print Assumptions C113_hsic_correct.
Theorem C113_fcorr_correct :
  forall hsic2 fcorr m2log sf thr ind_corr lasso N n Bt e x fc order B, 2 <= n -> 0 < N ->
    linear_model N n Bt e x -> exact_regression N n x lasso ->
    (forall t ps i, fcorr t ps i = Some (fc t ps i)) ->
    favours_sinks n (edge_of n Bt) (fcorr_of fc) (fun T j => (fcorr_of fc T j < ind_corr)%Qc) ->
    parce_fit hsic2 fcorr m2log sf thr ind_corr Fcorr lasso n None true = Ok (order, B) ->
    exists K, order = map Single K /\ is_order n K /\ topological (edge_of n Bt) K /\
      forall i j, i < n -> j < n -> B i j = Some (Bt i j).
Proof.
  intros hsic2 fcorr m2log sf thr ind_corr lasso N n Bt e x fc order B Hn HN LM RG HF FV FIT.
  destruct (fit_complete hsic2 fcorr m2log sf thr ind_corr Fcorr lasso fc fc fc ltac:(discriminate) (fun _ => HF) n (edge_of n Bt) order B Hn
    (lm_acyclic _ _ _ _ _ LM) FIT (edge_of_dec n Bt) FV) as (K & EO & OR & TP & EB).
  assert (T : topological (edge_of n Bt) K) by (intros a b Eab; pose proof Eab as [X [Y _]]; apply TP; assumption).
  exists K. split; [exact EO|]. split; [exact OR|]. split; [exact T|].
  intros i j Hi Hj. rewrite EB by assumption. eapply adjacency_exact; try eassumption; [discriminate|].
  intros ps k Hk _. apply RG. exact Hk.
Qed.
Print Assumptions C113_fcorr_correct.

(** The two-variable model of Props_Pop with F-correlation 0 for the residual of x_1 and 1 for that of x_0. *)
Example C113_example :
  favours_sinks 2 (edge_of 2 ex_B) (fcorr_of ex_fc) (fun T j => (fcorr_of ex_fc T j < qf 1 2)%Qc) /\
  rejects_causes 2 (edge_of 2 ex_B) (fun T j => (fcorr_of ex_fc T j < qf 1 2)%Qc) /\
  bind (parce_fit (fun _ _ _ => (None, None)) (fun t ps i => Some (ex_fc t ps i)) (fun x => x) (fun _ _ => None) 0%Qc (qf 1 2) Fcorr
    ex_reg 2 None true) (fun r => Ok (fst r)) = Ok [Single 0; Single 1].
Proof.
  assert (EQ : forall U, StronglySorted lt U -> 2 <= length U -> ancestral 2 (edge_of 2 ex_B) U -> U = [0; 1]).
  { intros U SU LU [AU _]. destruct U as [|a [|b U]]; cbn in LU; try lia.
    inversion SU as [|? ? S1 F1]; subst. inversion S1 as [|? ? S2 F2]; subst. rewrite Forall_forall in F1, F2.
    pose proof (F1 b (or_introl eq_refl)). pose proof (AU b (or_intror (or_introl eq_refl))).
    assert (a = 0) by lia. assert (b = 1) by lia. subst. destruct U as [|c U]; [reflexivity|].
    pose proof (F2 c (or_introl eq_refl)). pose proof (AU c (or_intror (or_intror (or_introl eq_refl)))). lia. }
  assert (E01 : edge_of 2 ex_B 0 1) by (repeat split; try lia; discriminate).
  assert (NE : forall i, ~ edge_of 2 ex_B 1 i).
  { intros i [A [B C]]. destruct i as [|[|i]]; [| |lia]; apply C; reflexivity. }
  split; [|split].
  - intros U j SU LU AU [Hj SK]. pose proof (EQ U SU LU AU) as ->.
    assert (j = 1). { destruct Hj as [<-|[<-|[]]]; [|reflexivity]. exfalso. apply (SK 1); [right; left; reflexivity|exact E01]. }
    subst j. split; [vm_compute; reflexivity|]. intros i Hi NS. destruct Hi as [<-|[<-|[]]]; [vm_compute; reflexivity|].
    exfalso. apply NS. split; [right; left; reflexivity|]. intros i _. apply NE.
  - intros U j SU LU AU Hj AC. pose proof (EQ U SU LU AU) as ->. destruct Hj as [<-|[<-|[]]].
    + vm_compute in AC. discriminate.
    + split; [right; left; reflexivity|]. intros i _. apply NE.
  - vm_compute. reflexivity.
Qed.
