(** * C215: CAM-UV on two variables *)
From Coq Require Import Reals Arith List Lia Lra Bool Permutation QArith Qcanon FunctionalExtensionality.
From Verif Require Import Prelude Lib LibR SpecMeasure SpecResit SpecCam Loop ModelRCD ModelCAMUV ModelCamData
  ProofRCD ProofKernelMI ProofResitData ProofResitData2 ProofCamData ProofCamInt Props_CAMUV Props_ResitData Props_CamData.
Import ListNotations.
Open Scope R_scope.

Section Two.
  Local Open Scope nat_scope.
  Variables (maxnum : nat) (alpha : Qc) (ind : nat -> list nat -> nat -> list nat -> bool) (value : nat -> list nat -> list (nat * list nat) -> num) (iter : list nat -> list nat).
  Hypotheses (H0 : (0 <= alpha)%Qc) (IP : forall l, Permutation (iter l) l) (HM : 1 <= maxnum).
  Definition N2 : sets := add_pair no_sets 0 1.
  Lemma neighbours2 : neighborhoods 2 ind = if ind 0 [] 1 [] then no_sets else N2.
  Proof. reflexivity. Qed.
  Lemma combs2 : forall t, 2 <= t -> combs t (seq 0 2) = if t =? 2 then [[0; 1]] else [].
  Proof. intros [|[|[|t]]] H; [lia|lia|reflexivity|]. cbn [Nat.eqb]. destruct t; reflexivity. Qed.
  Lemma best_of_two : forall q0 q1, value 0 [1] [(1, [])] = Some q0 -> value 1 [0] [(0, [])] = Some q1 ->
    exists r b, get_child 2 true alpha None value iter N2 no_sets [0; 1] = (r, b) /\ (b = true <-> (alpha < q0)%Qc \/ (alpha < q1)%Qc) /\
      (b = true -> (r = Some 0 /\ (alpha < q0)%Qc /\ (q1 <= q0)%Qc) \/ (r = Some 1 /\ (alpha < q1)%Qc /\ (q0 <= q1)%Qc)).
  Proof.
    intros q0 q1 E0 E1. do 2 eexists. split; [apply surjective_pairing|]. unfold get_child. cbv zeta.
    pose proof (Permutation_sym (IP [0; 1])) as PI. apply Permutation_length_2_inv in PI.
    destruct PI as [-> | ->]; cbn [fold_left check_pk]; change (remove_nat 0 [0; 1]) with [1]; change (remove_nat 1 [0; 1]) with [0];
      change (check_correlation N2 0 [1]) with true; change (check_correlation N2 1 [0]) with true; cbn [negb map];
      change (elems 2 (fun x => memb x [1] || no_sets 0 x)) with [1]; change (elems 2 (fun x => memb x [0] || no_sets 1 x)) with [0];
      change (elems 2 (no_sets 0)) with (@nil nat); change (elems 2 (no_sets 1)) with (@nil nat); rewrite E0, E1; unfold better, nltb.
    - destruct (qltb 0%Qc q0) eqn:T0.
      + destruct (qltb q0 q1) eqn:T1; cbn [fst snd].
        * apply qltb_lt in T1. split; [rewrite qltb_lt; split; [tauto|intros [L|L]; [exact (Qclt_trans _ _ _ L T1)|exact L]]|]. intro L. apply qltb_lt in L. right. split; [reflexivity|]. split; [exact L|apply Qclt_le_weak; exact T1].
        * apply qltb_nlt in T1. split; [rewrite qltb_lt; split; [tauto|intros [L|L]; [exact L|exact (Qclt_le_trans _ _ _ L T1)]]|]. intro L. apply qltb_lt in L. left. split; [reflexivity|]. split; [exact L|exact T1].
      + apply qltb_nlt in T0. destruct (qltb 0%Qc q1) eqn:T1; cbn [fst snd].
        * apply qltb_lt in T1. split; [rewrite qltb_lt; split; [tauto|intros [L|L]; [|exact L]; exact (Qclt_trans _ _ _ L (Qcle_lt_trans _ _ _ T0 T1))]|]. intro L. apply qltb_lt in L. right. split; [reflexivity|]. split; [exact L|apply Qclt_le_weak, (Qcle_lt_trans _ _ _ T0 T1)].
        * apply qltb_nlt in T1. assert (F : qltb alpha 0%Qc = false) by (apply qltb_nlt; exact H0). rewrite F. split; [|discriminate]. split; [discriminate|]. intros [L|L]; exfalso; apply (Qclt_not_le _ _ L); eapply Qcle_trans; eassumption.
    - destruct (qltb 0%Qc q1) eqn:T0.
      + destruct (qltb q1 q0) eqn:T1; cbn [fst snd].
        * apply qltb_lt in T1. split; [rewrite qltb_lt; split; [tauto|intros [L|L]; [exact L|exact (Qclt_trans _ _ _ L T1)]]|]. intro L. apply qltb_lt in L. left. split; [reflexivity|]. split; [exact L|apply Qclt_le_weak; exact T1].
        * apply qltb_nlt in T1. split; [rewrite qltb_lt; split; [tauto|intros [L|L]; [exact (Qclt_le_trans _ _ _ L T1)|exact L]]|]. intro L. apply qltb_lt in L. right. split; [reflexivity|]. split; [exact L|exact T1].
      + apply qltb_nlt in T0. destruct (qltb 0%Qc q0) eqn:T1; cbn [fst snd].
        * apply qltb_lt in T1. split; [rewrite qltb_lt; split; [tauto|intros [L|L]; [exact L|]; exact (Qclt_trans _ _ _ L (Qcle_lt_trans _ _ _ T0 T1))]|]. intro L. apply qltb_lt in L. left. split; [reflexivity|]. split; [exact L|apply Qclt_le_weak, (Qcle_lt_trans _ _ _ T0 T1)].
        * apply qltb_nlt in T1. assert (F : qltb alpha 0%Qc = false) by (apply qltb_nlt; exact H0). rewrite F. split; [|discriminate]. split; [discriminate|]. intros [L|L]; exfalso; apply (Qclt_not_le _ _ L); eapply Qcle_trans; eassumption.
  Qed.
  (** one visit decides *)
  Lemma fit_two : forall (P1 : sets) ch, cam_visit 2 true alpha None ind value iter (neighborhoods 2 ind) (no_sets, false) [0; 1] = (P1, ch) ->
    cam_visit 2 true alpha None ind value iter (neighborhoods 2 ind) (P1, false) [0; 1] = (P1, false) ->
    cam_fit 2 maxnum true alpha None ind value iter = Ok (prune 2 ind P1, cam_adjacency (prune 2 ind P1) (cam_confounded 2 ind (neighborhoods 2 ind) (prune 2 ind P1))).
  Proof.
    intros P1 ch EV ST. destruct (C34_fit_always_returns 2 maxnum true alpha None ind value iter IP) as [[E _]|(_ & P & B & E)]; [lia|]. cbv zeta in E. rewrite E.
    unfold cam_fit in E. destruct (maxnum =? 0); [discriminate|]. unfold find_parents in E.
    set (f := cam_step 2 maxnum true alpha None ind value iter (neighborhoods 2 ind)) in *.
    pose proof (loop_inv _ _ f (fun st => (fst st = no_sets /\ snd st = 2) \/ (fst st = P1 /\ 2 <= snd st)) (fun Q => Q = P1)) as LI.
    assert (HS : forall st, (fst st = no_sets /\ snd st = 2) \/ (fst st = P1 /\ 2 <= snd st) -> match f st with inl st' => (fst st' = no_sets /\ snd st' = 2) \/ (fst st' = P1 /\ 2 <= snd st') | inr t => t = P1 end).
    { intros [P0 t] [[A Bt]|[A Bt]]; cbn [fst snd] in A, Bt; subst P0.
      - subst t. unfold f, cam_step. rewrite (combs2 2 ltac:(lia)). cbn [Nat.eqb fold_left]. rewrite EV. destruct ch; [right; cbn; split; [reflexivity|lia]|].
        destruct (maxnum <? 3); [reflexivity|right; cbn; split; [reflexivity|lia]].
      - unfold f, cam_step. rewrite (combs2 t Bt). assert (W : fold_left (cam_visit 2 true alpha None ind value iter (neighborhoods 2 ind)) (if t =? 2 then [[0; 1]] else []) (P1, false) = (P1, false)).
        { destruct (t =? 2); [|reflexivity]. cbn [fold_left]. exact ST. }
        rewrite W. destruct (maxnum <? S t); [reflexivity|right; cbn; split; [reflexivity|lia]]. }
    specialize (LI HS (S (Nat.log2 (cam_top 2 maxnum))) (no_sets, 2) ltac:(left; split; reflexivity)). destruct (loop _ _ _) as [s|Q]; [discriminate|]. subst Q. injection E as <- <-. reflexivity.
  Qed.
  Lemma prune_none : prune 2 ind no_sets = no_sets.
  Proof. unfold prune. cbn [seq fold_left]. do 2 (apply functional_extensionality; intro). reflexivity. Qed.
  Lemma fit_independent : ind 0 [] 1 [] = true -> exists P B, cam_fit 2 maxnum true alpha None ind value iter = Ok (P, B) /\ forall i j, B i j = Some 0%Qc.
  Proof.
    intro I. assert (V : cam_visit 2 true alpha None ind value iter (neighborhoods 2 ind) (no_sets, false) [0; 1] = (no_sets, false)).
    { rewrite neighbours2, I. unfold cam_visit. change (not_identified no_sets [0; 1]) with true. cbn [negb]. unfold get_child. cbv zeta.
      pose proof (Permutation_sym (IP [0; 1])) as PI. apply Permutation_length_2_inv in PI. destruct PI as [-> | ->]; reflexivity. }
    do 2 eexists. split; [exact (fit_two _ _ V V)|]. rewrite prune_none, neighbours2, I. reflexivity.
  Qed.
  Lemma fit_neither : forall q0 q1, value 0 [1] [(1, [])] = Some q0 -> value 1 [0] [(0, [])] = Some q1 -> ind 0 [] 1 [] = false -> ~ (alpha < q0)%Qc -> ~ (alpha < q1)%Qc ->
    exists P B, cam_fit 2 maxnum true alpha None ind value iter = Ok (P, B) /\ B 0 0 = Some 0%Qc /\ B 1 1 = Some 0%Qc /\ B 0 1 = None /\ B 1 0 = None.
  Proof.
    intros q0 q1 E0 E1 I L0 L1. assert (V : cam_visit 2 true alpha None ind value iter (neighborhoods 2 ind) (no_sets, false) [0; 1] = (no_sets, false)).
    { rewrite neighbours2, I. unfold cam_visit. change (not_identified no_sets [0; 1]) with true. cbn [negb].
      destruct (best_of_two q0 q1 E0 E1) as (r & b & EC & W & _). rewrite EC. destruct b; [exfalso; destruct (proj1 W eq_refl); auto|]. destruct r; reflexivity. }
    do 2 eexists. split; [exact (fit_two _ _ V V)|]. rewrite prune_none, neighbours2, I. unfold cam_adjacency, cam_confounded. cbn [seq pairs map app fold_left].
    change (elems 2 (no_sets 0)) with (@nil nat). change (elems 2 (no_sets 1)) with (@nil nat). rewrite I. repeat split; reflexivity.
  Qed.
  Lemma fit_direction : forall q0 q1, value 0 [1] [(1, [])] = Some q0 -> value 1 [0] [(0, [])] = Some q1 -> ind 0 [] 1 [] = false -> ind 1 [] 0 [] = false -> (alpha < q0)%Qc \/ (alpha < q1)%Qc ->
    exists P B, cam_fit 2 maxnum true alpha None ind value iter = Ok (P, B) /\ B 0 0 = Some 0%Qc /\ B 1 1 = Some 0%Qc /\
      ((alpha < q0)%Qc /\ (q1 <= q0)%Qc /\ B 0 1 = Some 1%Qc /\ B 1 0 = Some 0%Qc \/ (alpha < q1)%Qc /\ (q0 <= q1)%Qc /\ B 0 1 = Some 0%Qc /\ B 1 0 = Some 1%Qc).
  Proof.
    intros q0 q1 E0 E1 I I' L. destruct (best_of_two q0 q1 E0 E1) as (r & b & EC & W & D). assert (Eb : b = true) by (apply W; exact L). specialize (D Eb). subst b.
    destruct D as [(-> & L0 & L1)|(-> & L0 & L1)].
    - set (P1 := absorb no_sets 0 [1]).
      assert (V : cam_visit 2 true alpha None ind value iter (neighborhoods 2 ind) (no_sets, false) [0; 1] = (P1, true)).
      { rewrite neighbours2, I. unfold cam_visit. change (not_identified no_sets [0; 1]) with true. cbn [negb]. rewrite EC. change (remove_nat 0 [0; 1]) with [1].
        unfold dependent_without. cbn [forallb]. change (elems 2 (no_sets 0)) with (@nil nat). change (elems 2 (no_sets 1)) with (@nil nat). rewrite I. reflexivity. }
      assert (PR : prune 2 ind P1 = P1).
      { assert (R0 : prune_row 2 ind P1 0 = P1).
        { do 2 (apply functional_extensionality; intro). unfold prune_row. destruct x as [|x]; [|apply andb_true_r]. destruct x0 as [|[|x0]]; [reflexivity| |reflexivity].
          change (true && negb (true && ind 0 [] 1 []) = true). rewrite I. reflexivity. }
        assert (R1 : prune_row 2 ind P1 1 = P1) by (do 2 (apply functional_extensionality; intro); unfold prune_row; destruct x as [|x]; [apply andb_true_r|reflexivity]).
        unfold prune. cbn [seq fold_left]. rewrite R0, R1. reflexivity. }
      do 2 eexists. split; [exact (fit_two _ _ V eq_refl)|]. rewrite PR, neighbours2, I. split; [reflexivity|]. split; [reflexivity|]. left. repeat split; assumption || reflexivity.
    - set (P1 := absorb no_sets 1 [0]).
      assert (V : cam_visit 2 true alpha None ind value iter (neighborhoods 2 ind) (no_sets, false) [0; 1] = (P1, true)).
      { rewrite neighbours2, I. unfold cam_visit. change (not_identified no_sets [0; 1]) with true. cbn [negb]. rewrite EC. change (remove_nat 1 [0; 1]) with [0].
        unfold dependent_without. cbn [forallb]. change (elems 2 (no_sets 0)) with (@nil nat). change (elems 2 (no_sets 1)) with (@nil nat). rewrite I'. reflexivity. }
      assert (PR : prune 2 ind P1 = P1).
      { assert (R0 : prune_row 2 ind P1 0 = P1) by (do 2 (apply functional_extensionality; intro); unfold prune_row; destruct x as [|x]; [reflexivity|apply andb_true_r]).
        assert (R1 : prune_row 2 ind P1 1 = P1).
        { do 2 (apply functional_extensionality; intro). unfold prune_row. destruct x as [|[|x]]; [reflexivity| |apply andb_true_r]. destruct x0 as [|x0]; [|reflexivity].
          change (true && negb (true && ind 1 [] 0 []) = true). rewrite I'. reflexivity. }
        unfold prune. cbn [seq fold_left]. rewrite R0, R1. reflexivity. }
      do 2 eexists. split; [exact (fit_two _ _ V eq_refl)|]. rewrite PR, neighbours2, I. split; [reflexivity|]. split; [reflexivity|]. right. repeat split; assumption || reflexivity.
  Qed.
End Two.

(** ** Exact regressions and tests *)
Lemma regression_noise : forall reg n X c o, (0 < n)%nat -> exact_gam reg -> (independent n (gam_residual reg n X c [o]) (X o) <-> additive_noise n (X o) (X c)).
Proof.
  intros reg n X c o Hn HR. split.
  - intro I. exists (fun x => reg n (values X [o]) (X c) [x]). exact I.
  - intros (f & I). assert (Lv : forall s, (s < n)%nat -> length (values X [o] s) = 1%nat) by reflexivity.
    assert (Iv : independent n (fun s => X c s - f (X o s)) (values X [o])) by (apply (independent_comp n _ (X o) (fun x => x) (fun x => [x]) _ _ I); reflexivity).
    assert (E : forall s, (s < n)%nat -> gam_residual reg n X c [o] s = (X c s - f (X o s)) - average n (fun s => X c s - f (X o s))).
    { intros s Hs. apply (additive_fit n 1 (values X [o]) (X c) (fun s => X c s - f (X o s)) (reg n (values X [o]) (X c)) (fun _ => f) Hn ltac:(lia) Lv); [|exact Iv|apply HR; [exact Hn|lia|exact Lv]|exact Hs].
      intros t Ht. cbn. ring. }
    apply (independent_comp n (fun s => X c s - f (X o s)) (X o) (fun x => x - average n (fun s => X c s - f (X o s))) (fun x => x) _ _ I); [exact E|reflexivity].
Qed.

(** Two variables, exact regressions and tests.  Independent variables are reported as unrelated.  Of two dependent variables exactly one is
    reported as the cause of the other when an additive noise model explains the dependence, and then one does in the direction
    reported; a hidden common cause is reported exactly when no such model exists in either direction. *)
Ltac fin := repeat split; try assumption; try tauto; try (exfalso; match goal with H : _ /\ _ |- _ => destruct H end; first [discriminate|congruence|tauto]); try (intros [? ?]; discriminate).
Theorem C215_two_variables : forall reg hsic_p alpha n X iter maxnum, (0 < n)%nat -> (1 <= maxnum)%nat -> (0 <= alpha)%Qc ->
  exact_gam reg -> exact_p_value alpha hsic_p -> (forall l, Permutation (iter l) l) ->
  exists P B, camuv_data reg hsic_p alpha n X iter maxnum 2 = Ok (P, B) /\ B 0%nat 0%nat = Some 0%Qc /\ B 1%nat 1%nat = Some 0%Qc /\
  (B 0%nat 1%nat = Some 0%Qc /\ B 1%nat 0%nat = Some 0%Qc <-> independent n (X 0%nat) (X 1%nat)) /\
  (B 0%nat 1%nat = None /\ B 1%nat 0%nat = None <-> ~ independent n (X 0%nat) (X 1%nat) /\ ~ additive_noise n (X 0%nat) (X 1%nat) /\ ~ additive_noise n (X 1%nat) (X 0%nat)) /\
  (~ independent n (X 0%nat) (X 1%nat) -> additive_noise n (X 0%nat) (X 1%nat) \/ additive_noise n (X 1%nat) (X 0%nat) ->
     B 1%nat 0%nat = Some 1%Qc /\ B 0%nat 1%nat = Some 0%Qc /\ additive_noise n (X 0%nat) (X 1%nat) \/ B 0%nat 1%nat = Some 1%Qc /\ B 1%nat 0%nat = Some 0%Qc /\ additive_noise n (X 1%nat) (X 0%nat)).
Proof.
  intros reg hp alpha n X iter maxnum Hn HM H0 HR HP IP. unfold camuv_data. set (ind := cam_ind reg hp alpha n X). set (value := cam_value reg hp n X).
  assert (II : forall i j, ind i [] j [] = true <-> independent n (X i) (X j)).
  { intros i j. exact (ind_iff reg hp alpha n X Hn HP i [] j []). }
  destruct (value_iff reg hp alpha n X Hn HP 0 [1%nat] [(1%nat, [])]) as (q0 & E0 & Z0). destruct (value_iff reg hp alpha n X Hn HP 1 [0%nat] [(0%nat, [])]) as (q1 & E1 & Z1).
  assert (A0 : (alpha < q0)%Qc <-> additive_noise n (X 1%nat) (X 0%nat)).
  { rewrite Z0, <- (regression_noise reg n X 0 1 Hn HR). split; intro I.
    - apply (independent_comp n _ _ (fun x => x) (fun l => nth 0 l 0) _ _ I); reflexivity.
    - apply (independent_comp n _ _ (fun x => x) (fun x => [x]) _ _ I); reflexivity. }
  assert (A1 : (alpha < q1)%Qc <-> additive_noise n (X 0%nat) (X 1%nat)).
  { rewrite Z1, <- (regression_noise reg n X 1 0 Hn HR). split; intro I.
    - apply (independent_comp n _ _ (fun x => x) (fun l => nth 0 l 0) _ _ I); reflexivity.
    - apply (independent_comp n _ _ (fun x => x) (fun x => [x]) _ _ I); reflexivity. }
  assert (N1 : Some 1%Qc <> Some 0%Qc) by (intro C; discriminate C).
  clear Z0 Z1. fold value in E0, E1.
  destruct (ind 0%nat [] 1%nat []) eqn:EI.
  - pose proof (proj1 (II 0%nat 1%nat) EI) as DI. destruct (fit_independent maxnum alpha ind value iter IP HM EI) as (P & B & E & EB). exists P, B. split; [exact E|]. rewrite !EB. fin.
  - assert (DI : ~ independent n (X 0%nat) (X 1%nat)) by (intro C; apply II in C; congruence).
    assert (EI' : ind 1%nat [] 0%nat [] = false) by (destruct (ind 1%nat [] 0%nat []) eqn:C; [exfalso; apply DI, independent_sym, II; exact C|reflexivity]).
    destruct (Qclt_le_dec alpha q0) as [L0|L0]; [|destruct (Qclt_le_dec alpha q1) as [L1|L1]].
    + destruct (fit_direction maxnum alpha ind value iter H0 IP HM q0 q1 E0 E1 EI EI' (or_introl L0)) as (P & B & E & B0 & B1 & D). exists P, B. split; [exact E|]. split; [exact B0|]. split; [exact B1|].
      destruct D as [(L & _ & F & G)|(L & _ & F & G)]; rewrite F, G; fin.
    + destruct (fit_direction maxnum alpha ind value iter H0 IP HM q0 q1 E0 E1 EI EI' (or_intror L1)) as (P & B & E & B0 & B1 & D). exists P, B. split; [exact E|]. split; [exact B0|]. split; [exact B1|].
      destruct D as [(L & _ & F & G)|(L & _ & F & G)]; rewrite F, G; fin.
    + apply Qcle_not_lt in L0, L1. destruct (fit_neither maxnum alpha ind value iter H0 IP HM q0 q1 E0 E1 EI L0 L1) as (P & B & E & B0 & B1 & F & G). exists P, B. split; [exact E|]. rewrite F, G.
      fin.
Qed.
Print Assumptions C215_two_variables.
(** Consequence: when the model has no hidden variable, none is reported. *)
Theorem C215_no_false_alarm : forall reg hsic_p alpha n X f e iter maxnum, (0 < n)%nat -> (1 <= maxnum)%nat -> (0 <= alpha)%Qc ->
  exact_gam reg -> exact_p_value alpha hsic_p -> (forall l, Permutation (iter l) l) ->
  (forall s, (s < n)%nat -> X 1%nat s = f (X 0%nat s) + e s) -> independent n e (X 0%nat) ->
  exists P B, camuv_data reg hsic_p alpha n X iter maxnum 2 = Ok (P, B) /\ (forall i j, (i < 2)%nat -> (j < 2)%nat -> B i j <> None) /\
    (~ independent n (X 0%nat) (X 1%nat) -> ~ additive_noise n (X 1%nat) (X 0%nat) -> B 1%nat 0%nat = Some 1%Qc /\ B 0%nat 1%nat = Some 0%Qc).
Proof.
  intros reg hp alpha n X f e iter maxnum Hn HM H0 HR HP IP EX I.
  assert (A : additive_noise n (X 0%nat) (X 1%nat)).
  { exists f. apply (independent_comp n e (X 0%nat) (fun x => x) (fun x => x) _ _ I); [intros s Hs; rewrite (EX s Hs); ring|reflexivity]. }
  destruct (C215_two_variables reg hp alpha n X iter maxnum Hn HM H0 HR HP IP) as (P & B & E & B0 & B1 & Z & C & D). exists P, B. split; [exact E|].
  assert (DEC : independent n (X 0%nat) (X 1%nat) \/ ~ independent n (X 0%nat) (X 1%nat)).
  { destruct (independent_dec n (X 0%nat) (fun s => [X 1%nat s]) Hn) as [W|W]; [left|right; intro V; apply W]; [apply (independent_comp n _ _ (fun x => x) (fun l => nth 0 l 0) _ _ W); reflexivity|apply (independent_comp n _ _ (fun x => x) (fun x => [x]) _ _ V); reflexivity]. }
  split.
  - assert (NB : B 0%nat 1%nat <> None /\ B 1%nat 0%nat <> None).
    { destruct DEC as [W|W]; [destruct (proj2 Z W) as [-> ->]; split; discriminate|]. destruct (D W (or_introl A)) as [(-> & -> & _)|(-> & -> & _)]; split; discriminate. }
    intros [|[|i]] [|[|j]] Hi Hj; try lia; try tauto; congruence.
  - intros W W'. destruct (D W (or_introl A)) as [(F & G & _)|(_ & _ & K)]; [split; assumption|contradiction].
Qed.
Print Assumptions C215_no_false_alarm.

(** A hidden common cause: x0 = h + e0 and x1 = h + e1 with h, e0, e1 independent and 0 or 1. *)
Definition common (j s : nat) : R := bits 0 s + bits (S j) s.
Example C215_example_hidden : ~ independent 8 (common 0) (common 1) /\ ~ additive_noise 8 (common 0) (common 1) /\ ~ additive_noise 8 (common 1) (common 0).
Proof.
  assert (H : forall i j, (i = 0 /\ j = 1 \/ i = 1 /\ j = 0)%nat -> ~ additive_noise 8 (common i) (common j)).
  { intros i j C (f & I).
    pose proof (I (fun r => r) (fun x => (x - 1) * (x - 2) / 2)) as M0. pose proof (I (fun r => r) (fun x => x * (2 - x))) as M1.
    pose proof (I (fun r => r * r) (fun x => (x - 1) * (x - 2) / 2)) as S0. pose proof (I (fun r => r * r) (fun x => x * (2 - x))) as S1. cbv beta in M0, M1, S0, S1.
    assert (T : exists a b c, f 0 = a /\ f 1 = b /\ f 2 = c) by (do 3 eexists; repeat split; reflexivity). destruct T as (a & b & c & Ea & Eb & Ec).
    assert (R0 : 0 + 0 = 0) by ring. assert (R1 : 1 + 0 = 1) by ring. assert (R1' : 0 + 1 = 1) by ring. assert (R2 : 1 + 1 = 2) by ring.
    destruct C as [[-> ->]|[-> ->]]; unfold average, common in M0, M1, S0, S1; cbn in M0, M1, S0, S1; rewrite ?R0, ?R1, ?R1', ?R2, ?Ea, ?Eb, ?Ec in M0, M1, S0, S1;
      assert (K : b = a + 1 / 2) by lra; nra. }
  split; [|split; [apply H; left; split; reflexivity|apply H; right; split; reflexivity]].
  intro I. pose proof (I (fun x => x) (fun x => x)) as M. unfold average, common in M. cbn in M. lra.
Qed.
(** A direction: x1 = x0 + e1 with x0 and e1 independent and 0 or 1; the other direction has no additive noise. *)
Example C215_example_direction : additive_noise 8 (bits 0) (common 0) /\ ~ independent 8 (bits 0) (common 0) /\ ~ additive_noise 8 (common 0) (bits 0).
Proof.
  split; [|split].
  - exists (fun x => x). apply (independent_comp 8 (bits 1) (bits 0) (fun x => x) (fun x => x)); [intros f g; unfold average; cbn; field| |reflexivity]. intros s _. unfold common. ring.
  - intro I. pose proof (I (fun x => x) (fun x => x)) as M. unfold average, common in M. cbn in M. lra.
  - intros (f & I). pose proof (I (fun r => r) (fun x => (x - 1) * (x - 2) / 2)) as M0. pose proof (I (fun r => r) (fun x => x * (2 - x))) as M1.
    pose proof (I (fun r => r * r) (fun x => (x - 1) * (x - 2) / 2)) as S0. pose proof (I (fun r => r * r) (fun x => x * (2 - x))) as S1. cbv beta in M0, M1, S0, S1.
    assert (T : exists a b c, f 0 = a /\ f 1 = b /\ f 2 = c) by (do 3 eexists; repeat split; reflexivity). destruct T as (a & b & c & Ea & Eb & Ec).
    assert (R0 : 0 + 0 = 0) by ring. assert (R1 : 1 + 0 = 1) by ring. assert (R1' : 0 + 1 = 1) by ring. assert (R2 : 1 + 1 = 2) by ring.
    unfold average, common in M0, M1, S0, S1; cbn in M0, M1, S0, S1; rewrite ?R0, ?R1, ?R1', ?R2, ?Ea, ?Eb, ?Ec in M0, M1, S0, S1.
    assert (K : b = a + 1 / 2) by lra. nra.
Qed.
Example C215_example_oracles : exact_gam least_squares_gam /\ exact_p_value (qf 1 20) deciding_p_value /\ (0 <= qf 1 20)%Qc.
Proof. split; [exact C183_example_regressor|]. split; [exact C180_example_p_value|]. apply Qclt_le_weak, qltb_lt. vm_compute. reflexivity. Qed.
