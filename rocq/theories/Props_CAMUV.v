(** * Property theorems: CAMUV. *)
From Coq Require Import List Arith Lia Bool ZArith QArith Qcanon Permutation Relations.
From Verif Require Import Prelude Spec SpecRCD SpecCAMUV Lib Loop ModelRCD ProofRCD ModelCAMUV ProofCAMUV ProofCAMUV2.
Import ListNotations.
Open Scope nat_scope.

(** ** C34 *)
Theorem C34_fit_always_returns :
  forall d maxnum hsic thr pk ind value iter, (forall l, Permutation (iter l) l) ->
  let fit := cam_fit d maxnum hsic thr pk ind value iter in
  (maxnum = 0 /\ fit = Err ValueError) \/ (1 <= maxnum /\ exists P B, fit = Ok (P, B)).
Proof.
  intros d maxnum hsic thr pk ind value iter IP fit. unfold fit, cam_fit.
  destruct (Nat.eqb_spec maxnum 0) as [->|D]; [left; auto|]. right. split; [lia|].
  destruct (cam_terminates d maxnum hsic thr pk ind value iter IP (S (Nat.log2 (cam_top d maxnum)))) as [P E].
  - apply Nat.log2_spec. unfold cam_top. lia.
  - unfold find_parents. rewrite E. eauto.
Qed.
Print Assumptions C34_fit_always_returns.
(** Outer loop: at most d*d*(t+1)+t+1 iterations, t = max(2, num_explanatory_vals). *)
Theorem C34_search_terminates :
  forall d maxnum hsic thr pk ind value iter, (forall l, Permutation (iter l) l) ->
  let t := Nat.max 2 maxnum in
  forall k, d * d * (t + 1) + t < 2 ^ k -> exists P, find_parents d maxnum hsic thr pk ind value iter k = Some P.
Proof.
  intros d maxnum hsic thr pk ind value iter IP t k Hk.
  destruct (cam_terminates d maxnum hsic thr pk ind value iter IP k) as [P E].
  - unfold cam_top. fold t. rewrite Nat.add_1_r in Hk. exact Hk.
  - unfold find_parents. rewrite E. eauto.
Qed.
Print Assumptions C34_search_terminates.
Theorem C34_prior_knowledge_respected :
  forall d maxnum hsic thr l ind value iter P B a b, (forall l, Permutation (iter l) l) ->
  cam_fit d maxnum hsic thr (Some l) ind value iter = Ok (P, B) -> In (a, b) l ->
  B b a = Some 0%Qc \/ B b a = None.
Proof.
  intros d maxnum hsic thr l ind value iter P B a b IP F I. unfold cam_fit in F.
  destruct (maxnum =? 0); [discriminate|].
  destruct (find_parents d maxnum hsic thr (Some l) ind value iter (S (Nat.log2 (cam_top d maxnum)))) as [P0|] eqn:E; [|discriminate].
  inversion F; subst. destruct (find_parents_good d maxnum hsic thr (Some l) ind value iter IP _ _ E) as [_ G].
  unfold cam_adjacency. destruct (cam_confounded d ind (neighborhoods d ind) P b a); [right; reflexivity|].
  rewrite (G l a b eq_refl I). left. reflexivity.
Qed.
Print Assumptions C34_prior_knowledge_respected.

(** Example tests: [dep] lists the pairs of (unconditionally) dependent variables; residuals
    tests answer dependent when the sets are empty. *)
Definition ind_of (dep : list (nat * nat)) (i : nat) (A : list nat) (j : nat) (B : list nat) : bool :=
  negb (existsb (fun p => (fst p =? i) && (snd p =? j) || (fst p =? j) && (snd p =? i)) dep).
Definition value_of (tab : list (nat * list nat)) (c : nat) (A : list nat) (_ : list (nat * list nat)) : num :=
  if existsb (fun e => (fst e =? c) && list_eqb (snd e) A) tab then Some (qf 1 2) else Some 0%Qc.
Definition ident (l : list nat) : list nat := l.
Lemma ident_perm : forall l, Permutation (ident l) l.
Proof. intro l. apply Permutation_refl. Qed.
Definition shown2 (n : nat) (r : result (sets * mat num)) :=
  match r with
  | Ok (M, B) => Ok (map (fun i => map (fun j => option_map this (B i j)) (seq 0 n)) (seq 0 n))
  | Err e => Err e
  end.
(** 0 -> 1 found, (0, 2) forbidden by prior knowledge although its test prefers 2, 1 and 2 confounded. *)
Example C34_example :
  shown2 3 (cam_fit 3 2 true (qf 1 100) (Some [(0, 2)]) (ind_of [(0, 1); (0, 2); (1, 2)])
              (value_of [(1, [0]); (2, [0])]) ident) =
  Ok [[Some 0; Some 0; None]; [Some 1; Some 0; None]; [None; None; Some 0]]%Q /\
  (forall l, Permutation (ident l) l).
Proof. split; [vm_compute; reflexivity|exact ident_perm]. Qed.

(** ** C35 *)
Theorem C35_adjacency_shape :
  forall d maxnum hsic thr pk ind value iter P B, (forall l, Permutation (iter l) l) ->
  cam_fit d maxnum hsic thr pk ind value iter = Ok (P, B) ->
  let dependent a b := if a <? b then ind a [] b [] = false else ind b [] a [] = false in
  let residual_dependent a b :=
    if a <? b then ind a (filter (P a) (seq 0 d)) b (filter (P b) (seq 0 d)) = false
    else ind b (filter (P b) (seq 0 d)) a (filter (P a) (seq 0 d)) = false in
  (forall i, B i i = Some 0%Qc) /\
  (forall i j, B i j = Some 0%Qc \/ B i j = Some 1%Qc \/ B i j = None) /\
  (forall i j, B i j = Some 1%Qc -> B j i = Some 0%Qc /\ i < d /\ j < d /\ dependent i j) /\
  (forall i j, i < d -> j < d -> (B i j = None <->
      B i j <> Some 1%Qc /\ B j i <> Some 1%Qc /\ i <> j /\ dependent i j /\ residual_dependent i j)) /\
  (forall i j, B i j = None -> B j i = None).
Proof.
  intros d maxnum hsic thr pk ind value iter P B IP F dep rdep. unfold cam_fit in F.
  destruct (maxnum =? 0); [discriminate|].
  destruct (find_parents d maxnum hsic thr pk ind value iter (S (Nat.log2 (cam_top d maxnum)))) as [P0|] eqn:E; [|discriminate].
  inversion F; subst. destruct (find_parents_good d maxnum hsic thr pk ind value iter IP _ _ E) as [G _].
  set (N := neighborhoods d ind). set (U := cam_confounded d ind N P).
  assert (D10 : 1%Qc <> 0%Qc) by discriminate.
  assert (UI := cam_confounded_iff d ind value P). fold N in UI. fold U in UI.
  assert (forall i j, N i j = true <-> i < d /\ j < d /\ i <> j /\ dep i j) as ND.
  { intros i j. unfold N, dep. rewrite neighborhoods_iff. destruct (Nat.ltb_spec i j).
    - split; [intros [[? ?]|[? ?]]; [repeat split; try lia; assumption|lia]|]. intros [? [? [? ?]]]. left. split; [lia|assumption].
    - split; [intros [[? ?]|[? ?]]; [lia|repeat split; try lia; assumption]|]. intros [? [? [? ?]]]. right. split; [lia|assumption]. }
  assert (forall i j, U i j = true -> U j i = true) as US.
  { intros i j H. apply UI in H. apply UI. destruct H as [H0 [H1 [H2 [H3 [H4 H5]]]]].
    repeat split; try tauto. destruct (Nat.ltb_spec i j), (Nat.ltb_spec j i); try lia; assumption. }
  assert (forall i j, cam_adjacency P U i j = Some 1%Qc <-> P i j = true) as B1.
  { intros i j. unfold cam_adjacency. destruct (U i j) eqn:Uij.
    - apply UI in Uij. split; [discriminate|]. destruct Uij as [_ [X _]]. congruence.
    - destruct (P i j); split; congruence. }
  assert (forall i j, cam_adjacency P U i j = None <-> U i j = true) as BN.
  { intros i j. unfold cam_adjacency. destruct (U i j); [tauto|]. destruct (P i j); split; discriminate. }
  split.
  { intro i. unfold cam_adjacency. destruct (U i i) eqn:X; [apply UI in X; lia|].
    destruct (P i i) eqn:Y; [|reflexivity]. apply G in Y. destruct Y as [_ [_ [Y _]]]. congruence. }
  split. { intros i j. unfold cam_adjacency. destruct (U i j); [auto|]. destruct (P i j); auto. }
  split.
  { intros i j H. apply B1 in H. destruct (G i j H) as [A1 [A2 [A3 [A4 A5]]]]. split.
    - unfold cam_adjacency. destruct (U j i) eqn:X; [apply UI in X; destruct X as [_ [_ [X _]]]; congruence|].
      rewrite A4. reflexivity.
    - repeat split; try assumption. apply ND in A5. tauto. }
  split.
  { intros i j Hi Hj. rewrite BN, !B1, UI. split.
    - intros [L [H1 [H2 [H3 [H4 H5]]]]]. apply ND in H3.
      split; [congruence|]. split; [congruence|]. split; [lia|]. split; [tauto|].
      unfold rdep. destruct (i <? j); exact H5.
    - intros [H1 [H2 [H3 [H4 H5]]]].
      split; [lia|]. split; [destruct (P i j); congruence|]. split; [destruct (P j i); congruence|].
      split; [apply ND; auto|]. split.
      + apply ND. repeat split; auto. unfold dep in *. destruct (Nat.ltb_spec i j), (Nat.ltb_spec j i); try lia; assumption.
      + unfold rdep in H5. destruct (i <? j); exact H5. }
  intros i j H. apply BN in H. apply BN. apply US. exact H.
Qed.
Print Assumptions C35_adjacency_shape.
Example C35_example : exists P B,
  cam_fit 3 2 true (qf 1 100) None (ind_of [(0, 1); (0, 2); (1, 2)]) (value_of [(1, [0])]) ident = Ok (P, B) /\
  B 1 0 = Some 1%Qc /\ B 2 0 = None.
Proof. eexists. eexists. split; [reflexivity|]. split; vm_compute; reflexivity. Qed.

(** ** C70 *)
(** "X0 cannot be a cause of X2": the estimated graph can still contain 0 -> 1 -> 2. *)
Theorem C70_indirect_cause_refuted :
  exists ind value P B, cam_fit 3 2 true (qf 1 100) (Some [(0, 2)]) ind value ident = Ok (P, B) /\
    clos_trans nat (directed_part B) 0 2.
Proof.
  exists (ind_of [(0, 1); (1, 2)]), (value_of [(1, [0]); (2, [1])]). eexists. eexists. split; [reflexivity|].
  assert (D : 1%Qc <> 0%Qc) by discriminate.
  apply t_trans with 1; apply t_step; exists 1%Qc; (split; [vm_compute; reflexivity|exact D]).
Qed.
Print Assumptions C70_indirect_cause_refuted.

(** ** C71 *)
Theorem C71_cyclic_graph_refuted :
  exists ind value P B, cam_fit 3 2 true (qf 1 100) None ind value ident = Ok (P, B) /\ ~ acyclic (directed_part B).
Proof.
  exists (ind_of [(0, 1); (1, 2); (0, 2)]), (value_of [(1, [0]); (2, [1]); (0, [2])]). eexists. eexists. split; [reflexivity|].
  intro A. apply (A 0). assert (D : 1%Qc <> 0%Qc) by discriminate.
  apply t_trans with 1; [|apply t_trans with 2]; apply t_step; exists 1%Qc; (split; [vm_compute; reflexivity|exact D]).
Qed.
Print Assumptions C71_cyclic_graph_refuted.

(** ** C110 *)
(** The final parents come from a set of parents [Q] that was built by justified discoveries
    only, to which no admissible set of variables can add anything, and that was then pruned. *)
Theorem C110_search_exact :
  forall d maxnum hsic thr pk ind value iter P B, (forall l, Permutation (iter l) l) ->
  cam_fit d maxnum hsic thr pk ind value iter = Ok (P, B) ->
  let forbidden a b := match pk with None => False | Some l => In (a, b) l end in
  exists Q, discovered d hsic thr forbidden ind value iter (Nat.max 2 maxnum) Q /\
    (forall t K c, 2 <= t <= Nat.max 2 maxnum -> var_set d t K ->
       ~ establishes d hsic thr forbidden ind value iter Q K c) /\
    pruned d ind Q P /\
    (forall i j, B i j = Some 1%Qc <-> P i j = true).
Proof.
  intros d maxnum hsic thr pk ind value iter P B IP F forb. assert (D10 : 1%Qc <> 0%Qc) by discriminate.
  assert (B1 : forall i j, B i j = Some 1%Qc <-> P i j = true).
  { intros i j. assert (H := F). unfold cam_fit in H. destruct (maxnum =? 0); [discriminate|].
    destruct (find_parents d maxnum hsic thr pk ind value iter (S (Nat.log2 (cam_top d maxnum)))); [|discriminate].
    inversion H; subst. unfold cam_adjacency. destruct (cam_confounded d ind (neighborhoods d ind) P i j) eqn:U.
    - apply cam_confounded_iff in U; [|exact value]. split; [discriminate|]. destruct U as [_ [X _]]. congruence.
    - destruct (P i j); split; congruence. }
  unfold cam_fit in F. destruct (maxnum =? 0); [discriminate|].
  destruct (find_parents d maxnum hsic thr pk ind value iter (S (Nat.log2 (cam_top d maxnum)))) as [P0|] eqn:E; [|discriminate].
  inversion F; subst. destruct (find_parents_exact d maxnum hsic thr pk ind value iter IP _ _ E) as [Q [D [X R]]].
  exists Q. split; [exact D|]. split; [|split; [exact R|exact B1]].
  intros t K c T V. apply (X t K c); [unfold top; lia|exact V].
Qed.
Print Assumptions C110_search_exact.
(** In the run of the C35 example the discovery is made from the set {0, 1}. *)
Example C110_example : establishes 3 true (qf 1 100) (fun _ _ => False) (ind_of [(0, 1); (0, 2); (1, 2)])
  (value_of [(1, [0])]) ident (fun _ _ => false) [0; 1] 1.
Proof.
  assert (E1 : score 3 (value_of [(1, [0])]) (fun _ _ => false) [0; 1] 1 = Some (qf 1 2)) by (vm_compute; reflexivity).
  split; [reflexivity|]. split; [|split; [rewrite E1; reflexivity|]].
  - split.
    + intros p [<-|[<-|[]]] D; [|congruence]. split; [tauto|]. right. split; [lia|reflexivity].
    + split; [rewrite E1; reflexivity|]. exists [0], []. split; [reflexivity|]. split; [|intros a w []].
      intros a w [<-|[]] _ Sa. rewrite E1. vm_compute in Sa. inversion Sa; subst. reflexivity.
  - intros q [<-|[<-|[]]] D; [reflexivity|congruence].
Qed.
