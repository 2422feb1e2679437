(** * LiM (lingam/lim.py) and the acyclicity function shared with LiNA (lingam/lina.py) *)
From Coq Require Import List Arith Bool ZArith QArith Qcanon Qround Lia Relations.
From Verif Require Import Prelude Spec Lib ModelLim ProofLim.
Import ListNotations.
Open Scope nat_scope.

(** C55: the acyclicity function is non-negative and vanishes exactly on the weight matrices of
    acyclic graphs. *)
Theorem C55_h_characterises_acyclicity : forall d W, 1 <= d ->
  (0 <= h_of d W)%Qc /\ (h_of d W = 0%Qc <-> acyclic (edge_of d W)).
Proof.
  intros d W Hd. split; [apply h_nonneg; exact Hd|]. split; [apply h_zero_acyclic; exact Hd|apply h_acyclic; exact Hd].
Qed.
Print Assumptions C55_h_characterises_acyclicity.

Definition chain3 : mat Qc := fun i j => match i, j with 1, 0 => qz 2 | 2, 1 => qz (-3) | 2, 0 => qf 1 2 | _, _ => 0%Qc end.
Definition loop3 : mat Qc := fun i j => match i, j with 1, 0 => qz 2 | 2, 1 => qz (-3) | 0, 2 => qf 1 2 | _, _ => 0%Qc end.
Example C55_example : h_of 3 chain3 = 0%Qc /\ (0 < h_of 3 loop3)%Qc.
Proof. split; [apply Qc_is_canon; vm_compute; reflexivity|vm_compute; reflexivity]. Qed.

(** C56: "a matrix thresholded at 0.1 whose h is below 1e-8 is acyclic" fails on four variables: a
    cycle through all of them with weights 0.1 has h about 1.6e-10. *)
Definition four_cycle : mat Qc := fun i j => match i, j with 0, 1 | 1, 2 | 2, 3 | 3, 0 => qf 1 10 | _, _ => 0%Qc end.
Theorem C56_tolerance_implies_acyclic_refuted :
  exists d W, (forall i j, i < d -> j < d -> W i j <> 0%Qc -> (qf 1 10 <= qabs (W i j))%Qc) /\
    (h_of d W < qf 1 100000000)%Qc /\ ~ acyclic (edge_of d W).
Proof.
  exists 4, four_cycle. split.
  - intros i j Hi Hj N. destruct i as [|[|[|[|i]]]]; try lia; destruct j as [|[|[|[|j]]]]; try lia; try (exfalso; apply N; reflexivity); vm_compute; discriminate.
  - split; [vm_compute; reflexivity|]. intro A. apply (A 0).
    assert (E : forall i j, i < 4 -> j < 4 -> four_cycle i j = qf 1 10 -> edge_of 4 four_cycle j i).
    { intros i j Hi Hj Hw. split; [exact Hi|]. split; [exact Hj|]. rewrite Hw. intro C. apply (f_equal this) in C. vm_compute in C. discriminate. }
    eapply t_trans; [apply t_step; apply (E 3 0); [lia|lia|reflexivity]|].
    eapply t_trans; [apply t_step; apply (E 2 3); [lia|lia|reflexivity]|].
    eapply t_trans; [apply t_step; apply (E 1 2); [lia|lia|reflexivity]|].
    apply t_step. apply (E 0 1); [lia|lia|reflexivity].
Qed.
Print Assumptions C56_tolerance_implies_acyclic_refuted.

(** The same through [fit]: the optimiser ends at that cycle, the loop stops because h is below
    the default tolerance, and the cyclic matrix is returned. *)
Definition default_st : settings := {| ls_max_iter := 150; ls_h_tol := qf 1 100000000; ls_rho_max := qz 10000000000000000; ls_w_threshold := qf 1 10 |}.
Definition four_vec : nat -> Qc := fun k => if k <? 16 then four_cycle (k / 4) (k mod 4) else 0%Qc.
Lemma fit_first_break : forall minimize rnd loss d st lt n, (1 < ls_rho_max st)%Qc -> ls_max_iter st = S n ->
  let w := minimize lt 1%Qc 0%Qc (rnd 0) in
  (h_of d (adj_of d w) <= ls_h_tol st)%Qc -> h_of d (adj_of d w) <> 0%Qc ->
  lim_fit minimize rnd loss d st lt true = Ok (threshold (ls_w_threshold st) (adj_of d w), lt).
Proof.
  intros minimize rnd loss d st lt n HR HM w H1 H2. unfold lim_fit, lim_global. rewrite HM. cbn [outer]. unfold inner_fuel.
  cbn [inner]. apply qltb_lt in HR. rewrite HR. cbn [negb bind]. fold w. apply qleb_le in H1. rewrite H1.
  apply qeqb_neq in H2. rewrite H2. cbn [negb andb bind]. reflexivity.
Qed.
Theorem C56_fit_returns_cycle_refuted : forall rnd loss lt,
  exists minimize W, lim_fit minimize rnd loss 4 default_st lt true = Ok (W, lt) /\
    (h_of 4 W <= ls_h_tol default_st)%Qc /\ ~ acyclic (edge_of 4 W).
Proof.
  intros rnd loss lt. exists (fun _ _ _ _ => four_vec). eexists. split; [|split].
  - apply (fit_first_break _ _ _ _ _ _ 149); [vm_compute; reflexivity|reflexivity| |].
    + vm_compute. discriminate.
    + intro E. apply (f_equal this) in E. vm_compute in E. discriminate.
  - vm_compute. discriminate.
  - intro A. apply (A 0).
    set (W := threshold _ _).
    assert (E : forall i j, i < 4 -> j < 4 -> this (W i j) = (1 # 10)%Q -> edge_of 4 W j i).
    { intros i j Hi Hj Hw. split; [exact Hi|]. split; [exact Hj|]. intro C. rewrite C in Hw. discriminate. }
    eapply t_trans; [apply t_step; apply (E 3 0); [lia|lia|vm_compute; reflexivity]|].
    eapply t_trans; [apply t_step; apply (E 2 3); [lia|lia|vm_compute; reflexivity]|].
    eapply t_trans; [apply t_step; apply (E 1 2); [lia|lia|vm_compute; reflexivity]|].
    apply t_step. apply (E 0 1); [lia|lia|vm_compute; reflexivity].
Qed.
Print Assumptions C56_fit_returns_cycle_refuted.

(** What is true: the tolerance certifies acyclicity when it is at most [(tau^2/d)^d], where tau is
    the thresholding level. *)
Theorem C56_safe_tolerance_partial : forall d W tau tol, 1 <= d -> (0 < tau)%Qc -> (tau <= 1)%Qc ->
  (tol <= qprod (repeat (tau * tau / qn d) d))%Qc ->
  (h_of d (threshold tau W) < tol)%Qc -> acyclic (edge_of d (threshold tau W)).
Proof.
  intros d W tau tol Hd H0 H1 HT Hh. apply (safe_tolerance d _ tau Hd (Qclt_le_weak _ _ H0) H1).
  - intros i j Hi Hj N. unfold threshold in *. destruct (qltb (qabs (W i j)) tau) eqn:E; [contradiction|]. apply qltb_nlt. exact E.
  - eapply Qclt_le_trans; eassumption.
Qed.
Print Assumptions C56_safe_tolerance_partial.
(** In particular the default constants are safe on up to three variables. *)
Theorem C56_defaults_up_to_three_partial : forall d W, 1 <= d -> d <= 3 ->
  (h_of d (threshold (qf 1 10) W) < qf 1 100000000)%Qc -> acyclic (edge_of d (threshold (qf 1 10) W)).
Proof.
  intros d W H1 H3. apply C56_safe_tolerance_partial; [exact H1|reflexivity|vm_compute; discriminate|].
  destruct d as [|[|[|[|d]]]]; try lia; vm_compute; discriminate.
Qed.
Print Assumptions C56_defaults_up_to_three_partial.
Example C56_example : (h_of 3 (threshold (qf 1 10) chain3) < qf 1 100000000)%Qc /\
  ~ (h_of 3 (threshold (qf 1 10) loop3) < qf 1 100000000)%Qc.
Proof. split; [vm_compute; reflexivity|vm_compute; discriminate]. Qed.

(** C57: fitting an already fitted object differs from fitting a fresh one: the local search of the
    first fit leaves "mixed_dag" as the loss type, and the next global phase optimises that loss. *)
Definition st1 : settings := {| ls_max_iter := 1; ls_h_tol := qf 1 100000000; ls_rho_max := qz 10; ls_w_threshold := qf 1 10 |}.
Definition pick (lt : loss_type) (_ _ : Qc) (_ : nat -> Qc) : nat -> Qc :=
  match lt with MixedDag => fun k => if k =? 1 then 1%Qc else 0%Qc | _ => fun k => if k =? 2 then 1%Qc else 0%Qc end.
Theorem C57_refit_refuted :
  exists minimize rnd loss d st W1 W2,
    lim_fit minimize rnd loss d st Mixed false = Ok (W1, MixedDag) /\
    lim_fit minimize rnd loss d st MixedDag false = Ok (W2, MixedDag) /\
    W1 0 1 <> W2 0 1.
Proof.
  exists pick, (fun _ _ => 0%Qc), (fun _ _ => 0%Qc), 2, st1.
  eexists. eexists. split; [reflexivity|]. split; [reflexivity|].
  intro E. apply (f_equal this) in E. vm_compute in E. discriminate.
Qed.
Print Assumptions C57_refit_refuted.
(** What is true: fits restricted to the global phase leave the object unchanged, and from the
    second full fit on the outcome no longer depends on the history. *)
Theorem C57_refit_partial : forall minimize rnd loss d st lt W lt',
  (lim_fit minimize rnd loss d st lt true = Ok (W, lt') -> lt' = lt) /\
  (lim_fit minimize rnd loss d st lt false = Ok (W, lt') -> lt' = MixedDag).
Proof.
  intros minimize rnd loss d st lt W lt'. unfold lim_fit. destruct (lim_global minimize rnd d st lt) as [V|e]; cbn [bind];
    (split; [intro E; try discriminate; injection E as _ E; symmetry; exact E|intro E; try discriminate; injection E as _ E; symmetry; exact E]).
Qed.
Print Assumptions C57_refit_partial.
Example C57_example : exists W, lim_fit pick (fun _ _ => 0%Qc) (fun _ _ => 0%Qc) 2 st1 Mixed true = Ok (W, Mixed).
Proof. eexists. reflexivity. Qed.

(** C88: what the global phase returns.  With one allowed iteration and an optimum at zero the
    answer is a fresh random draw. *)
Theorem C88_returns_an_optimum_refuted : forall rnd loss d st lt, 1 <= d -> (1 < ls_rho_max st)%Qc -> ls_max_iter st = 1 ->
  lim_fit (fun _ _ _ _ _ => 0%Qc) rnd loss d st lt true = Ok (threshold (ls_w_threshold st) (adj_of d (rnd 1)), lt).
Proof.
  intros rnd loss d st lt Hd HR HM. unfold lim_fit, lim_global. rewrite HM. cbn [outer]. unfold inner_fuel.
  cbn [inner]. pose proof HR as HR'. apply qltb_lt in HR. rewrite HR. cbn [negb bind].
  cbv beta. set (w := fun _ : nat => 0%Qc). assert (A : forall i j, adj_of d w i j = 0%Qc) by (intros; unfold adj_of, w; ring).
  assert (H0 : h_of d (adj_of d w) = 0%Qc).
  { apply h_acyclic; [exact Hd|]. intros v C. induction C as [x y C|x y z _ IH _ _]; [destruct C as (_ & _ & C); apply C; apply A|exact IH]. }
  assert (S0 : abs_sum d (adj_of d w) = 0%Qc).
  { unfold abs_sum. apply sumn_zero. intros i _. apply sumn_zero. intros j _. rewrite A. reflexivity. }
  rewrite H0, (qeqb_refl 0). cbn [negb]. rewrite andb_false_r.
  replace (qltb (qz 100000) 0) with false by reflexivity. rewrite andb_false_r. cbn [negb andb].
  replace (qleb (ls_rho_max st) 1) with false by (symmetry; destruct (qleb (ls_rho_max st) 1) eqn:E; [apply qleb_le in E; apply Qclt_not_le in HR'; contradiction|reflexivity]).
  rewrite S0. replace (qltb 0 (qf 9 100)) with true by reflexivity. reflexivity.
Qed.
Print Assumptions C88_returns_an_optimum_refuted.
(** Whenever the loop is left by one of its two breaks, the answer is a thresholded optimum;
    otherwise it is an optimum or a random draw. *)
Theorem C88_returns_an_optimum_partial : forall minimize rnd d st lt, (1 < ls_rho_max st)%Qc ->
  exists w b, outer minimize rnd d st lt (ls_max_iter st) 1 (rnd 0) 1%Qc 0%Qc None = Ok (w, b) /\
    lim_global minimize rnd d st lt = Ok (threshold (ls_w_threshold st) (adj_of d w)) /\
    (b = true -> exists r a w0, w = minimize lt r a w0) /\
    (b = false -> (exists r a w0, w = minimize lt r a w0) \/ (exists k, w = rnd k)).
Proof.
  intros minimize rnd d st lt HR. destruct (outer_ok minimize rnd d st lt (ls_max_iter st) 1 (rnd 0) 1%Qc 0%Qc None HR (Qcle_refl 1) HR) as (w & b & E & B1 & B2).
  exists w, b. split; [exact E|]. split; [unfold lim_global; rewrite E; reflexivity|]. split; [exact B1|].
  intro Hb. destruct (B2 Hb) as [->|[X|X]]; [right; exists 0; reflexivity|left; exact X|right; exact X].
Qed.
Print Assumptions C88_returns_an_optimum_partial.
Example C88_example : exists w, outer pick (fun _ _ => 0%Qc) 2 {| ls_max_iter := 3; ls_h_tol := qf 1 100000000; ls_rho_max := qz 10; ls_w_threshold := qf 1 10 |} Mixed 3 1 (fun _ => 0%Qc) 1%Qc 0%Qc None = Ok (w, true).
Proof. eexists. reflexivity. Qed.

(** C89: the local search never returns a matrix with a larger loss than the global estimate; what
    it returns is the global estimate itself or a matrix within the acyclicity tolerance with a
    strictly smaller loss; and no reversal of any subset of the estimated edges that is within the
    tolerance has a smaller loss. *)
Theorem C89_local_search : forall minimize rnd loss d st lt W lt',
  lim_fit minimize rnd loss d st lt false = Ok (W, lt') ->
  exists W0, lim_global minimize rnd d st lt = Ok W0 /\
    (loss MixedDag W <= loss MixedDag W0)%Qc /\
    (W = W0 \/ ((h_of d W < ls_h_tol st)%Qc /\ (loss MixedDag W < loss MixedDag W0)%Qc)) /\
    (forall bits, length bits = length (nonzeros d W0) ->
       let V := reverse_edges W0 (nonzeros d W0) bits in
       (h_of d V < ls_h_tol st)%Qc -> (loss MixedDag W <= loss MixedDag V)%Qc).
Proof.
  intros minimize rnd loss d st lt W lt'. unfold lim_fit. destruct (lim_global minimize rnd d st lt) as [W0|e]; cbn [bind]; [|discriminate].
  intro E. injection E as <- _. destruct (local_search_inv d (ls_h_tol st) (loss MixedDag) W0) as (_ & H2 & H3 & H4).
  exists W0. split; [reflexivity|]. split; [exact H3|]. split; [exact H2|exact H4].
Qed.
Print Assumptions C89_local_search.
(** Reversing the edges of a two-variable estimate: here the search flips the single edge. *)
Example C89_example : exists W, lim_fit pick (fun _ _ => 0%Qc) (fun _ V => V 1 0) 2 st1 Mixed false = Ok (W, MixedDag) /\ this (W 0 1) = 1%Q /\ this (W 1 0) = 0%Q.
Proof. eexists. split; [reflexivity|]. split; vm_compute; reflexivity. Qed.

(** C90: the global phase fails with a TypeError when rho_max is at most 1 ... *)
Theorem C90_every_rho_max_refuted : forall minimize rnd loss d st lt og, (ls_rho_max st <= 1)%Qc -> 1 <= ls_max_iter st ->
  lim_fit minimize rnd loss d st lt og = Err TypeError.
Proof.
  intros minimize rnd loss d st lt og HR HM. unfold lim_fit, lim_global. destruct (ls_max_iter st) as [|n]; [lia|].
  cbn [outer]. unfold inner_fuel. cbn [inner]. apply qltb_nlt in HR. rewrite HR. reflexivity.
Qed.
Print Assumptions C90_every_rho_max_refuted.
(** ... and always terminates with a result when it is larger. *)
Theorem C90_fit_terminates_partial : forall minimize rnd loss d st lt og, (1 < ls_rho_max st)%Qc ->
  is_ok (lim_fit minimize rnd loss d st lt og).
Proof.
  intros minimize rnd loss d st lt og HR. unfold lim_fit.
  destruct (C88_returns_an_optimum_partial minimize rnd d st lt HR) as (w & b & _ & E & _). rewrite E. cbn [bind].
  destruct og; eexists; reflexivity.
Qed.
Print Assumptions C90_fit_terminates_partial.
Example C90_example : (1 < ls_rho_max default_st)%Qc.
Proof. reflexivity. Qed.
