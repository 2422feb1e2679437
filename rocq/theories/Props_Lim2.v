(** * Property theorems: LiM's local search, candidate by candidate, and the global phase's result. *)
From Coq Require Import List Arith Bool ZArith QArith Qcanon Lia.
From Verif Require Import Prelude Spec SpecLim Lib LibMat ModelLim ProofLim ProofLim2.
Import ListNotations.
Open Scope nat_scope.

(** ** C89: the stages of the local search *)
(** With a score that depends on the d x d entries only: first all reversals of edges of the global
    result W0 are tried; with more than d-1 edges, the removals of one edge from the best matrix so
    far, and, if its edges differ from those of W0, from W0; with fewer than d(d-1)/2 edges, the
    additions of one edge to the best matrix so far, and, if its edges differ from those of W0, to W0.
    Each stage keeps the best acceptable candidate (h below the tolerance), if it is strictly better. *)
Theorem C89_stages : forall minimize rnd loss d st lt W lt',
  (forall t V U, same_entries d V U -> loss t V = loss t U) ->
  lim_fit minimize rnd loss d st lt false = Ok (W, lt') ->
  let ok V := (h_of d V < ls_h_tol st)%Qc in
  let best := chosen ok (loss MixedDag) in
  exists W0 W1 W2 W3 W4, lim_global minimize rnd d st lt = Ok W0 /\
    best (a_reversal d W0) W0 W1 /\
    (2 < d /\ d - 1 < edge_count d W0 ->
       best (one_removed d W1) W1 W2 /\
       (same_edges d W0 W2 -> W3 = W2) /\ (~ same_edges d W0 W2 -> best (one_removed d W0) W2 W3)) /\
    (~ (2 < d /\ d - 1 < edge_count d W0) -> W3 = W1) /\
    (2 < d /\ 2 * edge_count d W0 < d * (d - 1) ->
       best (one_added d W3) W3 W4 /\
       (same_edges d W0 W4 -> W = W4) /\ (~ same_edges d W0 W4 -> best (one_added d W0) W4 W)) /\
    (~ (2 < d /\ 2 * edge_count d W0 < d * (d - 1)) -> W = W3).
Proof.
  intros minimize rnd loss d st lt W lt' HL. unfold lim_fit. destruct (lim_global minimize rnd d st lt) as [W0|e]; cbn [bind]; [|discriminate].
  intro E. injection E as <- _. cbv zeta.
  destruct (local_search_stages d (ls_h_tol st) (loss MixedDag) (HL MixedDag) W0) as (W1 & W2 & W3 & W4 & A & B & C). cbv zeta in C.
  exists W0, W1, W2, W3, W4. split; [reflexivity|]. split; [exact A|].
  destruct (Nat.ltb_spec 2 d) as [G|G]; destruct (Nat.ltb_spec (d - 1) (edge_count d W0)) as [G1|G1];
    destruct (Nat.ltb_spec (2 * edge_count d W0) (d * (d - 1))) as [G2|G2]; cbn [andb] in B, C; destruct B as [B1 B2]; destruct C as [C1 C2];
    (split; [|split; [|split]]); try (intro K; exfalso; clear - K G G1 G2; tauto || lia); intros _;
    try assumption; (split; [assumption|]);
    (destruct B2 as [[P Q]|[P Q]] || idtac); (destruct C2 as [[P' Q']|[P' Q']] || idtac); split; intro K; try contradiction; assumption.
Qed.
Print Assumptions C89_stages.

(** A score that prefers the edges 1 -> 0 and 2 -> 1: the estimated edge 0 -> 1 is reversed, then the
    missing edge is added. *)
Definition ex_loss (t : loss_type) (V : mat Qc) : Qc :=
  ((if qeqb (V 0%nat 1%nat) 1 then 0 else 1) + (if qeqb (V 1%nat 2%nat) 1 then 0 else 1))%Qc.
Definition ex_vec : nat -> Qc := fun k => if k =? 3 then qz 2 else 0%Qc.
Definition ex_st : settings := {| ls_max_iter := 1; ls_h_tol := qf 1 100000000; ls_rho_max := qz 10; ls_w_threshold := qf 1 10 |}.
Example C89_stages_example : (forall t V U, same_entries 3 V U -> ex_loss t V = ex_loss t U) /\
  bind (lim_fit (fun _ _ _ _ => ex_vec) (fun _ _ => 0%Qc) ex_loss 3 ex_st Mixed false)
       (fun r => Ok (map (fun i => map (fst r i) (seq 0 3)) (seq 0 3))) = Ok [[0; 1; 0]; [0; 0; 1]; [0; 0; 0]]%Qc.
Proof.
  split.
  - intros t V U H. unfold ex_loss. rewrite (H 0 1), (H 1 2) by lia. reflexivity.
  - vm_compute. reflexivity.
Qed.

(** ** C88: the entries of the result of the global phase *)
Lemma outer_rest : forall minimize rnd d st lt iters k w rho alpha h w', 1 <= iters ->
  outer minimize rnd d st lt iters k w rho alpha h = Ok (w', false) ->
  (exists k', w' = rnd k') \/ (qf 9 100 <= sumn d (fun i => sumn d (fun j => qabs (w' (i * d + j)%nat - w' (d * d + (i * d + j))%nat))))%Qc.
Proof.
  intros minimize rnd d st lt iters. induction iters as [|iters IH]; intros k w rho alpha h w' L; [lia|]. cbn [outer].
  destruct (inner minimize d st lt (inner_fuel st) alpha w h rho None) as [[cur rho']|e]; cbn [bind]; [|discriminate].
  destruct cur as [[wn hn]|]; [|discriminate]. destruct (_ && negb (qeqb hn 0)); [discriminate|].
  destruct (negb _ && _) eqn:G; [discriminate|].
  set (q := if qleb (ls_rho_max st * qf 1 1000000) rho' && qltb (qz 100000) hn then _ else _). destruct q as [[w1 rho1] k1].
  destruct (qltb (abs_sum d (adj_of d w1)) (qf 9 100)) eqn:Q; intro E.
  - destruct iters as [|iters]; [cbn [outer] in E; injection E as <-; left; exists k1; reflexivity|]. eapply IH; [lia|exact E].
  - destruct iters as [|iters]; [|eapply IH; [lia|exact E]]. cbn [outer] in E. injection E as <-. right.
    apply qltb_nlt in Q. unfold abs_sum, adj_of in Q. match type of Q with (_ <= ?x)%Qc => match goal with |- (_ <= ?y)%Qc => replace y with x; [exact Q|] end end.
    apply sumn_ext. intros i _. apply sumn_ext. intros j _. rewrite Nat.add_assoc. reflexivity.
Qed.
(** Entry (i,j) of the result is the difference of the two halves of the final vector at row-major
    position i d + j, set to zero when it is below the threshold.  When the iterations ran out
    without the convergence test succeeding, the final vector is a random draw, or its matrix has
    absolute sum at least 0.09. *)
Theorem C88_result_entries_partial : forall minimize rnd d st lt W, (1 < ls_rho_max st)%Qc ->
  lim_global minimize rnd d st lt = Ok W ->
  exists w, (w = rnd 0 \/ (exists r a w0, w = minimize lt r a w0) \/ exists k, w = rnd k) /\
    forall i j, i < d -> j < d ->
      let x := (w (i * d + j)%nat - w (d * d + (i * d + j))%nat)%Qc in
      ((qabs x < ls_w_threshold st)%Qc -> W i j = 0%Qc) /\ ((ls_w_threshold st <= qabs x)%Qc -> W i j = x).
Proof.
  intros minimize rnd d st lt W HR. unfold lim_global.
  destruct (outer_ok minimize rnd d st lt (ls_max_iter st) 1 (rnd 0) 1%Qc 0%Qc None HR (Qcle_refl 1) HR) as (w & b & E & B1 & B2).
  rewrite E. cbn [bind]. intros [= <-]. exists w. split.
  - destruct b; [right; left; apply B1; reflexivity|]. apply B2. reflexivity.
  - intros i j Hi Hj. set (x := (w (i * d + j)%nat - w (d * d + (i * d + j))%nat)%Qc). cbv zeta. unfold threshold, adj_of. rewrite <- Nat.add_assoc. fold x. destruct (qltb (qabs x) (ls_w_threshold st)) eqn:Q; split; intro K.
    + reflexivity.
    + apply qltb_lt in Q. exfalso. exact (Qclt_not_le _ _ Q K).
    + apply qltb_lt in K. congruence.
    + reflexivity.
Qed.
Print Assumptions C88_result_entries_partial.
Theorem C88_not_nearly_zero_partial : forall minimize rnd d st lt w, 1 <= ls_max_iter st ->
  outer minimize rnd d st lt (ls_max_iter st) 1 (rnd 0) 1%Qc 0%Qc None = Ok (w, false) ->
  (exists k, w = rnd k) \/ (qf 9 100 <= sumn d (fun i => sumn d (fun j => qabs (w (i * d + j)%nat - w (d * d + (i * d + j))%nat))))%Qc.
Proof. intros minimize rnd d st lt w. apply outer_rest. Qed.
Print Assumptions C88_not_nearly_zero_partial.
Example C88_entries_example : bind (lim_global (fun _ _ _ _ => ex_vec) (fun _ _ => 0%Qc) 3 ex_st Mixed) (fun W => Ok (this (W 1 0), this (W 0 1))) = Ok (2%Q, 0%Q).
Proof. vm_compute. reflexivity. Qed.
