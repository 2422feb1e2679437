(** * C188: is the graph returned by LiM better than all graphs that differ in one edge? *)
From Coq Require Import List Arith Bool ZArith QArith Qcanon Lia.
From Verif Require Import Prelude Spec SpecLim Lib LibMat ModelLim ProofLim ProofLim2 Props_Lim2.
Import ListNotations.
Open Scope nat_scope.

(** Two variables with an edge between them, in one direction or the other. *)
Definition linked (W : mat Qc) (i j : nat) : Prop := W i j <> 0%Qc \/ W j i <> 0%Qc.
Lemma linked_sym : forall W i j, linked W i j -> linked W j i.
Proof. intros W i j [H|H]; [right|left]; exact H. Qed.
Lemma linked_entries : forall d V W i j, same_entries d V W -> i < d -> j < d -> (linked V i j <-> linked W i j).
Proof. intros d V W i j H Hi Hj. unfold linked. rewrite (H i j), (H j i) by assumption. tauto. Qed.
Lemma one_nz : 1%Qc <> 0%Qc.
Proof. discriminate. Qed.
Lemma reversal_linked : forall d W V i j, a_reversal d W V -> i < d -> j < d -> (linked W i j <-> linked V i j).
Proof.
  intros d W V i j (R & HR & E) Hi Hj. rewrite (linked_entries d V _ i j E Hi Hj). unfold linked, reversal.
  destruct (Nat.leb_spec i j) as [L|L], (Nat.leb_spec j i) as [L'|L']; try lia;
    destruct (R i j) eqn:A, (R j i) eqn:B; pose proof one_nz;
    try (pose proof (proj2 (proj2 (HR _ _ A)))); try (pose proof (proj2 (proj2 (HR _ _ B)))); try tauto.
Qed.
Lemma added_linked : forall d W V, one_added d W V -> exists i j, forall a b, a < d -> b < d ->
  (linked W a b -> linked V a b) /\ (linked V a b -> linked W a b \/ (a = i /\ b = j) \/ (a = j /\ b = i)).
Proof.
  intros d W V (i & j & Hi & Hj & _ & E). exists i, j. intros a b Ha Hb. rewrite (linked_entries d V _ a b E Ha Hb). unfold linked, upd2. pose proof one_nz.
  destruct (Nat.eqb_spec a i), (Nat.eqb_spec b j), (Nat.eqb_spec b i), (Nat.eqb_spec a j); cbn [andb]; subst; split; try tauto.
Qed.
Lemma removed_linked : forall d W V a b, one_removed d W V -> a < d -> b < d -> linked V a b -> linked W a b.
Proof.
  intros d W V a b (i & j & Hi & Hj & _ & E) Ha Hb. rewrite (linked_entries d V _ a b E Ha Hb). unfold linked, upd2.
  destruct ((a =? i) && (b =? j)), ((b =? i) && (a =? j)); tauto.
Qed.
Ltac keep H := destruct H as [[-> | [H _] ] _].

(** What the local search can do to the links of the result [W0] of the global phase: with at most d - 1 edges it removes
    none, with two variables it adds none, and it never adds more than one. *)
Theorem C188_links_refuted : forall minimize rnd loss d st lt W lt',
  (forall t V U, same_entries d V U -> loss t V = loss t U) ->
  lim_fit minimize rnd loss d st lt false = Ok (W, lt') ->
  exists W0, lim_global minimize rnd d st lt = Ok W0 /\
    (d <= 2 \/ edge_count d W0 <= d - 1 -> forall i j, i < d -> j < d -> linked W0 i j -> linked W i j) /\
    (d <= 2 -> forall i j, i < d -> j < d -> linked W i j -> linked W0 i j) /\
    exists i j, forall a b, a < d -> b < d -> linked W a b -> linked W0 a b \/ (a = i /\ b = j) \/ (a = j /\ b = i).
Proof.
  intros minimize rnd loss d st lt W lt' HL F.
  destruct (C89_stages minimize rnd loss d st lt W lt' HL F) as (W0 & W1 & W2 & W3 & W4 & G & A & B & B' & C & C'). cbv zeta in *.
  exists W0. split; [exact G|].
  assert (L1 : forall i j, i < d -> j < d -> (linked W0 i j <-> linked W1 i j)).
  { intros i j Hi Hj. keep A; [tauto|]. apply (reversal_linked d); assumption. }
  assert (L3 : forall i j, i < d -> j < d -> linked W3 i j -> linked W0 i j).
  { intros i j Hi Hj H. destruct (lt_dec 2 d) as [D|D]; [destruct (lt_dec (d - 1) (edge_count d W0)) as [D'|D']|].
    - destruct (B (conj D D')) as (B1 & B2 & B3).
      assert (L2 : linked W2 i j -> linked W0 i j) by (intro K; apply L1; try assumption; keep B1; [exact K|apply (removed_linked d W1 W2); assumption]).
      assert (DE : same_edges d W0 W2 \/ ~ same_edges d W0 W2).
      { destruct (same_pattern d W0 W2) eqn:SP; [left|right]; [apply same_pattern_iff; exact SP|intro Q; apply same_pattern_iff in Q; congruence]. }
      destruct DE as [Q|Q]; [rewrite (B2 Q) in H; apply L2; exact H|]. specialize (B3 Q). keep B3; [apply L2; exact H|].
      apply (removed_linked d W0 W3); assumption.
    - rewrite B' in H by tauto. apply L1; assumption.
    - rewrite B' in H by tauto. apply L1; assumption. }
  assert (K3 : d <= 2 \/ edge_count d W0 <= d - 1 -> forall i j, i < d -> j < d -> linked W0 i j -> linked W3 i j).
  { intros D i j Hi Hj H. rewrite B' by lia. apply L1; assumption. }
  destruct (lt_dec 2 d) as [D|D]; [destruct (lt_dec (2 * edge_count d W0) (d * (d - 1))) as [D'|D']|].
  - destruct (C (conj D D')) as (C1 & C2 & C3).
    assert (L4 : exists i j, forall a b, a < d -> b < d -> (linked W3 a b -> linked W4 a b) /\ (linked W4 a b -> linked W3 a b \/ (a = i /\ b = j) \/ (a = j /\ b = i))).
    { keep C1; [exists 0, 0; intros; tauto|apply added_linked; exact C1]. }
    destruct L4 as (i & j & L4).
    assert (DE : same_edges d W0 W4 \/ ~ same_edges d W0 W4).
    { destruct (same_pattern d W0 W4) eqn:SP; [left|right]; [apply same_pattern_iff; exact SP|intro Q; apply same_pattern_iff in Q; congruence]. }
    assert (E4 : (forall a b, a < d -> b < d -> linked W3 a b -> linked W a b) /\ (forall a b, a < d -> b < d -> linked W a b -> linked W0 a b \/ (a = i /\ b = j) \/ (a = j /\ b = i))
      \/ one_added d W0 W).
    { destruct DE as [Q|Q]; [rewrite (C2 Q)|specialize (C3 Q); keep C3; [|right; exact C3] ]; left; split; intros a b Ha Hb H;
        try (apply (L4 a b Ha Hb); exact H); apply (L4 a b Ha Hb) in H; destruct H as [H|H]; try (left; apply L3; assumption); right; exact H. }
    destruct E4 as [ [E4 E5] | E4].
    + split; [intros Q a b Ha Hb H; apply E4; try assumption; apply K3; assumption|]. split; [lia|]. exists i, j. exact E5.
    + destruct (added_linked d W0 W E4) as (x & y & E). split; [intros _ a b Ha Hb; apply (E a b Ha Hb)|]. split; [lia|]. exists x, y. intros a b Ha Hb. apply (E a b Ha Hb).
  - rewrite C' by lia. split; [exact K3|]. split; [lia|]. exists 0, 0. intros a b Ha Hb H. left. apply L3; assumption.
  - rewrite C' by lia. split; [exact K3|]. split; [intros _; exact L3|]. exists 0, 0. intros a b Ha Hb H. left. apply L3; assumption.
Qed.
Print Assumptions C188_links_refuted.

(** So the result need not be a local optimum: with a score that counts the missing links, three variables and one edge found by
    the global phase, the result has two links although the matrix with a third one is acyclic and scores better. *)
Definition ex_links (V : mat Qc) : Qc :=
  sumf [(0, 1); (0, 2); (1, 2)] (fun ij => if qeqb (V (fst ij) (snd ij)) 0 && qeqb (V (snd ij) (fst ij)) 0 then 1 else 0)%Qc.
Theorem C188_local_optimum_refuted :
  exists minimize rnd (loss : loss_type -> mat Qc -> Qc) W V, (forall t V U, same_entries 3 V U -> loss t V = loss t U) /\
    lim_fit minimize rnd loss 3 ex_st Mixed false = Ok (W, MixedDag) /\
    one_added 3 W V /\ (h_of 3 V < ls_h_tol ex_st)%Qc /\ (loss MixedDag V < loss MixedDag W)%Qc.
Proof.
  set (W := match lim_fit (fun _ _ _ _ => ex_vec) (fun _ _ => 0%Qc) (fun _ => ex_links) 3 ex_st Mixed false with Ok (W, _) => W | Err _ => fun _ _ => 0%Qc end).
  exists (fun _ _ _ _ => ex_vec), (fun _ _ => 0%Qc), (fun _ => ex_links), W, (upd2 W 1 2 1%Qc). split; [|split; [|split; [|split] ] ].
  - intros _ V U H. unfold ex_links, sumf. cbn [map fst snd]. rewrite !(H _ _) by lia. reflexivity.
  - subst W. unfold lim_fit. destruct (lim_global _ _ 3 ex_st Mixed) as [W0|x] eqn:E; [reflexivity|]. exfalso. revert E. vm_compute. discriminate.
  - exists 1, 2. split; [lia|]. split; [lia|]. split; [apply Qc_is_canon; vm_compute; reflexivity|]. intros i j _ _. reflexivity.
  - vm_compute. reflexivity.
  - vm_compute. reflexivity.
Qed.
Print Assumptions C188_local_optimum_refuted.

(** What does hold: no acyclic graph obtained by reversing edges of the result of the global phase scores better. *)
Theorem C188_directions_partial : forall minimize rnd loss d st lt W lt',
  (forall t V U, same_entries d V U -> loss t V = loss t U) ->
  lim_fit minimize rnd loss d st lt false = Ok (W, lt') ->
  exists W0, lim_global minimize rnd d st lt = Ok W0 /\
    forall V, a_reversal d W0 V -> (h_of d V < ls_h_tol st)%Qc -> (loss MixedDag W <= loss MixedDag V)%Qc.
Proof.
  intros minimize rnd loss d st lt W lt' HL F.
  destruct (C89_stages minimize rnd loss d st lt W lt' HL F) as (W0 & W1 & W2 & W3 & W4 & G & A & B & B' & C & C'). cbv zeta in *.
  exists W0. split; [exact G|]. intros V RV OV. destruct A as [_ A]. specialize (A V RV OV). 
  assert (Mono : forall (C : mat Qc -> Prop) U U', chosen (fun V => (h_of d V < ls_h_tol st)%Qc) (loss MixedDag) C U U' -> (loss MixedDag U' <= loss MixedDag U)%Qc).
  { intros Cd U U' [ [-> | (_ & _ & Q)] _]; [apply Qcle_refl|apply Qclt_le_weak; exact Q]. }
  assert (M3 : (loss MixedDag W3 <= loss MixedDag W1)%Qc).
  { destruct (lt_dec 2 d) as [D|D]; [destruct (lt_dec (d - 1) (edge_count d W0)) as [D'|D']|]; try (rewrite B' by tauto; apply Qcle_refl).
    destruct (B (conj D D')) as (B1 & B2 & B3). apply Mono in B1.
    destruct (same_pattern d W0 W2) eqn:SP; [apply same_pattern_iff in SP; rewrite (B2 SP); exact B1|].
    assert (Q : ~ same_edges d W0 W2) by (intro Q; apply same_pattern_iff in Q; congruence). specialize (Mono _ _ _ (B3 Q)). apply (Qcle_trans _ _ _ Mono B1). }
  assert (M4 : (loss MixedDag W <= loss MixedDag W3)%Qc).
  { destruct (lt_dec 2 d) as [D|D]; [destruct (lt_dec (2 * edge_count d W0) (d * (d - 1))) as [D'|D']|]; try (rewrite C' by tauto; apply Qcle_refl).
    destruct (C (conj D D')) as (C1 & C2 & C3). apply Mono in C1.
    destruct (same_pattern d W0 W4) eqn:SP; [apply same_pattern_iff in SP; rewrite (C2 SP); exact C1|].
    assert (Q : ~ same_edges d W0 W4) by (intro Q; apply same_pattern_iff in Q; congruence). specialize (Mono _ _ _ (C3 Q)). apply (Qcle_trans _ _ _ Mono C1). }
  apply (Qcle_trans _ _ _ M4). apply (Qcle_trans _ _ _ M3). exact A.
Qed.
Print Assumptions C188_directions_partial.
(** The run of C188_local_optimum_refuted: the link 0 - 1 is kept, 0 - 2 is added, 1 - 2 is never tried on top of it. *)
Example C188_example : bind (lim_fit (fun _ _ _ _ => ex_vec) (fun _ _ => 0%Qc) (fun _ => ex_links) 3 ex_st Mixed false)
       (fun r => Ok (map (fun i => map (fst r i) (seq 0 3)) (seq 0 3))) = Ok [[0; 0; 1]; [qz 2; 0; 0]; [0; 0; 0]]%Qc.
Proof. vm_compute. reflexivity. Qed.
