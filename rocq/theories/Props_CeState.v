(** * C222: CausalEffect over time *)
From Coq Require Import List Arith Lia Bool ZArith QArith Qcanon.
From Verif Require Import Prelude Spec SpecEffect ModelOrder ModelEffect ModelCeState.
Import ListNotations.
Open Scope nat_scope.

(** Any number of changes by the caller. *)
Fixpoint ce_changes (w : ce_world) (l : list (list nat * mat Qc)) : ce_world := match l with [] => w | (K, B) :: l' => ce_changes (ce_change w K B) l' end.
Definition ce_built (K : list nat) (B : mat Qc) : ce_world := {| cw_order := K; cw_B := B; cw_seen := None |}.

Lemma changes_seen : forall l w, cw_seen (ce_changes w l) = cw_seen w.
Proof. induction l as [|[K B] l IH]; intro w; [reflexivity|]. cbn [ce_changes]. rewrite IH. reflexivity. Qed.

(** After the first query the answers no longer depend on the LiNGAM object or the list. *)
Theorem C222_kept_partial : forall n src w w' En iv v r, src <> Array -> (cw_seen w = None \/ exists K B, cw_seen w = Some (K, Some B)) -> ce_query n src w En iv v = (w', Ok r) ->
  forall l En' iv' v', snd (ce_query n src (ce_changes w' l) En' iv' v') = snd (ce_query n src w' En' iv' v').
Proof.
  intros n src w w' En iv v r HS HW E l En' iv' v'.
  assert (T : exists K B, cw_seen w' = Some (K, Some B)).
  { unfold ce_query, ce_check in E. destruct HW as [H|(K & B & H)]; rewrite H in E.
    - destruct src; [|congruence|]; cbn [bind] in E; [injection E as <- _; cbn; do 2 eexists; reflexivity|].
      destruct (ce_order n (fun i j => Some (cw_B w i j))) as [K|e]; cbn [bind] in E; [|discriminate]. injection E as <- _. cbn. do 2 eexists. reflexivity.
    - injection E as <- _. rewrite H. do 2 eexists. reflexivity. }
  destruct T as (K & B & T). unfold ce_query, ce_check. rewrite changes_seen, T. cbn. rewrite changes_seen, T. reflexivity.
Qed.
(** The first query answers for the LiNGAM object as it is then, not as it was when the CausalEffect object was built. *)
Theorem C222_first_query_refuted : forall n K B l K' B' En iv v, snd (ce_query n LingamObject (ce_changes (ce_built K B) (l ++ [(K', B')])) En iv v) = Ok (propagated n B' K' En iv v).
Proof.
  intros n K B l K' B' En iv v.
  assert (T : forall w, ce_changes w (l ++ [(K', B')]) = {| cw_order := K'; cw_B := B'; cw_seen := cw_seen w |}).
  { induction l as [|[K1 B1] l IH]; intro w; [reflexivity|]. cbn [app ce_changes]. rewrite IH. reflexivity. }
  rewrite T. reflexivity.
Qed.
(** An array is used as it is at each query, with the order found at the first one. *)
Theorem C222_array : forall n K0 B0 w En iv v r, ce_query n Array (ce_built K0 B0) En iv v = (w, Ok r) ->
  exists K, ce_order n (fun i j => Some (B0 i j)) = Ok K /\ r = propagated n B0 K En iv v /\
    forall l K' B' En' iv' v', snd (ce_query n Array (ce_changes w (l ++ [(K', B')])) En' iv' v') = Ok (propagated n B' K En' iv' v').
Proof.
  intros n K0 B0 w En iv v r E. unfold ce_query, ce_check, ce_built in E. cbn [cw_seen cw_B cw_order] in E. destruct (ce_order n (fun i j => Some (B0 i j))) as [K|e]; cbn [bind] in E; [|discriminate].
  injection E as <- <-. exists K. split; [reflexivity|]. split; [reflexivity|]. intros l K' B' En' iv' v'.
  assert (T : forall w, ce_changes w (l ++ [(K', B')]) = {| cw_order := K'; cw_B := B'; cw_seen := cw_seen w |}).
  { induction l as [|[K1 B1] l IH]; intro w; [reflexivity|]. cbn [app ce_changes]. rewrite IH. reflexivity. }
  rewrite T. reflexivity.
Qed.
Print Assumptions C222_kept_partial.
Print Assumptions C222_first_query_refuted.
Print Assumptions C222_array.

(** The array holds 0 -> 1 -> 2 at the first query and is then set to 2 -> 0 -> 1 (the second coefficient is 2): the effects reported for
    setting variable 2 to 1 solve neither model. *)
Definition ce_old : mat Qc := fun i j => if (i =? 1) && (j =? 0) then 1%Qc else if (i =? 2) && (j =? 1) then 1%Qc else 0%Qc.
Definition ce_new : mat Qc := fun i j => if (i =? 0) && (j =? 2) then 1%Qc else if (i =? 1) && (j =? 0) then qz 2 else 0%Qc.
Definition ce_En (i : nat) : Qc := if i =? 0 then 1%Qc else 0%Qc.
Theorem C222_alias_refuted : exists w r w' r', ce_query 3 Array (ce_built [] ce_old) ce_En 2 1%Qc = (w, Ok r) /\ do_solution 3 ce_old ce_En 2 1%Qc r /\
  ce_query 3 Array (ce_change w [] ce_new) ce_En 2 1%Qc = (w', Ok r') /\ ~ do_solution 3 ce_old ce_En 2 1%Qc r' /\ ~ do_solution 3 ce_new ce_En 2 1%Qc r'.
Proof.
  do 4 eexists. split; [reflexivity|]. split; [|split; [reflexivity|split]].
  - split; [apply Qc_is_canon; vm_compute; reflexivity|]. intros [|[|[|j]]] Hj D; try lia; apply Qc_is_canon; vm_compute; reflexivity.
  - intros [_ H]. specialize (H 1 ltac:(lia) ltac:(lia)). apply (f_equal this) in H. vm_compute in H. discriminate.
  - intros [_ H]. specialize (H 0 ltac:(lia) ltac:(lia)). apply (f_equal this) in H. vm_compute in H. discriminate.
Qed.
Print Assumptions C222_alias_refuted.
(** A LiNGAM object whose order and matrix stem from different data (C219): the order 1, 0 with the edge 0 -> 1.  The effect of variable 0
    on variable 1 is then reported as missing. *)
Theorem C222_mixed_object_refuted : exists B r, B 1 0 = qz 2 /\ snd (ce_query 2 LingamObject (ce_built [1; 0] B) (fun _ => 0%Qc) 0 1%Qc) = Ok r /\ r 1 = 0%Qc /\ ~ do_solution 2 B (fun _ => 0%Qc) 0 1%Qc r.
Proof.
  exists (fun i j => if (i =? 1) && (j =? 0) then qz 2 else 0%Qc). eexists. split; [reflexivity|]. split; [reflexivity|]. split; [apply Qc_is_canon; vm_compute; reflexivity|].
  intros [_ H]. specialize (H 1 ltac:(lia) ltac:(lia)). apply (f_equal this) in H. vm_compute in H. discriminate.
Qed.
Print Assumptions C222_mixed_object_refuted.
Example C222_example : exists w r, ce_query 3 ListOfLists (ce_built [] ce_old) ce_En 2 1%Qc = (w, Ok r) /\ snd (ce_query 3 ListOfLists (ce_change w [] ce_new) ce_En 2 1%Qc) = Ok r.
Proof. do 2 eexists. split; reflexivity. Qed.
