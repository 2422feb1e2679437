(** * The bootstrap of DirectLiNGAM, an argsort for examples. *)
From Coq Require Import List Arith Lia Bool ZArith QArith Qcanon Permutation Sorted.
From Verif Require Import Prelude Spec SpecPaths SpecBootstrap Lib LibMat Loop SpecDirect ModelDirect
  ProofDirect ProofDirect2 ProofDirectFindings ModelPaths ModelBootstrap ProofPaths ProofTotal
  ProofBootstrap ProofBootstrap2.
Import ListNotations.
Open Scope nat_scope.

(** A concrete argsort (insertion sort), used in examples only. *)
Fixpoint ins_key (keys : list Qc) (i : nat) (l : list nat) : list nat :=
  match l with
  | [] => [i]
  | j :: r => if qleb (nth i keys 0%Qc) (nth j keys 0%Qc) then i :: l else j :: ins_key keys i r
  end.
Definition ins_argsort (keys : list Qc) : list nat :=
  fold_right (ins_key keys) [] (seq 0 (length keys)).
Lemma ins_key_perm : forall keys i l, Permutation (ins_key keys i l) (i :: l).
Proof.
  intros keys i l. induction l as [|j l IH]; [reflexivity|]. cbn [ins_key].
  destruct (qleb _ _); [reflexivity|]. rewrite IH. apply perm_swap.
Qed.
Lemma ins_key_map : forall keys i l, map (fun k => nth k keys 0%Qc) (ins_key keys i l) =
  insert_q (nth i keys 0%Qc) (map (fun k => nth k keys 0%Qc) l).
Proof.
  intros keys i l. induction l as [|j l IH]; [reflexivity|]. cbn [ins_key map insert_q].
  destruct (qleb _ _); [reflexivity|]. cbn [map]. rewrite IH. reflexivity.
Qed.
Lemma ins_argsort_ok : argsort_ok ins_argsort.
Proof.
  intro keys. unfold ins_argsort. split.
  - generalize (seq 0 (length keys)). induction l as [|i l IH]; [reflexivity|]. cbn [fold_right].
    rewrite ins_key_perm, IH. reflexivity.
  - assert (forall l, map (fun k => nth k keys 0%Qc) (fold_right (ins_key keys) [] l) =
              sort_q (map (fun k => nth k keys 0%Qc) l)) as ->.
    { induction l as [|i l IH]; [reflexivity|]. cbn [fold_right map]. rewrite ins_key_map, IH. reflexivity. }
    apply sort_q_sorted.
Qed.

(** DirectLiNGAM as a bootstrap estimator: a resample determines the columns and the regressions. *)
Definition direct_data (Col : Type) : Type := ((nat -> Col) * (list nat -> nat -> nat -> num))%type.
Definition direct_boot_fit {Col} (residual : Col -> Col -> Col) score (ms : measure) (n : nat) (ok : bool)
    (X : direct_data Col) (o : direct_obj) : direct_obj * option exn :=
  direct_fit_obj residual score ms (snd X) n ok (fst X) o.
Definition d_order' (o : direct_obj) : list nat := match d_order o with Some K => K | None => [] end.
Definition d_adj' (o : direct_obj) : mat num := match d_adj o with Some B => B | None => fun _ _ => None end.
Definition direct_bootstrap {Col} (residual : Col -> Col -> Col) score ms n ok :=
  bootstrap direct_obj (direct_data Col) (direct_boot_fit residual score ms n ok) d_order' d_adj' n.

Lemma direct_boot_good : forall Col residual score ms n ok (X : direct_data Col) o o',
  direct_boot_fit residual score ms n ok X o = (o', None) ->
  is_order n (d_order' o') /\ topological (edge_of n (denan (d_adj' o'))) (d_order' o').
Proof.
  intros Col residual score ms n ok X o o' H.
  destruct (direct_fit_obj_spec Col residual score ms (snd X) n ok (fst X) o) as [S _].
  unfold direct_boot_fit in H. rewrite H in S. cbn [fst snd] in S.
  destruct (direct_fit residual score ms (snd X) n ok (d_mode o) (fst X)) as [[K B]|e] eqn:E.
  - destruct S as [_ [SK SB]]. unfold d_order', d_adj'. rewrite SK, SB. split.
    + eapply direct_fit_perm. exact E.
    + intros a b [Ha [Hb N]]. eapply direct_fit_triangular; [exact E|].
      intro Z. apply N. unfold denan. rewrite Z. reflexivity.
  - destruct S as [S _]. discriminate.
Qed.
Lemma direct_boot_never_fails : forall Col residual score ms n ok (X : direct_data Col) o,
  d_mode o = NoPK -> snd (direct_boot_fit residual score ms n ok X o) = None.
Proof.
  intros Col residual score ms n ok X o M.
  destruct (direct_fit_obj_spec Col residual score ms (snd X) n ok (fst X) o) as [S _].
  rewrite M in S. destruct (direct_nopk_exists Col residual score ms (snd X) n ok (fst X)) as [K [B [E _]]].
  rewrite E in S. apply S.
Qed.

Section Mode.
  (** Bootstrap loop with the invariant "mode stays NoPK". *)
  Context {Col : Type} (residual : Col -> Col -> Col) (score : (nat -> Col) -> list nat -> list nat -> list nat -> nat -> num)
    (ms : measure) (n : nat) (ok : bool).
  Notation bl := (bootstrap_loop direct_obj (direct_data Col) (direct_boot_fit residual score ms n ok) d_order' d_adj' n).
  Lemma direct_boot_mode : forall X o, d_mode (fst (direct_boot_fit residual score ms n ok X o)) = d_mode o.
  Proof.
    intros X o. destruct (direct_fit_obj_spec Col residual score ms (snd X) n ok (fst X) o) as [_ S]. exact S.
  Qed.
  Lemma direct_loop_ok : forall Xs o, d_mode o = NoPK ->
    exists o' l, bl Xs o = (o', Ok l) /\ d_mode o' = NoPK.
  Proof.
    induction Xs as [|X Xs IH]; intros o M; cbn [bootstrap_loop]; [eauto|].
    assert (F := direct_boot_never_fails Col residual score ms n ok X o M).
    assert (M' := direct_boot_mode X o). rewrite M in M'.
    destruct (direct_boot_fit residual score ms n ok X o) as [o1 e] eqn:E. cbn [fst snd] in F, M'. subst e.
    destruct (direct_boot_good _ _ _ _ _ _ _ _ _ E) as [HK T].
    destruct (total_effects_of_spec n _ _ HK T) as [te [Et _]]. rewrite Et.
    destruct (IH o1 M') as [o2 [l [E2 M2]]]. rewrite E2. eauto.
  Qed.
  Lemma direct_loop_state : forall Xs Xl o, d_mode o = NoPK ->
    fst (bl (Xs ++ [Xl]) o) = fst (direct_boot_fit residual score ms n ok Xl (fst (bl Xs o))).
  Proof.
    induction Xs as [|X Xs IH]; intros Xl o M; cbn [bootstrap_loop app].
    - assert (F := direct_boot_never_fails Col residual score ms n ok Xl o M).
      destruct (direct_boot_fit residual score ms n ok Xl o) as [o1 e] eqn:E. cbn [snd] in F. subst e. cbn [fst].
      destruct (direct_boot_good _ _ _ _ _ _ _ _ _ E) as [HK T].
      destruct (total_effects_of_spec n _ _ HK T) as [te [Et _]]. rewrite Et, E. reflexivity.
    - assert (F := direct_boot_never_fails Col residual score ms n ok X o M).
      assert (M' := direct_boot_mode X o). rewrite M in M'.
      destruct (direct_boot_fit residual score ms n ok X o) as [o1 e] eqn:E. cbn [fst snd] in F, M'. subst e.
      destruct (direct_boot_good _ _ _ _ _ _ _ _ _ E) as [HK T].
      destruct (total_effects_of_spec n _ _ HK T) as [te [Et _]]. rewrite Et.
      specialize (IH Xl o1 M'). destruct (bl (Xs ++ [Xl]) o1) as [o2 r2]. destruct (bl Xs o1) as [o3 r3]. exact IH.
  Qed.
End Mode.

Lemma direct_bootstrap_agree : forall Col residual score ms n ok z (resample : nat -> direct_data Col) o o' l,
  direct_bootstrap residual score ms n ok z resample o = (o', Ok l) ->
  Z.of_nat (length l) = z /\ forall r, In r l -> effects_agree n r.
Proof.
  intros Col residual score ms n ok z resample o o' l H. unfold direct_bootstrap, bootstrap in H.
  destruct (Z.ltb_spec 0 z); [|discriminate].
  destruct (bootstrap_loop_agree _ _ _ _ _ n (direct_boot_good Col residual score ms n ok) _ _ _ _ H) as [L A].
  split; [|exact A]. rewrite L, map_length, seq_length. lia.
Qed.
Lemma direct_bootstrap_succeeds : forall Col residual score ms n ok z (resample : nat -> direct_data Col) o,
  (0 < z)%Z -> d_mode o = NoPK ->
  exists o' l, direct_bootstrap residual score ms n ok z resample o = (o', Ok l).
Proof.
  intros Col residual score ms n ok z resample o Hz M. unfold direct_bootstrap, bootstrap.
  apply Z.ltb_lt in Hz. rewrite Hz.
  destruct (direct_loop_ok residual score ms n ok (map resample (seq 0 (Z.to_nat z))) o M) as [o' [l [E _]]].
  eauto.
Qed.
(** The object ends up as if freshly fitted to the last resample. *)
Lemma direct_bootstrap_last : forall Col residual score ms n ok z (resample : nat -> direct_data Col) o,
  (0 < z)%Z -> d_mode o = NoPK ->
  let o' := fst (direct_bootstrap residual score ms n ok z resample o) in
  let f := fst (direct_boot_fit residual score ms n ok (resample (Z.to_nat z - 1)) o) in
  d_order o' = d_order f /\ d_adj o' = d_adj f.
Proof.
  intros Col residual score ms n ok z resample o Hz M. cbv zeta. unfold direct_bootstrap, bootstrap.
  assert (Hz' := Hz). apply Z.ltb_lt in Hz'. rewrite Hz'.
  destruct (Z.to_nat z) as [|k] eqn:Ek; [lia|]. rewrite seq_S, map_app. cbn [map Nat.add].
  rewrite direct_loop_state by exact M.
  destruct (direct_loop_ok residual score ms n ok (map resample (seq 0 k)) o M) as [o1 [l [E M1]]].
  rewrite E. cbn [fst]. replace (S k - 1) with k by lia.
  assert (F := direct_boot_never_fails Col residual score ms n ok (resample k) o1 M1).
  destruct (direct_history Col residual score ms (snd (resample k)) n ok (fst (resample k)) o1 o) as [_ [H _]].
  { rewrite M, M1. reflexivity. }
  apply H. exact F.
Qed.
