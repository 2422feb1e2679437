(** * BottomUpParceLiNGAM: runs in which every test rejects. *)
From Coq Require Import List Arith Lia Bool ZArith QArith Qcanon Permutation.
From Verif Require Import Prelude Spec Lib SpecDirect ModelDirect ProofDirect ProofDirect2 ModelParce ProofParce.
Import ListNotations.
Open Scope nat_scope.

Section Underflow.
  Variable hsic2 : nat -> list nat -> nat -> num * num.
  Variable fcorr : nat -> list nat -> nat -> num.
  Variable m2log : Qc -> Qc.
  Variable sf : ext -> nat -> num.
  Variables thr ind_corr : Qc.
  Variable lasso : list nat -> nat -> nat -> num.
  Notation fit := (parce_fit hsic2 fcorr m2log sf thr ind_corr Hsic lasso).

  (** All p-values are exactly 0: the Fisher statistic is infinite. *)
  Hypothesis all_zero : forall t ps i, snd (hsic2 t ps i) = Some 0%Qc.

  Lemma zero_fisher_loop : forall t ps mx is s, (exists q, s = Fin q) \/ s = PInf -> is <> [] ->
    fisher_loop hsic2 m2log t ps mx s is = PInf.
  Proof.
    intros t ps mx. induction is as [|i is IH]; intros s Hs NE; [congruence|].
    cbn [fisher_loop]. rewrite all_zero. rewrite qeqb_refl.
    assert (E : ext_plus s PInf = PInf) by (destruct Hs as [[q ->]| ->]; reflexivity). rewrite E.
    assert (X : ext_lt mx PInf = true \/ ext_lt mx PInf = false) by (destruct (ext_lt mx PInf); tauto).
    destruct X as [-> | ->]; [reflexivity|].
    destruct is as [|i' is]; [reflexivity|]. apply IH; [right; reflexivity|discriminate].
  Qed.
  Lemma zero_exo_fold : forall Uc, NoDup Uc -> 3 <= length Uc -> forall l, incl l Uc ->
    fold_left (exo_step hsic2 fcorr m2log sf Hsic Uc) l ([], PInf, PInf) = ([], PInf, PInf).
  Proof.
    intros Uc ND L. induction l as [|j l IH]; intro I; [reflexivity|].
    cbn [fold_left]. unfold exo_step at 2.
    assert (LJ : S (length (setdiff Uc [j])) = length Uc).
    { rewrite setdiff_single. symmetry. apply remove_nat_length; [exact ND|apply I; left; reflexivity]. }
    unfold fisher_hsic_test.
    destruct (setdiff Uc [j]) as [|a [|b r]] eqn:E; cbn [length] in LJ; try lia.
    rewrite zero_fisher_loop; [|left; eexists; reflexivity|discriminate].
    cbn [ext_lt]. apply IH. intros x Hx. apply I. right. exact Hx.
  Qed.

  Theorem parce_underflow : forall n, 3 <= n ->
    exists B, fit n None true = Ok (map Single (seq 0 n), B).
  Proof.
    intros n Hn. unfold parce_fit. cbn [bind].
    assert (En : n =? 1 = false) by (apply Nat.eqb_neq; lia). rewrite En.
    assert (ES : search_order hsic2 fcorr m2log sf thr ind_corr Hsic n None (seq 0 n) [] = Ok (seq 0 n)).
    { destruct n as [|n0]; [lia|]. cbn [search_order parce_candidates].
      set (U := seq 0 (S n0)).
      assert (F : find_exo_vec hsic2 fcorr m2log sf Hsic U U = (U, PInf)).
      { unfold find_exo_vec. destruct n0 as [|[|n0]]; [lia|lia|].
        change U with (0 :: 1 :: 2 :: seq 3 n0) at 1. cbv beta iota.
        rewrite (zero_exo_fold U); [|apply seq_NoDup|unfold U; rewrite seq_length; lia|intros x Hx; exact Hx].
        rewrite setdiff_nil. reflexivity. }
      rewrite F. unfold is_reject. cbn [ext_lt].
      assert (Dr : drop_ne (fun i => i) U U = Ok []).
      { unfold drop_ne. destruct n0 as [|n0]; [lia|].
        change U with (0 :: 1 :: seq 2 n0). cbv beta iota. rewrite Nat.eqb_refl. f_equal. apply combine_same_filter. }
      rewrite Dr. cbn [bind length Nat.leb app]. rewrite app_nil_r. reflexivity. }
    rewrite ES. cbn [bind].
    assert (Z : setdiff (seq 0 n) (seq 0 n) = []).
    { destruct (setdiff (seq 0 n) (seq 0 n)) as [|a l] eqn:E; [reflexivity|].
      assert (In a (setdiff (seq 0 n) (seq 0 n))) by (rewrite E; left; reflexivity).
      apply setdiff_In in H. tauto. }
    rewrite Z. cbn [length Nat.ltb Nat.leb app]. eexists. reflexivity.
  Qed.
End Underflow.

Section AllReject.
  Variable hsic2 : nat -> list nat -> nat -> num * num.
  Variable fcorr : nat -> list nat -> nat -> num.
  Variable m2log : Qc -> Qc.
  Variable sf : ext -> nat -> num.
  Variables thr ind_corr : Qc.
  Variable lasso : list nat -> nat -> nat -> num.
  Notation fit := (parce_fit hsic2 fcorr m2log sf thr ind_corr Hsic lasso).

  Lemma exo_fold_eval : forall Uc l st,
    (snd (fst st) = PInf /\ fst (fst st) = [] \/
     exists j mx, snd (fst st) = fst (fisher_hsic_test hsic2 m2log sf j (setdiff Uc [j]) mx)) ->
    let r := fold_left (exo_step hsic2 fcorr m2log sf Hsic Uc) l st in
    (snd (fst r) = PInf /\ fst (fst r) = [] \/
     exists j mx, snd (fst r) = fst (fisher_hsic_test hsic2 m2log sf j (setdiff Uc [j]) mx)).
  Proof.
    intros Uc. induction l as [|j l IH]; intros st H; [exact H|].
    cbn [fold_left]. apply IH. destruct st as [[exo ev] mx]. unfold exo_step.
    destruct (fisher_hsic_test hsic2 m2log sf j (setdiff Uc [j]) mx) as [p s] eqn:E.
    destruct (ext_lt s mx); [|exact H]. right. exists j, mx. rewrite E. reflexivity.
  Qed.

  (** With finite statistics, rejecting every test leaves all variables unordered. *)
  Theorem parce_all_reject : forall n, 2 <= n ->
    (forall t ps i, exists s p, hsic2 t ps i = (Some s, Some p) /\ p <> 0%Qc /\ (p < thr)%Qc) ->
    (forall s df, exists p, sf s df = Some p /\ (p < thr)%Qc) ->
    exists B, fit n None true = Ok ([Block (seq 0 n)], B).
  Proof.
    intros n Hn H1 H2. unfold parce_fit. cbn [bind].
    assert (En : n =? 1 = false) by (apply Nat.eqb_neq; lia). rewrite En.
    assert (FT : forall j ps mx, is_reject thr ind_corr Hsic (fst (fisher_hsic_test hsic2 m2log sf j ps mx)) = true).
    { intros j ps mx. unfold fisher_hsic_test, is_reject.
      destruct (H2 (fisher_loop hsic2 m2log j ps mx (Fin 0) ps) (2 * length ps)) as [p [Ep Lp]].
      destruct ps as [|i [|i' ps]].
      - cbn [fst] in *. rewrite Ep. cbn [ext_of ext_lt]. apply qltb_lt. exact Lp.
      - destruct (H1 j [i] i) as [s [q [Eq [_ Lq]]]]. rewrite Eq. cbn [fst snd ext_of ext_lt]. apply qltb_lt. exact Lq.
      - cbn [fst] in *. rewrite Ep. cbn [ext_of ext_lt]. apply qltb_lt. exact Lp. }
    assert (ES : search_order hsic2 fcorr m2log sf thr ind_corr Hsic n None (seq 0 n) [] = Ok []).
    { destruct n as [|n0]; [lia|]. cbn [search_order parce_candidates].
      set (U := seq 0 (S n0)).
      assert (NDU : NoDup U) by apply seq_NoDup.
      assert (F : is_reject thr ind_corr Hsic (snd (find_exo_vec hsic2 fcorr m2log sf Hsic U U)) = true).
      { destruct (find_exo_finite hsic2 fcorr m2log sf Hsic) with (Uc := U) (U := U) as [v [Hv Ev]];
          [intros t ps i; destruct (H1 t ps i) as [s [p [? [? _]]]]; eauto|exact NDU|discriminate|].
        unfold find_exo_vec in *. destruct n0 as [|n0]; [lia|].
        change U with (0 :: 1 :: seq 2 n0) at 1. change U with (0 :: 1 :: seq 2 n0) in Ev at 1. cbv beta iota in *.
        pose proof (exo_fold_eval U U ([], PInf, PInf) (or_introl (conj eq_refl eq_refl))) as G.
        destruct (fold_left (exo_step hsic2 fcorr m2log sf Hsic U) U ([], PInf, PInf)) as [[exo ev] mx].
        cbn [fst snd] in *. destruct G as [[-> ->]|[j [mx' ->]]].
        - rewrite setdiff_nil in Ev. discriminate.
        - apply FT. }
      destruct (find_exo_vec hsic2 fcorr m2log sf Hsic U U) as [m ev]. cbn [snd] in F. rewrite F. reflexivity. }
    rewrite ES. cbn [bind]. rewrite setdiff_nil, seq_length.
    assert (L : 1 <? n = true) by (apply Nat.ltb_lt; lia). rewrite L. eexists. reflexivity.
  Qed.
End AllReject.
