(** * RESIT: the order search with exact statistics; pruning when every test accepts *)
From Coq Require Import List Arith Lia Bool QArith Qcanon Permutation.
From Verif Require Import Prelude Spec SpecResit Lib ModelResit ProofResit ProofHighDim2.
Import ListNotations.
Open Scope nat_scope.

Section Zero.
  Variable stat : list nat -> nat -> num.
  Lemma order_step_zero : forall U pa pi, 2 <= length U -> NoDup U ->
    (forall k, In k U -> exists q, stat (remove_nat k U) k = Some q /\ (0 <= q)%Qc) ->
    (exists k, In k U /\ stat (remove_nat k U) k = Some 0%Qc) ->
    exists k l1 l2, U = l1 ++ k :: l2 /\ stat (remove_nat k U) k = Some 0%Qc /\ (forall j, In j l1 -> stat (remove_nat j U) j <> Some 0%Qc) /\
      order_step stat (U, pa, pi) = Ok (remove_nat k U, upd pa k (Some (remove_nat k U)), k :: pi).
  Proof.
    intros U pa pi L ND H (z & Hz & Ez). unfold order_step. destruct U as [|u0 [|u1 U0]]; [simpl in L; lia|simpl in L; lia|].
    set (U := u0 :: u1 :: U0) in *.
    assert (F : exists qs, map (fun k => stat (remove_nat k U) k) U = map Some qs /\ Forall (fun q => (0 <= q)%Qc) qs).
    { assert (G : forall V, incl V U -> exists qs, map (fun k => stat (remove_nat k U) k) V = map Some qs /\ Forall (fun q => (0 <= q)%Qc) qs).
      { induction V as [|v V IH]; intro I; [exists []; split; [reflexivity|constructor]|].
        destruct IH as (qs & E & Q); [intros x Hx; apply I; right; exact Hx|]. destruct (H v (I v (or_introl eq_refl))) as (q & Eq & Pq).
        exists (q :: qs). split; [cbn [map]; rewrite Eq, E; reflexivity|constructor; assumption]. }
      apply G. apply incl_refl. }
    destruct F as (qs & E & Q). rewrite E.
    assert (Lq : length qs = length U) by (rewrite <- (map_length Some qs), <- E; apply map_length).
    destruct (argmin_first qs) as (i & v & Ei & Ev & Mi & Fi); [intro; subst qs; discriminate Lq|]. rewrite Ei.
    assert (At : forall j k, nth_error U j = Some k -> stat (remove_nat k U) k = option_map (fun q => q) (nth_error qs j) /\ nth_error qs j <> None).
    { intros j k Ej. pose proof (map_nth_error (fun k => stat (remove_nat k U) k) _ _ Ej) as M. rewrite E in M.
      destruct (nth_error qs j) as [q|] eqn:Eq; [|apply nth_error_None in Eq; assert (nth_error U j <> None) as W by congruence; apply nth_error_Some in W; lia].
      pose proof (map_nth_error (fun x : Qc => (Some x : num)) _ _ Eq) as M2. pose proof (eq_trans (eq_sym M) M2) as M3. injection M3 as M3. split; [exact M3|discriminate]. }
    assert (Z : v = 0%Qc).
    { apply In_nth_error in Hz. destruct Hz as (j & Ej). destruct (At j z Ej) as [A1 A2]. rewrite Ez in A1. cbn [option_map] in A1. destruct (nth_error qs j) as [q|] eqn:Eq; [|discriminate].
      injection A1 as <-. apply nth_error_In in Eq. apply Mi in Eq. apply nth_error_In in Ev. rewrite Forall_forall in Q. apply Q in Ev. apply Qcle_antisym; assumption. }
    assert (Hi : i < length U) by (rewrite <- Lq; apply nth_error_Some; congruence).
    destruct (nth_error U i) as [k|] eqn:Ek; [|apply nth_error_None in Ek; lia].
    destruct (nth_error_split U i Ek) as (l1 & l2 & EU & L1). exists k, l1, l2. split; [exact EU|].
    destruct (At i k Ek) as [A1 _]. rewrite Ev in A1. cbn [option_map] in A1. split; [rewrite A1, Z; reflexivity|]. split; [|reflexivity].
    intros j Hj Ej. apply In_nth_error in Hj. destruct Hj as (a & Ea). assert (La : a < i) by (rewrite <- L1; apply nth_error_Some; congruence).
    assert (Ea' : nth_error U a = Some j) by (rewrite EU, nth_error_app1 by lia; exact Ea). destruct (At a j Ea') as [B1 _]. rewrite Ej in B1.
    destruct (nth_error qs a) as [q|] eqn:Eq; [|discriminate]. injection B1 as <-. pose proof (Fi a _ La Eq) as C. rewrite Z in C. exact (Qclt_not_eq _ _ C eq_refl).
  Qed.
End Zero.

(** ** Order search: sinks and only sinks have statistic zero *)
Section Order.
  Variable stat : list nat -> nat -> num.
  Variable p : nat.
  Variable E : nat -> nat -> Prop.
  Variable L : list nat.
  Hypothesis HL : is_order p L.
  Hypothesis HE : topological E L.
  Hypothesis Hr : forall a b, E a b -> a < p /\ b < p.
  Hypothesis Hs : forall U k, NoDup U -> 2 <= length U -> closed E U -> (forall x, In x U -> x < p) -> In k U ->
    exists q, stat (remove_nat k U) k = Some q /\ (0 <= q)%Qc /\ (q = 0%Qc <-> sink_in E U k).

  Lemma sink_exists : forall U, U <> [] -> (forall x, In x U -> x < p) -> exists k, In k U /\ sink_in E U k.
  Proof.
    intros U NE HU.
    assert (G : forall l, (exists x, In x U /\ In x l) -> exists l1 k l2, l = l1 ++ k :: l2 /\ In k U /\ forall x, In x l2 -> ~ In x U).
    { induction l as [|y l IH]; intros (x & Hx & Hl); [destruct Hl|].
      destruct (existsb (fun z => memb z U) l) eqn:Ex.
      - apply existsb_exists in Ex. destruct Ex as (z & Hz & Mz). apply memb_In in Mz. destruct IH as (l1 & k & l2 & -> & A & B); [eauto|].
        exists (y :: l1), k, l2. split; [reflexivity|]. split; assumption.
      - assert (N : forall z, In z l -> ~ In z U). { intros z Hz Hu. assert (existsb (fun z => memb z U) l = true) by (apply existsb_exists; exists z; split; [exact Hz|apply memb_In; exact Hu]). congruence. }
        destruct Hl as [->|Hl]; [|destruct (N x Hl Hx)]. exists [], x, l. split; [reflexivity|]. split; assumption. }
    destruct U as [|u U]; [congruence|]. destruct (G L) as (l1 & k & l2 & EL & Hk & N).
    - exists u. split; [left; reflexivity|]. apply (is_order_In p L HL). apply HU. left. reflexivity.
    - exists k. split; [exact Hk|]. intros b Hb C. apply HE in C. apply (N b); [|exact Hb].
      destruct C as (m1 & m2 & m3 & EM). pose proof (is_order_NoDup _ _ HL) as ND.
      assert (S : l1 = m1 /\ l2 = m2 ++ b :: m3).
      { rewrite EL in ND. rewrite EL in EM. clear - ND EM. revert m1 EM ND. induction l1 as [|x l1 IH]; intros [|y m1] EM ND; cbn in EM; injection EM; intros.
        - split; [reflexivity|assumption].
        - subst. inversion ND as [|? ? N _]; subst. exfalso. apply N. apply in_or_app. right. left. reflexivity.
        - subst. inversion ND as [|? ? N _]; subst. exfalso. apply N. apply in_or_app. right. left. reflexivity.
        - subst. cbn in ND. inversion ND; subst. destruct (IH m1) as [-> ->]; [assumption|assumption|split; reflexivity]. }
      destruct S as [_ ->]. apply in_or_app. right. left. reflexivity.
  Qed.

  Definition exact_inv (st : list nat * dict * list nat) : Prop :=
    let '(U, pa, pi) := st in NoDup U /\ closed E U /\ (forall x, In x U -> x < p) /\
      forall a b, E a b -> In b pi -> In a U \/ precedes pi a b.
  Lemma exact_loop : forall m U pa pi, m = length U -> U <> [] -> exact_inv (U, pa, pi) ->
    (forall x, In x U -> ~ In x pi) ->
    exists pa' pi', (exists k, order_loop stat m (U, pa, pi) = Ok ([k], pa', pi')) /\ forall a b, E a b -> In b pi' -> precedes pi' a b.
  Proof.
    induction m as [|m IH]; intros U pa pi Lm NE (ND & Cl & Rg & Ed) Dj; [destruct U; [congruence|discriminate]|].
    cbn [order_loop]. destruct U as [|u0 [|u1 U0]]; [congruence| |].
    - cbn in Lm. injection Lm as ->. cbn [order_step bind order_loop]. do 2 eexists. split; [exists u0; reflexivity|].
      intros a b Eab [<-|Hb].
      + exfalso. pose proof (Cl a u0 Eab (or_introl eq_refl)) as [->|[]]. pose proof (HE _ _ Eab) as (m1 & m2 & m3 & EM).
        pose proof (is_order_NoDup _ _ HL) as N. rewrite EM in N. apply NoDup_app_iff' in N. destruct N as (_ & N & _). inversion N as [|? ? W _]; subst. apply W. apply in_or_app. right. left. reflexivity.
      + destruct (Ed a b Eab Hb) as [[<-|[]]|P].
        * apply in_split in Hb. destruct Hb as (m1 & m2 & ->). exists [], m1, m2. reflexivity.
        * destruct P as (m1 & m2 & m3 & ->). exists (u0 :: m1), m2, m3. reflexivity.
    - set (U := u0 :: u1 :: U0) in *. assert (L2 : 2 <= length U) by (unfold U; cbn; lia).
      destruct (order_step_zero stat U pa pi L2 ND) as (k & l1 & l2 & EU & Ez & _ & Est).
      { intros k Hk. destruct (Hs U k ND L2 Cl Rg Hk) as (q & A & B & _). eauto. }
      { destruct (sink_exists U NE Rg) as (k & Hk & Sk). exists k. split; [exact Hk|]. destruct (Hs U k ND L2 Cl Rg Hk) as (q & A & B & C). apply C in Sk. subst q. exact A. }
      rewrite Est. cbn [bind]. assert (Hk : In k U) by (rewrite EU; apply in_or_app; right; left; reflexivity).
      assert (Sk : sink_in E U k). { destruct (Hs U k ND L2 Cl Rg Hk) as (q & A & B & C). apply C. rewrite Ez in A. injection A as <-. reflexivity. }
      pose proof (remove_nat_length k U ND Hk) as Lr. apply IH.
      + lia.
      + intro Z. rewrite Z in Lr. cbn in Lr. lia.
      + split; [apply remove_nat_NoDup; exact ND|]. split; [|split].
        * intros a b Eab Hb. apply remove_nat_In in Hb. destruct Hb as [Hb Nb]. apply remove_nat_In. split; [eapply Cl; eassumption|]. intros ->. exact (Sk b Hb Eab).
        * intros x Hx. apply remove_nat_In in Hx. apply Rg. tauto.
        * intros a b Eab [<-|Hb].
          -- left. apply remove_nat_In. split; [eapply Cl; eassumption|]. intros ->. exact (Sk k Hk Eab).
          -- destruct (Nat.eq_dec a k) as [->|N].
             ++ right. apply in_split in Hb. destruct Hb as (m1 & m2 & ->). exists [], m1, m2. reflexivity.
             ++ destruct (Ed a b Eab Hb) as [Ha|P]; [left; apply remove_nat_In; tauto|]. right. destruct P as (m1 & m2 & m3 & ->). exists (k :: m1), m2, m3. reflexivity.
      + intros x Hx. apply remove_nat_In in Hx. intros [->|Hp]; [tauto|]. apply (Dj x); tauto.
  Qed.
  Lemma exact_order : forall accepts, 0 < p -> exists pi B, resit_fit stat accepts p = Ok (pi, B) /\ is_order p pi /\ topological E pi /\
    forall i j, i < p -> B i j = 1%Qc -> precedes pi j i.
  Proof.
    intros accepts Hp. destruct (resit_shape stat accepts p) as (pi & B & Ef & HO & _ & HB). exists pi, B. split; [exact Ef|]. split; [exact HO|]. split; [|exact HB].
    unfold resit_fit, estimate_order in Ef. destruct (exact_loop p (seq 0 p) no_keys []) as (pa' & pi' & (k & El) & T).
    - rewrite seq_length. reflexivity.
    - destruct p; [lia|discriminate].
    - split; [apply seq_NoDup|]. split; [intros a b Eab _; apply in_seq; destruct (Hr a b Eab); lia|]. split; [intros x Hx; apply in_seq in Hx; lia|intros a b _ []].
    - intros x _ [].
    - rewrite El in Ef. cbn [bind] in Ef. destruct (remove_edges accepts (tl pi') pa'); cbn [bind] in Ef; [|discriminate]. injection Ef as <- _.
      intros a b Eab. apply T; [exact Eab|]. apply (is_order_In p _ HO). destruct (Hr a b Eab). assumption.
  Qed.
End Order.

(** ** Pruning when every test accepts leaves the last parent *)
Lemma prune_accepting : forall accepts t ls z, NoDup (ls ++ [z]) -> (forall Q, Q <> [] -> incl Q (ls ++ [z]) -> NoDup Q -> accepts t Q = true) ->
  prune_parents accepts t (ls ++ [z]) = [z].
Proof.
  intros accepts t ls z ND A. unfold prune_parents. rewrite fold_left_app.
  assert (G : forall l2 l1, l2 <> [] -> NoDup (l1 ++ l2) -> incl (l1 ++ l2) (ls ++ [z]) -> fold_left (prune_one accepts t) l1 (l1 ++ l2) = l2).
  { intros l2. induction l1 as [|x l1 IH]; intros NE N I; [reflexivity|]. cbn [app fold_left]. unfold prune_one at 2.
    cbn [app] in N. inversion N as [|? ? Nx N']; subst.
    assert (Er : remove_nat x (x :: l1 ++ l2) = l1 ++ l2). { unfold remove_nat. cbn [filter]. rewrite Nat.eqb_refl. cbn [negb]. apply (remove_nat_notin x (l1 ++ l2) Nx). }
    rewrite Er. destruct (l1 ++ l2) as [|y r] eqn:Ey; [apply app_eq_nil in Ey; tauto|].
    assert (I' : incl (y :: r) (ls ++ [z])) by (intros w Hw; apply I; rewrite <- Ey in Hw; right; exact Hw).
    rewrite (A (y :: r)) by (try discriminate; assumption). cbn [remove_first]. rewrite Nat.eqb_refl. apply IH; assumption. }
  rewrite G by (try discriminate; try exact ND; apply incl_refl). cbn [fold_left]. unfold prune_one, remove_nat. cbn [filter]. rewrite Nat.eqb_refl. reflexivity.
Qed.
