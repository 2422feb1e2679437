(** * Property theorems: the total effects of RESIT (C211) *)
From Coq Require Import List Arith Bool ZArith QArith Qcanon Lia Permutation Relations.
From Verif Require Import Prelude Spec SpecPaths Lib LibMat ModelPaths ModelBootstrap ModelResit ModelResitBoot ProofBootstrap ProofPaths ProofTotal ProofBootstrap2 ProofResit.
From Verif Require Props_Paths Props_Resit Props_Bootstrap.
Import ListNotations.
Open Scope nat_scope.

Lemma boot_good : forall n d o o', resit_boot_fit n d o = (o', None) ->
  is_order n (fst o') /\ topological (edge_of n (denan (fun i j => Some (snd o' i j)))) (fst o').
Proof.
  intros n d o o' H. unfold resit_boot_fit in H. destruct (resit_fit (fst d) (snd d) n) as [[pi B]|] eqn:E; [|discriminate]. injection H as <-. cbn [fst snd].
  destruct (Props_Resit.C36_resit_acyclic _ _ _ _ _ E) as [_ T]. destruct (resit_shape (fst d) (snd d) n) as (pi' & B' & E' & O & _).
  rewrite E in E'. injection E' as <- <-. split; [exact O|exact T].
Qed.
Lemma walk_one : forall n (B : mat Qc) p, (forall i j, i < n -> B i j = 0%Qc \/ B i j = 1%Qc) ->
  walk (thr_edge n (fun i j => Some (B i j)) 0%Qc) p -> walk_weight_num (fun i j => Some (B i j)) p = Some 1%Qc.
Proof.
  intros n B p H. induction p as [|a [|b p] IH]; intro W; [reflexivity|reflexivity|].
  change (nmul (Some (B b a)) (walk_weight_num (fun i j => Some (B i j)) (b :: p)) = Some 1%Qc). destruct W as [(Ha & Hb & P) W].
  rewrite (IH W). cbn [nan_to_num] in P. destruct (H b a Hb) as [Z|O].
  - rewrite Z in P. exfalso. replace (qabs 0) with 0%Qc in P by reflexivity. apply (Qclt_not_eq _ _ P). reflexivity.
  - rewrite O. reflexivity.
Qed.
Lemma nsum_ones : forall (P : list (list nat)) f, (forall p, In p P -> f p = Some 1%Qc) -> nsum (map f P) = Some (qn (length P)).
Proof.
  intros P f H. induction P as [|p P IH]; [reflexivity|]. cbn [map nsum]. 
  assert (E : nsum (map f P) = Some (qn (length P))) by (apply IH; intros; apply H; right; assumption).
  change (nsum (f p :: map f P)) with (nadd (f p) (nsum (map f P))) || idtac. rewrite (H p (or_introl eq_refl)).
  unfold nsum in *. cbn [fold_right] in *. rewrite E. cbn [nadd]. f_equal. cbn [length]. unfold qn. apply Qc_is_canon. unfold qz, Qcplus. cbn [this Q2Qc]. rewrite !Qred_correct.
  unfold Qeq, inject_Z, Qplus. cbn [Qnum Qden]. rewrite Nat2Z.inj_succ. change (this 1%Qc) with 1%Q. cbn [Qnum Qden]. lia.
Qed.

(** ** C211 *)
(** Every resample gives a matrix of zeros and ones without cycles; the total effect recorded for i <- j is the number of
    directed paths from j to i in that graph. *)
Theorem C211_effects_count_paths_partial : forall n z resample o, (0 < z)%Z ->
  exists o' l, resit_bootstrap n z resample o = (o', Ok l) /\ Z.of_nat (length l) = z /\
    forall B te, In (B, te) l ->
      acyclic (edge_of n (denan B)) /\ (forall i j, i < n -> B i j = Some 0%Qc \/ B i j = Some 1%Qc) /\ (forall i, te i i = Some 0%Qc) /\
      forall i j, i < n -> j < n -> i <> j ->
        exists P, NoDup P /\ (forall p, In p P <-> dpath (edge_of n (denan B)) j i p) /\ te i j = Some (qn (length P)).
Proof.
  intros n z resample o Hz.
  assert (NF : forall d o, snd (resit_boot_fit n d o) = None).
  { intros d o1. unfold resit_boot_fit. destruct (resit_shape (fst d) (snd d) n) as (pi & B & E & _). rewrite E. reflexivity. }
  set (adj := fun o : list nat * mat Qc => fun i j => Some (snd o i j)).
  destruct (bootstrap_loop_total _ _ (resit_boot_fit n) fst adj n (boot_good n) NF (map resample (seq 0 (Z.to_nat z))) o) as (o' & l & E).
  exists o', l. assert (E2 : resit_bootstrap n z resample o = (o', Ok l)) by (unfold resit_bootstrap, bootstrap; rewrite (proj2 (Z.ltb_lt 0 z) Hz); exact E).
  split; [exact E2|]. destruct (bootstrap_loop_agree _ _ (resit_boot_fit n) fst adj n (boot_good n) _ _ _ _ E) as [L A].
  split; [rewrite L, map_length, seq_length; lia|].
  assert (SH : forall Xs o o' l, bootstrap_loop _ _ (resit_boot_fit n) fst adj n Xs o = (o', Ok l) ->
     forall B te, In (B, te) l -> exists B0, B = (fun i j => Some (B0 i j)) /\ (forall i j, i < n -> B0 i j = 0%Qc \/ B0 i j = 1%Qc) /\ acyclic (edge_of n B0)).
  { clear. induction Xs as [|X Xs IH]; intros o o' l H B te I; cbn [bootstrap_loop] in H.
    - inversion H; subst. destruct I.
    - unfold resit_boot_fit at 1 in H. destruct (resit_fit (fst X) (snd X) n) as [[pi B1]|] eqn:F; [|discriminate].
      destruct (total_effects_of n (fst (pi, B1)) (adj (pi, B1))) as [te1|]; [|discriminate].
      destruct (bootstrap_loop _ _ (resit_boot_fit n) fst adj n Xs (pi, B1)) as [o2 [l2|e] ] eqn:E2; [|discriminate].
      inversion H; subst. destruct I as [I|I]; [|apply (IH _ _ _ E2 B te I)]. injection I as <- <-. exists B1. split; [reflexivity|].
      destruct (resit_shape (fst X) (snd X) n) as (pi' & B' & F' & _ & S & _). rewrite F in F'. injection F' as <- <-. split; [exact S|].
      apply (Props_Resit.C36_resit_acyclic _ _ _ _ _ F). }
  intros B te I. destruct (SH _ _ _ _ E B te I) as (B0 & -> & S01 & AC). destruct (A _ I) as [D (T & TI & TE)]. cbn [fst snd] in *.
  split; [exact AC|]. split; [intros i j Hi; destruct (S01 i j Hi) as [Q|Q]; rewrite Q; auto|]. split; [exact D|].
  intros i j Hi Hj N. set (dag := fun i j => Some (B0 i j)) in *.
  destruct (total_effect_spec n dag j i ltac:(lia) Hj Hi ltac:(congruence) AC) as (t & Et & _ & U & _).
  assert (AC2 : acyclic (thr_edge n dag 0%Qc)).
  { intros v C. apply (AC v). revert C. generalize v at 1 3. intros u C. clear - C. induction C as [a b H|a b c _ I1 _ I2]; [apply t_step; apply (proj1 (thr_edge_0 n dag a b)); exact H|eapply t_trans; eassumption]. }
  destruct (Props_Paths.C15_find_all_paths_exact n dag j i 0%Qc Hj ltac:(congruence) AC2) as (P & F & ND & HP).
  assert (WE : forall p, walk (thr_edge n dag 0%Qc) p <-> walk (edge_of n (denan dag)) p).
  { induction p as [|a [|b p] IH]; [tauto|tauto|]. change (walk (thr_edge n dag 0%Qc) (a :: b :: p)) with (thr_edge n dag 0%Qc a b /\ walk (thr_edge n dag 0%Qc) (b :: p)).
    change (walk (edge_of n (denan dag)) (a :: b :: p)) with (edge_of n (denan dag) a b /\ walk (edge_of n (denan dag)) (b :: p)). rewrite IH, thr_edge_0. tauto. }
  exists P. split; [exact ND|]. split.
  - intro p. rewrite HP. unfold dpath, walk_from_to. rewrite WE. tauto.
  - rewrite (TE i j Hi Hj N), <- (U T TI). rewrite <- (nsum_ones P (walk_weight_num dag)).
    + unfold calculate_total_effect in Et. destruct (n <? 2) eqn:N2; [discriminate|]. destruct (n <=? j) eqn:N3; [discriminate|].
      destruct (n <=? i) eqn:N4; [discriminate|]. destruct (j =? i) eqn:N5; [discriminate|]. rewrite F in Et. cbn [bind fst snd] in Et.
      destruct (forallb (nodes_continuous None) P); [|discriminate]. injection Et as Et. symmetry. exact Et.
    + intros p Ip. apply HP in Ip. destruct Ip as [(_ & _ & _ & W) _]. apply (walk_one n B0 p S01 W).
Qed.
(** estimate_total_effect of RESIT is always zero, as documented.  The bootstrap disagrees in every resample: there is a
    variable that is recorded as having a positive effect on every other one. *)
Theorem C211_effects_agree_refuted : forall n z resample o, (0 < z)%Z -> 2 <= n ->
  exists o' l, resit_bootstrap n z resample o = (o', Ok l) /\ Z.of_nat (length l) = z /\
    forall B te, In (B, te) l -> exists root, root < n /\ forall v, v < n -> v <> root ->
      exists k, 0 < k /\ te v root = Some (qn k) /\ te v root <> resit_estimate_total_effect root v.
Proof.
  intros n z resample o Hz Hn. destruct (C211_effects_count_paths_partial n z resample o Hz) as (o' & l & E & L & H). exists o', l. split; [exact E|]. split; [exact L|].
  intros B te I. destruct (H B te I) as (AC & S01 & D & CNT).
  assert (SH : forall Xs o o' l, bootstrap_loop _ _ (resit_boot_fit n) fst (fun o i j => Some (snd o i j)) n Xs o = (o', Ok l) ->
     forall B te, In (B, te) l -> exists pi B0, B = (fun i j => Some (B0 i j)) /\ is_order n pi /\
        (forall l1 v l2, pi = l1 ++ v :: l2 -> l1 <> [] -> exists j, In j l1 /\ B0 v j = 1%Qc)).
  { clear. induction Xs as [|X Xs IH]; intros o o' l H B te I; cbn [bootstrap_loop] in H.
    - inversion H; subst. destruct I.
    - unfold resit_boot_fit at 1 in H. destruct (resit_fit (fst X) (snd X) n) as [[pi B1]|] eqn:F; [|discriminate].
      destruct (total_effects_of n (fst (pi, B1)) _) as [te1|]; [|discriminate].
      destruct (bootstrap_loop _ _ (resit_boot_fit n) fst _ n Xs (pi, B1)) as [o2 [l2|e] ] eqn:E2; [|discriminate].
      inversion H; subst. destruct I as [I|I]; [|apply (IH _ _ _ E2 B te I)]. injection I as <- <-. exists pi, B1. split; [reflexivity|].
      destruct (resit_shape (fst X) (snd X) n) as (pi' & B' & F' & O & _). rewrite F in F'. injection F' as <- <-. split; [exact O|].
      exact (Props_Resit.C37_every_later_variable_keeps_a_parent_refuted _ _ _ _ _ F). }
  unfold resit_bootstrap, bootstrap in E. rewrite (proj2 (Z.ltb_lt 0 z) Hz) in E. destruct (SH _ _ _ _ E B te I) as (pi & B0 & -> & O & KP). clear SH E.
  assert (PM : Permutation pi (seq 0 n)) by exact O. destruct pi as [|root pi]; [apply Permutation_length in PM; rewrite seq_length in PM; cbn in PM; lia|].
  assert (ND : NoDup (root :: pi)) by (apply (Permutation_NoDup (Permutation_sym PM)), seq_NoDup).
  assert (BD : forall v, In v (root :: pi) <-> v < n) by (intro v; split; intro Q; [apply (Permutation_in _ PM) in Q; apply in_seq in Q; lia|apply (Permutation_in _ (Permutation_sym PM)); apply in_seq; lia]).
  exists root. split; [apply BD; left; reflexivity|].
  set (G := edge_of n (denan (fun i j => Some (B0 i j)))) in *.
  assert (ANC : forall m l1 v l2, length l1 <= m -> root :: pi = l1 ++ v :: l2 -> v <> root -> clos_trans nat G root v).
  { induction m as [|m IH]; intros l1 v l2 Lm Eq Nv.
    - destruct l1; [|cbn in Lm; lia]. cbn in Eq. congruence.
    - assert (NE : l1 <> []) by (intros ->; cbn in Eq; congruence). destruct (KP l1 v l2 Eq NE) as (j & Ij & Bj).
      assert (Hv : v < n) by (apply BD; rewrite Eq; apply in_or_app; right; left; reflexivity).
      assert (Hj : j < n) by (apply BD; rewrite Eq; apply in_or_app; left; exact Ij).
      assert (Ed : G j v) by (split; [exact Hv|split; [exact Hj|] ]; unfold denan; cbn; rewrite Bj; discriminate).
      destruct (Nat.eq_dec j root) as [->|Nj]; [apply t_step; exact Ed|].
      apply in_split in Ij. destruct Ij as (a & b & ->). apply (t_trans _ _ root j v); [|apply t_step; exact Ed].
      apply (IH a j (b ++ v :: l2)); [rewrite app_length in Lm; cbn in Lm; lia|rewrite Eq, <- app_assoc; reflexivity|exact Nj]. }
  intros v Hv Nv. assert (Iv : In v (root :: pi)) by (apply BD; exact Hv). apply in_split in Iv. destruct Iv as (l1 & l2 & Eq).
  pose proof (ANC (length l1) l1 v l2 (le_n _) Eq Nv) as CT.
  destruct (CNT v root Hv ltac:(apply BD; left; reflexivity) Nv) as (P & NDP & HP & TE).
  assert (EX : exists p, dpath G root v p).
  { clear - CT AC. apply clos_trans_t1n in CT.
    assert (W : forall a b, clos_trans_1n nat G a b -> exists p, walk_from_to G a b p /\ forall x, In x p -> x = a \/ clos_trans nat G a x).
    { clear. intros a b C. induction C as [a b H|a b c H C IH].
      - exists [a; b]. split; [split; [reflexivity|split; [reflexivity|split; [discriminate|split; [exact H|exact I] ] ] ]|].
        intros x [<-|[<-|[] ] ]; [left; reflexivity|right; apply t_step; exact H].
      - destruct IH as (p & (Hd & La & NE & W) & R). destruct p as [|b' p]; [contradiction|]. injection Hd as ->.
        exists (a :: b :: p). split; [split; [reflexivity|split; [|split; [discriminate|split; [exact H|exact W] ] ] ]|].
        + rewrite <- La. clear. revert a b. induction p as [|x p IHp]; intros a b; [reflexivity|]. change (last (b :: x :: p) a = last (x :: p) b). cbn [last] in *. destruct p; [reflexivity|]. apply IHp.
        + intros x [<-|Hx]; [left; reflexivity|]. right. destruct (R x Hx) as [->|Q]; [apply t_step; exact H|eapply t_trans; [apply t_step; exact H|exact Q] ]. }
    destruct (W _ _ CT) as (p & Wp & _). exists p. split; [exact Wp|]. destruct Wp as (_ & _ & _ & Wk). clear - Wk AC.
    induction p as [|a p IH]; [constructor|].
    assert (T : forall q c, walk G (c :: q) -> forall x, In x q -> clos_trans nat G c x).
    { clear. induction q as [|b q IHq]; intros c Wc x Hx; [destruct Hx|]. destruct Wc as [H1 H2]. destruct Hx as [<-|Hx]; [apply t_step; exact H1|].
      eapply t_trans; [apply t_step; exact H1|apply (IHq b H2 x Hx)]. }
    constructor; [intro Q; apply (AC a); apply (T p a Wk a Q)|]. apply IH. destruct p; [exact I|]. apply Wk. }
  exists (length P). assert (LP : 0 < length P) by (destruct EX as (p & Dp); apply HP in Dp; destruct P; [destruct Dp|cbn; lia]).
  split; [exact LP|]. split; [exact TE|]. rewrite TE. unfold resit_estimate_total_effect. intro Q.
  assert (Q1 : qn (length P) = 0%Qc) by congruence. pose proof (proj2 (qn_lt 0 (length P)) LP) as Q2. rewrite Q1 in Q2. apply (Qclt_not_eq _ _ Q2). reflexivity.
Qed.

(** Two resamples of three variables: all tests reject, so all three edges stay: two paths from the first to the last. *)
Definition ex_data (k : nat) : resit_data := ((fun ps k => Some (qn (3 - k))), fun _ _ => false).
Example C211_example :
  match snd (resit_bootstrap 3 2 ex_data ([], fun _ _ => 0%Qc)) with
  | Ok [(B1, te1); (B2, te2)] => te1 2 0 = Some (qz 2) /\ te1 1 0 = Some 1%Qc /\ te2 2 1 = Some 1%Qc /\ te2 0 2 = Some 0%Qc
  | _ => False end.
Proof. vm_compute. repeat split; f_equal; apply Qc_is_canon; reflexivity. Qed.
Print Assumptions C211_effects_count_paths_partial.
Print Assumptions C211_effects_agree_refuted.
