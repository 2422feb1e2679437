From Coq Require Import List Arith Lia Bool ZArith QArith Qcanon Permutation Sorted.
From Verif Require Import Prelude Spec Lib SpecDirect ModelDirect ProofDirect ProofDirect2 ModelParce ProofParce SpecParce.
Import ListNotations.
Open Scope nat_scope.

Lemma sorted_filter : forall (p : nat -> bool) l, StronglySorted lt l -> StronglySorted lt (filter p l).
Proof.
  intros p l S. induction S as [|x l S IH F]; [constructor|]. cbn [filter]. destruct (p x); [|exact IH]. constructor; [exact IH|].
  rewrite Forall_forall in *. intros y I. apply filter_In in I. apply F. tauto.
Qed.
Lemma sorted_seq : forall n a, StronglySorted lt (seq a n).
Proof.
  induction n as [|n IH]; intro a; [constructor|]. cbn [seq]. constructor; [apply IH|].
  apply Forall_forall. intros x I. apply in_seq in I. lia.
Qed.
Lemma sorted_nodup : forall l, StronglySorted lt l -> NoDup l.
Proof.
  induction l as [|x l IH]; intro S; [constructor|]. inversion S as [|? ? S' F]; subst. constructor; [|apply IH; exact S'].
  intro I. rewrite Forall_forall in F. specialize (F x I). lia.
Qed.

Lemma fold_max_nonneg : forall (g : nat -> Qc) l, (0 <= fold_right (fun i m => if Qclt_le_dec m (g i) then g i else m) 0 l)%Qc.
Proof.
  intros g l. induction l as [|a l IH]; [apply Qcle_refl|]. cbn [fold_right].
  destruct (Qclt_le_dec _ _) as [B|B]; [|exact IH]. apply Qclt_le_weak. eapply Qcle_lt_trans; eassumption.
Qed.
Section Exact.
  Variables (hsic2 : nat -> list nat -> nat -> num * num) (fcorr : nat -> list nat -> nat -> num)
    (m2log : Qc -> Qc) (sf : ext -> nat -> num) (thr ind_corr : Qc) (mode : indep).
  Variables (st pv fc : nat -> list nat -> nat -> Qc).
  Hypothesis fin_h : mode = Hsic -> forall t ps i, hsic2 t ps i = (Some (st t ps i), Some (pv t ps i)) /\
    pv t ps i <> 0%Qc /\ (0 <= m2log (pv t ps i))%Qc.
  Hypothesis fin_f : mode = Fcorr -> forall t ps i, fcorr t ps i = Some (fc t ps i).
  Lemma mode_cases : mode = Hsic \/ mode = Fcorr.
  Proof. destruct mode; auto. Qed.
  Notation find_exo := (find_exo_vec hsic2 fcorr m2log sf mode).
  Notation step := (exo_step hsic2 fcorr m2log sf mode).
  Notation search := (search_order hsic2 fcorr m2log sf thr ind_corr mode).
  Definition stat_of : list nat -> nat -> Qc :=
    match mode with Hsic => hsic_stat_of st pv m2log | Fcorr => fcorr_of fc end.
  Definition accepts (T : list nat) (j : nat) : Prop :=
    match mode with
    | Hsic => forall p, hsic_p_of st pv m2log (fun s => sf (Fin s)) T j = Some p -> ~ (p < thr)%Qc
    | Fcorr => (fcorr_of fc T j < ind_corr)%Qc
    end.
  (** The value the search records for [j] tested in [T]. *)
  Definition eval_of (T : list nat) (j : nat) : ext :=
    match mode with
    | Hsic => ext_of (hsic_p_of st pv m2log (fun s => sf (Fin s)) T j)
    | Fcorr => Fin (fcorr_of fc T j)
    end.
  Lemma reject_iff : forall T j, is_reject thr ind_corr mode (eval_of T j) = true <-> ~ accepts T j.
  Proof.
    intros T j. unfold is_reject, eval_of, accepts. destruct mode.
    - destruct (hsic_p_of _ _ _ _ T j) as [p|]; cbn [ext_of ext_lt].
      + rewrite qltb_lt. split; [intros H K; exact (K p eq_refl H)|]. intro H. destruct (Qclt_le_dec p thr) as [L|L]; [exact L|].
        exfalso. apply H. intros q E. inversion E; subst. apply Qcle_not_lt. exact L.
      + split; [discriminate|]. intro H. exfalso. apply H. discriminate.
    - cbn [ext_ge]. unfold qleb. rewrite negb_true_iff, qltb_nlt. split; [apply Qcle_not_lt|apply Qcnot_lt_le].
  Qed.

  Lemma fisher_loop_sum : mode = Hsic -> forall t ps mx is s,
    exists s', fisher_loop hsic2 m2log t ps mx (Fin s) is = Fin s' /\
      let total := (s + sumf is (fun i => m2log (pv t ps i)))%Qc in
      (s' = total \/ exists m, mx = Fin m /\ (m < s')%Qc /\ (s' <= total)%Qc).
  Proof.
    intros Hm t ps mx. induction is as [|i is IH]; intro s; cbv zeta.
    - exists s. split; [reflexivity|]. left. rewrite sumf_nil. ring.
    - cbn [fisher_loop]. destruct (fin_h Hm t ps i) as [E [Np P]]. rewrite E. cbn [snd].
      rewrite (proj2 (qeqb_neq _ _) Np). cbn [ext_plus]. rewrite sumf_cons.
      destruct (ext_lt mx (Fin (s + m2log (pv t ps i))%Qc)) eqn:L.
      + eexists. split; [reflexivity|]. right. destruct mx as [m| |]; try discriminate. cbn in L. apply qltb_lt in L.
        exists m. split; [reflexivity|]. split; [exact L|].
        assert (G : (0 <= sumf is (fun i => m2log (pv t ps i)))%Qc).
        { clear IH. induction is as [|a is IH]; [rewrite sumf_nil; apply Qcle_refl|]. rewrite sumf_cons.
          destruct (fin_h Hm t ps a) as [_ [_ Pa]]. set (u := m2log (pv t ps a)) in *. set (w := sumf is _) in *. qclra. }
        set (u := m2log (pv t ps i)) in *. set (w := sumf is _) in *. qclra.
      + destruct (IH (s + m2log (pv t ps i))%Qc) as [s' [E' H]]. exists s'. split; [exact E'|]. cbv zeta in H.
        rewrite Qcplus_assoc. exact H.
  Qed.
  (** The test of [j] against the rest of [T] with the bound [mx]. *)
  Lemma fisher_test_exact : mode = Hsic -> forall T j mx,
    let r := fisher_hsic_test hsic2 m2log sf j (setdiff T [j]) mx in
    (r = (eval_of T j, Fin (stat_of T j))) \/
    (exists m s', mx = Fin m /\ snd r = Fin s' /\ (m < s')%Qc /\ (m < stat_of T j)%Qc).
  Proof.
    intros Hm T j mx r. unfold r, fisher_hsic_test, eval_of, stat_of. rewrite Hm. rewrite setdiff_single.
    change (remove_nat j T) with (without j T). unfold hsic_p_of, hsic_stat_of.
    destruct (without j T) as [|i [|i' ps]] eqn:W.
    - left. cbn [fisher_loop length]. rewrite sumf_nil. reflexivity.
    - left. destruct (fin_h Hm j [i] i) as [E _]. rewrite E. reflexivity.
    - destruct (fisher_loop_sum Hm j (i :: i' :: ps) mx (i :: i' :: ps) 0%Qc) as [s' [E H]]. cbv zeta in H.
      rewrite E. rewrite Qcplus_0_l in H. destruct H as [->|[m [Em [L1 L2]]]]; [left; reflexivity|].
      right. exists m, s'. split; [exact Em|]. split; [reflexivity|]. split; [exact L1|]. eapply Qclt_le_trans; eassumption.
  Qed.
  Lemma fcorr_exact : mode = Fcorr -> forall T j, f_correlation fcorr j (setdiff T [j]) = Fin (fcorr_of fc T j).
  Proof.
    intros Hm T j. unfold f_correlation, fcorr_of. rewrite setdiff_single. change (remove_nat j T) with (without j T).
    assert (G : forall ps0 is s, fold_left (fun mx i => let c := ext_of (fcorr j ps0 i) in if ext_lt mx c then c else mx) is (Fin s) =
      Fin (let r := fold_right (fun i m => if Qclt_le_dec m (fc j ps0 i) then fc j ps0 i else m) 0%Qc is in
           match is with [] => s | _ => if Qclt_le_dec s r then r else s end) \/ (s < 0)%Qc).
    { intros ps0 is. induction is as [|i is IH]; intro s; [left; reflexivity|]. cbn [fold_left fold_right].
      rewrite (fin_f Hm). cbn [ext_of ext_lt]. cbv zeta.
      destruct (Qclt_le_dec s 0) as [|S0]; [right; assumption|]. left.
      set (r := fold_right _ 0%Qc is) in *.
      destruct (qltb s (fc j ps0 i)) eqn:L.
      - apply qltb_lt in L. destruct (IH (fc j ps0 i)) as [E|E]; [|exfalso; qclra]. cbv zeta in E. rewrite E. fold r. f_equal.
        destruct is as [|i' is]; [cbn [fold_right] in r; subst r|].
        + destruct (Qclt_le_dec 0 (fc j ps0 i)) as [A|A]; [|exfalso; qclra].
          destruct (Qclt_le_dec s (fc j ps0 i)) as [B|B]; [reflexivity|exfalso; qclra].
        + destruct (Qclt_le_dec r (fc j ps0 i)) as [A|A]; destruct (Qclt_le_dec (fc j ps0 i) r) as [B|B].
          * exfalso; qclra.
          * destruct (Qclt_le_dec s (fc j ps0 i)) as [C|C]; [reflexivity|exfalso; qclra].
          * destruct (Qclt_le_dec s r) as [C|C]; [reflexivity|exfalso; qclra].
          * assert (Z : fc j ps0 i = r) by (apply Qcle_antisym; assumption). rewrite Z in *.
            destruct (Qclt_le_dec s r) as [C|C]; [reflexivity|exfalso; qclra].
      - apply qltb_nlt in L. destruct (IH s) as [E|E]; [|exfalso; qclra]. cbv zeta in E. rewrite E. fold r. f_equal.
        destruct is as [|i' is]; [cbn [fold_right] in r; subst r|].
        + destruct (Qclt_le_dec 0 (fc j ps0 i)) as [A|A].
          * destruct (Qclt_le_dec s (fc j ps0 i)) as [B|B]; [exfalso; qclra|reflexivity].
          * destruct (Qclt_le_dec s 0) as [B|B]; [exfalso; qclra|reflexivity].
        + destruct (Qclt_le_dec r (fc j ps0 i)) as [A|A]; destruct (Qclt_le_dec s r) as [B|B]; try reflexivity.
          * exfalso; qclra.
          * destruct (Qclt_le_dec s (fc j ps0 i)) as [C|C]; [exfalso; qclra|reflexivity]. }
    destruct (without j T) as [|i [|i' ps]]; [reflexivity|rewrite (fin_f Hm); reflexivity|].
    destruct (G (i :: i' :: ps) (i :: i' :: ps) 0%Qc) as [E|E]; [|discriminate]. etransitivity; [exact E|]. cbv zeta. f_equal.
    set (r := fold_right _ 0%Qc (i :: i' :: ps)).
    destruct (Qclt_le_dec 0 r) as [|A]; [reflexivity|].
    assert (0 <= r)%Qc.
    { apply (fold_max_nonneg (fun i0 => fc j (i :: i' :: ps) i0)). }
    apply Qcle_antisym; assumption.
  Qed.
  (** [j] is best among the processed candidates [L]. *)
  Definition best_of (Uc L : list nat) (j : nat) : Prop :=
    In j L /\ forall i, In i L -> (i < j -> (stat_of Uc j < stat_of Uc i)%Qc) /\ (j < i -> (stat_of Uc j <= stat_of Uc i)%Qc).
  Definition exo_state (Uc L : list nat) (s : list nat * ext * ext) : Prop :=
    match L with
    | [] => s = ([], PInf, PInf)
    | _ => exists j, best_of Uc L j /\ fst (fst s) = setdiff Uc [j] /\ snd (fst s) = eval_of Uc j /\
             (mode = Hsic -> snd s = Fin (stat_of Uc j))
    end.
  Lemma best_extend_new : forall Uc L j x, best_of Uc L j -> (forall i, In i L -> i < x) -> (stat_of Uc x < stat_of Uc j)%Qc ->
    best_of Uc (L ++ [x]) x.
  Proof.
    intros Uc L j x [I H] Lx S. split; [apply in_or_app; right; left; reflexivity|]. intros i Hi. apply in_app_or in Hi.
    destruct Hi as [Hi|[<-|[]]]; [|lia]. specialize (Lx i Hi). split; [intros _|lia].
    destruct (H i Hi) as [H1 H2]. destruct (lt_eq_lt_dec i j) as [[A| ->]|A]; [|exact S|].
    - specialize (H1 A). eapply Qclt_trans; eassumption.
    - specialize (H2 A). eapply Qclt_le_trans; eassumption.
  Qed.
  Lemma best_extend_old : forall Uc L j x, best_of Uc L j -> (forall i, In i L -> i < x) -> ~ (stat_of Uc x < stat_of Uc j)%Qc ->
    best_of Uc (L ++ [x]) j.
  Proof.
    intros Uc L j x [I H] Lx S. apply Qcnot_lt_le in S. split; [apply in_or_app; left; exact I|]. intros i Hi. apply in_app_or in Hi.
    destruct Hi as [Hi|[<-|[]]]; [apply H; exact Hi|]. specialize (Lx j I). split; [lia|intros _; exact S].
  Qed.
  Lemma exo_fold_exact : forall Uc L, StronglySorted lt L -> exo_state Uc L (fold_left (step Uc) L ([], PInf, PInf)).
  Proof.
    intros Uc L. induction L as [|x L IH] using rev_ind; intro SS; [reflexivity|].
    rewrite fold_left_app. cbn [fold_left].
    assert (SL : StronglySorted lt L /\ forall i, In i L -> i < x).
    { clear IH. induction L as [|a L IH]; [split; [constructor|intros i []]|]. cbn in SS. inversion SS as [|? ? S' F]; subst.
      destruct (IH S') as [A B]. rewrite Forall_forall in F. split.
      - constructor; [exact A|]. apply Forall_forall. intros y Hy. apply F. apply in_or_app. left. exact Hy.
      - intros i [<-|Hi]; [apply F; apply in_or_app; right; left; reflexivity|apply B; exact Hi]. }
    destruct SL as [SL Lx]. specialize (IH SL).
    destruct (fold_left (step Uc) L ([], PInf, PInf)) as [[exo ev] mx] eqn:F.
    assert (NE : exists y r, L ++ [x] = y :: r) by (destruct L; [exists x, []|eexists; eexists]; reflexivity).
    assert (T : forall s, (exists j, best_of Uc (L ++ [x]) j /\ fst (fst s) = setdiff Uc [j] /\ snd (fst s) = eval_of Uc j /\
             (mode = Hsic -> snd s = Fin (stat_of Uc j))) -> exo_state Uc (L ++ [x]) s).
    { intros s H. destruct NE as [y [r E]]. unfold exo_state. rewrite E in *. exact H. }
    apply T. clear T NE.
    destruct L as [|l0 L0] eqn:EL.
    - (* first candidate *)
      cbn [exo_state] in IH. inversion IH; subst exo ev mx. exists x.
      assert (BX : best_of Uc ([] ++ [x]) x) by (split; [left; reflexivity|intros i [<-|[]]; lia]).
      split; [exact BX|]. unfold exo_step. destruct mode_cases as [Hm|Hm]; rewrite Hm.
      + destruct (fisher_test_exact Hm Uc x PInf) as [E|[m [s' [E _]]]]; [|discriminate].
        rewrite E. cbn [ext_lt fst snd]. split; [reflexivity|]. split; [reflexivity|]. reflexivity.
      + rewrite (fcorr_exact Hm). cbn [ext_lt fst snd]. split; [reflexivity|].
        split; [unfold eval_of; rewrite Hm; reflexivity|discriminate].
    - rewrite <- EL in *. assert (IH' : exists j, best_of Uc L j /\ exo = setdiff Uc [j] /\ ev = eval_of Uc j /\ (mode = Hsic -> mx = Fin (stat_of Uc j))).
      { unfold exo_state in IH. rewrite EL in IH. rewrite EL. exact IH. }
      clear IH. destruct IH' as [j [Bj [-> [-> Hmx]]]]. unfold exo_step. destruct mode_cases as [Hm|Hm]; rewrite Hm.
      + rewrite (Hmx Hm).
        assert (KEEP : ~ (stat_of Uc x < stat_of Uc j)%Qc -> exists j0, best_of Uc (L ++ [x]) j0 /\ setdiff Uc [j] = setdiff Uc [j0] /\
                  eval_of Uc j = eval_of Uc j0 /\ (Hsic = Hsic -> Fin (stat_of Uc j) = Fin (stat_of Uc j0))).
        { intro N. exists j. split; [apply best_extend_old; assumption|auto]. }
        destruct (fisher_test_exact Hm Uc x (Fin (stat_of Uc j))) as [E|[m [s' [E1 [E2 [E3 E4]]]]]].
        * rewrite E. cbn [ext_lt]. destruct (qltb (stat_of Uc x) (stat_of Uc j)) eqn:Q.
          -- apply qltb_lt in Q. exists x. split; [eapply best_extend_new; eassumption|]. cbn [fst snd]. auto.
          -- apply qltb_nlt, Qcle_not_lt in Q. cbn [fst snd]. apply KEEP. exact Q.
        * inversion E1; subst m. destruct (fisher_hsic_test hsic2 m2log sf x (setdiff Uc [x]) (Fin (stat_of Uc j))) as [p s].
          cbn [snd] in E2. subst s. cbn [ext_lt].
          assert (Q : qltb s' (stat_of Uc j) = false) by (apply qltb_nlt, Qclt_le_weak; exact E3).
          rewrite Q. cbn [fst snd]. apply KEEP. apply Qcle_not_lt, Qclt_le_weak. exact E4.
      + rewrite (fcorr_exact Hm). assert (EE : forall y, eval_of Uc y = Fin (stat_of Uc y)) by (intro y; unfold eval_of, stat_of; rewrite Hm; reflexivity).
        assert (ES : fcorr_of fc Uc x = stat_of Uc x) by (unfold stat_of; rewrite Hm; reflexivity).
        rewrite ES, EE. cbn [ext_lt]. destruct (qltb (stat_of Uc x) (stat_of Uc j)) eqn:Q.
        * apply qltb_lt in Q. exists x. split; [eapply best_extend_new; eassumption|]. cbn [fst snd]. rewrite EE. split; [reflexivity|]. split; [reflexivity|discriminate].
        * apply qltb_nlt, Qcle_not_lt in Q. exists j. split; [apply best_extend_old; assumption|]. cbn [fst snd]. rewrite EE. split; [reflexivity|]. split; [reflexivity|discriminate].
  Qed.
  Lemma find_exo_exact : forall Uc U, StronglySorted lt Uc -> Uc <> [] ->
    exists j, find_exo Uc U = ([j], eval_of (if length Uc =? 1 then U else Uc) j) /\ In j Uc /\
      forall i, In i Uc -> let T := if length Uc =? 1 then U else Uc in
        (i < j -> (stat_of T j < stat_of T i)%Qc) /\ (j < i -> (stat_of T j <= stat_of T i)%Qc).
  Proof.
    intros Uc U SS NE. destruct Uc as [|c [|c' W]]; [congruence| |].
    - exists c. cbn [length Nat.eqb find_exo_vec]. split.
      + f_equal. destruct mode_cases as [Hm|Hm]; rewrite Hm.
        * destruct (fisher_test_exact Hm U c PInf) as [E|[m [s' [E _]]]]; [|discriminate]. rewrite E. reflexivity.
        * rewrite (fcorr_exact Hm). unfold eval_of. rewrite Hm. reflexivity.
      + split; [left; reflexivity|]. intros i [<-|[]]. cbv zeta. lia.
    - set (V := c :: c' :: W) in *. assert (H := exo_fold_exact V V SS). unfold exo_state in H. unfold V in H at 1.
      destruct H as [j [[Hj Bj] [H1 [H2 _]]]]. exists j. change (length V =? 1) with false. cbv iota.
      split; [|split; [exact Hj|]].
      + unfold find_exo_vec. unfold V at 1. fold V. change (match V with [] => _ | _ => _ end) with (let '(exo, ev, _) := fold_left (step V) V ([], PInf, PInf) in (setdiff V exo, ev)) || idtac.
        destruct (fold_left (step V) V ([], PInf, PInf)) as [[exo ev] mx]. cbn [fst snd] in H1, H2. subst exo ev.
        rewrite setdiff_setdiff; [reflexivity|apply sorted_nodup; exact SS|exact Hj].
      + intros i Hi. cbv zeta. apply Bj. exact Hi.
  Qed.
  Lemma candidates_iff : forall po U x, In x (parce_candidates po U) <-> In x U /\ forall t, ~ In (x, t) (po_list po).
  Proof.
    intros po U x. split; [apply candidates_In|]. intros [H N]. destruct po as [[|p l]|]; cbn [parce_candidates]; try exact H.
    apply filter_In. split; [exact H|]. apply negb_true_iff, memb_notIn. intro M. apply in_map_iff in M.
    destruct M as [[f t] [E M]]. cbn in E. subst f. exact (N t M).
  Qed.
  Lemma candidates_sorted : forall po U, StronglySorted lt U -> StronglySorted lt (parce_candidates po U).
  Proof. intros po U H. destruct po as [[|p l]|]; cbn [parce_candidates]; try assumption. apply sorted_filter. exact H. Qed.

  Lemma search_exact : forall fuel n po0 po U K K' (before : nat -> nat -> Prop),
    (forall U, 2 <= length U -> NoDup U -> (forall x, In x U -> x < n) -> exists x, In x U /\ forall t, In t U -> ~ In (x, t) po0) ->
    (forall a b, In (a, b) po0 <-> a < n /\ b < n /\ before a b) ->
    sinv n po0 po U K -> StronglySorted lt U -> search fuel po U K = Ok K' ->
    exists L, K' = L ++ K /\ bottom_up stat_of accepts before U L.
  Proof.
    induction fuel as [|fuel IH]; intros n po0 po U K K' before C BF I SU E; [discriminate|].
    cbn [search_order] in E. assert (I' := I). destruct I' as [HO [HL [HB [H1 H2]]]].
    assert (ND := is_order_NoDup _ _ HO). apply NoDup_app_iff' in ND. destruct ND as [NDU [_ D]].
    assert (BU : forall x, In x U -> x < n) by (intros x Hx; apply (is_order_In _ _ HO); apply in_or_app; tauto).
    assert (CI : forall x, In x (parce_candidates po U) <-> In x U /\ forall k, In k U -> ~ before x k).
    { intro x. rewrite candidates_iff. split; intros [A B]; (split; [exact A|]).
      - intros k Hk Bk. apply (B k). apply H1. split; [apply BF; auto|exact Hk].
      - intros t Ht. apply H1 in Ht. destruct Ht as [Ht1 Ht2]. apply BF in Ht1. apply (B t Ht2). tauto. }
    assert (NE : parce_candidates po U <> []).
    { destruct (C U HL NDU BU) as [x [Hx Hs]]. intro Z. assert (In x (parce_candidates po U)) as Q; [|rewrite Z in Q; destruct Q].
      apply CI. split; [exact Hx|]. intros k Hk Bk. apply (Hs k Hk). apply BF. auto. }
    destruct (find_exo_exact (parce_candidates po U) U (candidates_sorted po U SU) NE) as [j [EF [Hj Bj]]].
    rewrite EF in E. set (T := if length (parce_candidates po U) =? 1 then U else parce_candidates po U) in *.
    assert (CH : chosen_sink stat_of before U T j).
    { exists (parce_candidates po U). split; [exact CI|]. split; [apply candidates_sorted; exact SU|]. split; [reflexivity|]. split; [exact Hj|exact Bj]. }
    destruct (is_reject thr ind_corr mode (eval_of T j)) eqn:R.
    - inversion E; subst. exists []. split; [reflexivity|]. apply (bu_reject _ _ _ U T j CH). apply reject_iff. exact R.
    - assert (AC : accepts T j).
      { unfold accepts. destruct mode_cases as [Hm|Hm]; rewrite Hm in R |- *.
        - intros p Hp Lp. assert (is_reject thr ind_corr Hsic (eval_of T j) = true); [|congruence].
          unfold eval_of. rewrite Hm, Hp. cbn. apply qltb_lt. exact Lp.
        - unfold eval_of in R. rewrite Hm in R. cbn in R. unfold qleb in R.
          apply negb_false_iff, qltb_lt in R. exact R. }
      cbn [drop_ne bind] in E. fold (remove_nat j U) in E.
      set (po' := match po with None => None | Some l => Some (filter (fun p : nat * nat => negb (snd p =? j)) l) end) in *.
      assert (E' : (if length (remove_nat j U) <=? 1 then Ok (remove_nat j U ++ j :: K) else search fuel po' (remove_nat j U) (j :: K)) = Ok K') by (destruct po; exact E).
      clear E. assert (HjU : In j U) by (apply CI in Hj; tauto). pose proof (remove_nat_length j U NDU HjU) as LU.
      destruct (length (remove_nat j U) <=? 1) eqn:EL.
      + apply Nat.leb_le in EL. inversion E'; subst K'. destruct (remove_nat j U) as [|i [|]] eqn:RU; cbn in LU, EL; try lia.
        exists [i; j]. split; [reflexivity|]. apply (bu_last _ _ _ U T j i CH AC). exact RU.
      + apply Nat.leb_gt in EL. destruct (IH n po0 po' (remove_nat j U) (j :: K) K' before C BF) as [L [EK BU']].
        * eapply (sinv_step_single hsic2 fcorr m2log thr); [exact I|exact Hj| |exact EL]. destruct po; reflexivity.
        * apply sorted_filter. exact SU.
        * exact E'.
        * exists (L ++ [j]). split; [rewrite <- app_assoc; exact EK|]. apply (bu_step _ _ _ U T j L CH AC); [exact EL|exact BU'].
  Qed.
End Exact.
