(** * Proofs about BottomUpParceLiNGAM *)
From Coq Require Import List Arith Lia Bool ZArith QArith Qcanon Permutation.
From Verif Require Import Prelude Spec Lib SpecDirect ModelDirect ProofDirect ProofDirect2 ModelParce.
Import ListNotations.
Open Scope nat_scope.

Lemma setdiff_In : forall a b x, In x (setdiff a b) <-> In x a /\ ~ In x b.
Proof. intros a b x. unfold setdiff. rewrite filter_In, negb_true_iff, memb_notIn. tauto. Qed.
Lemma setdiff_NoDup : forall a b, NoDup a -> NoDup (setdiff a b).
Proof. intros. apply NoDup_filter. assumption. Qed.
Lemma setdiff_single : forall a v, setdiff a [v] = remove_nat v a.
Proof.
  intros a v. unfold setdiff, remove_nat. apply filter_ext. intro x. simpl. rewrite orb_false_r. reflexivity.
Qed.
Lemma setdiff_nil : forall a, setdiff a [] = a.
Proof. induction a as [|x a IH]; [reflexivity|]. unfold setdiff in *. simpl. f_equal. exact IH. Qed.
Lemma setdiff_setdiff : forall U v, NoDup U -> In v U -> setdiff U (setdiff U [v]) = [v].
Proof.
  intros U v ND H. assert (I : forall x, In x (setdiff U (setdiff U [v])) <-> x = v).
  { intro x. rewrite !setdiff_In. simpl. split.
    - intros [Hx N]. destruct (Nat.eq_dec x v); [assumption|]. exfalso. apply N. split; [exact Hx|].
      intros [E|[]]. congruence.
    - intros ->. split; [exact H|]. intros [_ N]. apply N. left. reflexivity. }
  assert (ND' := setdiff_NoDup U (setdiff U [v]) ND).
  destruct (setdiff U (setdiff U [v])) as [|a [|b l]].
  - exfalso. apply (I v). reflexivity.
  - f_equal. apply I. left. reflexivity.
  - exfalso. assert (a = v) by (apply I; left; reflexivity).
    assert (b = v) by (apply I; right; left; reflexivity). subst.
    inversion ND' as [|? ? N _]. apply N. left. reflexivity.
Qed.

(** A filter that keeps the length keeps the list. *)
Lemma filter_full : forall A (f : A -> bool) l, length (filter f l) = length l -> filter f l = l.
Proof.
  induction l as [|x l IH]; intro H; [reflexivity|]. simpl in *.
  destruct (f x); simpl in H.
  - f_equal. apply IH. lia.
  - exfalso. assert (L : forall (m : list A), length (filter f m) <= length m).
    { induction m as [|y m IHm]; simpl; [lia|]. destruct (f y); simpl; lia. }
    specialize (L l). lia.
Qed.
Lemma combine_same_filter : forall (l : list nat),
  map fst (filter (fun p : nat * nat => negb (fst p =? snd p)) (combine l l)) = [].
Proof. induction l as [|x l IH]; [reflexivity|]. simpl. rewrite Nat.eqb_refl. exact IH. Qed.

Section Parce.
  Variable hsic2 : nat -> list nat -> nat -> num * num.
  Variable fcorr : nat -> list nat -> nat -> num.
  Variable m2log : Qc -> Qc.
  Variable sf : ext -> nat -> num.
  Variables thr ind_corr : Qc.
  Variable mode : indep.
  Notation find_exo := (find_exo_vec hsic2 fcorr m2log sf mode).
  Notation step := (exo_step hsic2 fcorr m2log sf mode).
  Notation search := (search_order hsic2 fcorr m2log sf thr ind_corr mode).

  Lemma exo_fold_shape : forall Uc l st, (forall x, In x l -> In x Uc) ->
    (fst (fst st) = [] \/ exists j, In j Uc /\ fst (fst st) = setdiff Uc [j]) ->
    let r := fold_left (step Uc) l st in
    fst (fst r) = [] \/ exists j, In j Uc /\ fst (fst r) = setdiff Uc [j].
  Proof.
    intros Uc. induction l as [|j l IH]; intros st Hl Hst; [exact Hst|].
    cbn [fold_left]. apply IH.
    - intros x Hx. apply Hl. right. exact Hx.
    - destruct st as [[exo ev] mx]. unfold exo_step.
      destruct mode.
      + destruct (fisher_hsic_test hsic2 m2log sf j (setdiff Uc [j]) mx) as [p s].
        destruct (ext_lt s mx); [|exact Hst]. right. exists j. split; [apply Hl; left; reflexivity|reflexivity].
      + destruct (ext_lt (f_correlation fcorr j (setdiff Uc [j])) ev); [|exact Hst].
        right. exists j. split; [apply Hl; left; reflexivity|reflexivity].
  Qed.

  (** The proposed sink is one candidate, or (no statistic below infinity) all of them. *)
  Lemma find_exo_shape : forall Uc U, NoDup Uc ->
    (exists v, In v Uc /\ fst (find_exo Uc U) = [v]) \/ (fst (find_exo Uc U) = Uc /\ length Uc <> 1).
  Proof.
    intros Uc U ND. unfold find_exo_vec.
    destruct Uc as [|c [|c' Uc']].
    - right. split; [reflexivity|discriminate].
    - left. exists c. split; [left; reflexivity|reflexivity].
    - set (W := c :: c' :: Uc') in *.
      pose proof (exo_fold_shape W W ([], PInf, PInf) (fun x H => H) (or_introl eq_refl)) as H.
      destruct (fold_left (step W) W ([], PInf, PInf)) as [[exo ev] mx]. cbn [fst] in *.
      destruct H as [->|[j [Hj ->]]].
      + right. rewrite setdiff_nil. split; [reflexivity|discriminate].
      + left. exists j. split; [exact Hj|]. apply setdiff_setdiff; assumption.
  Qed.

  Definition po_list (po : option (list (nat * nat))) : list (nat * nat) :=
    match po with Some l => l | None => [] end.

  Lemma candidates_In : forall po U x, In x (parce_candidates po U) ->
    In x U /\ forall t, ~ In (x, t) (po_list po).
  Proof.
    intros po U x H. destruct po as [[|p l]|]; [split; [exact H|intros t []]| |split; [exact H|intros t []]].
    cbn [parce_candidates] in H. apply filter_In in H. destruct H as [H N].
    split; [exact H|]. intros t Ht. apply negb_true_iff in N. apply memb_notIn in N. apply N.
    apply in_map_iff. exists (x, t). split; [reflexivity|exact Ht].
  Qed.
  Lemma candidates_NoDup : forall po U, NoDup U -> NoDup (parce_candidates po U).
  Proof.
    intros po U H. destruct po as [[|p l]|]; cbn [parce_candidates]; try assumption.
    apply NoDup_filter. exact H.
  Qed.
  Lemma candidates_full : forall po U, length (parce_candidates po U) = length U -> parce_candidates po U = U.
  Proof.
    intros po U H. destruct po as [[|p l]|]; cbn [parce_candidates] in *; try reflexivity.
    apply filter_full. exact H.
  Qed.

  (** Search state: [po0] the constraints at the start. *)
  Definition sinv (n : nat) (po0 : list (nat * nat)) (po : option (list (nat * nat))) (U K : list nat) : Prop :=
    is_order n (U ++ K) /\ 2 <= length U /\
    (forall f t, In (f, t) po0 -> f < n /\ t < n /\ f <> t) /\
    (forall f t, In (f, t) (po_list po) <-> In (f, t) po0 /\ In t U) /\
    (forall f t, In (f, t) po0 -> In f K -> precedes K f t).

  (** What the search delivers: [K] with all variables, or all but an unordered block. *)
  Definition sout (n : nat) (po0 : list (nat * nat)) (K : list nat) : Prop :=
    exists U, is_order n (U ++ K) /\ (length U = 0 \/ 2 <= length U) /\
      (forall f t, In (f, t) po0 -> In f K -> precedes K f t).

  Lemma sinv_from_in_U : forall n po0 po U K f t, sinv n po0 po U K -> In (f, t) (po_list po) -> In f U.
  Proof.
    intros n po0 po U K f t [HO [_ [HB [H1 H2]]]] H. apply H1 in H. destruct H as [H Ht].
    destruct (HB _ _ H) as [Hf _]. apply (is_order_In _ _ HO) in Hf.
    apply in_app_or in Hf. destruct Hf as [Hf|Hf]; [exact Hf|].
    specialize (H2 _ _ H Hf). apply precedes_In in H2. destruct H2 as [_ H2].
    apply is_order_NoDup in HO. apply NoDup_app_iff' in HO. destruct HO as [_ [_ D]].
    exfalso. eapply D; eauto.
  Qed.

  Lemma sinv_step_single : forall n po0 po U K v, sinv n po0 po U K -> In v (parce_candidates po U) ->
    forall po', po_list po' = filter (fun p => negb (snd p =? v)) (po_list po) ->
    2 <= length (remove_nat v U) -> sinv n po0 po' (remove_nat v U) (v :: K).
  Proof.
    intros n po0 po U K v [HO [HL [HB [H1 H2]]]] Hv po' Hpo' HL'.
    apply candidates_In in Hv. destruct Hv as [HvU Hv].
    assert (ND := is_order_NoDup _ _ HO). apply NoDup_app_iff' in ND. destruct ND as [NDU [_ D]].
    split; [|split; [exact HL'|split; [exact HB|split]]].
    - unfold is_order in *. rewrite <- HO. rewrite <- Permutation_middle.
      rewrite (remove_nat_perm v U NDU HvU) at 2. reflexivity.
    - intros f t. rewrite Hpo', filter_In, H1, negb_true_iff, Nat.eqb_neq, remove_nat_In. cbn [snd]. tauto.
    - intros f t Hft [->|HfK].
      + assert (Ht : ~ In t U) by (intro; apply (Hv t); apply H1; tauto).
        destruct (HB _ _ Hft) as [_ [Htn _]]. apply (is_order_In _ _ HO) in Htn.
        apply in_app_or in Htn. destruct Htn as [|Htn]; [contradiction|].
        apply (precedes_app_cross [f] K); [left; reflexivity|exact Htn].
      + apply (precedes_app_r K [v]). apply H2; assumption.
  Qed.

  Lemma search_sound : forall fuel n po0 po U K K', sinv n po0 po U K ->
    search fuel po U K = Ok K' -> sout n po0 K'.
  Proof.
    induction fuel as [|fuel IH]; intros n po0 po U K K' I E; [discriminate|].
    cbn [search_order] in E.
    assert (I' := I). destruct I' as [HO [HL [HB [H1 H2]]]].
    assert (ND := is_order_NoDup _ _ HO). apply NoDup_app_iff' in ND. destruct ND as [NDU [_ D]].
    pose proof (find_exo_shape (parce_candidates po U) U (candidates_NoDup _ _ NDU)) as F.
    destruct (find_exo (parce_candidates po U) U) as [m ev]. cbn [fst] in F.
    destruct (is_reject thr ind_corr mode ev).
    { inversion E; subst. exists U. split; [exact HO|]. split; [right; exact HL|exact H2]. }
    destruct F as [[v [Hv ->]]|[-> Hne]].
    - cbn [drop_ne bind] in E. fold (remove_nat v U) in E.
      set (po' := match po with
                  | None => None
                  | Some l => Some (filter (fun p : nat * nat => negb (snd p =? v)) l)
                  end).
      assert (E' : (if length (remove_nat v U) <=? 1 then Ok (remove_nat v U ++ v :: K)
                    else search fuel po' (remove_nat v U) (v :: K)) = Ok K') by (destruct po; exact E).
      clear E. rename E' into E.
      assert (Hpo' : po_list po' = filter (fun p => negb (snd p =? v)) (po_list po)) by (destruct po; reflexivity).
      assert (HvU : In v U) by (apply candidates_In in Hv; tauto).
      pose proof (remove_nat_length v U NDU HvU) as LU.
      destruct (length (remove_nat v U) <=? 1) eqn:EL.
      + apply Nat.leb_le in EL. inversion E; subst K'.
        destruct (remove_nat v U) as [|u [|? ?]] eqn:EU; cbn [length] in *; try lia.
        exists []. split; [|split; [left; reflexivity|]].
        * simpl. unfold is_order in *. rewrite <- HO.
          rewrite (remove_nat_perm v U NDU HvU), EU. simpl. apply perm_swap.
        * assert (HP : Permutation (u :: v :: K) (seq 0 n)).
          { unfold is_order in HO. rewrite <- HO. rewrite (remove_nat_perm v U NDU HvU), EU. simpl. apply perm_swap. }
          assert (Huv : u <> v).
          { intro; subst. assert (In v (remove_nat v U)) by (rewrite EU; left; reflexivity).
            apply remove_nat_In in H. tauto. }
          intros f t Hft Hf. destruct (HB _ _ Hft) as [Hfn [Htn Hneq]].
          assert (HU2 : forall x, In x U -> x = v \/ x = u).
          { intros x Hx. destruct (Nat.eq_dec x v); [tauto|].
            assert (In x (remove_nat v U)) by (apply remove_nat_In; tauto). rewrite EU in H. destruct H as [->|[]]. tauto. }
          assert (HuU : In u U).
          { assert (In u (remove_nat v U)) by (rewrite EU; left; reflexivity). apply remove_nat_In in H. tauto. }
          assert (T : forall x, x < n -> x = u \/ x = v \/ In x K).
          { intros x Hx. apply (is_order_In _ _ HO) in Hx. apply in_app_or in Hx. destruct Hx as [Hx|Hx]; [|tauto].
            destruct (HU2 _ Hx); tauto. }
          (* v is a candidate: no constraint starts there unless its end is ordered *)
          pose proof (candidates_In _ _ _ Hv) as [_ Hvc].
          destruct Hf as [<-|[<-|HfK]].
          -- (* f = u *)
             destruct (T t Htn) as [->|[->|HtK]].
             ++ congruence.
             ++ apply (precedes_app_cross [u] (v :: K)); left; reflexivity.
             ++ apply (precedes_app_cross [u] (v :: K)); [left; reflexivity|right; exact HtK].
          -- destruct (T t Htn) as [->|[->|HtK]].
             ++ exfalso. apply (Hvc u). apply H1. tauto.
             ++ congruence.
             ++ apply (precedes_app_r (v :: K) [u]). apply (precedes_app_cross [v] K); [left; reflexivity|exact HtK].
          -- apply (precedes_app_r K [u; v]). apply H2; assumption.
      + apply Nat.leb_gt in EL. eapply IH; [|exact E].
        eapply sinv_step_single; eauto.
    - (* all candidates at once *)
      destruct (drop_ne (fun i => i) U (parce_candidates po U)) as [U'|e] eqn:ED; [|discriminate].
      cbn [bind] in E. unfold drop_ne in ED.
      assert (EW : parce_candidates po U = U /\ U' = []).
      { destruct (parce_candidates po U) as [|w [|w' W]] eqn:EC.
        - destruct (length (@nil nat) =? length U) eqn:EN; [|discriminate].
          apply Nat.eqb_eq in EN. simpl in EN. lia.
        - exfalso. apply Hne. reflexivity.
        - destruct (length (w :: w' :: W) =? length U) eqn:EN; [|discriminate].
          apply Nat.eqb_eq in EN. rewrite <- EC in EN. apply candidates_full in EN. rewrite EC in EN.
          split; [exact EN|]. inversion ED. rewrite EN. apply combine_same_filter. }
      destruct EW as [EW ->]. rewrite EW in E.
      destruct po as [l|].
      + exfalso. destruct l as [|p l].
        * unfold drop_ne in E. destruct U as [|u [|u' U0]]; simpl in HL; try lia. discriminate.
        * destruct p as [f t]. assert (Hft : In (f, t) (po_list (Some ((f, t) :: l)))) by (left; reflexivity).
          pose proof (sinv_from_in_U _ _ _ _ _ _ _ I Hft) as HfU. rewrite <- EW in HfU.
          apply candidates_In in HfU. destruct HfU as [_ HfU]. apply (HfU t Hft).
      + cbn [bind length Nat.leb app] in E. inversion E; subst K'.
        exists []. split; [exact HO|]. split; [left; reflexivity|].
        intros f t Hft Hf. apply in_app_or in Hf. destruct Hf as [Hf|Hf].
        * destruct (HB _ _ Hft) as [_ [Htn _]]. apply (is_order_In _ _ HO) in Htn.
          apply in_app_or in Htn. destruct Htn as [Ht|Ht].
          -- exfalso. assert (X : In (f, t) (po_list None)) by (apply H1; tauto). destruct X.
          -- apply precedes_app_cross; assumption.
        * apply precedes_app_r. apply H2; assumption.
  Qed.

  (** The search stops within the bound, with a result or a broadcasting error. *)
  Lemma search_cases : forall fuel n po0 po U K, sinv n po0 po U K -> length U <= fuel ->
    (exists K', search fuel po U K = Ok K') \/ search fuel po U K = Err ValueError.
  Proof.
    induction fuel as [|fuel IH]; intros n po0 po U K I L.
    { destruct I as [_ [HL _]]. lia. }
    cbn [search_order].
    assert (I' := I). destruct I' as [HO [HL [HB [H1 H2]]]].
    assert (ND := is_order_NoDup _ _ HO). apply NoDup_app_iff' in ND. destruct ND as [NDU [_ D]].
    pose proof (find_exo_shape (parce_candidates po U) U (candidates_NoDup _ _ NDU)) as F.
    destruct (find_exo (parce_candidates po U) U) as [m ev]. cbn [fst] in F.
    destruct (is_reject thr ind_corr mode ev); [left; eauto|].
    destruct F as [[v [Hv ->]]|[-> Hne]].
    - cbn [drop_ne bind]. fold (remove_nat v U).
      set (po' := match po with
                  | None => None
                  | Some l => Some (filter (fun p : nat * nat => negb (snd p =? v)) l)
                  end).
      assert (HvU : In v U) by (apply candidates_In in Hv; tauto).
      pose proof (remove_nat_length v U NDU HvU) as LU.
      enough (G : (exists K', (if length (remove_nat v U) <=? 1 then Ok (remove_nat v U ++ v :: K)
                    else search fuel po' (remove_nat v U) (v :: K)) = Ok K') \/
                  (if length (remove_nat v U) <=? 1 then Ok (remove_nat v U ++ v :: K)
                    else search fuel po' (remove_nat v U) (v :: K)) = Err ValueError)
        by (destruct po; exact G).
      destruct (length (remove_nat v U) <=? 1) eqn:EL; [left; eauto|].
      apply Nat.leb_gt in EL. eapply IH; [|lia].
      eapply sinv_step_single; eauto. destruct po; reflexivity.
    - destruct (drop_ne (fun i => i) U (parce_candidates po U)) as [U'|e] eqn:ED.
      + cbn [bind]. unfold drop_ne in ED.
        assert (EW : parce_candidates po U = U /\ U' = []).
        { destruct (parce_candidates po U) as [|w [|w' W]] eqn:EC.
          - destruct (length (@nil nat) =? length U) eqn:EN; [|discriminate].
            apply Nat.eqb_eq in EN. simpl in EN. lia.
          - exfalso. apply Hne. reflexivity.
          - destruct (length (w :: w' :: W) =? length U) eqn:EN; [|discriminate].
            apply Nat.eqb_eq in EN. rewrite <- EC in EN. apply candidates_full in EN. rewrite EC in EN.
            split; [exact EN|]. inversion ED. rewrite EN. apply combine_same_filter. }
        destruct EW as [EW ->]. rewrite EW.
        destruct po as [l|]; [|left; eexists; reflexivity].
        destruct l as [|p l].
        * right. unfold drop_ne. destruct U as [|u [|u' U0]]; simpl in HL; try lia. reflexivity.
        * exfalso. destruct p as [f t]. assert (Hft : In (f, t) (po_list (Some ((f, t) :: l)))) by (left; reflexivity).
          pose proof (sinv_from_in_U _ _ _ _ _ _ _ I Hft) as HfU. rewrite <- EW in HfU.
          apply candidates_In in HfU. destruct HfU as [_ HfU]. apply (HfU t Hft).
      + right. unfold drop_ne in ED. cbn [bind].
        assert (length U =? 1 = false) as Hlen by (apply Nat.eqb_neq; lia). rewrite Hlen in ED.
        destruct (parce_candidates po U) as [|w [|w' W]]; [|discriminate|];
          match goal with H : (if ?c then _ else _) = Err e |- _ => destruct c; inversion H; reflexivity end.
  Qed.

  (** All statistics are proper numbers: p-values above 0, no NaN. *)
  Definition finite_stats : Prop :=
    match mode with
    | Hsic => forall t ps i, exists s p, hsic2 t ps i = (Some s, Some p) /\ p <> 0%Qc
    | Fcorr => forall t ps i, exists c, fcorr t ps i = Some c
    end.

  Lemma fisher_loop_fin : (forall t ps i, exists s p, hsic2 t ps i = (Some s, Some p) /\ p <> 0%Qc) ->
    forall t ps mx is s, exists s', fisher_loop hsic2 m2log t ps mx (Fin s) is = Fin s'.
  Proof.
    intros F t ps mx. induction is as [|i is IH]; intro s; [exists s; reflexivity|].
    cbn [fisher_loop]. destruct (F t ps i) as [s1 [p [E Np]]]. rewrite E. cbn [snd].
    apply qeqb_neq in Np. rewrite Np. cbn [ext_plus].
    destruct (ext_lt mx (Fin (s + m2log p)%Qc)); [eauto|]. apply IH.
  Qed.
  Lemma fisher_test_fin : (forall t ps i, exists s p, hsic2 t ps i = (Some s, Some p) /\ p <> 0%Qc) ->
    forall t ps mx, exists s', snd (fisher_hsic_test hsic2 m2log sf t ps mx) = Fin s'.
  Proof.
    intros F t ps mx. unfold fisher_hsic_test.
    destruct (fisher_loop_fin F t ps mx ps 0%Qc) as [s' Hs].
    destruct ps as [|i [|i' ps]]; [exists s'; exact Hs| |exists s'; exact Hs].
    destruct (F t [i] i) as [s1 [p [E _]]]. rewrite E. exists s1. reflexivity.
  Qed.
  Lemma f_correlation_fin : (forall t ps i, exists c, fcorr t ps i = Some c) ->
    forall t ps, exists c, f_correlation fcorr t ps = Fin c.
  Proof.
    intros F t ps. unfold f_correlation.
    assert (G : forall l s, exists c, fold_left (fun mx i => let c := ext_of (fcorr t ps i) in
                                  if ext_lt mx c then c else mx) l (Fin s) = Fin c).
    { induction l as [|i l IH]; intro s; [exists s; reflexivity|]. cbn [fold_left].
      destruct (F t ps i) as [c Ec]. rewrite Ec. cbn [ext_of]. destruct (ext_lt (Fin s) (Fin c)); apply IH. }
    destruct (G ps 0%Qc) as [c Hc].
    destruct ps as [|i [|i' ps]]; [exists c; exact Hc| |exists c; exact Hc].
    destruct (F t [i] i) as [c1 E]. rewrite E. exists c1. reflexivity.
  Qed.

  Lemma exo_fold_keeps : forall Uc l st, fst (fst st) <> [] -> (forall j, setdiff Uc [j] <> []) ->
    fst (fst (fold_left (step Uc) l st)) <> [].
  Proof.
    intros Uc. induction l as [|j l IH]; intros st N H; [exact N|].
    cbn [fold_left]. apply IH; [|exact H]. destruct st as [[exo ev] mx]. unfold exo_step.
    destruct mode.
    - destruct (fisher_hsic_test hsic2 m2log sf j (setdiff Uc [j]) mx) as [p s].
      destruct (ext_lt s mx); [apply H|exact N].
    - destruct (ext_lt (f_correlation fcorr j (setdiff Uc [j])) ev); [apply H|exact N].
  Qed.

  Lemma find_exo_finite : finite_stats -> forall Uc U, NoDup Uc -> Uc <> [] ->
    exists v, In v Uc /\ fst (find_exo Uc U) = [v].
  Proof.
    intros F Uc U ND NE. destruct (find_exo_shape Uc U ND) as [H|[H1 H2]]; [exact H|].
    exfalso. destruct Uc as [|c [|c' W]]; [congruence|simpl in H2; congruence|].
    set (V := c :: c' :: W) in *.
    assert (S2 : forall j, setdiff V [j] <> []).
    { intros j E. assert (Nc : c <> c') by (inversion ND as [|? ? N _]; intro; subst; apply N; left; reflexivity).
      destruct (Nat.eq_dec c j) as [->|Nj].
      - assert (In c' (setdiff V [j])) by (apply setdiff_In; split; [right; left; reflexivity|intros [?|[]]; congruence]).
        rewrite E in H. destruct H.
      - assert (In c (setdiff V [j])) by (apply setdiff_In; split; [left; reflexivity|intros [?|[]]; congruence]).
        rewrite E in H. destruct H. }
    assert (NE' : fst (fst (fold_left (step V) V ([], PInf, PInf))) <> []).
    { unfold V at 2. cbn [fold_left]. apply (exo_fold_keeps V (c' :: W)); [|exact S2].
      unfold exo_step, finite_stats in *. destruct mode.
      - destruct (fisher_test_fin F c (setdiff V [c]) PInf) as [s' Hs].
        destruct (fisher_hsic_test hsic2 m2log sf c (setdiff V [c]) PInf) as [p s]. cbn [snd] in Hs. subst s.
        cbn [ext_lt]. apply S2.
      - destruct (f_correlation_fin F c (setdiff V [c])) as [c0 Hc]. rewrite Hc. cbn [ext_lt]. apply S2. }
    unfold find_exo_vec in H1. unfold V in H1 at 1. fold V in H1.
    pose proof (exo_fold_shape V V ([], PInf, PInf) (fun x H => H) (or_introl eq_refl)) as SH.
    destruct (fold_left (step V) V ([], PInf, PInf)) as [[exo ev] mx]. cbn [fst] in *.
    destruct SH as [->|[j [Hj ->]]]; [congruence|].
    rewrite setdiff_setdiff in H1 by assumption. discriminate.
  Qed.

  (** With proper statistics the search succeeds as long as there are candidates. *)
  Lemma search_finite_ok : finite_stats -> forall fuel n po0 po U K,
    (forall U, 2 <= length U -> NoDup U -> (forall x, In x U -> x < n) ->
       exists x, In x U /\ forall t, In t U -> ~ In (x, t) po0) ->
    sinv n po0 po U K -> length U <= fuel -> exists K', search fuel po U K = Ok K'.
  Proof.
    intro F. induction fuel as [|fuel IH]; intros n po0 po U K C I L.
    { destruct I as [_ [HL _]]. lia. }
    cbn [search_order].
    assert (I' := I). destruct I' as [HO [HL [HB [H1 H2]]]].
    assert (ND := is_order_NoDup _ _ HO). apply NoDup_app_iff' in ND. destruct ND as [NDU [_ D]].
    assert (NE : parce_candidates po U <> []).
    { destruct (C U HL NDU) as [x [Hx Hs]].
      - intros x Hx. apply (is_order_In _ _ HO). apply in_or_app. tauto.
      - intro E. assert (In x (parce_candidates po U)); [|rewrite E in H; destruct H].
        destruct po as [[|p l]|]; cbn [parce_candidates]; try exact Hx.
        apply filter_In. split; [exact Hx|]. apply negb_true_iff, memb_notIn. intro M.
        apply in_map_iff in M. destruct M as [[f t] [Ef M]]. cbn [fst] in Ef. subst f.
        apply H1 in M. destruct M as [M Ht]. apply (Hs t Ht M). }
    destruct (find_exo_finite F (parce_candidates po U) U (candidates_NoDup _ _ NDU) NE) as [v [Hv Em]].
    destruct (find_exo (parce_candidates po U) U) as [m ev]. cbn [fst] in Em. subst m.
    destruct (is_reject thr ind_corr mode ev); [eauto|].
    cbn [drop_ne bind]. fold (remove_nat v U).
    set (po' := match po with
                | None => None
                | Some l => Some (filter (fun p : nat * nat => negb (snd p =? v)) l)
                end).
    assert (HvU : In v U) by (apply candidates_In in Hv; tauto).
    pose proof (remove_nat_length v U NDU HvU) as LU.
    enough (G : exists K', (if length (remove_nat v U) <=? 1 then Ok (remove_nat v U ++ v :: K)
                  else search fuel po' (remove_nat v U) (v :: K)) = Ok K') by (destruct po; exact G).
    destruct (length (remove_nat v U) <=? 1) eqn:EL; [eauto|].
    apply Nat.leb_gt in EL. eapply IH; [exact C| |lia].
    eapply sinv_step_single; eauto. destruct po; reflexivity.
  Qed.
End Parce.

(** ** Initial state *)
Lemma sinv_init_none : forall n, 2 <= n -> sinv n [] None (seq 0 n) [].
Proof.
  intros n H. split; [rewrite app_nil_r; apply Permutation_refl|]. split; [rewrite seq_length; exact H|].
  split; [intros f t []|]. split; [intros f t; simpl; tauto|intros f t []].
Qed.
Lemma sinv_init_some : forall n pk po, 2 <= n -> extract_partial_orders n pk = Ok po ->
  sinv n po (Some po) (seq 0 n) [].
Proof.
  intros n pk po H E.
  split; [rewrite app_nil_r; apply Permutation_refl|]. split; [rewrite seq_length; exact H|].
  assert (HB : forall f t, In (f, t) po -> f < n /\ t < n /\ f <> t).
  { intros f t Hft. apply (proj1 (extract_ok n pk po E f t)) in Hft. destruct Hft as [Hf [Ht M]].
    split; [exact Hf|]. split; [exact Ht|]. intro; subst t. destruct M as [M|[M1 M2]]; [|contradiction].
    assert (X : extract_partial_orders n pk = Err ValueError).
    { apply extract_inconsistent. exists f, f. tauto. }
    congruence. }
  split; [exact HB|]. split.
  - intros f t. cbn [po_list]. split; [|tauto]. intro Hft. split; [exact Hft|].
    apply in_seq. apply HB in Hft. lia.
  - intros f t _ [].
Qed.

(** ** Adjacency matrix *)
Lemma flatten_app : forall a b, flatten (a ++ b) = flatten a ++ flatten b.
Proof. intros. unfold flatten. apply flat_map_app. Qed.
Lemma flatten_singles : forall l, flatten (map Single l) = l.
Proof. induction l as [|x l IH]; [reflexivity|]. unfold flatten in *. simpl. f_equal. exact IH. Qed.

Section Rows.
  Variable lasso : list nat -> nat -> nat -> num.
  Variable pk : option (mat num).

  (** Rows of single variables behind [before] <> []. *)
  Lemma rows_singles : forall K before B i j, before <> [] -> NoDup (flatten before ++ K) ->
    parce_rows lasso pk before (map Single K) B i j =
    if memb i K
    then adj_loop lasso pk (flatten before) K B i j
    else B i j.
  Proof.
    induction K as [|t K IH]; intros before B i j NE ND; [reflexivity|].
    cbn [map parce_rows].
    assert (B' : match before with [] => B | _ => write_row lasso t (predictors_of pk t (flatten before)) B end
                 = write_row lasso t (predictors_of pk t (flatten before)) B) by (destruct before; congruence).
    replace (match before with
             | [] => B
             | _ => write_row lasso t (predictors_of pk t (flatten before)) B end)
      with (write_row lasso t (predictors_of pk t (flatten before)) B) by (destruct before; congruence).
    rewrite IH.
    - rewrite flatten_app. cbn [flatten flat_map app memb existsb adj_loop].
      assert (EB : match flatten before with [] => B | _ => write_row lasso t (predictors_of pk t (flatten before)) B end
                   = write_row lasso t (predictors_of pk t (flatten before)) B).
      { destruct (flatten before) as [|b fb]; [|reflexivity]. destruct pk; reflexivity. }
      rewrite EB. fold (memb i K). destruct (i =? t) eqn:Eit; cbn [orb].
      + apply Nat.eqb_eq in Eit. subst i.
        assert (M : memb t K = false).
        { apply memb_notIn. apply NoDup_remove_2 in ND. intro. apply ND. apply in_or_app. tauto. }
        rewrite M. symmetry. apply adj_loop_notin. apply memb_notIn. exact M.
      + destruct (memb i K) eqn:M; [reflexivity|].
        unfold write_row. destruct (predictors_of pk t (flatten before)); [reflexivity|].
        rewrite Eit. reflexivity.
    - intro X. apply app_eq_nil in X. destruct X. discriminate.
    - rewrite flatten_app. cbn [flatten flat_map app]. rewrite <- app_assoc. exact ND.
  Qed.

  Lemma nan_fold : forall r xi (B : mat num) i j,
    fold_left (fun B xj => nan_pair B xi xj) r B i j =
    if ((i =? xi) && memb j r) || ((j =? xi) && memb i r) then None else B i j.
  Proof.
    induction r as [|x r IH]; intros xi B i j.
    - simpl. rewrite !andb_false_r. reflexivity.
    - cbn [fold_left]. rewrite IH. unfold nan_pair, upd2. cbn [memb existsb].
      fold (memb j r). fold (memb i r).
      destruct (i =? xi), (j =? xi), (i =? x), (j =? x), (memb j r), (memb i r); reflexivity.
  Qed.
  Lemma nan_block_spec : forall l (B : mat num) i j, NoDup l ->
    nan_block l B i j = if negb (i =? j) && memb i l && memb j l then None else B i j.
  Proof.
    induction l as [|x l IH]; intros B i j ND; [cbn [nan_block memb existsb]; rewrite andb_false_r; reflexivity|].
    inversion ND as [|? ? Hx ND']; subst. cbn [nan_block]. rewrite IH by exact ND'. rewrite nan_fold.
    cbn [memb existsb]. fold (memb i l). fold (memb j l).
    apply memb_notIn in Hx.
    destruct (i =? j) eqn:Eij.
    - apply Nat.eqb_eq in Eij. subst j. cbn [negb andb].
      destruct (i =? x) eqn:Eix; [|reflexivity]. apply Nat.eqb_eq in Eix. subst x. rewrite Hx. reflexivity.
    - cbn [negb andb].
      destruct (i =? x) eqn:Ei.
      + apply Nat.eqb_eq in Ei. subst x. rewrite Nat.eqb_sym in Eij. rewrite Eij, Hx. cbn [orb andb].
        destruct (memb j l); reflexivity.
      + destruct (j =? x) eqn:Ej; cbn [orb andb]; [|reflexivity].
        apply Nat.eqb_eq in Ej. subst x. rewrite Hx, andb_false_r.
        destruct (memb i l); reflexivity.
  Qed.

  Definition block_items (block : list nat) : list item := match block with [] => [] | _ => [Block block] end.

  Lemma nan_singles : forall K (B : mat num),
    fold_left (fun B it => match it with Single _ => B | Block l => nan_block l B end) (map Single K) B = B.
  Proof. induction K as [|k K IH]; intro B; [reflexivity|]. cbn [map fold_left]. apply IH. Qed.

  Lemma rows_block : forall block K i j, NoDup (block ++ K) ->
    parce_rows lasso pk [] (block_items block ++ map Single K) (fun _ _ => Some 0%Qc) i j =
    if memb i K then estimate_adjacency_matrix lasso pk (block ++ K) i j else Some 0%Qc.
  Proof.
    intros block K i j ND. unfold estimate_adjacency_matrix.
    destruct block as [|b block].
    - cbn [block_items app]. destruct K as [|k K]; [reflexivity|].
      cbn [map parce_rows adj_loop app].
      rewrite rows_singles; [|discriminate|exact ND]. cbn [flatten flat_map app memb existsb].
      fold (memb i K). destruct (i =? k) eqn:E; cbn [orb].
      + apply Nat.eqb_eq in E. subst i. simpl in ND. inversion ND as [|? ? Hk _]; subst.
        assert (M := proj2 (memb_notIn _ _) Hk). rewrite M. rewrite adj_loop_notin by exact Hk. reflexivity.
      + reflexivity.
    - cbn [block_items app parce_rows].
      rewrite rows_singles; [|discriminate|cbn [flatten flat_map]; rewrite app_nil_r; exact ND].
      cbn [flatten flat_map]. rewrite app_nil_r.
      destruct (memb i K) eqn:M; [|reflexivity].
      apply memb_In in M. apply in_split in M. destruct M as [K1 [K2 ->]].
      rewrite (adj_loop_split lasso pk K1 (b :: block) i K2).
      + symmetry. cbn [app].
        change (b :: block ++ K1 ++ i :: K2) with ((b :: block) ++ K1 ++ i :: K2). rewrite app_assoc.
        rewrite (adj_loop_split lasso pk ((b :: block) ++ K1) [] i K2).
        * reflexivity.
        * rewrite <- app_assoc. exact ND.
      + apply NoDup_app_iff' in ND. tauto.
  Qed.

  Lemma parce_adjacency_spec : forall block K i j, NoDup (block ++ K) ->
    parce_adjacency lasso pk (block_items block ++ map Single K) i j =
    if negb (i =? j) && memb i block && memb j block then None
    else if memb i K then estimate_adjacency_matrix lasso pk (block ++ K) i j else Some 0%Qc.
  Proof.
    intros block K i j ND. unfold parce_adjacency. rewrite fold_left_app, nan_singles.
    destruct block as [|b block].
    - change (fold_left (fun (B : mat num) it => match it with Single _ => B | Block l => nan_block l B end) (block_items []) (parce_rows lasso pk [] (block_items [] ++ map Single K) (fun _ _ => Some 0%Qc)) i j) with (parce_rows lasso pk [] (block_items [] ++ map Single K) (fun _ _ => Some 0%Qc) i j). rewrite (rows_block [] K i j ND).
      cbn [memb existsb]. rewrite andb_false_r. reflexivity.
    - cbn [block_items fold_left]. rewrite nan_block_spec.
      + rewrite <- (rows_block (b :: block) K i j ND). reflexivity.
      + apply NoDup_app_iff' in ND. tauto.
  Qed.
End Rows.

(** ** The whole fit *)
Section Fit.
  Variable hsic2 : nat -> list nat -> nat -> num * num.
  Variable fcorr : nat -> list nat -> nat -> num.
  Variable m2log : Qc -> Qc.
  Variable sf : ext -> nat -> num.
  Variables thr ind_corr : Qc.
  Variable mode : indep.
  Variable lasso : list nat -> nat -> nat -> num.
  Notation fit := (parce_fit hsic2 fcorr m2log sf thr ind_corr mode lasso).

  Lemma sout_order : forall n po0 K, sout n po0 K ->
    exists block, (block = [] \/ 2 <= length block) /\ is_order n (block ++ K) /\
      setdiff (seq 0 n) K = block /\
      (if 1 <? length block then [Block block] else []) = block_items block /\
      (forall f t, In (f, t) po0 -> In f K -> precedes K f t).
  Proof.
    intros n po0 K [U [HO [HL HP]]].
    assert (ND := is_order_NoDup _ _ HO). apply NoDup_app_iff' in ND. destruct ND as [NDU [NDK D]].
    assert (P : Permutation (setdiff (seq 0 n) K) U).
    { apply NoDup_Permutation; [apply setdiff_NoDup, seq_NoDup|exact NDU|].
      intro x. rewrite setdiff_In, in_seq. pose proof (is_order_In _ _ HO x) as Hx. rewrite in_app_iff in Hx.
      split.
      - intros [H N]. destruct (proj2 Hx) as [|]; [lia|assumption|contradiction].
      - intros H. split; [assert (x < n) by (apply Hx; tauto); lia|]. intro. eapply D; eauto. }
    exists (setdiff (seq 0 n) K).
    assert (L := Permutation_length P).
    split; [|split; [|split; [reflexivity|split; [|exact HP]]]].
    - destruct HL as [HL|HL]; [|right; lia]. left. apply length_zero_iff_nil. lia.
    - unfold is_order in *. rewrite P. exact HO.
    - destruct (setdiff (seq 0 n) K) as [|a [|b l]]; cbn [block_items]; [reflexivity| |reflexivity].
      simpl in L. lia.
  Qed.

  Theorem parce_structure : forall n pk ok order B, 1 <= n ->
    (forall ps t p, lasso ps t p <> None) ->
    fit n pk ok = Ok (order, B) ->
    exists block K, (block = [] \/ 2 <= length block) /\
      order = block_items block ++ map Single K /\
      is_order n (block ++ K) /\
      (forall i j, i < n -> j < n -> (B i j = None <-> i <> j /\ In i block /\ In j block)) /\
      (forall i j, i < n -> j < n -> B i j <> None -> B i j <> Some 0%Qc ->
         In i K /\ precedes (block ++ K) j i /\ (forall m, pk = Some m -> m i j <> Some 0%Qc)) /\
      (forall m a b, pk = Some m -> a < n -> b < n -> must_precede m a b ->
         (In a block /\ In b block) \/ precedes (block ++ K) a b).
  Proof.
    intros n pk ok order B Hn HF E. unfold parce_fit in E.
    set (epo := match pk with
                | None => Ok None
                | Some m => if ok then let* l := extract_partial_orders n m in Ok (Some l) else Err ValueError
                end) in E.
    destruct epo as [po|] eqn:Epo; [|discriminate]. cbn [bind] in E.
    destruct (n =? 1) eqn:En; [discriminate|]. apply Nat.eqb_neq in En.
    destruct (search_order hsic2 fcorr m2log sf thr ind_corr mode n po (seq 0 n) []) as [K|] eqn:ES; [|discriminate].
    cbn [bind] in E.
    assert (I : sinv n (po_list po) po (seq 0 n) []).
    { unfold epo in Epo. destruct pk as [m|].
      - destruct ok; [|discriminate]. destruct (extract_partial_orders n m) as [l|] eqn:EX; [|discriminate].
        inversion Epo. subst po. cbn [po_list]. eapply sinv_init_some; [lia|exact EX].
      - inversion Epo. subst po. apply sinv_init_none. lia. }
    pose proof (search_sound _ _ _ _ _ _ _ n n (po_list po) po _ _ K I ES) as SO.
    destruct (sout_order _ _ _ SO) as [block [HL [HO [HB [HI HP]]]]].
    rewrite HB, HI in E. inversion E; subst order B. clear E.
    exists block, K. split; [exact HL|]. split; [reflexivity|]. split; [exact HO|].
    assert (ND := is_order_NoDup _ _ HO).
    assert (HA := fun i j => parce_adjacency_spec lasso pk block K i j ND).
    assert (FIN : forall i j, estimate_adjacency_matrix lasso pk (block ++ K) i j <> None).
    { intros i j. destruct (in_dec Nat.eq_dec i (block ++ K)) as [Hi|Hi].
      - apply in_split in Hi. destruct Hi as [l1 [l2 Hl]].
        rewrite (adjacency_row lasso pk _ l1 i l2 j Hl ND). cbv zeta.
        destruct (memb j (predictors_of pk i l1)); [apply HF|discriminate].
      - unfold estimate_adjacency_matrix. rewrite adj_loop_notin by exact Hi. discriminate. }
    split; [|split].
    - intros i j Hi Hj. rewrite HA. split.
      + destruct (negb (i =? j) && memb i block && memb j block) eqn:C.
        * intros _. apply andb_true_iff in C. destruct C as [C C3]. apply andb_true_iff in C. destruct C as [C1 C2].
          apply negb_true_iff, Nat.eqb_neq in C1. apply memb_In in C2, C3. tauto.
        * destruct (memb i K); [intro X; exfalso; apply (FIN i j X)|discriminate].
      + intros [N [Mi Mj]]. apply Nat.eqb_neq in N. apply memb_In in Mi, Mj. rewrite N, Mi, Mj. reflexivity.
    - intros i j Hi Hj. rewrite HA.
      destruct (negb (i =? j) && memb i block && memb j block); [congruence|].
      destruct (memb i K) eqn:M; [|congruence]. intros _ N. apply memb_In in M.
      apply adjacency_nonzero in N; [|exact ND]. tauto.
    - intros m a b -> Ha Hb MP. unfold epo in Epo. destruct ok; [|discriminate].
      destruct (extract_partial_orders n m) as [l|] eqn:EX; [|discriminate].
      inversion Epo. subst po. cbn [po_list] in *.
      assert (In (a, b) l) as Hab by (apply (extract_ok n m l EX); tauto).
      assert (Ia := proj2 (is_order_In _ _ HO a) Ha). assert (Ib := proj2 (is_order_In _ _ HO b) Hb).
      apply in_app_or in Ia, Ib. destruct Ia as [Ia|Ia].
      + destruct Ib as [Ib|Ib]; [left; tauto|right; apply precedes_app_cross; assumption].
      + right. apply precedes_app_r. apply HP; assumption.
  Qed.

  (** Possible outcomes: a result or one of two exceptions. *)
  Theorem parce_outcomes : forall n pk ok, 1 <= n ->
    (exists r, fit n pk ok = Ok r) \/ fit n pk ok = Err ValueError \/ (n = 1 /\ fit n pk ok = Err ZeroDivisionError).
  Proof.
    intros n pk ok Hn. unfold parce_fit.
    assert (G : forall po, (n <> 1 -> sinv n (po_list po) po (seq 0 n) []) ->
      let f := (if n =? 1 then Err ZeroDivisionError
       else let* K := search_order hsic2 fcorr m2log sf thr ind_corr mode n po (seq 0 n) [] in
            let Ures := setdiff (seq 0 n) K in
            let order := (if 1 <? length Ures then [Block Ures] else []) ++ map Single K in
            Ok (order, parce_adjacency lasso pk order)) in
      (exists r, f = Ok r) \/ f = Err ValueError \/ (n = 1 /\ f = Err ZeroDivisionError)).
    { intros po I. cbv zeta. destruct (n =? 1) eqn:En.
      - right. right. split; [apply Nat.eqb_eq; exact En|reflexivity].
      - apply Nat.eqb_neq in En.
        destruct (search_cases hsic2 fcorr m2log sf thr ind_corr mode n n (po_list po) po (seq 0 n) [] (I En))
          as [[K E]|E]; [rewrite seq_length; lia| |]; rewrite E; cbn [bind]; eauto. }
    destruct pk as [m|].
    - destruct ok; [|right; left; reflexivity].
      destruct (extract_partial_orders n m) as [l|e] eqn:EX; cbn [bind].
      + apply (G (Some l)). intro. eapply sinv_init_some; [lia|exact EX].
      + destruct (extract_cases n m) as [[po X]|X]; rewrite EX in X; [discriminate|]. inversion X. tauto.
    - cbn [bind]. apply (G None). intro. apply sinv_init_none. lia.
  Qed.

  (** Success for proper statistics and satisfiable prior knowledge. *)
  Lemma precedes_rev : forall l a b, precedes l a b -> precedes (rev l) b a.
  Proof.
    intros l a b [l1 [l2 [l3 ->]]]. exists (rev l3), (rev l2), (rev l1).
    rewrite rev_app_distr. simpl. rewrite rev_app_distr. simpl. rewrite <- !app_assoc. simpl. reflexivity.
  Qed.
  Theorem parce_succeeds : forall n pk, 2 <= n -> finite_stats hsic2 fcorr mode ->
    (forall m, pk = Some m -> orderable n m) ->
    exists r, fit n pk true = Ok r.
  Proof.
    intros n pk Hn F HO. unfold parce_fit.
    assert (En : n =? 1 = false) by (apply Nat.eqb_neq; lia).
    destruct pk as [m|].
    - destruct (HO m eq_refl) as [l [Hl HP]].
      destruct (extract_partial_orders n m) as [po|e] eqn:EX; cbn [bind]; rewrite ?En.
      + destruct (search_finite_ok hsic2 fcorr m2log sf thr ind_corr mode F n n po (Some po) (seq 0 n) []) as [K EK].
        * intros U L ND HU. destruct (exists_first (rev l) U) as [x [Hx Hm]].
          -- apply NoDup_rev. eapply is_order_NoDup. exact Hl.
          -- intros x Hx. apply in_rev. rewrite rev_involutive. apply (is_order_In _ _ Hl). apply HU. exact Hx.
          -- destruct U; [simpl in L; lia|discriminate].
          -- exists x. split; [exact Hx|]. intros t Ht Hxt. apply (Hm t Ht). apply precedes_rev.
             apply (proj1 (extract_ok n m po EX x t)) in Hxt. apply HP; tauto.
        * eapply sinv_init_some; [lia|exact EX].
        * rewrite seq_length. lia.
        * rewrite EK. cbn [bind]. eauto.
      + exfalso. destruct (extract_cases n m) as [[po X]|X]; rewrite EX in X; [discriminate|].
        inversion X; subst e. apply extract_inconsistent in EX. destruct EX as [i [j [Hi [Hj [A1 A2]]]]].
        assert (P1 : precedes l j i) by (apply HP; try assumption; left; exact A1).
        assert (P2 : precedes l i j) by (apply HP; try assumption; left; exact A2).
        apply (precedes_asym l i j (is_order_NoDup _ _ Hl) P2 P1).
    - cbn [bind]. rewrite En.
      destruct (search_finite_ok hsic2 fcorr m2log sf thr ind_corr mode F n n [] None (seq 0 n) []) as [K EK].
      + intros U L ND HU. destruct U as [|u U]; [simpl in L; lia|]. exists u. split; [left; reflexivity|].
        intros t _ [].
      + apply sinv_init_none. lia.
      + rewrite seq_length. lia.
      + rewrite EK. cbn [bind]. eauto.
  Qed.
End Fit.
