(** * Proofs about HighDimDirectLiNGAM *)
From Coq Require Import List Arith Lia Bool ZArith QArith Qcanon Permutation.
From Verif Require Import Prelude Spec Lib ModelDirect ProofDirect2 ModelRCD ProofRCD ModelHighDim.
Import ListNotations.
Open Scope nat_scope.

Lemma qmin_l : forall a b, (qmin a b <= a)%Qc.
Proof.
  intros a b. unfold qmin. destruct (qltb b a) eqn:E; [|apply Qcle_refl].
  apply qltb_lt in E. apply Qclt_le_weak. exact E.
Qed.
Lemma qmin_r : forall a b, (qmin a b <= b)%Qc.
Proof.
  intros a b. unfold qmin. destruct (qltb b a) eqn:E; [apply Qcle_refl|].
  apply qltb_nlt in E. exact E.
Qed.
Lemma qmin_cases : forall a b, qmin a b = a \/ qmin a b = b.
Proof. intros a b. unfold qmin. destruct (qltb b a); tauto. Qed.

Lemma last_some : forall (l : list nat), l <> [] -> exists r, last (map Some l) None = Some r /\ In r l.
Proof.
  intros l H. destruct (exists_last H) as [l' [x ->]]. exists x. rewrite map_app. cbn [map]. rewrite last_last.
  split; [reflexivity|]. apply in_or_app. right. left. reflexivity.
Qed.

Lemma combs_short : forall k l, length l < k -> combs k l = [].
Proof.
  induction k as [|k IH]; intros l H; [lia|].
  induction l as [|x r IHr]; [reflexivity|]. rewrite combs_S_cons. simpl in H.
  rewrite IH by lia. rewrite IHr by lia. reflexivity.
Qed.
Lemma combs_full : forall l, combs (length l) l = [l].
Proof.
  induction l as [|x r IH]; [reflexivity|]. cbn [length]. rewrite combs_S_cons, IH.
  rewrite combs_short by lia. reflexivity.
Qed.
Lemma combs_nonempty : forall k l, k <= length l -> combs k l <> [].
Proof.
  induction k as [|k IH]; intros l H; [discriminate|].
  destruct l as [|x r]; [simpl in H; lia|]. rewrite combs_S_cons. simpl in H.
  destruct (combs k r) as [|c cs] eqn:E; [exfalso; apply (IH r); [lia|exact E]|discriminate].
Qed.

Section HighDim.
  Variable tau0 : nat -> nat -> Qc.
  Variable tau : nat -> list nat -> nat -> Qc.
  Variable enum : list nat -> list nat.
  Variable J : nat.
  Variable alpha : Qc.

  Lemma hd_loop_order : forall fo fuel n theta psi stats c, is_order n (theta ++ psi) ->
    length psi <= S fuel ->
    exists K, hd_loop tau0 tau enum J alpha fo fuel theta psi stats c = Ok K /\ is_order n K.
  Proof.
    intro fo. induction fuel as [|fuel IH]; intros n theta psi stats c HO L.
    - cbn [hd_loop]. apply Nat.leb_le in L. rewrite L. eauto.
    - cbn [hd_loop]. destruct (length psi <=? 1) eqn:EL; [eauto|]. apply Nat.leb_gt in EL.
      set (mt := map (fun i => qmax_list _) psi).
      destruct (np_argmin (map Some mt)) as [i|] eqn:E.
      + apply np_argmin_bound in E. unfold mt in E. rewrite !map_length in E.
        destruct (nth_error psi i) as [r|] eqn:En; [|apply nth_error_None in En; lia].
        apply nth_error_In in En.
        assert (ND := is_order_NoDup _ _ HO). apply NoDup_app_iff' in ND. destruct ND as [_ [NDp _]].
        pose proof (remove_nat_length r psi NDp En). apply IH; [|lia].
        unfold is_order in *. rewrite <- HO. rewrite <- app_assoc. simpl.
        apply Permutation_app_head. symmetry. apply remove_nat_perm; assumption.
      + exfalso. destruct psi; [simpl in EL; lia|]. discriminate.
  Qed.

  Theorem hd_order_ok : forall fo n, exists K,
    hd_order tau0 tau enum J alpha fo n = Ok K /\ is_order n K.
  Proof.
    intros fo n. apply hd_loop_order; [apply Permutation_refl|]. rewrite seq_length. lia.
  Qed.

  (** ** Statistics *)
  Lemma taus_update_spec : forall v cond js ret j, NoDup js ->
    taus_update tau v cond js ret j = if memb j js then qmin (ret j) (tau v cond j) else ret j.
  Proof.
    intros v cond. unfold taus_update. induction js as [|k js IH]; intros ret j ND; [reflexivity|].
    inversion ND as [|? ? Hk ND']; subst. cbn [fold_left]. rewrite IH by exact ND'.
    cbn [memb existsb]. fold (memb j js). unfold upd. destruct (j =? k) eqn:E; cbn [orb]; [|reflexivity].
    apply Nat.eqb_eq in E. subst k. apply memb_notIn in Hk. rewrite Hk. reflexivity.
  Qed.
  Lemma taus_update_notin : forall v cond js ret j, ~ In j js -> taus_update tau v cond js ret j = ret j.
  Proof.
    intros v cond. unfold taus_update. induction js as [|k js IH]; intros ret j N; [reflexivity|].
    cbn [fold_left]. rewrite IH; [|intro; apply N; right; assumption].
    unfold upd. destruct (j =? k) eqn:E; [|reflexivity]. apply Nat.eqb_eq in E. subst. exfalso. apply N. left. reflexivity.
  Qed.

  (** Value of the statistic of a remaining variable [j]: the code uses the first set only, *)
  Lemma calc_taus_first : forall v ch cond an r ret j, NoDup ch -> In j ch -> ~ In j an ->
    calc_taus tau true v ch ((cond, an) :: r) ret j = qmin (ret j) (tau v cond j).
  Proof.
    intros v ch cond an r ret j ND Hj Na. cbn [calc_taus].
    rewrite taus_update_notin by exact Na. rewrite taus_update_spec by exact ND.
    apply memb_In in Hj. rewrite Hj. reflexivity.
  Qed.
  (** the loop without the early return is the minimum over all of them. *)
  Lemma calc_taus_all : forall v ch sets ret j, NoDup ch -> In j ch ->
    (forall s, In s sets -> ~ In j (snd s)) ->
    calc_taus tau false v ch sets ret j = fold_left qmin (map (fun s => tau v (fst s) j) sets) (ret j).
  Proof.
    intros v ch. induction sets as [|[cond an] sets IH]; intros ret j ND Hj Na; [reflexivity|].
    cbn [calc_taus map fold_left fst]. rewrite IH; [|exact ND|exact Hj|intros s Hs; apply Na; right; exact Hs].
    f_equal. rewrite taus_update_notin by (apply (Na (cond, an)); left; reflexivity).
    rewrite taus_update_spec by exact ND. apply memb_In in Hj. rewrite Hj. reflexivity.
  Qed.

  Hypothesis enum_perm : forall l, Permutation (enum l) l.

  Lemma cond_sets_head : forall cs r, NoDup cs -> In r cs ->
    exists x an rest, cond_sets enum J cs r = (r :: x, an) :: rest /\
      length x = Nat.min J (length cs) - 1 /\ incl x cs /\ incl an cs.
  Proof.
    intros cs r ND Hr. unfold cond_sets.
    assert (L : S (length (enum (remove_nat r cs))) = length cs).
    { rewrite (Permutation_length (enum_perm _)). symmetry. apply remove_nat_length; assumption. }
    destruct (combs (Nat.min J (length cs) - 1) (enum (remove_nat r cs))) as [|x xs] eqn:E.
    - exfalso. revert E. apply combs_nonempty. lia.
    - assert (Hx : In x (combs (Nat.min J (length cs) - 1) (enum (remove_nat r cs)))) by (rewrite E; left; reflexivity).
      apply combs_In in Hx. destruct Hx as [Lx Ix].
      cbn [map]. do 3 eexists. split; [reflexivity|]. split; [exact Lx|]. split.
      + intros a Ha. apply Ix in Ha. apply (Permutation_in _ (enum_perm _)) in Ha. apply remove_nat_In in Ha. tauto.
      + intros a Ha. apply (Permutation_in _ (enum_perm _)) in Ha. apply filter_In in Ha. tauto.
  Qed.

  (** ** No difference for at most J+2 variables *)
  Lemma cond_set_last : forall theta stats c v r, last (map Some theta) None = Some r -> NoDup theta ->
    NoDup (cond_set theta stats c v) /\ In r (cond_set theta stats c v) /\
    length (cond_set theta stats c v) <= length theta /\ incl (cond_set theta stats c v) theta.
  Proof.
    intros theta stats c v r Hr ND. unfold cond_set. rewrite Hr.
    assert (HrT : In r theta).
    { destruct theta as [|a t]; [discriminate|]. destruct (last_some (a :: t)) as [r' [E I]]; [discriminate|].
      rewrite E in Hr. inversion Hr; subst. exact I. }
    set (sel := filter (fun j => qltb c (stats v j)) theta).
    assert (NDs : NoDup sel) by (apply NoDup_filter; exact ND).
    assert (Is : incl sel theta) by (intros x Hx; apply filter_In in Hx; tauto).
    destruct (memb r sel) eqn:M.
    - apply memb_In in M. split; [exact NDs|]. split; [exact M|]. split; [|exact Is].
      apply NoDup_incl_length; assumption.
    - apply memb_notIn in M.
      assert (ND2 : NoDup (sel ++ [r])).
      { apply NoDup_app_iff'. split; [exact NDs|]. split; [constructor; [intros []|constructor]|].
        intros x Hx [<-|[]]. contradiction. }
      assert (I2 : incl (sel ++ [r]) theta).
      { intros x Hx. apply in_app_or in Hx. destruct Hx as [Hx|[<-|[]]]; [apply Is; exact Hx|exact HrT]. }
      split; [exact ND2|]. split; [apply in_or_app; right; left; reflexivity|]. split; [|exact I2].
      apply NoDup_incl_length; assumption.
  Qed.

  Lemma get_prune_stats_same : forall v psi last cs j,
    (forall r, last = Some r -> NoDup cs /\ In r cs /\ length cs <= J) ->
    get_prune_stats tau0 tau enum J true v psi last cs j = get_prune_stats tau0 tau enum J false v psi last cs j.
  Proof.
    intros v psi last cs j H. unfold get_prune_stats. destruct last as [r|]; [|reflexivity].
    destruct (H r eq_refl) as [ND [Hr L]].
    assert (E : length (enum (remove_nat r cs)) = Nat.min J (length cs) - 1).
    { rewrite (Permutation_length (enum_perm _)). pose proof (remove_nat_length r cs ND Hr). lia. }
    unfold cond_sets. rewrite <- E, combs_full. reflexivity.
  Qed.

  Lemma hd_loop_same : forall fuel n theta psi stats stats' c,
    is_order n (theta ++ psi) -> n <= J + 2 -> (forall i j, stats i j = stats' i j) ->
    hd_loop tau0 tau enum J alpha true fuel theta psi stats c =
    hd_loop tau0 tau enum J alpha false fuel theta psi stats' c.
  Proof.
    induction fuel as [|fuel IH]; intros n theta psi stats stats' c HO L HS.
    - reflexivity.
    - cbn [hd_loop]. destruct (length psi <=? 1) eqn:EL; [reflexivity|]. apply Nat.leb_gt in EL.
      assert (ND := is_order_NoDup _ _ HO). apply NoDup_app_iff' in ND. destruct ND as [NDt [NDp _]].
      assert (LT : length theta + length psi = n) by (rewrite <- app_length; apply is_order_length; exact HO).
      assert (HU : forall i j, update_stats tau0 tau enum J true theta psi stats c i j =
                               update_stats tau0 tau enum J false theta psi stats' c i j).
      { intros i j. unfold update_stats. destruct (i =? j); [reflexivity|]. destruct (memb i psi); [|apply HS].
        rewrite HS.
        assert (EC : cond_set theta stats c i = cond_set theta stats' c i).
        { unfold cond_set. rewrite (filter_ext _ (fun j => qltb c (stats' i j))) by (intro; rewrite HS; reflexivity).
          reflexivity. }
        rewrite EC. rewrite get_prune_stats_same; [reflexivity|].
        intros r Hr. destruct (cond_set_last theta stats' c i r Hr NDt) as [A [B [C _]]].
        split; [exact A|]. split; [exact B|]. lia. }
      assert (EM : map (fun i => qmax_list (map (fun j => update_stats tau0 tau enum J true theta psi stats c i j) psi)) psi =
                   map (fun i => qmax_list (map (fun j => update_stats tau0 tau enum J false theta psi stats' c i j) psi)) psi).
      { apply map_ext. intro i. f_equal. apply map_ext. intro j. apply HU. }
      rewrite EM. destruct (np_argmin _) as [i|]; [|reflexivity].
      destruct (nth_error psi i) as [r|] eqn:En; [|reflexivity]. apply nth_error_In in En.
      apply (IH n); [|exact L|exact HU].
      unfold is_order in *. rewrite <- HO. rewrite <- app_assoc. simpl.
      apply Permutation_app_head. symmetry. apply remove_nat_perm; assumption.
  Qed.
End HighDim.
