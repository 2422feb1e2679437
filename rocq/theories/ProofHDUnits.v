(** * Proofs: units, origin and degree in HighDimDirectLiNGAM *)
From Coq Require Import List Arith Bool ZArith QArith Qcanon Lia Permutation Sorted.
From Verif Require Import Prelude Spec SpecPop SpecHDPop Lib LibMat ModelDirect ModelRCD ModelHighDim ModelHighDimData
  ProofLim ProofPop ProofRCD ProofHighDim ProofHighDim2 ProofHDPop.
Import ListNotations.
Open Scope nat_scope.

(** ** Rounds in which all statistics agree *)
Section Constant.
  Variables (tau0 : nat -> nat -> Qc) (tau : nat -> list nat -> nat -> Qc) (enum : list nat -> list nat) (J : nat) (alpha : Qc) (fo : bool).
  Variable m : Qc.
  Hypothesis m_nonneg : (0 <= m)%Qc.
  Variable P : list nat -> list nat -> mat Qc -> Prop.
  Hypothesis HP : forall theta psi T c, P theta psi T -> 2 <= length psi ->
    let T' := update_stats tau0 tau enum J fo theta psi T c in
    (forall i j, In i psi -> In j psi -> i <> j -> T' i j = m) /\ forall r, In r psi -> P (theta ++ [r]) (remove_nat r psi) T'.

  Lemma remove_head : forall (a : nat) l, ~ In a l -> remove_nat a (a :: l) = l.
  Proof.
    intros a l N. unfold remove_nat. cbn [filter]. rewrite Nat.eqb_refl. cbn [negb]. induction l as [|b l IH]; [reflexivity|]. cbn [filter].
    destruct (Nat.eqb_spec b a) as [->|]; [exfalso; apply N; left; reflexivity|]. cbn [negb]. f_equal. apply IH. intro H. apply N. right. exact H.
  Qed.
  Lemma constant_loop : forall fuel theta psi T c, NoDup psi -> P theta psi T -> length psi <= S fuel -> hd_loop tau0 tau enum J alpha fo fuel theta psi T c = Ok (theta ++ psi).
  Proof.
    induction fuel as [|fuel IH]; intros theta psi T c ND HT L; cbn [hd_loop].
    - apply Nat.leb_le in L. rewrite L. reflexivity.
    - destruct (Nat.leb_spec (length psi) 1) as [L1|L1]; [reflexivity|].
      destruct (HP theta psi T c HT ltac:(lia)) as [E HN]. set (T' := update_stats tau0 tau enum J fo theta psi T c) in *.
      assert (MX : forall i, In i psi -> qmax_list (map (fun j => T' i j) psi) = m).
      { intros i Hi. assert (NE : psi <> []) by (intro Z; rewrite Z in L1; cbn in L1; lia).
        destruct (qmax_list_max (T' i) psi NE) as ((y & Iy & Ey) & U).
        assert (D : T' i i = 0%Qc) by (unfold T', update_stats; rewrite Nat.eqb_refl; reflexivity).
        assert (X : exists j, In j psi /\ j <> i).
        { destruct psi as [|a [|b psi]]; [cbn in L1; lia|cbn in L1; lia|]. inversion ND as [|? ? N1 _]. subst. destruct (Nat.eq_dec a i) as [Q|Q]; [|exists a; split; [left; reflexivity|exact Q]].
          exists b. split; [right; left; reflexivity|]. intro; subst. apply N1. left. reflexivity. }
        destruct X as (j & Hj & Nj). specialize (U j Hj). rewrite (E i j Hi Hj ltac:(congruence)) in U.
        apply Qcle_antisym; [|exact U]. change (qmax_list (map (T' i) psi) <= m)%Qc. rewrite <- Ey. destruct (Nat.eq_dec i y) as [<-|N]; [rewrite D; exact m_nonneg|]. rewrite (E i y Hi Iy N). apply Qcle_refl. }
      destruct psi as [|a psi]; [cbn in L1; lia|].
      assert (AM : np_argmin (map Some (map (fun i => qmax_list (map (fun j => T' i j) (a :: psi))) (a :: psi))) = Some 0).
      { rewrite (map_ext_in _ (fun _ => m) (a :: psi)) by (intros i Hi; exact (MX i Hi)).
        destruct (argmin_first (map (fun _ => m) (a :: psi)) ltac:(discriminate)) as (i & v & E1 & E2 & _ & E4). rewrite E1. f_equal.
        destruct i as [|i]; [reflexivity|]. exfalso. apply nth_error_In, in_map_iff in E2. destruct E2 as (_ & <- & _).
        apply (Qclt_not_le m m); [|apply Qcle_refl]. apply (E4 0 m); [lia|reflexivity]. }
      rewrite AM. cbn [nth_error]. inversion ND as [|? ? NI NDp]. subst.
      specialize (HN a (or_introl eq_refl)). rewrite remove_head in HN |- * by exact NI. rewrite IH; [rewrite <- app_assoc; reflexivity|exact NDp|exact HN|cbn [length] in L; lia].
  Qed.
End Constant.

Lemma stats_ge : forall tau0 tau enum J, (forall l, Permutation (enum l) l) -> forall b v theta psi T c, (b <= qz 100000)%Qc -> NoDup theta -> (forall j, In j psi -> j <> v -> theta = [] -> (b <= tau0 v j)%Qc) ->
  (forall r C j, NoDup (r :: C) -> incl (r :: C) theta -> j <> v -> (In j psi \/ In j theta) -> (b <= tau v (r :: C) j)%Qc) ->
  forall j, In v psi -> j <> v -> (b <= get_prune_stats tau0 tau enum J true v psi (last (map Some theta) None) (cond_set theta T c v) j)%Qc.
Proof.
  intros tau0 tau enum J HE b v theta psi T c Hb NDt H0 H1 j Hv Nj. unfold get_prune_stats. destruct (last (map Some theta) None) as [r|] eqn:EL.
  - destruct (cond_set_last tau0 tau J theta T c v r EL NDt) as (C1 & C2 & C3 & C4).
    destruct (cond_sets_head2 tau0 tau enum J HE (cond_set theta T c v) r C1 C2) as (x & an & rest & E & X1 & X2 & X3 & X4 & X5 & X6). rewrite E. cbn [calc_taus].
    assert (Hb2 : (b <= qz 10000000000)%Qc) by (eapply Qcle_trans; [exact Hb|vm_compute; discriminate]).
    assert (G : forall js ret, (forall k, In k js -> k <> v -> In k psi \/ In k theta) -> (forall k, k <> v -> (b <= ret k)%Qc) -> forall k, k <> v -> (b <= taus_update tau v (r :: x) js ret k)%Qc).
    { unfold taus_update. induction js as [|a js IH]; intros ret HI HR k Nk; [apply HR; exact Nk|]. cbn [fold_left]. apply IH; [intros z Hz; apply HI; right; exact Hz| |exact Nk].
      intros z Nz. unfold upd. destruct (Nat.eqb_spec z a) as [->|]; [|apply HR; exact Nz]. destruct (qmin_cases (ret a) (tau v (r :: x) a)) as [->| ->]; [apply HR; exact Nz|].
      apply H1; [constructor; assumption| |exact Nz|apply HI; [left; reflexivity|exact Nz]]. intros q [<-|Hq]; apply C4; [exact C2|apply X2; exact Hq]. }
    apply G; [| |exact Nj].
    + intros k Hk _. right. apply X6 in Hk. apply C4. tauto.
    + intros k Nk. apply G; [| |exact Nk]; [intros z Hz _; apply remove_nat_In in Hz; left; tauto|intros; exact Hb2].
  - destruct (memb j (remove_nat v psi)) eqn:Mj; [|exact Hb]. apply memb_In, remove_nat_In in Mj. apply H0; [tauto|exact Nj|].
    destruct theta as [|a th]; [reflexivity|]. destruct (last_some (a :: th)) as (r & E & _); [discriminate|congruence].
Qed.

(** All statistics at least 100000: the order is the order of the columns. *)
Lemma all_capped : forall tau0 tau enum J alpha n, (forall l, Permutation (enum l) l) ->
  (forall v j, v < n -> j < n -> v <> j -> (qz 100000 <= tau0 v j)%Qc) ->
  (forall v C j, v < n -> j < n -> v <> j -> NoDup C -> C <> [] -> ~ In v C -> (forall q, In q C -> q < n) -> length C + 2 <= n -> (qz 100000 <= tau v C j)%Qc) ->
  hd_order tau0 tau enum J alpha true n = Ok (seq 0 n).
Proof.
  intros tau0 tau enum J alpha n HE H0 H1. unfold hd_order.
  rewrite (constant_loop tau0 tau enum J alpha true (qz 100000) ltac:(vm_compute; discriminate)
    (fun theta psi T => is_order n (theta ++ psi) /\ forall i j, In i psi -> In j (theta ++ psi) -> i <> j -> T i j = qz 100000)); [reflexivity| |apply seq_NoDup| |rewrite seq_length; lia].
  - intros theta psi T c [HO HT] L T'.
    assert (ND := is_order_NoDup _ _ HO). apply NoDup_app_iff' in ND. destruct ND as (NDt & NDp & DJ).
    assert (Ln : forall a, In a (theta ++ psi) -> a < n) by (intros a Ha; apply (Permutation_in _ HO), in_seq in Ha; lia).
    assert (LEN : length theta + 2 <= n) by (pose proof (Permutation_length HO) as Q; rewrite app_length, seq_length in Q; lia).
    assert (E : forall i j, In i psi -> In j (theta ++ psi) -> i <> j -> T' i j = qz 100000).
    { intros i j Hi Hj Nij. unfold T', update_stats. rewrite (proj2 (Nat.eqb_neq i j) Nij), (proj2 (memb_In i psi) Hi), (HT i j Hi Hj Nij).
      apply (qmin_iff (qz 100000)). apply stats_ge; try assumption; [apply Qcle_refl| | |congruence].
      - intros k Hk Nk _. apply H0; [apply Ln, in_app_iff; right; exact Hi|apply Ln, in_app_iff; right; exact Hk|congruence].
      - intros r C k ND I Nk Hk. apply H1; [apply Ln, in_app_iff; right; exact Hi|apply Ln, in_app_iff; tauto|congruence|exact ND|discriminate|intro Q; apply I in Q; exact (DJ i Q Hi)|intros q Hq; apply Ln, in_app_iff; left; apply I; exact Hq|].
        pose proof (NoDup_incl_length ND I). lia. }
    split; [intros i j Hi Hj; apply E; [exact Hi|apply in_app_iff; right; exact Hj]|]. intros r Hr.
    assert (PE : Permutation ((theta ++ [r]) ++ remove_nat r psi) (theta ++ psi)) by (rewrite <- app_assoc; cbn [app]; apply Permutation_app_head; symmetry; apply remove_nat_perm; assumption).
    split; [unfold is_order; rewrite PE; exact HO|]. intros i j Hi Hj. apply E; [apply remove_nat_In in Hi; tauto|apply (Permutation_in _ PE); exact Hj].
  - split; [apply Permutation_refl|]. intros i j _ _ Nij. rewrite (proj2 (Nat.eqb_neq i j) Nij). reflexivity.
Qed.
(** All statistics zero: the order is the order of the columns. *)
Lemma all_zero : forall tau0 tau enum J alpha n, (forall l, Permutation (enum l) l) ->
  (forall v j, v < n -> j < n -> v <> j -> tau0 v j = 0%Qc) ->
  (forall v C j, v < n -> j < n -> NoDup C -> (forall q, In q C -> q < n) -> tau v C j = 0%Qc) ->
  hd_order tau0 tau enum J alpha true n = Ok (seq 0 n).
Proof.
  intros tau0 tau enum J alpha n HE H0 H1. unfold hd_order.
  rewrite (constant_loop tau0 tau enum J alpha true 0%Qc (Qcle_refl _)
    (fun theta psi T => is_order n (theta ++ psi) /\ forall i j, In i psi -> i <> j -> (0 <= T i j)%Qc)); [reflexivity| |apply seq_NoDup| |rewrite seq_length; lia].
  - intros theta psi T c [HO HT] L T'.
    assert (ND := is_order_NoDup _ _ HO). apply NoDup_app_iff' in ND. destruct ND as (NDt & NDp & DJ).
    assert (Ln : forall a, In a theta \/ In a psi -> a < n) by (intros a Ha; apply in_or_app in Ha; apply (Permutation_in _ HO), in_seq in Ha; lia).
    assert (EQ : forall i j, In i psi -> i <> j -> T' i j = qmin (T i j) (get_prune_stats tau0 tau enum J true i psi (last (map Some theta) None) (cond_set theta T c i) j)).
    { intros i j Hi Nij. unfold T', update_stats. rewrite (proj2 (Nat.eqb_neq i j) Nij), (proj2 (memb_In i psi) Hi). reflexivity. }
    assert (G : forall i j, In i psi -> i <> j -> (0 <= get_prune_stats tau0 tau enum J true i psi (last (map Some theta) None) (cond_set theta T c i) j)%Qc).
    { intros i j Hi Nij. apply stats_ge; try assumption; [vm_compute; discriminate| | |congruence].
      - intros k Hk Nk _. rewrite H0; [apply Qcle_refl|apply Ln; right; exact Hi|apply Ln; right; exact Hk|congruence].
      - intros r C k ND I Nk Hk. rewrite H1; [apply Qcle_refl|apply Ln; right; exact Hi|apply Ln; tauto|exact ND|intros q Hq; apply Ln; left; apply I; exact Hq]. }
    split.
    + intros i j Hi Hj Nij. rewrite EQ by assumption. apply Qcle_antisym.
      * eapply Qcle_trans; [apply qmin_r|]. unfold get_prune_stats. destruct (last (map Some theta) None) as [r|] eqn:EL.
        -- destruct (cond_set_last tau0 tau J theta T c i r EL NDt) as (C1 & C2 & C3 & C4).
           destruct (cond_sets_head2 tau0 tau enum J HE (cond_set theta T c i) r C1 C2) as (x & an & rest & E & X1 & X2 & X3 & X4 & X5 & X6). rewrite E.
           rewrite calc_taus_first; [|apply remove_nat_NoDup; exact NDp|apply remove_nat_In; split; [exact Hj|congruence]|intro Q; apply X6 in Q; apply (DJ j); [apply C4; tauto|exact Hj]].
           eapply Qcle_trans; [apply qmin_r|]. rewrite H1; [apply Qcle_refl|apply Ln; right; exact Hi|apply Ln; right; exact Hj|constructor; assumption|].
           intros q [<-|Hq]; apply Ln; left; apply C4; [exact C2|apply X2; exact Hq].
        -- rewrite (proj2 (memb_In j (remove_nat i psi))) by (apply remove_nat_In; split; [exact Hj|congruence]). rewrite H0; [apply Qcle_refl|apply Ln; right; exact Hi|apply Ln; right; exact Hj|exact Nij].
      * destruct (qmin_cases (T i j) (get_prune_stats tau0 tau enum J true i psi (last (map Some theta) None) (cond_set theta T c i) j)) as [->| ->]; [apply HT|apply G]; assumption.
    + intros r Hr. split.
      * unfold is_order. rewrite <- HO, <- app_assoc. cbn [app]. apply Permutation_app_head. symmetry. apply remove_nat_perm; assumption.
      * intros i j Hi Nij. apply remove_nat_In in Hi. rewrite EQ by tauto.
        destruct (qmin_cases (T i j) (get_prune_stats tau0 tau enum J true i psi (last (map Some theta) None) (cond_set theta T c i) j)) as [->| ->]; [apply HT|apply G]; tauto.
  - split; [apply Permutation_refl|]. intros i j _ Nij. rewrite (proj2 (Nat.eqb_neq i j) Nij). vm_compute. discriminate.
Qed.
