(** * The statistics of HighDimDirectLiNGAM, step by step. *)
From Coq Require Import List Arith Bool ZArith QArith Qcanon Lia Permutation Sorted.
From Verif Require Import Prelude Spec SpecHighDim Lib ModelDirect ModelRCD ModelHighDim ProofRCD ProofHighDim ProofLim2.
Import ListNotations.
Open Scope nat_scope.

Lemma qmin_iff : forall a b, ((a <= b)%Qc -> qmin a b = a) /\ ((b <= a)%Qc -> qmin a b = b).
Proof.
  intros a b. unfold qmin. destruct (qltb b a) eqn:E; split; intro H; try reflexivity.
  - apply qltb_lt in E. exfalso. exact (Qclt_not_le _ _ E H).
  - apply qltb_nlt in E. apply Qcle_antisym; assumption.
Qed.
Lemma qmax_fold : forall l a, let m := fold_left qmax l a in (m = a \/ In m l) /\ (a <= m)%Qc /\ forall x, In x l -> (x <= m)%Qc.
Proof.
  induction l as [|y l IH]; intros a m; [split; [left; reflexivity|]; split; [apply Qcle_refl|intros x []]|].
  unfold m. cbn [fold_left]. destruct (IH (qmax a y)) as (I1 & I2 & I3).
  assert (Q : (qmax a y = a \/ qmax a y = y) /\ (a <= qmax a y)%Qc /\ (y <= qmax a y)%Qc).
  { unfold qmax. destruct (qltb a y) eqn:E; [apply qltb_lt in E|apply qltb_nlt in E]; split; auto; split; try apply Qcle_refl; try exact E. apply Qclt_le_weak. exact E. }
  destruct Q as (Q1 & Q2 & Q3). split; [|split].
  - destruct I1 as [I1|I1]; [|right; right; exact I1]. rewrite I1. destruct Q1 as [->| ->]; [left; reflexivity|right; left; reflexivity].
  - eapply Qcle_trans; eassumption.
  - intros x [<-|Hx]; [eapply Qcle_trans; eassumption|apply I3; exact Hx].
Qed.
Lemma qmax_list_max : forall (f : nat -> Qc) l, l <> [] -> is_max (qmax_list (map f l)) f l.
Proof.
  intros f [|a l] NE; [congruence|]. cbn [map qmax_list]. destruct (qmax_fold (map f l) (f a)) as (I1 & I2 & I3). split.
  - destruct I1 as [I1|I1]; [exists a; split; [left; reflexivity|symmetry; exact I1]|]. apply in_map_iff in I1. destruct I1 as (x & E & I). exists x. split; [right; exact I|exact E].
  - intros x [<-|Hx]; [exact I2|]. apply I3. apply in_map. exact Hx.
Qed.
Lemma qmin_fold : forall l a, let m := fold_left qmin l a in (m = a \/ In m l) /\ (m <= a)%Qc /\ forall x, In x l -> (m <= x)%Qc.
Proof.
  induction l as [|y l IH]; intros a m; [split; [left; reflexivity|]; split; [apply Qcle_refl|intros x []]|].
  unfold m. cbn [fold_left]. destruct (IH (qmin a y)) as (I1 & I2 & I3). split; [|split].
  - destruct I1 as [I1|I1]; [|right; right; exact I1]. rewrite I1. destruct (qmin_cases a y) as [->| ->]; [left; reflexivity|right; left; reflexivity].
  - eapply Qcle_trans; [exact I2|apply qmin_l].
  - intros x [<-|Hx]; [eapply Qcle_trans; [exact I2|apply qmin_r]|apply I3; exact Hx].
Qed.
Lemma qmin_list_min : forall l, l <> [] -> In (qmin_list l) l /\ forall x, In x l -> (qmin_list l <= x)%Qc.
Proof.
  intros [|a l] NE; [congruence|]. cbn [qmin_list]. destruct (qmin_fold l a) as (I1 & I2 & I3). split.
  - destruct I1 as [->|I1]; [left; reflexivity|right; exact I1].
  - intros x [<-|Hx]; [exact I2|apply I3; exact Hx].
Qed.
(** np.argmin: the first position of the minimum. *)
Lemma argbest_first : forall l bi i b, let r := argbest qltb (Some b) bi i (map Some l) in
  (r = bi /\ forall y, In y l -> (b <= y)%Qc) \/
  (exists k v, r = i + k /\ nth_error l k = Some v /\ (v < b)%Qc /\ (forall y, In y l -> (v <= y)%Qc) /\
     forall k' y, k' < k -> nth_error l k' = Some y -> (v < y)%Qc).
Proof.
  induction l as [|x l IH]; intros bi i b r; unfold r; cbn [map argbest].
  - left. split; [reflexivity|intros y []].
  - destruct (qltb x b) eqn:E.
    + right. apply qltb_lt in E. destruct (IH i (S i) x) as [[R M]|(k & v & R & N & V & M & F)].
      * exists 0, x. split; [rewrite R; lia|]. split; [reflexivity|]. split; [exact E|]. split; [intros y [<-|Hy]; [apply Qcle_refl|apply M; exact Hy]|]. intros k' y L. lia.
      * exists (S k), v. split; [rewrite R; lia|]. split; [exact N|]. split; [eapply Qclt_trans; eassumption|].
        split; [intros y [<-|Hy]; [apply Qclt_le_weak; exact V|apply M; exact Hy]|]. intros [|k'] y L Hy; [cbn in Hy; injection Hy as <-; exact V|]. apply (F k'); [lia|exact Hy].
    + apply qltb_nlt in E. destruct (IH bi (S i) b) as [[R M]|(k & v & R & N & V & M & F)].
      * left. split; [exact R|]. intros y [<-|Hy]; [exact E|apply M; exact Hy].
      * right. exists (S k), v. split; [rewrite R; lia|]. split; [exact N|]. split; [exact V|].
        split; [intros y [<-|Hy]; [apply Qclt_le_weak; eapply Qclt_le_trans; eassumption|apply M; exact Hy]|].
        intros [|k'] y L Hy; [cbn in Hy; injection Hy as <-; eapply Qclt_le_trans; eassumption|]. apply (F k'); [lia|exact Hy].
Qed.
Lemma argmin_first : forall l, l <> [] -> exists i v, np_argmin (map Some l) = Some i /\ nth_error l i = Some v /\
  (forall y, In y l -> (v <= y)%Qc) /\ forall k y, k < i -> nth_error l k = Some y -> (v < y)%Qc.
Proof.
  intros [|x l] NE; [congruence|]. cbn [map np_argmin]. destruct (argbest_first l 0 1 x) as [[R M]|(k & v & R & N & V & M & F)]; rewrite R.
  - exists 0, x. split; [reflexivity|]. split; [reflexivity|]. split; [intros y [<-|Hy]; [apply Qcle_refl|apply M; exact Hy]|]. intros k y L. lia.
  - exists (1 + k), v. split; [reflexivity|]. split; [exact N|]. split; [intros y [<-|Hy]; [apply Qclt_le_weak; exact V|apply M; exact Hy]|].
    intros [|k'] y L Hy; [cbn in Hy; injection Hy as <-; exact V|]. apply (F k'); [lia|exact Hy].
Qed.

Lemma qmin_is_min : forall a b, is_min (qmin a b) a b.
Proof. intros a b. split; [apply qmin_cases|]. split; [apply qmin_l|apply qmin_r]. Qed.

Section Run.
  Variable tau0 : nat -> nat -> Qc.
  Variable tau : nat -> list nat -> nat -> Qc.
  Variable enum : list nat -> list nat.
  Variable J : nat.
  Variable alpha : Qc.
  Hypothesis enum_perm : forall l, Permutation (enum l) l.

  Lemma last_snoc : forall (t : list nat) l, last (map Some (t ++ [l])) None = Some l.
  Proof. intros t l. rewrite map_app. cbn. apply last_last. Qed.
  Lemma cond_set_In : forall t l T c v j, In j (cond_set (t ++ [l]) T c v) <-> In j (t ++ [l]) /\ ((c < T v j)%Qc \/ j = l).
  Proof.
    intros t l T c v j. unfold cond_set. rewrite last_snoc. set (sel := filter (fun j => qltb c (T v j)) (t ++ [l])).
    assert (Hs : forall x, In x sel <-> In x (t ++ [l]) /\ (c < T v x)%Qc) by (intro x; unfold sel; rewrite filter_In, qltb_lt; tauto).
    assert (Hl : In l (t ++ [l])) by (apply in_or_app; right; left; reflexivity).
    destruct (memb l sel) eqn:M.
    - apply memb_In in M. rewrite Hs. split; [tauto|]. intros [H1 [H2| ->]]; [tauto|]. apply Hs. exact M.
    - rewrite in_app_iff, Hs. cbn [In]. split; [intros [H|[<-|[]]]; tauto|]. intros [H1 [H2| ->]]; tauto.
  Qed.
  Lemma cond_sets_head2 : forall cs r, NoDup cs -> In r cs ->
    exists x an rest, cond_sets enum J cs r = (r :: x, an) :: rest /\
      length x = Nat.min J (length cs) - 1 /\ incl x cs /\ ~ In r x /\ NoDup x /\ NoDup an /\ forall a, In a an <-> In a cs /\ ~ In a x.
  Proof.
    intros cs r ND Hr. unfold cond_sets.
    assert (L : S (length (enum (remove_nat r cs))) = length cs).
    { rewrite (Permutation_length (enum_perm _)). symmetry. apply remove_nat_length; assumption. }
    destruct (combs (Nat.min J (length cs) - 1) (enum (remove_nat r cs))) as [|x xs] eqn:E.
    - exfalso. revert E. apply combs_nonempty. lia.
    - assert (Hx : In x (combs (Nat.min J (length cs) - 1) (enum (remove_nat r cs)))) by (rewrite E; left; reflexivity).
      assert (NDe : NoDup (enum (remove_nat r cs))).
      { eapply Permutation_NoDup; [apply Permutation_sym, enum_perm|]. apply remove_nat_NoDup. exact ND. }
      pose proof (combs_NoDup_elem _ _ _ NDe Hx) as NDx. apply combs_In in Hx. destruct Hx as [Lx Ix].
      assert (I2 : forall a, In a x -> In a cs /\ a <> r).
      { intros a Ha. apply Ix in Ha. apply (Permutation_in _ (enum_perm _)) in Ha. apply remove_nat_In in Ha. exact Ha. }
      cbn [map]. do 3 eexists. split; [reflexivity|]. split; [exact Lx|]. split; [intros a Ha; apply I2; exact Ha|].
      split; [intro K; apply I2 in K; tauto|]. split; [exact NDx|]. split.
      + eapply Permutation_NoDup; [apply Permutation_sym, enum_perm|]. apply NoDup_filter. exact ND.
      + intro a. rewrite <- memb_notIn. split.
        * intro Ha. apply (Permutation_in _ (enum_perm _)) in Ha. apply filter_In in Ha. rewrite negb_true_iff in Ha. exact Ha.
        * intro Ha. eapply Permutation_in; [apply Permutation_sym, enum_perm|]. apply filter_In. rewrite negb_true_iff. exact Ha.
  Qed.
  Lemma qmin_big : forall a b, (a <= qz 100000)%Qc -> qmin a (qmin (qz 10000000000) b) = qmin a b.
  Proof.
    intros a b H. assert (B : (qz 100000 <= qz 10000000000)%Qc) by (vm_compute; discriminate).
    destruct (qmin_iff (qz 10000000000) b) as [Q1 Q2]. destruct (qltb b (qz 10000000000)) eqn:E.
    - apply qltb_lt in E. rewrite Q2 by (apply Qclt_le_weak; exact E). reflexivity.
    - apply qltb_nlt in E. rewrite Q1 by exact E. rewrite (proj1 (qmin_iff a (qz 10000000000))) by (eapply Qcle_trans; eassumption).
      rewrite (proj1 (qmin_iff a b)); [reflexivity|]. eapply Qcle_trans; [|exact E]. eapply Qcle_trans; eassumption.
  Qed.
  Lemma qmin_huge : forall a, (a <= qz 100000)%Qc -> qmin a (qz 10000000000) = a.
  Proof. intros a H. apply qmin_iff. eapply Qcle_trans; [exact H|]. vm_compute. discriminate. Qed.

  Lemma update_round : forall theta psi T c, NoDup (theta ++ psi) -> (forall i j, (T i j <= qz 100000)%Qc) ->
    round_stats tau0 tau J theta psi T c (update_stats tau0 tau enum J true theta psi T c) /\
    forall i j, (update_stats tau0 tau enum J true theta psi T c i j <= qz 100000)%Qc.
  Proof.
    intros theta psi T c ND HT. apply NoDup_app_iff' in ND. destruct ND as (NDt & NDp & DJ). unfold update_stats. split.
    - split; [intro i; rewrite Nat.eqb_refl; reflexivity|]. split; [|split].
      + intros i j N Hi. destruct (Nat.eqb_spec i j); [contradiction|]. apply memb_notIn in Hi. rewrite Hi. reflexivity.
      + intros -> i j N Hi Hj. destruct (Nat.eqb_spec i j); [contradiction|]. apply memb_In in Hi. rewrite Hi. cbn [map last get_prune_stats].
        assert (M : memb j (remove_nat i psi) = true) by (apply memb_In, remove_nat_In; split; [exact Hj|congruence]). rewrite M. apply qmin_is_min.
      + intros t l -> i Hi. apply memb_In in Hi.
        assert (Hr : last (map Some (t ++ [l])) None = Some l) by apply last_snoc.
        destruct (cond_set_last tau0 tau J (t ++ [l]) T c i l Hr NDt) as (C1 & C2 & C3 & C4).
        destruct (cond_sets_head2 (cond_set (t ++ [l]) T c i) l C1 C2) as (x & an & rest & E & X1 & X2 & X3 & X4 & X5 & X6).
        exists (cond_set (t ++ [l]) T c i), x. split; [intro j; apply cond_set_In|]. do 5 (split; [assumption|]).
        intros j N. rewrite Hr, Hi. destruct (Nat.eqb_spec i j); [contradiction|]. cbn [get_prune_stats]. rewrite E. cbn [calc_taus].
        rewrite !taus_update_spec by (try exact X5; apply remove_nat_NoDup; exact NDp).
        assert (D : In j psi -> ~ In j an) by (intros A B; apply X6 in B; apply (DJ j); [apply C4; tauto|exact A]).
        split.
        * intros [H|H].
          -- rewrite (proj2 (memb_notIn j an) (D H)). rewrite (proj2 (memb_In j (remove_nat i psi))) by (apply remove_nat_In; split; [exact H|congruence]).
             rewrite qmin_big by apply HT. apply qmin_is_min.
          -- apply X6 in H. rewrite (proj2 (memb_In j an) H). rewrite (proj2 (memb_notIn j (remove_nat i psi))) by (intro K; apply remove_nat_In in K; apply D; tauto).
             rewrite qmin_big by apply HT. apply qmin_is_min.
        * intro H. rewrite (proj2 (memb_notIn j an)) by (intro K; apply H; right; apply X6; exact K).
          rewrite (proj2 (memb_notIn j (remove_nat i psi))) by (intro K; apply remove_nat_In in K; tauto). apply qmin_huge. apply HT.
    - intros i j. destruct (i =? j); [vm_compute; discriminate|]. destruct (memb i psi); [|apply HT]. eapply Qcle_trans; [apply qmin_l|apply HT].
  Qed.

  Lemma sorted_nth : forall l, StronglySorted lt l -> forall i j a b, nth_error l i = Some a -> nth_error l j = Some b -> a < b -> i < j.
  Proof.
    intros l H. induction H as [|x l H IH F]; intros i j a b Hi Hj L; [destruct i; discriminate|]. rewrite Forall_forall in F.
    destruct i as [|i]; destruct j as [|j]; cbn in Hi, Hj.
    - injection Hi as <-. injection Hj as <-. lia.
    - lia.
    - injection Hj as <-. apply nth_error_In in Hi. specialize (F _ Hi). lia.
    - specialize (IH i j a b Hi Hj L). lia.
  Qed.
  Lemma choice_round : forall psi T' c, psi <> [] -> StronglySorted lt psi -> exists i r,
    np_argmin (map Some (map (fun i => qmax_list (map (fun j => T' i j) psi)) psi)) = Some i /\ nth_error psi i = Some r /\
    round_choice alpha psi T' c (qmax c (qmin_list (map (fun i => qmax_list (map (fun j => T' i j) psi)) psi) * alpha)%Qc) r.
  Proof.
    intros psi T' c NE SS. set (M := fun i => qmax_list (map (fun j => T' i j) psi)).
    assert (NM : map M psi <> []) by (destruct psi; [congruence|discriminate]).
    destruct (argmin_first (map M psi) NM) as (i & v & A1 & A2 & A3 & A4). rewrite nth_error_map in A2.
    destruct (nth_error psi i) as [r|] eqn:En; [|discriminate]. cbn in A2. injection A2 as A2. exists i, r. split; [exact A1|]. split; [exact En|].
    assert (Hr : In r psi) by (eapply nth_error_In; exact En).
    destruct (qmin_list_min (map M psi) NM) as [Q1 Q2]. set (q := qmin_list (map M psi)) in *.
    assert (Eq : q = M r).
    { apply Qcle_antisym; [apply Q2; apply in_map; exact Hr|]. rewrite A2. apply A3. exact Q1. }
    split; [exact Hr|]. exists (M r). split; [apply (qmax_list_max (T' r)); exact NE|]. split.
    - intros k Hk. exists (M k). split; [apply (qmax_list_max (T' k)); exact NE|]. split; [rewrite A2; apply A3; apply in_map; exact Hk|].
      intro L. rewrite A2. apply In_nth_error in Hk. destruct Hk as [pk Hk]. apply (A4 pk); [|rewrite nth_error_map, Hk; reflexivity].
      apply (sorted_nth psi SS pk i k r Hk En L).
    - rewrite Eq. unfold qmax. destruct (qltb c (M r * alpha)) eqn:E; split; intro H; try reflexivity.
      + apply qltb_lt in E. exfalso. exact (Qclt_not_le _ _ E H).
      + apply qltb_nlt in E. apply Qcle_antisym; assumption.
  Qed.

  Lemma left_over_remove : forall psi K r, left_over (remove_nat r psi) K = left_over psi (r :: K).
  Proof.
    intros psi K r. unfold left_over, remove_nat. induction psi as [|x psi IH]; [reflexivity|]. cbn [filter memb existsb].
    fold (memb x K). destruct (x =? r); cbn [negb orb]; [exact IH|]. cbn [filter]. destruct (memb x K); cbn [negb]; [exact IH|f_equal; exact IH].
  Qed.
  Lemma hd_loop_run : forall fuel theta psi T c K, NoDup (theta ++ psi) -> StronglySorted lt psi -> (forall i j, (T i j <= qz 100000)%Qc) ->
    hd_loop tau0 tau enum J alpha true fuel theta psi T c = Ok K ->
    exists K' (Ts : nat -> mat Qc) (cs : nat -> Qc), K = theta ++ K' /\ length K' = length psi /\ (forall i j, Ts 0 i j = T i j) /\ cs 0 = c /\
      forall k, k + 1 < length psi ->
        round_stats tau0 tau J (theta ++ firstn k K') (left_over psi (firstn k K')) (Ts k) (cs k) (Ts (S k)) /\
        round_choice alpha (left_over psi (firstn k K')) (Ts (S k)) (cs k) (cs (S k)) (nth k K' 0).
  Proof.
    induction fuel as [|fuel IH]; intros theta psi T c K ND SS HT; cbn [hd_loop].
    - destruct (Nat.leb_spec (length psi) 1) as [L|L]; [|discriminate]. intros [= <-]. exists psi, (fun _ => T), (fun _ => c).
      split; [reflexivity|]. split; [reflexivity|]. split; [reflexivity|]. split; [reflexivity|]. intros k Hk. lia.
    - destruct (Nat.leb_spec (length psi) 1) as [L|L].
      { intros [= <-]. exists psi, (fun _ => T), (fun _ => c). split; [reflexivity|]. split; [reflexivity|]. split; [reflexivity|]. split; [reflexivity|]. intros k Hk. lia. }
      set (T' := update_stats tau0 tau enum J true theta psi T c).
      destruct (update_round theta psi T c ND HT) as [U1 U2]. fold T' in U1, U2.
      destruct (choice_round psi T' c ltac:(intro Z; rewrite Z in L; cbn in L; lia) SS) as (i & r & A1 & A2 & A3). rewrite A1, A2.
      set (c' := qmax c _) in *. intro E.
      assert (Hr : In r psi) by (eapply nth_error_In; exact A2).
      assert (ND2 := ND). apply NoDup_app_iff' in ND2. destruct ND2 as (NDt & NDp & DJ).
      pose proof (remove_nat_length r psi NDp Hr) as LR.
      destruct (IH (theta ++ [r]) (remove_nat r psi) T' c' K) as (K' & Ts & cs & B1 & B2 & B3 & B4 & B5); [| | |exact E|].
      + rewrite <- app_assoc. eapply Permutation_NoDup; [|exact ND]. apply Permutation_app_head. cbn [app]. apply remove_nat_perm; assumption.
      + apply filter_sorted. exact SS.
      + exact U2.
      + exists (r :: K'), (fun k => match k with 0 => T | S k => Ts k end), (fun k => match k with 0 => c | S k => cs k end).
        split; [rewrite B1, <- app_assoc; reflexivity|]. split; [cbn [length]; lia|]. split; [reflexivity|]. split; [reflexivity|].
        intros [|k] Hk.
        * cbn [firstn nth]. rewrite app_nil_r. assert (L0 : left_over psi [] = psi).
          { unfold left_over. clear. induction psi as [|x psi IH]; [reflexivity|]. cbn. f_equal. exact IH. }
          rewrite L0. rewrite B4. split.
          -- destruct U1 as (V1 & V2 & V3 & V4). (split; [|split; [|split]]).
             ++ intro a. rewrite B3. apply V1.
             ++ intros a b. rewrite B3. apply V2.
             ++ intros H a b. rewrite B3. apply V3. exact H.
             ++ intros t l H a Ha. destruct (V4 t l H a Ha) as (C & x & W1 & W2 & W3 & W4 & W5 & W6 & W7). exists C, x. do 6 (split; [assumption|]).
                intros b N. rewrite B3. apply W7. exact N.
          -- destruct A3 as (V1 & m & V2 & V3 & V4). split; [exact V1|]. exists m.
             assert (ME : forall mm a, is_max mm (T' a) psi -> is_max mm (Ts 0 a) psi).
             { intros mm a ((x & X1 & X2) & X3). split; [exists x; rewrite B3; auto|]. intros y Hy. rewrite B3. apply X3. exact Hy. }
             split; [apply ME; exact V2|]. split; [|exact V4]. intros a Ha. destruct (V3 a Ha) as (mi & W1 & W2). exists mi. split; [apply ME; exact W1|exact W2].
        * cbn [firstn nth]. rewrite <- left_over_remove. specialize (B5 k ltac:(lia)). rewrite <- app_assoc in B5. exact B5.
  Qed.
End Run.
