(** * C214: CAM-UV on whole numbers stored as integers *)
From Coq Require Import Reals Arith List Lia Lra Bool Permutation Sorted QArith Qcanon FunctionalExtensionality.
From Verif Require Import Prelude Lib LibR SpecMeasure SpecResit SpecCam SpecCAMUV Loop ModelRCD ModelCAMUV ModelCamData ModelDirectInt ModelCamInt
  ProofRCD ProofRCDPop4 ProofCAMUV2 ProofKernelMI ProofResitData ProofResitData2 ProofCamData ProofCamData2 ProofDirectInt ProofCamInt Props_CAMUV Props_ResitData Props_CamData.
Import ListNotations.
Open Scope R_scope.

(** The test only sees the rows of the table. *)
Definition sees_rows (hsic_p : nat -> (nat -> R) -> (nat -> list R) -> num) (n : nat) : Prop :=
  forall u u' v v', (forall s, (s < n)%nat -> u s = u' s) -> (forall s, (s < n)%nat -> v s = v' s) -> hsic_p n u v = hsic_p n u' v'.

Theorem C214_floats : forall reg hsic_p alpha n X iter maxnum d,
  camuv_data_dtype false reg hsic_p alpha n X iter maxnum d = camuv_data reg hsic_p alpha n X iter maxnum d.
Proof.
  intros. unfold camuv_data_dtype, camuv_data. apply (fit_agree d maxnum true alpha None _ _ _ _ iter (fun _ => True) Logic.I).
  intros N t P ch vs _ _ _. split; [|exact Logic.I]. intro ch'. reflexivity.
Qed.
Print Assumptions C214_floats.

Lemma stored_nothing : forall reg hsic_p alpha n X, (forall i j, ind_stored true reg hsic_p alpha n X i [] j [] = cam_ind reg hsic_p alpha n X i [] j []) /\
  forall c A qs, (forall q, In q qs -> snd q = []) -> value_stored true reg hsic_p n X c A qs = cam_value reg hsic_p n X c A qs.
Proof.
  intros. split; [reflexivity|]. intros c A qs H. unfold value_stored, cam_value. f_equal. apply functional_extensionality. intro s. apply map_ext_in. intros q Hq. rewrite (H q Hq). reflexivity.
Qed.
Theorem C214_two_variables_partial : forall whole reg hsic_p alpha n X iter maxnum, (forall l, Permutation (iter l) l) ->
  camuv_data_dtype whole reg hsic_p alpha n X iter maxnum 2 = camuv_data reg hsic_p alpha n X iter maxnum 2.
Proof.
  intros whole reg hp alpha n X iter maxnum IP. destruct whole; [|apply C214_floats]. unfold camuv_data_dtype, camuv_data.
  set (Inv := fun P : sets => (forall i j, P i j = false) \/ P 0%nat 1%nat = true \/ P 1%nat 0%nat = true).
  apply (fit_agree 2 maxnum true alpha None _ _ _ _ iter Inv); [left; reflexivity|].
  intros N t P ch vs Ht Hvs HI.
  assert (EV : vs = [0; 1]%nat).
  { destruct (Nat.eq_dec t 2) as [->|Nt]; [destruct Hvs as [<-|[]]; reflexivity|]. exfalso. apply combs_var_set in Hvs. destruct Hvs as (L & SS & B).
    assert (ND : NoDup vs) by (apply sorted_NoDup; exact SS). pose proof (NoDup_incl_length ND (l' := seq 0 2) ltac:(intros x Hx; apply in_seq; specialize (B x Hx); lia)) as C. rewrite seq_length in C. lia. }
  subst vs. destruct HI as [Z|HI].
  - assert (EZ : forall i, elems 2 (P i) = []) by (intro i; unfold elems; cbn; rewrite !Z; reflexivity).
    destruct (stored_nothing reg hp alpha n X) as [SI SV]. split.
    + apply visit_ext; [exact IP|intros v [<-|[<-|[]]]; lia| |].
      * intros i j _ _. rewrite !EZ. apply SI.
      * intros c A qs _ Hq. apply SV. intros q H. rewrite (proj2 (Hq q H)). apply EZ.
    + unfold cam_visit. replace (not_identified P [0; 1]%nat) with true by (unfold not_identified; cbn; rewrite !Z; reflexivity). cbn [negb].
      destruct (get_child _ _ _ _ _ _ _ _ _) as [[c|] [|]] eqn:EC; cbn [fst]; try (left; exact Z).
      destruct (negb _); cbn [fst]; [left; exact Z|].
      assert (Ic : In c [0; 1]%nat) by (apply (get_child_in _ _ _ _ _ _ _ _ _ _ _ IP EC)).
      right. unfold absorb. destruct Ic as [<-|[<-|[]]]; [left|right]; rewrite Z; reflexivity.
  - assert (NI : not_identified P [0; 1]%nat = false) by (unfold not_identified; cbn; destruct HI as [-> | ->]; cbn; rewrite ?orb_true_r; reflexivity).
    split; [intro ch'; unfold cam_visit_Y, cam_visit; rewrite NI; reflexivity|]. unfold cam_visit. rewrite NI. cbn. right. exact HI.
Qed.
Print Assumptions C214_two_variables_partial.

Theorem C214_whole_residuals_partial : forall reg hsic_p alpha n X iter maxnum d, (forall l, Permutation (iter l) l) -> sees_rows hsic_p n ->
  (forall i A s, (i < d)%nat -> (forall a, In a A -> (a < d)%nat) -> (s < n)%nat -> exists z, gam_residual reg n X i A s = IZR z) ->
  camuv_data_dtype true reg hsic_p alpha n X iter maxnum d = camuv_data reg hsic_p alpha n X iter maxnum d.
Proof.
  intros reg hp alpha n X iter maxnum d IP SR W. unfold camuv_data_dtype, camuv_data. apply (fit_agree d maxnum true alpha None _ _ _ _ iter (fun _ => True) Logic.I).
  assert (ST : forall i p s, (i < d)%nat -> (s < n)%nat -> stored_gam true reg n X i (elems d p) s = gam_residual reg n X i (elems d p) s).
  { intros i p s Hi Hs. assert (B : forall a, In a (elems d p) -> (a < d)%nat) by (intros a Ha; apply elems_In in Ha; tauto). unfold stored_gam.
    destruct (elems d p) as [|a A] eqn:EE; [reflexivity|]. destruct (W i (a :: A) s Hi B Hs) as (z & ->). apply trunc_whole. }
  intros N t P ch vs Ht Hvs _. split; [|exact Logic.I]. apply combs_var_set in Hvs. destruct Hvs as (_ & _ & B).
  apply visit_ext; [exact IP|exact B| |].
  - intros i j Hi Hj. unfold ind_stored, cam_ind.
    rewrite (SR (stored_gam true reg n X i (elems d (P i))) (gam_residual reg n X i (elems d (P i))) (fun s => [stored_gam true reg n X j (elems d (P j)) s]) (fun s => [gam_residual reg n X j (elems d (P j)) s])); [reflexivity| |].
    + intros s Hs. apply ST; [apply B; exact Hi|exact Hs].
    + intros s Hs. f_equal. apply ST; [apply B; exact Hj|exact Hs].
  - intros c A qs Hc Hq. unfold value_stored, cam_value. apply SR; [reflexivity|]. intros s Hs. apply map_ext_in. intros q H. destruct (Hq q H) as [H1 ->]. apply ST; [apply B; exact H1|exact Hs].
Qed.
Print Assumptions C214_whole_residuals_partial.

(** If no residual reaches one, every stored residual is 0 and a variable gets its explanatory variables at most once:
    all of them come from one set of at most num_explanatory_vals (or two) variables. *)
Lemma independent_zero : forall n (u v : nat -> R), (forall s, (s < n)%nat -> u s = 0) -> (0 < n)%nat -> independent n u v.
Proof.
  intros n u v Z Hn f g. rewrite (average_ext n _ (fun s => f 0 * g (v s))) by (intros s Hs; rewrite Z by exact Hs; reflexivity). rewrite average_scal. f_equal.
  rewrite (average_ext n _ (fun _ => f 0)) by (intros s Hs; rewrite Z by exact Hs; reflexivity). symmetry. apply average_const. exact Hn.
Qed.
Theorem C214_small_residuals_partial : forall reg hsic_p alpha n X iter maxnum d P B, (0 < n)%nat -> exact_p_value alpha hsic_p ->
  (forall i A s, (i < d)%nat -> (forall a, In a A -> (a < d)%nat) -> A <> [] -> (s < n)%nat -> -1 < gam_residual reg n X i A s < 1) ->
  (forall l, Permutation (iter l) l) ->
  camuv_data_dtype true reg hsic_p alpha n X iter maxnum d = Ok (P, B) ->
  forall i, exists K, (length K <= Nat.max 2 maxnum - 1)%nat /\ forall j, P i j = true -> In j K.
Proof.
  intros reg hp alpha n X iter maxnum d P B Hn HP SM IP E. unfold camuv_data_dtype, cam_fit_Y in E. destruct (maxnum =? 0)%nat; [discriminate|].
  set (N := neighborhoods d (cam_ind reg hp alpha n X)) in *. unfold find_parents_Y in E. fold N in E.
  set (Inv := fun P : sets => forall i, (forall j, P i j = true -> (j < d)%nat) /\ exists K, (length K <= Nat.max 2 maxnum - 1)%nat /\ forall j, P i j = true -> In j K).
  assert (V : forall t P ch vs, (2 <= t <= Nat.max 2 maxnum)%nat -> In vs (combs t (seq 0 d)) -> Inv P -> Inv (fst (cam_visit_Y d true alpha None (ind_stored true reg hp alpha n X) (value_stored true reg hp n X) iter N (P, ch) vs))).
  { intros t P0 ch vs Ht Hvs HI. unfold cam_visit_Y. destruct (negb (not_identified P0 vs)); [exact HI|]. destruct (get_child _ _ _ _ _ _ _ _ _) as [[c|] [|]] eqn:EC; try exact HI.
    destruct (dependent_without _ _ _ _ _) eqn:ED; cbn [negb fst]; [|exact HI]. apply combs_var_set in Hvs. destruct Hvs as (L & SS & BV).
    assert (Ic : In c vs) by (apply (get_child_in _ _ _ _ _ _ _ _ _ _ _ IP EC)).
    assert (ND : NoDup vs) by (apply sorted_NoDup; exact SS).
    assert (LR : length (remove_nat c vs) = (t - 1)%nat).
    { pose proof (remove_nat_length c vs ND Ic) as Q. lia. }
    intros i. destruct (HI i) as [RI (K & LK & IK)]. split.
    - intros j Hj. unfold absorb in Hj. apply orb_true_iff in Hj. destruct Hj as [Hj|Hj]; [apply RI; exact Hj|]. apply andb_true_iff in Hj. destruct Hj as [_ Hj]. apply memb_In in Hj. apply remove_nat_In in Hj. apply BV. tauto.
    - destruct (Nat.eqb_spec i c) as [->|Ni]; [|exists K; split; [exact LK|]; intros j Hj; unfold absorb in Hj; destruct (Nat.eqb_spec i c); [congruence|]; rewrite andb_false_l, orb_false_r in Hj; apply IK; exact Hj].
      exists (remove_nat c vs). split; [lia|]. intros j Hj. unfold absorb in Hj. rewrite Nat.eqb_refl in Hj. cbn [andb] in Hj. apply orb_true_iff in Hj. destruct Hj as [Hj|Hj]; [|apply memb_In; exact Hj]. exfalso.
      destruct (remove_nat c vs) as [|q ps] eqn:ER; [cbn in LR; lia|]. unfold dependent_without in ED. cbn [forallb] in ED. apply andb_true_iff in ED. destruct ED as [ED _]. apply negb_true_iff in ED.
      unfold ind_stored in ED. destruct (HP n (stored_gam true reg n X c (elems d (P0 c))) (fun s => [stored_gam true reg n X q (elems d (P0 q)) s]) Hn) as (p & Ep & Zp). rewrite Ep in ED.
      assert (T : qltb alpha p = true); [|congruence]. apply qltb_lt, Zp.
      assert (EJ : In j (elems d (P0 c))) by (apply elems_In; split; [apply RI; exact Hj|exact Hj]).
      assert (BE : forall a, In a (elems d (P0 c)) -> (a < d)%nat) by (intros a Ha; apply elems_In in Ha; tauto).
      apply (independent_comp n (stored_gam true reg n X c (elems d (P0 c))) (fun s => stored_gam true reg n X q (elems d (P0 q)) s) (fun x => x) (fun x => [x])); [|reflexivity|reflexivity].
      apply independent_zero; [|exact Hn]. intros s Hs. unfold stored_gam. destruct (elems d (P0 c)) as [|a A] eqn:EE; [destruct EJ|].
      apply trunc_small. apply SM; [apply BV; exact Ic|exact BE|discriminate|exact Hs]. }
  pose proof (loop_inv _ _ (cam_step_Y d maxnum true alpha None (ind_stored true reg hp alpha n X) (value_stored true reg hp n X) iter N) (fun st => Inv (fst st) /\ (2 <= snd st <= Nat.max 2 maxnum)%nat) Inv) as LI.
  specialize (LI ltac:(
    intros [P0 t] [HI Ht]; cbn [fst snd] in HI, Ht; unfold cam_step_Y;
    assert (F : forall l P1 ch, (forall vs, In vs l -> In vs (combs t (seq 0 d))) -> Inv P1 -> Inv (fst (fold_left (cam_visit_Y d true alpha None (ind_stored true reg hp alpha n X) (value_stored true reg hp n X) iter N) l (P1, ch))))
      by (induction l as [|vs l IH]; intros P1 ch Hl HI1; [exact HI1|]; cbn [fold_left]; pose proof (V t P1 ch vs Ht (Hl vs (or_introl eq_refl)) HI1) as HV;
          destruct (cam_visit_Y d true alpha None (ind_stored true reg hp alpha n X) (value_stored true reg hp n X) iter N (P1, ch) vs) as [P2 ch2]; apply IH; [intros; apply Hl; right; assumption|exact HV]);
    specialize (F (combs t (seq 0 d)) P0 false ltac:(auto) HI);
    destruct (fold_left (cam_visit_Y d true alpha None (ind_stored true reg hp alpha n X) (value_stored true reg hp n X) iter N) (combs t (seq 0 d)) (P0, false)) as [P' ch]; cbn [fst] in F;
    destruct ch; [split; [exact F|cbn [snd]; lia]|]; destruct (Nat.ltb_spec maxnum (S t)); [exact F|split; [exact F|cbn [snd]; lia]])
    (S (Nat.log2 (cam_top d maxnum))) (no_sets, 2%nat)).
  assert (J0 : Inv (fst (no_sets, 2%nat)) /\ (2 <= snd (no_sets, 2%nat) <= Nat.max 2 maxnum)%nat).
  { split; [|cbn [snd]; lia]. intro i. split; [discriminate|]. exists []. split; [cbn; lia|discriminate]. }
  specialize (LI J0). destruct (loop _ _ _) as [s|Q]; [discriminate|]. injection E as <- _. intro i. destruct (LI i) as [_ (K & LK & IK)]. exists K. split; [exact LK|].
  intros j Hj. apply IK. apply (prune_sub _ _ _ _ _ Hj).
Qed.
Print Assumptions C214_small_residuals_partial.

(** ** The chain x0 -> x1 -> x2 with x1 = x0 + e1, x2 = x1 + e2 and errors 0 or 1, eight rows *)
Lemma visit_skip : forall d indY value iter N (P : sets) ch vs alpha, not_identified P vs = false -> cam_visit_Y d true alpha None indY value iter N (P, ch) vs = (P, ch).
Proof. intros d indY value iter N P ch vs alpha H. unfold cam_visit_Y. rewrite H. reflexivity. Qed.
Lemma visit_found : forall d indY value iter N (P : sets) ch a b c o qc qo alpha, (0 <= alpha)%Qc -> (forall l, Permutation (iter l) l) -> a <> b -> (c = a /\ o = b) \/ (c = b /\ o = a) ->
  N a b = true -> N b a = true -> P a b = false -> P b a = false ->
  value c (elems d (fun x => memb x [o] || P c x)) [(o, elems d (P o))] = Some qc -> (alpha < qc)%Qc ->
  value o (elems d (fun x => memb x [c] || P o x)) [(c, elems d (P c))] = Some qo -> ~ (alpha < qo)%Qc ->
  cam_visit_Y d true alpha None indY value iter N (P, ch) [a; b] = if indY c (elems d (P c)) o (elems d (P o)) then (P, ch) else (absorb P c [o], true).
Proof.
  intros d indY value iter N P ch a b c o qc qo alpha H0 IP NE CO Nab Nba Pab Pba Ec Lc Eo Lo. unfold cam_visit_Y.
  replace (not_identified P [a; b]) with true by (unfold not_identified; cbn; rewrite Pab, Pba; reflexivity). cbn [negb].
  rewrite (two_child d alpha value iter N P a b c o qc qo H0 (IP _) NE CO Nab Nba Ec Lc Eo Lo).
  assert (R : remove_nat c [a; b] = [o]).
  { destruct CO as [[-> ->]|[-> ->]]; unfold remove_nat; cbn; rewrite Nat.eqb_refl; cbn; [destruct (Nat.eqb_spec b a)|destruct (Nat.eqb_spec a b)]; congruence || reflexivity. }
  rewrite R. unfold dependent_without. cbn [forallb]. rewrite andb_true_r, negb_involutive. destruct (indY _ _ _ _); reflexivity.
Qed.
Lemma visit_refused : forall d indY value iter N (P : sets) ch a b alpha, (forall l, Permutation (iter l) l) -> a <> b ->
  indY a (elems d (P a)) b (elems d (P b)) = true -> indY b (elems d (P b)) a (elems d (P a)) = true ->
  cam_visit_Y d true alpha None indY value iter N (P, ch) [a; b] = (P, ch).
Proof.
  intros d indY value iter N P ch a b alpha IP NE Ia Ib. unfold cam_visit_Y. destruct (negb _); [reflexivity|]. destruct (get_child _ _ _ _ _ _ _ _ _) as [[c|] [|]] eqn:EC; try reflexivity.
  assert (Ic : In c [a; b]) by (apply (get_child_in _ _ _ _ _ _ _ _ _ _ _ IP EC)).
  assert (D : dependent_without d indY P (remove_nat c [a; b]) c = false); [|rewrite D; reflexivity].
  destruct Ic as [<-|[<-|[]]].
  - assert (R : remove_nat a [a; b] = [b]) by (unfold remove_nat; cbn; rewrite Nat.eqb_refl; cbn; destruct (Nat.eqb_spec b a); congruence || reflexivity). rewrite R. unfold dependent_without. cbn [forallb]. rewrite Ia. reflexivity.
  - assert (R : remove_nat b [a; b] = [a]) by (unfold remove_nat; cbn; rewrite Nat.eqb_refl; destruct (Nat.eqb_spec a b); congruence || reflexivity). rewrite R. unfold dependent_without. cbn [forallb]. rewrite Ib. reflexivity.
Qed.
Lemma two_passes : forall (S T : Type) (f : S -> S + T) s s1 r k, f s = inl s1 -> f s1 = inr r -> (1 <= k)%nat -> loop f k s = inr r.
Proof.
  intros S T f s s1 r k H0 H1 Hk. induction k as [|k IH]; [lia|]. destruct (Nat.eq_dec k 0) as [->|N]; [cbn [loop]; rewrite H0; exact H1|]. cbn [loop]. rewrite IH by lia. reflexivity.
Qed.

Section Chain.
  Local Open Scope nat_scope.
  Variables (alpha : Qc) (ind indY : nat -> list nat -> nat -> list nat -> bool) (value : nat -> list nat -> list (nat * list nat) -> num) (iter : list nat -> list nat).
  Hypotheses (H0 : (0 <= alpha)%Qc) (IP : forall l, Permutation (iter l) l).
  Definition high (x : num) : Prop := exists q, x = Some q /\ (alpha < q)%Qc.
  Definition low (x : num) : Prop := exists q, x = Some q /\ ~ (alpha < q)%Qc.
  Hypotheses (I01 : ind 0 [] 1 [] = false) (I02 : ind 0 [] 2 [] = false) (I12 : ind 1 [] 2 [] = false) (I10 : ind 1 [] 0 [] = false) (I20 : ind 2 [] 0 [] = false).
  Hypotheses (Y10 : indY 1 [] 0 [] = false) (Y20 : indY 2 [] 0 [] = false).
  Hypotheses (V1 : high (value 1 [0] [(0, [])])) (V0 : low (value 0 [1] [(1, [])])) (V2 : high (value 2 [0] [(0, [])])) (V02 : low (value 0 [2] [(2, [])])).
  Definition N3 : sets := add_pair (add_pair (add_pair no_sets 0 1) 0 2) 1 2.
  Definition Pa : sets := absorb (absorb no_sets 1 [0]) 2 [0].
  Lemma neighbours3 : neighborhoods 3 ind = N3.
  Proof. unfold neighborhoods. change (pairs (seq 0 3)) with [(0, 1); (0, 2); (1, 2)]%nat. cbn [fold_left]. rewrite I01, I02, I12. reflexivity. Qed.
  Lemma first_two : fold_left (cam_visit_Y 3 true alpha None indY value iter N3) [[0; 1]; [0; 2]]%nat (no_sets, false) = (Pa, true).
  Proof.
    cbn [fold_left]. destruct V1 as (q1 & E1 & L1), V0 as (q0 & E0 & L0), V2 as (q2 & E2 & L2), V02 as (q3 & E3 & L3).
    rewrite (visit_found 3 indY value iter N3 no_sets false 0 1 1 0 q1 q0 alpha H0 IP ltac:(lia) ltac:(right; split; reflexivity) eq_refl eq_refl eq_refl eq_refl E1 L1 E0 L0).
    change (elems 3 (no_sets 1)) with (@nil nat). change (elems 3 (no_sets 0)) with (@nil nat). rewrite Y10.
    rewrite (visit_found 3 indY value iter N3 (absorb no_sets 1 [0]) true 0 2 2 0 q2 q3 alpha H0 IP ltac:(lia) ltac:(right; split; reflexivity) eq_refl eq_refl eq_refl eq_refl E2 L2 E3 L3)%nat.
    change (elems 3 (absorb no_sets 1 [0] 2))%nat with (@nil nat). change (elems 3 (absorb no_sets 1 [0] 0))%nat with (@nil nat). rewrite Y20. reflexivity.
  Qed.
  (** the pair x1, x2 is refused *)
  Lemma chain_refused : indY 1%nat [0%nat] 2%nat [0%nat] = true -> indY 2%nat [0%nat] 1%nat [0%nat] = true -> ind 1%nat [0%nat] 2%nat [0%nat] = false ->
    exists P B, cam_fit_Y 3 2 true alpha None ind indY value iter = Ok (P, B) /\ B 1%nat 0%nat = Some 1%Qc /\ B 2%nat 0%nat = Some 1%Qc /\ B 1%nat 2%nat = None /\ B 2%nat 1%nat = None.
  Proof.
    intros Y12 Y21 C12. unfold cam_fit_Y, find_parents_Y. cbn [Nat.eqb]. rewrite neighbours3.
    assert (R : forall ch, cam_visit_Y 3 true alpha None indY value iter N3 (Pa, ch) [1; 2]%nat = (Pa, ch)) by (intro ch; apply visit_refused; [exact IP|lia|exact Y12|exact Y21]).
    rewrite (two_passes _ _ _ (no_sets, 2%nat) (Pa, 2%nat) Pa); [| | |cbn; lia].
    - assert (EP : prune 3 ind Pa = Pa).
      { assert (R0 : prune_row 3 ind Pa 0 = Pa) by (apply functional_extensionality; intro a; apply functional_extensionality; intro b; unfold prune_row; destruct a as [|a]; [reflexivity|apply andb_true_r]).
        assert (R1 : prune_row 3 ind Pa 1 = Pa).
        { apply functional_extensionality; intro a; apply functional_extensionality; intro b. destruct a as [|[|a]]; [reflexivity| |unfold prune_row; apply andb_true_r]. destruct b as [|b]; [|reflexivity].
          change (true && negb (true && ind 1 [] 0 []) = true). rewrite I10. reflexivity. }
        assert (R2 : prune_row 3 ind Pa 2 = Pa).
        { apply functional_extensionality; intro a; apply functional_extensionality; intro b. destruct a as [|[|[|a]]]; [reflexivity|unfold prune_row; apply andb_true_r| |reflexivity]. destruct b as [|b]; [|reflexivity].
          change (true && negb (true && ind 2 [] 0 []) = true). rewrite I20. reflexivity. }
        unfold prune. cbn [seq fold_left]. rewrite R0, R1, R2. reflexivity. }
      rewrite EP. do 2 eexists. split; [reflexivity|]. unfold cam_adjacency, cam_confounded. change (pairs (seq 0 3)) with [(0, 1); (0, 2); (1, 2)]%nat. cbn [fold_left].
      change (elems 3 (Pa 1)) with [0%nat]. change (elems 3 (Pa 2)) with [0%nat]. change (elems 3 (Pa 0)) with (@nil nat). rewrite C12. repeat split; reflexivity.
    - unfold cam_step_Y. change (combs 2 (seq 0 3)) with ([[0; 1]; [0; 2]] ++ [[1; 2]])%nat. rewrite fold_left_app, first_two. cbn [fold_left]. rewrite R. reflexivity.
    - unfold cam_step_Y. change (combs 2 (seq 0 3)) with [[0; 1]; [0; 2]; [1; 2]]%nat. cbn [fold_left]. rewrite !visit_skip by reflexivity. rewrite R. reflexivity.
  Qed.
  (** the pair x1, x2 is accepted *)
  Lemma chain_found : high (value 2%nat [0; 1]%nat [(1%nat, [0%nat])]) -> low (value 1%nat [0; 2]%nat [(2%nat, [0%nat])]) -> indY 2%nat [0%nat] 1%nat [0%nat] = false ->
    ind 2%nat [1%nat] 0%nat [] = true -> ind 0%nat [] 2%nat [1%nat] = true -> ind 2%nat [0%nat] 1%nat [0%nat] = false ->
    exists P B, cam_fit_Y 3 2 true alpha None ind indY value iter = Ok (P, B) /\ forall i j, (i < 3)%nat -> (j < 3)%nat -> B i j = Some (if (i =? S j)%nat then 1%Qc else 0%Qc).
  Proof.
    intros (q & Eq & Lq) (p & Ep & Lp) Y21 C20 C02 C21. unfold cam_fit_Y, find_parents_Y. cbn [Nat.eqb]. rewrite neighbours3. set (Pb := absorb Pa 2 [1%nat]).
    rewrite (two_passes _ _ _ (no_sets, 2%nat) (Pb, 2%nat) Pb); [| | |cbn; lia].
    - set (Pc := (fun a b => (a =? S b)%nat && (b <? 2)%nat) : sets).
      assert (EP : prune 3 ind Pb = Pc).
      { assert (R0 : prune_row 3 ind Pb 0 = Pb) by (apply functional_extensionality; intro a; apply functional_extensionality; intro b; unfold prune_row; destruct a as [|a]; [reflexivity|apply andb_true_r]).
        assert (R1 : prune_row 3 ind Pb 1 = Pb).
        { apply functional_extensionality; intro a; apply functional_extensionality; intro b. destruct a as [|[|a]]; [reflexivity| |unfold prune_row; apply andb_true_r]. destruct b as [|b]; [|reflexivity].
          change (true && negb (true && ind 1 [] 0 []) = true). rewrite I10. reflexivity. }
        assert (R2 : prune_row 3 ind Pb 2 = Pc).
        { apply functional_extensionality; intro a; apply functional_extensionality; intro b. destruct a as [|[|[|a]]]; [destruct b; reflexivity|destruct b as [|b]; reflexivity| |destruct b as [|[|b]]; [reflexivity|reflexivity|change (false = ((S (S (S a)) =? S (S (S b))) && false)); rewrite andb_false_r; reflexivity]].
          destruct b as [|[|b]]; [| |destruct b; reflexivity].
          - change (true && negb (true && ind 2 [1] 0 []) = false). rewrite C20. reflexivity.
          - change (true && negb (true && ind 2 [0] 1 [0]) = true). rewrite C21. reflexivity. }
        unfold prune. cbn [seq fold_left]. rewrite R0, R1, R2. reflexivity. }
      rewrite EP. do 2 eexists. split; [reflexivity|]. unfold cam_adjacency, cam_confounded. change (pairs (seq 0 3)) with [(0, 1); (0, 2); (1, 2)]%nat. cbn [fold_left].
      change (elems 3 (Pc 2)) with [1%nat]. change (elems 3 (Pc 0)) with (@nil nat). rewrite C02. intros i j Hi Hj. destruct i as [|[|[|i]]]; try lia; destruct j as [|[|[|j]]]; try lia; reflexivity.
    - unfold cam_step_Y. change (combs 2 (seq 0 3)) with ([[0; 1]; [0; 2]] ++ [[1; 2]])%nat. rewrite fold_left_app, first_two. cbn [fold_left].
      rewrite (visit_found 3 indY value iter N3 Pa true 1 2 2 1 q p alpha H0 IP ltac:(lia) ltac:(right; split; reflexivity) eq_refl eq_refl eq_refl eq_refl Eq Lq Ep Lp)%nat.
      change (elems 3 (Pa 2)) with [0%nat]. change (elems 3 (Pa 1)) with [0%nat]. rewrite Y21. reflexivity.
    - unfold cam_step_Y. change (combs 2 (seq 0 3)) with [[0; 1]; [0; 2]; [1; 2]]%nat. cbn [fold_left]. rewrite !visit_skip by reflexivity. reflexivity.
  Qed.
End Chain.

Definition chain_rows (j s : nat) : R := nth s (match j with O => [0; 1; 0; 1; 0; 1; 0; 1] | S O => [0; 1; 1; 2; 0; 1; 1; 2] | _ => [0; 1; 1; 2; 1; 2; 2; 3] end) 0.
Definition chain_fit (c : nat) (A : list nat) (l : list R) : R :=
  match c, A with
  | 0%nat, [1%nat] => nth 0 l 0 / 2
  | 0%nat, _ => nth 0 l 0 / 3
  | 1%nat, [_] => nth 0 l 0 + 1 / 2
  | 1%nat, _ => nth 0 l 0 / 2 + nth 1 l 0 / 2
  | _, [0%nat] => nth 0 l 0 + 1
  | _, [_] => nth 0 l 0 + 1 / 2
  | _, _ => nth 1 l 0 + 1 / 2
  end.
Definition chain_cases : list (nat * list nat) := [(0, [1]); (0, [2]); (1, [0]); (2, [0]); (2, [1]); (1, [0; 2]); (2, [0; 1])]%nat.
Lemma chain_fits : forall c A, In (c, A) chain_cases -> additive_mean 8 (length A) (values chain_rows A) (chain_rows c) (chain_fit c A).
Proof.
  intros c A H. repeat (destruct H as [H|H]; [injection H as <- <-; split|]); try destruct H.
  all: try (match goal with |- exists hk, forall w, _ -> chain_fit ?c [?a] w = _ => exists (fun _ x => chain_fit c [a] [x]) end; intros w _; cbn; ring).
  all: try (intros k g Hk; cbn [length] in Hk; replace k with 0%nat by lia; unfold average, values; cbn; field).
  - exists (fun k x => x / 2). intros w _. cbn. ring.
  - intros k g Hk. cbn [length] in Hk. do 2 (destruct k as [|k]; [unfold average, values; cbn; field|]). lia.
  - exists (fun k x => if (k =? 0)%nat then 0 else x + 1 / 2). intros w _. cbn. ring.
  - intros k g Hk. cbn [length] in Hk. do 2 (destruct k as [|k]; [unfold average, values; cbn; field|]). lia.
Qed.
Definition chain_residual (c : nat) (A : list nat) (s : nat) : R := match A with [] => chain_rows c s | _ => chain_rows c s - chain_fit c A (values chain_rows A s) end.
Lemma chain_residuals : forall reg c A, exact_gam reg -> A = [] \/ In (c, A) chain_cases -> forall s, (s < 8)%nat -> gam_residual reg 8 chain_rows c A s = chain_residual c A s.
Proof.
  intros reg c A HR H s Hs. destruct A as [|a A]; [reflexivity|]. destruct H as [H|H]; [discriminate|]. pose proof (chain_fits c _ H) as F. set (A' := a :: A) in *.
  assert (Lv : forall t, (t < 8)%nat -> length (values chain_rows A' t) = length A') by (intros; unfold values; apply map_length).
  change (gam_residual reg 8 chain_rows c A' s) with (chain_rows c s - reg 8%nat (values chain_rows A') (chain_rows c) (values chain_rows A' s)).
  change (chain_residual c A' s) with (chain_rows c s - chain_fit c A' (values chain_rows A' s)). f_equal. f_equal.
  apply (additive_mean_unique 8 (length A') (values chain_rows A') (chain_rows c)); [lia|exact Lv|apply HR; [lia|cbn; lia|exact Lv]|exact F|exact Hs].
Qed.
Section ChainData.
  Variables (reg : nat -> (nat -> list R) -> (nat -> R) -> list R -> R) (hp : nat -> (nat -> R) -> (nat -> list R) -> num) (alpha : Qc).
  Hypotheses (HR : exact_gam reg) (HP : exact_p_value alpha hp).
  Lemma H8 : (0 < 8)%nat. Proof. lia. Qed.
  Lemma chain_dependent : forall f g c A d B, (A = [] \/ In (c, A) chain_cases) -> (B = [] \/ In (d, B) chain_cases) ->
    average 8 (fun s => f (chain_residual c A s) * g (chain_residual d B s)) <> average 8 (fun s => f (chain_residual c A s)) * average 8 (fun s => g (chain_residual d B s)) ->
    ~ independent 8 (gam_residual reg 8 chain_rows c A) (gam_residual reg 8 chain_rows d B).
  Proof.
    intros f g c A d B HA HB N I. apply N. pose proof (chain_residuals reg c A HR HA) as EA. pose proof (chain_residuals reg d B HR HB) as EB.
    rewrite <- (average_ext 8 (fun s => f (gam_residual reg 8 chain_rows c A s) * g (gam_residual reg 8 chain_rows d B s))) by (intros s Hs; rewrite EA, EB by exact Hs; reflexivity). rewrite I. f_equal; apply average_ext; intros s Hs; rewrite ?EA, ?EB by exact Hs; reflexivity.
  Qed.
  Lemma chain_independent : forall c A d B (a b : nat -> R) (f g : R -> R), (A = [] \/ In (c, A) chain_cases) -> (B = [] \/ In (d, B) chain_cases) -> independent 8 a b ->
    (forall s, (s < 8)%nat -> chain_residual c A s = f (a s)) -> (forall s, (s < 8)%nat -> chain_residual d B s = g (b s)) ->
    independent 8 (gam_residual reg 8 chain_rows c A) (gam_residual reg 8 chain_rows d B).
  Proof.
    intros c A d B a b f g HA HB I E1 E2. apply (independent_comp (A := R) (B := R) 8 a b f g _ _ I); intros s Hs; rewrite (chain_residuals reg _ _ HR) by assumption; [apply E1|apply E2]; exact Hs.
  Qed.
  Lemma no_ind : forall i A j B, ~ independent 8 (gam_residual reg 8 chain_rows i A) (gam_residual reg 8 chain_rows j B) -> cam_ind reg hp alpha 8 chain_rows i A j B = false.
  Proof. intros i A j B N. destruct (cam_ind reg hp alpha 8 chain_rows i A j B) eqn:E; [|reflexivity]. exfalso. apply N. exact (proj1 (ind_iff reg hp alpha 8 chain_rows H8 HP i A j B) E). Qed.
  Lemma low_value : forall c A d B, ~ independent 8 (gam_residual reg 8 chain_rows c A) (gam_residual reg 8 chain_rows d B) -> low alpha (cam_value reg hp 8 chain_rows c A [(d, B)]).
  Proof.
    intros c A d B N. destruct (value_iff reg hp alpha 8 chain_rows H8 HP c A [(d, B)]) as (q & E & Z). exists q. split; [exact E|]. intro C. apply N. apply Z in C.
    apply (independent_comp 8 (gam_residual reg 8 chain_rows c A) _ (fun x => x) (fun l => nth 0 l 0) _ _ C); reflexivity.
  Qed.
  Lemma high_value : forall c A d B, independent 8 (gam_residual reg 8 chain_rows c A) (gam_residual reg 8 chain_rows d B) -> high alpha (cam_value reg hp 8 chain_rows c A [(d, B)]).
  Proof.
    intros c A d B I. destruct (value_iff reg hp alpha 8 chain_rows H8 HP c A [(d, B)]) as (q & E & Z). exists q. split; [exact E|]. apply Z.
    apply (independent_comp 8 (gam_residual reg 8 chain_rows c A) (gam_residual reg 8 chain_rows d B) (fun x => x) (fun x => [x]) _ _ I); reflexivity.
  Qed.
  Ltac dep f g := apply (chain_dependent f g); [cbn; tauto|cbn; tauto|]; unfold average, chain_residual, values; cbn; lra.
  Lemma D01 : ~ independent 8 (gam_residual reg 8 chain_rows 0 []) (gam_residual reg 8 chain_rows 1 []). Proof. dep (fun x : R => x) (fun x : R => x). Qed.
  Lemma D02 : ~ independent 8 (gam_residual reg 8 chain_rows 0 []) (gam_residual reg 8 chain_rows 2 []). Proof. dep (fun x : R => x) (fun x : R => x). Qed.
  Lemma D12 : ~ independent 8 (gam_residual reg 8 chain_rows 1 []) (gam_residual reg 8 chain_rows 2 []). Proof. dep (fun x : R => x) (fun x : R => x). Qed.
  Lemma D10 : ~ independent 8 (gam_residual reg 8 chain_rows 1 []) (gam_residual reg 8 chain_rows 0 []). Proof. dep (fun x : R => x) (fun x : R => x). Qed.
  Lemma D20 : ~ independent 8 (gam_residual reg 8 chain_rows 2 []) (gam_residual reg 8 chain_rows 0 []). Proof. dep (fun x : R => x) (fun x : R => x). Qed.
  Lemma DV0 : ~ independent 8 (gam_residual reg 8 chain_rows 0 [1%nat]) (gam_residual reg 8 chain_rows 1 []). Proof. dep (fun x : R => x * x) (fun x : R => x * x). Qed.
  Lemma DV02 : ~ independent 8 (gam_residual reg 8 chain_rows 0 [2%nat]) (gam_residual reg 8 chain_rows 2 []). Proof. dep (fun x : R => x * x) (fun x : R => x * x). Qed.
  Lemma DR12 : ~ independent 8 (gam_residual reg 8 chain_rows 1 [0%nat]) (gam_residual reg 8 chain_rows 2 [0%nat]). Proof. dep (fun x : R => x) (fun x : R => x). Qed.
  Lemma DR21 : ~ independent 8 (gam_residual reg 8 chain_rows 2 [0%nat]) (gam_residual reg 8 chain_rows 1 [0%nat]). Proof. dep (fun x : R => x) (fun x : R => x). Qed.
  Lemma DV12 : ~ independent 8 (gam_residual reg 8 chain_rows 1 [0%nat; 2%nat]) (gam_residual reg 8 chain_rows 2 [0%nat]). Proof. dep (fun x : R => x * x) (fun x : R => x * x). Qed.
  Ltac rows := intros s Hs; do 8 (destruct s as [|s]; [unfold chain_residual, values; cbn; lra|]); lia.
  Lemma I1 : independent 8 (gam_residual reg 8 chain_rows 1 [0%nat]) (gam_residual reg 8 chain_rows 0 []).
  Proof. apply (chain_independent _ _ _ _ (bits 1) (bits 0) (fun x => x - 1 / 2) (fun x => x)); [cbn; tauto|cbn; tauto|intros f g; unfold average; cbn; field|rows|rows]. Qed.
  Lemma I2 : independent 8 (gam_residual reg 8 chain_rows 2 [0%nat]) (gam_residual reg 8 chain_rows 0 []).
  Proof. apply (chain_independent _ _ _ _ (fun s => bits 1 s + bits 2 s) (bits 0) (fun x => x - 1) (fun x => x)); [cbn; tauto|cbn; tauto|intros f g; unfold average; cbn; field|rows|rows]. Qed.
  Lemma I21 : independent 8 (gam_residual reg 8 chain_rows 2 [0%nat; 1%nat]) (gam_residual reg 8 chain_rows 1 [0%nat]).
  Proof. apply (chain_independent _ _ _ _ (bits 2) (bits 1) (fun x => x - 1 / 2) (fun x => x - 1 / 2)); [cbn; tauto|cbn; tauto|intros f g; unfold average; cbn; field|rows|rows]. Qed.
  Lemma I20' : independent 8 (gam_residual reg 8 chain_rows 2 [1%nat]) (gam_residual reg 8 chain_rows 0 []).
  Proof. apply (chain_independent _ _ _ _ (bits 2) (bits 0) (fun x => x - 1 / 2) (fun x => x)); [cbn; tauto|cbn; tauto|intros f g; unfold average; cbn; field|rows|rows]. Qed.
  Lemma I02' : independent 8 (gam_residual reg 8 chain_rows 0 []) (gam_residual reg 8 chain_rows 2 [1%nat]).
  Proof. apply (chain_independent _ _ _ _ (bits 0) (bits 2) (fun x => x) (fun x => x - 1 / 2)); [cbn; tauto|cbn; tauto|intros f g; unfold average; cbn; field|rows|rows]. Qed.
  Lemma stored_zero : forall s, (s < 8)%nat -> stored_gam true reg 8 chain_rows 1 [0%nat] s = 0.
  Proof.
    intros s Hs. unfold stored_gam. rewrite (chain_residuals reg 1 [0%nat] HR) by (cbn; tauto || exact Hs). apply trunc_small.
    do 8 (destruct s as [|s]; [unfold chain_residual, values; cbn; lra|]). lia.
  Qed.
  Lemma chain_floats : (0 <= alpha)%Qc -> forall iter, (forall l, Permutation (iter l) l) ->
    exists P B, camuv_data reg hp alpha 8 chain_rows iter 2 3 = Ok (P, B) /\ forall i j, (i < 3)%nat -> (j < 3)%nat -> B i j = Some (if (i =? S j)%nat then 1%Qc else 0%Qc).
  Proof.
    intros H0 iter IP. rewrite <- C214_floats. unfold camuv_data_dtype.
    apply (chain_found alpha (cam_ind reg hp alpha 8 chain_rows) (cam_ind reg hp alpha 8 chain_rows) (cam_value reg hp 8 chain_rows) iter H0 IP
      (no_ind _ _ _ _ D01) (no_ind _ _ _ _ D02) (no_ind _ _ _ _ D12) (no_ind _ _ _ _ D10) (no_ind _ _ _ _ D10) (no_ind _ _ _ _ D20) (high_value _ _ _ _ I1) (low_value _ _ _ _ DV0) (high_value _ _ _ _ I2) (low_value _ _ _ _ DV02)
      (high_value _ _ _ _ I21) (low_value _ _ _ _ DV12) (no_ind _ _ _ _ DR21)
      (proj2 (ind_iff reg hp alpha 8 chain_rows H8 HP _ _ _ _) I20') (proj2 (ind_iff reg hp alpha 8 chain_rows H8 HP _ _ _ _) I02') (no_ind _ _ _ _ DR21)).
  Qed.
  Lemma chain_integers : (0 <= alpha)%Qc -> forall iter, (forall l, Permutation (iter l) l) ->
    exists P B, camuv_data_dtype true reg hp alpha 8 chain_rows iter 2 3 = Ok (P, B) /\ B 1%nat 0%nat = Some 1%Qc /\ B 2%nat 0%nat = Some 1%Qc /\ B 1%nat 2%nat = None /\ B 2%nat 1%nat = None.
  Proof.
    intros H0 iter IP. unfold camuv_data_dtype. destruct (stored_nothing reg hp alpha 8 chain_rows) as [SI SV].
    assert (SV1 : forall c A q, value_stored true reg hp 8 chain_rows c A [(q, [])] = cam_value reg hp 8 chain_rows c A [(q, [])]) by (intros c A q; apply SV; intros x [<-|[]]; reflexivity).
    assert (ZI : forall i A j B, (forall s, (s < 8)%nat -> stored_gam true reg 8 chain_rows i A s = 0) \/ (forall s, (s < 8)%nat -> stored_gam true reg 8 chain_rows j B s = 0) -> ind_stored true reg hp alpha 8 chain_rows i A j B = true).
    { intros i A j B Z. unfold ind_stored. destruct (HP 8%nat (stored_gam true reg 8 chain_rows i A) (fun s => [stored_gam true reg 8 chain_rows j B s]) H8) as (q & E & W). rewrite E. apply qltb_lt, W.
      apply (independent_comp 8 (stored_gam true reg 8 chain_rows i A) (stored_gam true reg 8 chain_rows j B) (fun x => x) (fun x => [x])); [|reflexivity|reflexivity].
      destruct Z as [Z|Z]; [apply independent_zero; [exact Z|exact H8]|]. intros f g. rewrite (average_ext 8 _ (fun s => g (stored_gam true reg 8 chain_rows j B s) * f (stored_gam true reg 8 chain_rows i A s))) by (intros; ring).
      rewrite (independent_zero 8 (stored_gam true reg 8 chain_rows j B) (stored_gam true reg 8 chain_rows i A) Z H8 g f). ring. }
    apply (chain_refused alpha (cam_ind reg hp alpha 8 chain_rows) (ind_stored true reg hp alpha 8 chain_rows) (value_stored true reg hp 8 chain_rows) iter H0 IP
      (no_ind _ _ _ _ D01) (no_ind _ _ _ _ D02) (no_ind _ _ _ _ D12) (no_ind _ _ _ _ D10) (no_ind _ _ _ _ D20) (no_ind _ _ _ _ D10) (no_ind _ _ _ _ D20)).
    - rewrite SV1. exact (high_value _ _ _ _ I1).
    - rewrite SV1. exact (low_value _ _ _ _ DV0).
    - rewrite SV1. exact (high_value _ _ _ _ I2).
    - rewrite SV1. exact (low_value _ _ _ _ DV02).
    - apply ZI. left. exact stored_zero.
    - apply ZI. right. exact stored_zero.
    - exact (no_ind _ _ _ _ DR12).
  Qed.
End ChainData.

(** x0 -> x1 -> x2 with independent errors 0 or 1, exact regressions and tests, default num_explanatory_vals: stored as floats the
    chain is found; stored as integers the effect of x1 on x2 is missed, a hidden common cause of x1 and x2 is reported that
    does not exist, and an effect of x0 on x2 that is not direct. *)
Theorem C214_chain_refuted : exists (X U : nat -> nat -> R), mutually_independent 8 3 U /\
  (forall s, (s < 8)%nat -> X 0%nat s = U 0%nat s /\ X 1%nat s = X 0%nat s + U 1%nat s /\ X 2%nat s = X 1%nat s + U 2%nat s) /\
  (forall j s, (s < 8)%nat -> exists z, X j s = IZR z) /\
  forall reg hsic_p alpha iter, exact_gam reg -> exact_p_value alpha hsic_p -> (0 <= alpha)%Qc -> (forall l, Permutation (iter l) l) ->
  (exists P B, camuv_data_dtype false reg hsic_p alpha 8 X iter 2 3 = Ok (P, B) /\ forall i j, (i < 3)%nat -> (j < 3)%nat -> B i j = Some (if (i =? S j)%nat then 1%Qc else 0%Qc)) /\
  exists P B, camuv_data_dtype true reg hsic_p alpha 8 X iter 2 3 = Ok (P, B) /\ B 1%nat 0%nat = Some 1%Qc /\ B 2%nat 0%nat = Some 1%Qc /\ B 1%nat 2%nat = None /\ B 2%nat 1%nat = None.
Proof.
  exists chain_rows, bits. split; [exact bits_independent|]. split; [intros s Hs; do 8 (destruct s as [|s]; [cbn; lra|]); lia|]. split.
  - intros j s Hs. destruct j as [|[|j]].
    + exists (nth s [0; 1; 0; 1; 0; 1; 0; 1] 0)%Z. do 8 (destruct s as [|s]; [reflexivity|]). lia.
    + exists (nth s [0; 1; 1; 2; 0; 1; 1; 2] 0)%Z. do 8 (destruct s as [|s]; [reflexivity|]). lia.
    + exists (nth s [0; 1; 1; 2; 1; 2; 2; 3] 0)%Z. do 8 (destruct s as [|s]; [reflexivity|]). lia.
  - intros reg hp alpha iter HR HP H0 IP. split; [|exact (chain_integers reg hp alpha HR HP H0 iter IP)].
    rewrite C214_floats. exact (chain_floats reg hp alpha HR HP H0 iter IP).
Qed.
Print Assumptions C214_chain_refuted.
(** Such regressions and tests exist. *)
Example C214_example_oracles : exact_gam least_squares_gam /\ exact_p_value (qf 1 20) deciding_p_value /\ (0 <= qf 1 20)%Qc.
Proof. split; [exact C183_example_regressor|]. split; [exact C180_example_p_value|]. apply Qclt_le_weak, qltb_lt. vm_compute. reflexivity. Qed.
(** Residuals below one, and whole residuals: x1 = x0 + e1 with errors 0 or 1 (-1/2 and 1/2), and x1 = x0 (0 everywhere). *)
Example C214_example_small : forall s, (s < 8)%nat -> -1 < gam_residual least_squares_gam 8 chain_rows 1 [0%nat] s < 1.
Proof.
  intros s Hs. rewrite (chain_residuals least_squares_gam 1 [0%nat] C183_example_regressor) by (cbn; tauto || exact Hs). do 8 (destruct s as [|s]; [unfold chain_residual, values; cbn; lra|]). lia.
Qed.
Example C214_example_whole : forall s, (s < 8)%nat -> exists z, gam_residual least_squares_gam 8 chain_rows 2 [0%nat] s = IZR z.
Proof.
  intros s Hs. rewrite (chain_residuals least_squares_gam 2 [0%nat] C183_example_regressor) by (cbn; tauto || exact Hs). exists (nth s [-1; -1; 0; 0; 0; 0; 1; 1] 0)%Z.
  do 8 (destruct s as [|s]; [unfold chain_residual, values; cbn; lra|]). lia.
Qed.
(** The hypotheses of the two theorems on all residuals at once, with an exact regression: columns that are copies of each other. *)
Lemma copies : forall reg i A s, exact_gam reg -> A <> [] -> (s < 8)%nat -> gam_residual reg 8 (fun _ => bits 0) i A s = 0.
Proof.
  intros reg i A s HR NE Hs. destruct A as [|a A]; [congruence|]. unfold gam_residual. set (A' := a :: A). set (X := fun _ : nat => bits 0).
  assert (Lv : forall t, (t < 8)%nat -> length (values X A' t) = length A') by (intros; unfold values; apply map_length).
  assert (F : additive_mean 8 (length A') (values X A') (X i) (fun l => nth 0 l 0)).
  { split.
    - exists (fun k x => if (k =? 0)%nat then x else 0). intros w _. unfold A'. cbn [length]. rewrite (rsum_single (S (length A)) _ 0%nat); [reflexivity|lia|]. intros [|k] _ N; [lia|reflexivity].
    - intros k g Hk. rewrite (average_ext 8 _ (fun _ => 0)) by (intros t Ht; unfold values, A', X; cbn [map nth]; ring). unfold average. cbn. field. }
  change (bits 0 s - reg 8%nat (values X A') (X i) (values X A' s) = 0).
  rewrite (additive_mean_unique 8 (length A') (values X A') (X i) _ (fun l => nth 0 l 0) ltac:(lia) Lv (HR 8%nat (length A') (values X A') (X i) ltac:(lia) ltac:(cbn; lia) Lv) F s Hs).
  unfold values, A', X. cbn [map nth]. ring.
Qed.
Example C214_example_all_residuals : forall d, (forall i A s, (i < d)%nat -> (forall a, In a A -> (a < d)%nat) -> (s < 8)%nat -> exists z, gam_residual least_squares_gam 8 (fun _ => bits 0) i A s = IZR z) /\
  (forall i A s, (i < d)%nat -> (forall a, In a A -> (a < d)%nat) -> A <> [] -> (s < 8)%nat -> -1 < gam_residual least_squares_gam 8 (fun _ => bits 0) i A s < 1).
Proof.
  intro d. split.
  - intros i [|a A] s _ _ Hs; [|exists 0%Z; apply (copies _ _ _ _ C183_example_regressor); [discriminate|exact Hs]].
    exists (nth s [0; 1; 0; 1; 0; 1; 0; 1] 0)%Z. do 8 (destruct s as [|s]; [reflexivity|]). lia.
  - intros i A s _ _ NE Hs. rewrite (copies _ _ _ _ C183_example_regressor NE Hs). lra.
Qed.
