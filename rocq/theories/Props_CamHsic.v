(** * Property theorems: CAM-UV with the HSIC test does not depend on units. *)
From Coq Require Import Reals Lra Lia Arith Bool List QArith Qcanon Permutation FunctionalExtensionality.
From Verif Require Import Prelude LibR SpecMeasure ModelRCD ModelCAMUV ModelResitR SpecResitR ProofResitR ModelCamData ModelParce ModelMGCamuv
  ModelMGCamData ModelCamFcorr ProofCamFcorr ModelCamHsic Props_ResitR.
Import ListNotations.
Open Scope R_scope.

Section Units.
  Variables (gamma_sf : nat -> R -> R -> R -> option R) (float : R -> Qc)
    (reg : nat -> (nat -> list R) -> (nat -> R) -> list R -> R) (n : nat) (X : nat -> nat -> R) (a b : nat -> R).
  Hypothesis UF : unit_free reg.
  Hypothesis Ha : forall j, a j <> 0.
  Let X' := rescaled a b X.
  Let origin i (A : list nat) := match A with [] => b i | _ => 0 end.
  Lemma gam_moved : forall i A s, (0 < n)%nat -> gam_residual reg n X' i A s = a i * gam_residual reg n X i A s + origin i A.
  Proof.
    intros i A s Hn. destruct A as [|j A]; [reflexivity|]. unfold origin.
    pose proof (residual_moved reg n X a b UF Ha (j :: A) i s Hn) as E. unfold residual_col in E. fold X' in E.
    unfold gam_residual. change (map (fun j => X' j s) (j :: A)) with (rows_of X' (j :: A) s).
    change (fun s => map (fun j => X' j s) (j :: A)) with (rows_of X' (j :: A)).
    rewrite E. unfold rows_of. ring.
  Qed.
  Lemma p_value_moved : forall c A qs u, (3 < n)%nat -> u <> 0 -> (forall q, In q qs -> a (fst q) = u) ->
    cam_value reg (hsic_p_value gamma_sf float) n X' c A qs = cam_value reg (hsic_p_value gamma_sf float) n X c A qs.
  Proof.
    intros c A qs u Hn Hu HQ. unfold cam_value, hsic_p_value. rewrite !map_length.
    set (r := fun q s => gam_residual reg n X (fst q) (snd q) s).
    set (off := fun k => let q := nth k qs (0%nat, []) in origin (fst q) (snd q)).
    rewrite <- (hsic_test_moved gamma_sf n 1 (length qs) (fun s _ => gam_residual reg n X c A s)
                 (fun s k => nth k (map (fun q => gam_residual reg n X (fst q) (snd q) s) qs) 0) (a c) u (fun _ => origin c A) off (Ha c) Hu).
    replace (fun s (_ : nat) => gam_residual reg n X' c A s) with (fun s (_ : nat) => a c * gam_residual reg n X c A s + origin c A).
    - erewrite hsic_test_ext; [reflexivity|]. intros s k Hk. cbn beta.
      rewrite (nth_indep _ 0 (gam_residual reg n X' (fst (0%nat, @nil nat)) (snd (0%nat, @nil nat)) s)) by (rewrite map_length; exact Hk).
      rewrite (map_nth (fun q => gam_residual reg n X' (fst q) (snd q) s)).
      rewrite (nth_indep _ 0 (gam_residual reg n X (fst (0%nat, @nil nat)) (snd (0%nat, @nil nat)) s)) by (rewrite map_length; exact Hk).
      rewrite (map_nth (fun q => gam_residual reg n X (fst q) (snd q) s)).
      rewrite gam_moved by lia. rewrite (HQ (nth k qs (0%nat, []))) by (apply nth_In; exact Hk). reflexivity.
    - apply functional_extensionality. intro s. apply functional_extensionality. intros _. rewrite gam_moved by lia. reflexivity.
  Qed.
  Lemma ind_moved : forall alpha, (3 < n)%nat ->
    cam_ind reg (hsic_p_value gamma_sf float) alpha n X' = cam_ind reg (hsic_p_value gamma_sf float) alpha n X.
  Proof.
    intros alpha Hn. apply functional_extensionality. intro i. apply functional_extensionality. intro A.
    apply functional_extensionality. intro j. apply functional_extensionality. intro B.
    pose proof (p_value_moved i A [(j, B)] (a j) Hn (Ha j)) as E. unfold cam_value in E. cbn [map fst snd] in E.
    unfold cam_ind. rewrite E; [reflexivity|]. intros q [<-|[]]. reflexivity.
  Qed.
End Units.

(** The search never tests a variable outside the table or, without columns, anything at all. *)
Lemma few_columns : forall d maxnum hsic thr pk ind ind' v v' iter, (forall l, Permutation (iter l) l) -> (d <= 1)%nat -> (maxnum <> 0)%nat ->
  cam_fit d maxnum hsic thr pk ind v iter = cam_fit d maxnum hsic thr pk ind' v' iter.
Proof.
  intros d maxnum hsic thr pk ind ind' v v' iter IP Hd Hm.
  assert (forall t, (2 <= t)%nat -> combs t (seq 0 d) = []) as C.
  { intros t Ht. destruct t as [|[|t]]; [lia|lia|]. destruct d as [|[|d]]; [reflexivity|reflexivity|lia]. }
  assert (pairs (seq 0 d) = []) as P by (destruct d as [|[|d]]; [reflexivity|reflexivity|lia]).
  assert (neighborhoods d ind = no_sets) as N1 by (unfold neighborhoods; rewrite P; reflexivity).
  assert (neighborhoods d ind' = no_sets) as N2 by (unfold neighborhoods; rewrite P; reflexivity).
  unfold cam_fit. destruct (maxnum =? 0)%nat; [reflexivity|]. unfold find_parents. rewrite N1, N2.
  assert (forall i w st, (2 <= snd st)%nat -> cam_step d maxnum hsic thr pk i w iter no_sets st =
     (if (maxnum <? S (snd st))%nat then inr (fst st) else inl (fst st, S (snd st)))) as ST.
  { intros i w [Q t] Ht. cbn [snd fst] in *. unfold cam_step. rewrite (C t Ht). cbn [fold_left]. reflexivity. }
  assert (forall i w i' w' k st, (2 <= snd st)%nat ->
    Loop.loop (cam_step d maxnum hsic thr pk i w iter no_sets) k st = Loop.loop (cam_step d maxnum hsic thr pk i' w' iter no_sets) k st /\
    match Loop.loop (cam_step d maxnum hsic thr pk i w iter no_sets) k st with inl st' => (2 <= snd st')%nat | inr Q => Q = fst st end /\
    forall st', Loop.loop (cam_step d maxnum hsic thr pk i w iter no_sets) k st = inl st' -> fst st' = fst st) as L.
  { intros i w i' w' k. induction k as [|k IH]; intros st Ht; cbn [Loop.loop].
    - rewrite (ST i w st Ht), (ST i' w' st Ht). destruct (maxnum <? S (snd st))%nat; [|cbn [snd]]; split; try reflexivity; split; try reflexivity; try lia.
      + intros st' E. discriminate.
      + intros st' E. injection E as <-. reflexivity.
    - destruct (IH st Ht) as [E [H F]]. rewrite <- E. destruct (Loop.loop (cam_step d maxnum hsic thr pk i w iter no_sets) k st) as [s|Q] eqn:EL.
      + destruct (IH s H) as [E2 [H2 F2]]. split; [exact E2|]. rewrite (F s eq_refl) in *. split; [exact H2|exact F2].
      + split; [reflexivity|]. split; [exact H|]. intros st' X. discriminate. }
  destruct (L ind v ind' v' (S (Nat.log2 (cam_top d maxnum))) (no_sets, 2%nat) (le_n 2)) as [E [H _]]. rewrite <- E.
  destruct (Loop.loop (cam_step d maxnum hsic thr pk ind v iter no_sets) (S (Nat.log2 (cam_top d maxnum))) (no_sets, 2%nat)) as [s|Q]; [reflexivity|].
  cbn [fst] in H. subst Q.
  assert (forall i l, fold_left (prune_row d i) l no_sets = no_sets) as PR.
  { intros i l. induction l as [|x l IH]; [reflexivity|]. cbn [fold_left]. replace (prune_row d i no_sets x) with no_sets; [exact IH|].
    apply functional_extensionality. intro u. apply functional_extensionality. intro w. reflexivity. }
  unfold prune. rewrite !PR. unfold cam_confounded. rewrite P. reflexivity.
Qed.

(** ** C208 *)
(** With the default number of explanatory variables (two) or one, every variable may have its own unit and origin. *)
Theorem C208_own_units_default :
  forall gamma_sf float reg alpha pk iter maxnum n d X a b, (forall l, Permutation (iter l) l) -> (maxnum <= 2)%nat ->
  unit_free reg -> (forall j, a j <> 0) ->
  camuv_hsic gamma_sf float reg alpha pk iter maxnum n d (rescaled a b X) = camuv_hsic gamma_sf float reg alpha pk iter maxnum n d X.
Proof.
  intros gamma_sf float reg alpha pk iter maxnum n d X a b IP Hm UF Ha. unfold camuv_hsic.
  destruct (Nat.eqb_spec maxnum 0) as [E0|E0]; [reflexivity|].
  destruct (Nat.leb_spec 2 d) as [Hd|Hd]; cbn [andb]; [|apply few_columns; [exact IP|lia|exact E0]].
  destruct (Nat.leb_spec n 3) as [Hn|Hn]; [reflexivity|].
  rewrite (ind_moved gamma_sf float reg n X a b UF Ha alpha Hn). apply fit_singles; [exact IP|exact Hm|].
  intros c A q. apply (p_value_moved gamma_sf float reg n X a b UF Ha c A [q] (a (fst q)) Hn (Ha _)).
  intros q' [<-|[]]. reflexivity.
Qed.
Print Assumptions C208_own_units_default.
(** With any number, all variables may be expressed in another common unit, each with its own origin. *)
Theorem C208_common_unit :
  forall gamma_sf float reg alpha pk iter maxnum n d X u b, (forall l, Permutation (iter l) l) ->
  unit_free reg -> u <> 0 ->
  camuv_hsic gamma_sf float reg alpha pk iter maxnum n d (rescaled (fun _ => u) b X) =
  camuv_hsic gamma_sf float reg alpha pk iter maxnum n d X.
Proof.
  intros gamma_sf float reg alpha pk iter maxnum n d X u b IP UF Hu. unfold camuv_hsic.
  destruct (Nat.eqb_spec maxnum 0) as [E0|E0]; [reflexivity|].
  destruct (Nat.leb_spec 2 d) as [Hd|Hd]; cbn [andb]; [|apply few_columns; [exact IP|lia|exact E0]].
  destruct (Nat.leb_spec n 3) as [Hn|Hn]; [reflexivity|].
  rewrite (ind_moved gamma_sf float reg n X (fun _ => u) b UF (fun _ => Hu) alpha Hn). f_equal.
  apply functional_extensionality. intro c. apply functional_extensionality. intro A. apply functional_extensionality. intro qs.
  apply (p_value_moved gamma_sf float reg n X (fun _ => u) b UF (fun _ => Hu) c A qs u Hn Hu). reflexivity.
Qed.
Print Assumptions C208_common_unit.

Definition reunit (ab : (nat -> R) * (nat -> R)) (X : camset) : camset := (fst X, rescaled (fst ab) (snd ab) (snd X)).
(** Several data sets: each may be measured in units of its own. *)
Theorem C208_several_data_sets :
  forall gamma_sf float reg m2log sf alpha pk iter maxnum d (Xs : list camset) (abs : list ((nat -> R) * (nat -> R))),
  (forall l, Permutation (iter l) l) -> unit_free reg -> length abs = length Xs ->
  (forall ab, In ab abs -> forall j, fst ab j <> 0) ->
  (maxnum <= 2)%nat \/ (forall ab, In ab abs -> exists u, forall j, fst ab j = u) ->
  mgcamuv_hsic gamma_sf float reg m2log sf alpha pk iter maxnum d (map (fun p => reunit (fst p) (snd p)) (combine abs Xs)) =
  mgcamuv_hsic gamma_sf float reg m2log sf alpha pk iter maxnum d Xs.
Proof.
  intros gamma_sf float reg m2log sf alpha pk iter maxnum d Xs abs IP UF EL Ha Hu. unfold mgcamuv_hsic.
  destruct (Nat.eqb_spec maxnum 0) as [E0|E0]; [reflexivity|].
  set (Xs' := map (fun p => reunit (fst p) (snd p)) (combine abs Xs)).
  assert (L : length Xs' = length Xs) by (unfold Xs'; rewrite map_length, combine_length; lia).
  assert (CH : forall Zs, check_X_list camset (fun _ => Some d) (Some Zs) = if (length Zs <? 2)%nat then Err ValueError else Ok d).
  { intros [|Z Zs]; [reflexivity|]. unfold check_X_list. destruct (length (Z :: Zs) <? 2)%nat; [reflexivity|].
    replace (forallb (fun _ => (d =? d)%nat) (Z :: Zs)) with true; [reflexivity|]. symmetry. apply forallb_forall. intros. apply Nat.eqb_refl. }
  rewrite !CH, L. destruct (length Xs <? 2)%nat eqn:E2; cbn [bind]; [reflexivity|].
  assert (EX : existsb (fun X => (fst X <=? 3)%nat) Xs' = existsb (fun X => (fst X <=? 3)%nat) Xs).
  { unfold Xs'. clear - EL. revert Xs EL. induction abs as [|ab abs IH]; intros [|X Xs] EL; try discriminate; [reflexivity|].
    cbn [combine map existsb]. rewrite IH by (injection EL; auto). reflexivity. }
  rewrite EX. unfold mgc_fit. rewrite !CH, L, E2. cbn [bind].
  destruct (Nat.leb_spec 2 d) as [Hd|Hd]; cbn [andb]; [|apply few_columns; [exact IP|lia|exact E0]].
  destruct (existsb (fun X => (fst X <=? 3)%nat) Xs) eqn:ES; [reflexivity|].
  assert (Hn : forall X, In X Xs -> (3 < fst X)%nat).
  { intros X I. destruct (Nat.leb_spec (fst X) 3) as [H|H]; [|exact H]. assert (T : existsb (fun X => (fst X <=? 3)%nat) Xs = true); [|congruence].
    apply existsb_exists. exists X. split; [exact I|]. apply Nat.leb_le. exact H. }
  assert (V : forall c A qs, (length qs = 1%nat \/ forall ab, In ab abs -> exists u, forall j, fst ab j = u) ->
     combined camset (set_test reg (hsic_p_value gamma_sf float)) m2log sf true Xs' c A qs =
     combined camset (set_test reg (hsic_p_value gamma_sf float)) m2log sf true Xs c A qs).
  { intros c A qs Q. unfold combined. f_equal. unfold Xs'. rewrite map_map. clear - UF EL Ha Hn Q. revert abs EL Ha Q.
    induction Xs as [|X Xs IH]; intros [|ab abs] EL Ha Q; try discriminate; [reflexivity|]. cbn [combine map fst snd]. f_equal.
    - destruct ab as [a b]. unfold set_test, reunit. cbn [fst snd]. pose proof (Ha (a, b) (or_introl eq_refl)) as Hab. cbn [fst] in Hab.
      pose proof (Hn X (or_introl eq_refl)) as Hx.
      destruct qs as [|q qs]; [apply (p_value_moved gamma_sf float reg (fst X) (snd X) a b UF Hab c A [] 1 Hx R1_neq_R0); intros q []|].
      apply (p_value_moved gamma_sf float reg (fst X) (snd X) a b UF Hab c A (q :: qs) (a (fst q)) Hx (Hab _)).
      destruct Q as [Q|Q].
      + destruct qs as [|q' qs]; [|discriminate]. intros q' [<-|[]]. reflexivity.
      + destruct (Q (a, b) (or_introl eq_refl)) as [u U]. cbn [fst] in U. intros q' _. rewrite !U. reflexivity.
    - apply IH; [intros; apply Hn; right; assumption|injection EL; auto|intros; apply Ha; right; assumption|].
      destruct Q as [Q|Q]; [left; exact Q|right; intros; apply Q; right; assumption]. }
  assert (I : combined_ind camset (set_test reg (hsic_p_value gamma_sf float)) m2log sf true alpha Xs' =
              combined_ind camset (set_test reg (hsic_p_value gamma_sf float)) m2log sf true alpha Xs).
  { apply functional_extensionality. intro i. apply functional_extensionality. intro A. apply functional_extensionality. intro j.
    apply functional_extensionality. intro B. unfold combined_ind. rewrite V by (left; reflexivity). reflexivity. }
  rewrite I. destruct Hu as [Hm|Hu].
  - apply fit_singles; [exact IP|exact Hm|]. intros c A q. apply V. left. reflexivity.
  - f_equal. apply functional_extensionality. intro c. apply functional_extensionality. intro A. apply functional_extensionality. intro qs.
    apply V. right. exact Hu.
Qed.
Print Assumptions C208_several_data_sets.
(** At most three rows never give an answer, four rows or more always do. *)
Theorem C208_rows :
  forall gamma_sf float reg alpha pk iter maxnum n d X, (forall l, Permutation (iter l) l) -> (1 <= maxnum)%nat -> (2 <= d)%nat ->
  ((n <= 3)%nat -> camuv_hsic gamma_sf float reg alpha pk iter maxnum n d X = Err ZeroDivisionError) /\
  ((4 <= n)%nat -> exists P B, camuv_hsic gamma_sf float reg alpha pk iter maxnum n d X = Ok (P, B)).
Proof.
  intros gamma_sf float reg alpha pk iter maxnum n d X IP Hm Hd. unfold camuv_hsic.
  rewrite (proj2 (Nat.eqb_neq maxnum 0)) by lia. rewrite (proj2 (Nat.leb_le 2 d)) by lia. cbn [andb]. split; intro Hn.
  - rewrite (proj2 (Nat.leb_le n 3)) by lia. reflexivity.
  - rewrite (proj2 (Nat.leb_gt n 3)) by lia. unfold cam_fit. rewrite (proj2 (Nat.eqb_neq maxnum 0)) by lia.
    match goal with |- context [find_parents _ _ _ _ _ ?i ?v _ _] =>
      destruct (ProofCAMUV.cam_terminates d maxnum true alpha pk i v iter IP (S (Nat.log2 (cam_top d maxnum)))) as [P EP] end.
    + apply Nat.log2_spec. unfold cam_top. lia.
    + unfold find_parents. rewrite EP. eauto.
Qed.
Print Assumptions C208_rows.

(** The smoother that predicts the mean is unit free, so the theorems apply: degrees Celsius or Fahrenheit for variable 0, metres or feet
    for variable 1. *)
Example C208_example : forall gamma_sf float alpha X,
  unit_free mean_regressor /\
  camuv_hsic gamma_sf float mean_regressor alpha None (fun l => l) 2 20 2
    (rescaled (fun j => match j with O => 9 / 5 | _ => 3.28 end) (fun j => match j with O => 32 | _ => 0 end) X) =
  camuv_hsic gamma_sf float mean_regressor alpha None (fun l => l) 2 20 2 X /\
  exists P B, camuv_hsic gamma_sf float mean_regressor alpha None (fun l => l) 2 20 2 X = Ok (P, B).
Proof.
  intros gamma_sf float alpha X. split; [exact C206_example_regressor|]. split.
  - apply C208_own_units_default; [intro; apply Permutation_refl|lia|exact C206_example_regressor|]. intros [|j]; lra.
  - apply C208_rows; [intro; apply Permutation_refl|lia|lia|lia].
Qed.
