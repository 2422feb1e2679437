(** * MultiGroupCAMUV on data: direct causes from several data sets (C194) *)
From Coq Require Import Reals Arith List Lia Lra Bool Permutation QArith Qcanon.
From Verif Require Import Prelude Lib LibR SpecMeasure SpecResit SpecCam SpecCAMUV SpecMGCam ModelRCD ModelCAMUV ModelCamData ModelParce ModelMGCamuv ModelMGCamData
  ProofKernelMI ProofResitData ProofResitData2 ProofCamData ProofMGCamData Props_CAMUV Props_ResitData Props_CamData.
Import ListNotations.
Open Scope R_scope.

(** In every data set variable m is a sum of functions of the independent variables 0..m-1 and noise, the functions differing between
    the data sets.  With exact regressions and decisive tests MultiGroupCAMUV reports exactly the direct causes, as soon as each of them
    makes a difference in some data set, and in some data set does not look like an effect of variable m. *)
Theorem C194_causes_right : forall reg hsic_p m2log sf alpha iter maxnum m Gs,
  (1 <= m)%nat -> (1 <= maxnum)%nat -> (2 <= length Gs)%nat -> (0 <= alpha)%Qc -> (alpha < 1)%Qc -> (forall l, Permutation (iter l) l) ->
  exact_gam reg -> decisive_p_value hsic_p ->
  m2log 1%Qc = 0%Qc -> (forall k, sf PInf k = Some 0%Qc) -> (forall k, sf (Fin 0%Qc) k = Some 1%Qc) ->
  (forall g, In g Gs -> star_data m g) ->
  (forall i, (i < m)%nat -> exists g, In g Gs /\ matters g i) ->
  (forall i Q, (i < m)%nat -> NoDup Q -> (forall x, In x Q -> (x < m)%nat) -> ~ In i Q -> exists g, In g Gs /\ oriented m g i Q) ->
  exists P B, mgcamuv_data reg hsic_p m2log sf alpha iter maxnum (S m) (map (fun g => (st_rows g, st_X g)) Gs) = Ok (P, B) /\
    forall i j, (i <= m)%nat -> (j <= m)%nat -> B i j = Some (if (i =? m) && (j <? m) then 1%Qc else 0%Qc)%nat.
Proof.
  intros reg hp m2log sf alpha iter maxnum m Gs Hm HX HL A0 A1 IP HR HP L1 S0 S1 HG HD HW.
  destruct (joint_found reg hp m2log sf alpha m Gs Hm A0 A1 HR HP L1 S0 S1 HG HD HW iter maxnum IP HX) as (P & B & E & H). exists P, B. split; [|exact H].
  unfold mgcamuv_data, mgc_fit, check_X_list. rewrite map_length. replace (length Gs <? 2)%nat with false by (symmetry; apply Nat.ltb_ge; lia).
  destruct Gs as [|g Gs]; [cbn in HL; lia|]. cbn [map bind]. cbn [forallb]. rewrite Nat.eqb_refl. cbn [andb].
  assert (T : forall l : list camset, forallb (fun _ => true) l = true) by (induction l; auto).
  rewrite T. exact E.
Qed.
Print Assumptions C194_causes_right.

(** ** x2 = x0 + e in one data set, x2 = x1 + e in the other *)
Definition half_rows (k : nat) (j s : nat) : R := match j with S (S _) => nth s (match k with O => [0; 1; 0; 1; 1; 2; 1; 2] | _ => [0; 0; 1; 1; 1; 1; 2; 2] end) 0 | _ => bits j s end.
Definition half (k : nat) : star := {| st_rows := 8; st_f := fun i x => if (i =? k)%nat then x else 0; st_U := bits; st_X := half_rows k |}.
Lemma half_data : forall k, (k < 2)%nat -> star_data 2 (half k).
Proof.
  intros k Hk. split; [cbn; lia|]. split; [exact bits_independent|]. split.
  - intros i s Hi Hs. do 2 (destruct i as [|i]; [reflexivity|]). lia.
  - intros s Hs. cbn [half st_rows] in Hs. do 2 (destruct k as [|k]; [do 8 (destruct s as [|s]; [cbn; lra|]); lia|]). lia.
Qed.
Lemma half_matters : forall k, (k < 2)%nat -> matters (half k) k.
Proof. intros k Hk. exists 0%nat, 3%nat. split; [cbn; lia|]. split; [cbn; lia|]. do 2 (destruct k as [|k]; [cbn; lra|]). lia. Qed.
Lemma half_oriented : forall k Q, (k < 2)%nat -> ~ In k Q -> oriented 2 (half k) k Q.
Proof.
  intros k Q Hk Nk h M I. cbn [half st_rows st_X st_f st_U] in M, I.
  assert (M' : additive_mean 8 1 (values (half_rows k) [2%nat]) (half_rows k k) (fun l => nth 0 l 0 / 2)).
  { split; [exists (fun _ x => x / 2); intros w _; cbn [rsum]; ring|]. intros j g Hj. replace j with 0%nat by lia. do 2 (destruct k as [|k]; [unfold average, values; cbn; field|]). lia. }
  pose proof (additive_mean_unique 8 1 (values (half_rows k) [2%nat]) (half_rows k k) h _ ltac:(lia) ltac:(reflexivity) M M') as E.
  assert (F : forall s, rsum 2 (fun j => if existsb (Nat.eqb j) Q then 0 else if (j =? k)%nat then bits j s else 0) = bits k s).
  { intro s. assert (B : existsb (Nat.eqb k) Q = false) by (change (memb k Q = false); apply memb_notIn; exact Nk).
    rewrite (rsum_single 2 _ k Hk); [rewrite B, Nat.eqb_refl; reflexivity|]. intros j _ N. apply Nat.eqb_neq in N. rewrite N. destruct (existsb (Nat.eqb j) Q); reflexivity. }
  assert (J : independent 8 (residual_of (half_rows k) [2%nat] k h) (fun s => bits k s + bits 2 s)).
  { apply (independent_comp _ _ _ (fun x => x) (fun x => x) _ _ I); [reflexivity|]. intros s Hs. rewrite F. reflexivity. }
  pose proof (J (fun r => r * r) (fun x => x * x)) as C. unfold residual_of, average in C. cbn [rsum] in C. rewrite !E in C by lia. clear E M M' I F J Nk.
  do 2 (destruct k as [|k]; [cbn in C; lra|]). lia.
Qed.
Definition ex_cam_sf (s : ext) (k : nat) : num := match s with Fin q => Some (if qeqb q 0 then 1%Qc else qf 1 2) | PInf => Some 0%Qc | NaN => None end.
Example C194_example_tests : decisive_p_value deciding_p_value.
Proof. intros n u v Hn. unfold deciding_p_value. destruct (lt_dec 0 n) as [H|H]; [|contradiction]. destruct (independent_dec n u v H) as [I|I]; split; intro J; try reflexivity; contradiction. Qed.
Example C194_example_fit : forall iter, (forall l, Permutation (iter l) l) ->
  exists P B, mgcamuv_data least_squares_gam deciding_p_value (fun p => 1 - p)%Qc ex_cam_sf (qf 1 20) iter 1 3 [(8%nat, half_rows 0); (8%nat, half_rows 1)] = Ok (P, B) /\
    forall i j, (i <= 2)%nat -> (j <= 2)%nat -> B i j = Some (if (i =? 2) && (j <? 2) then 1%Qc else 0%Qc)%nat.
Proof.
  intros iter IP. apply (C194_causes_right least_squares_gam deciding_p_value (fun p => 1 - p)%Qc ex_cam_sf (qf 1 20) iter 1 2 [half 0; half 1]); try lia; try assumption.
  - cbn; lia.
  - apply Qclt_le_weak. apply qltb_lt. vm_compute. reflexivity.
  - apply qltb_lt. vm_compute. reflexivity.
  - exact C183_example_regressor.
  - exact C194_example_tests.
  - ring.
  - reflexivity.
  - intros. reflexivity.
  - intros g [<-|[<-|[]]]; apply half_data; lia.
  - intros i Hi. exists (half i). split; [|apply half_matters; exact Hi]. do 2 (destruct i as [|i]; [cbn; tauto|]). lia.
  - intros i Q Hi ND HQ Ni. exists (half i). split; [|apply half_oriented; assumption]. do 2 (destruct i as [|i]; [cbn; tauto|]). lia.
Qed.
(** Neither data set alone shows both causes: there CAM-UV's matrix has no entry for the other one. *)
Example C194_example_alone : forall iter k P B, (forall l, Permutation (iter l) l) -> (k < 2)%nat ->
  camuv_data least_squares_gam deciding_p_value (qf 1 20) 8 (half_rows k) iter 1 3 = Ok (P, B) -> B 2%nat (1 - k)%nat = Some 0%Qc.
Proof.
  intros iter k P B IP Hk E. pose proof (C35_adjacency_shape _ _ _ _ _ _ _ _ _ _ IP E) as C. cbv zeta in C. destruct C as (_ & V & D & N & _).
  assert (I : cam_ind least_squares_gam deciding_p_value (qf 1 20) 8 (half_rows k) (1 - k) [] 2 [] = true).
  { apply (ind_iff least_squares_gam deciding_p_value (qf 1 20) 8 (half_rows k) ltac:(lia) C180_example_p_value). intros f g.
    do 2 (destruct k as [|k]; [unfold average; cbn; field|]). lia. }
  assert (L : (2 <? 1 - k = false)%nat) by (apply Nat.ltb_ge; lia).
  destruct (V 2%nat (1 - k)%nat) as [Z|[Z|Z]]; [exact Z|exfalso..].
  - destruct (D _ _ Z) as (_ & _ & _ & Z'). rewrite L in Z'. congruence.
  - apply N in Z; [|lia|lia]. destruct Z as (_ & _ & _ & Z' & _). rewrite L in Z'. congruence.
Qed.
