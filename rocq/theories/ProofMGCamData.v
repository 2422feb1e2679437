From Coq Require Import Reals Arith List Lia Lra Bool Permutation QArith Qcanon Classical.
From Verif Require Import Prelude Lib LibR SpecMeasure SpecResit SpecCam SpecCAMUV SpecMGCam ModelRCD ModelCAMUV ModelCamData ModelParce ModelMGCamuv ModelMGCamData
  ProofKernelMI ProofResitData ProofResitData2 ProofCamData ProofCamData2 ProofMGCamuv Props_CAMUV.
Import ListNotations.
Open Scope R_scope.

Definition columns (g : star) : camset := (st_rows g, st_X g).

Lemma decisive_exact : forall hp alpha, (0 <= alpha)%Qc -> (alpha < 1)%Qc -> decisive_p_value hp -> exact_p_value alpha hp.
Proof.
  intros hp alpha A0 A1 HP n u v Hn. destruct (HP n u v Hn) as [P1 P0]. destruct (classic (independent n u v)) as [I|I].
  - exists 1%Qc. split; [apply P1; exact I|split; intros _; assumption].
  - exists 0%Qc. split; [apply P0; exact I|]. split; [intro C; exfalso; exact (Qclt_not_le _ _ C A0)|contradiction].
Qed.

Section Joint.
  Context (reg : nat -> (nat -> list R) -> (nat -> R) -> list R -> R) (hp : nat -> (nat -> R) -> (nat -> list R) -> num) (m2log : Qc -> Qc) (sf : ext -> nat -> num) (alpha : Qc).
  Context (m : nat) (Gs : list star).
  Context (Hm : (1 <= m)%nat) (A0 : (0 <= alpha)%Qc) (A1 : (alpha < 1)%Qc) (HR : exact_gam reg) (HP : decisive_p_value hp).
  Context (L1 : m2log 1%Qc = 0%Qc) (S0 : forall k, sf PInf k = Some 0%Qc) (S1 : forall k, sf (Fin 0%Qc) k = Some 1%Qc).
  Context (HG : forall g, In g Gs -> star_data m g).
  Let Xs := map columns Gs.
  Let ind := combined_ind camset (set_test reg hp) m2log sf true alpha Xs.
  Let value := combined camset (set_test reg hp) m2log sf true Xs.
  Let Gr (g : star) := gam_residual reg (st_rows g) (st_X g).
  (** the joint test: independence in every data set *)
  Definition all_independent (c : nat) (A : list nat) (qs : list (nat * list nat)) : Prop :=
    forall g, In g Gs -> independent (st_rows g) (Gr g c A) (fun s => map (fun q => Gr g (fst q) (snd q) s) qs).
  Lemma value_joint : forall c A qs, (all_independent c A qs /\ value c A qs = Some 1%Qc) \/ (~ all_independent c A qs /\ value c A qs = Some 0%Qc).
  Proof.
    intros c A qs.
    assert (E : exists p : star -> Qc, forall g, In g Gs -> set_test reg hp (columns g) c A qs = Some (p g) /\
      ((independent (st_rows g) (Gr g c A) (fun s => map (fun q => Gr g (fst q) (snd q) s) qs) /\ p g = 1%Qc) \/ (~ independent (st_rows g) (Gr g c A) (fun s => map (fun q => Gr g (fst q) (snd q) s) qs) /\ p g = 0%Qc))).
    { exists (fun g => match set_test reg hp (columns g) c A qs with Some q => q | None => 0%Qc end). intros g Ig. destruct (HG g Ig) as (Hn & _).
      unfold set_test, columns, cam_value. cbn [fst snd]. fold (Gr g). destruct (HP (st_rows g) (Gr g c A) (fun s => map (fun q => Gr g (fst q) (snd q) s) qs) Hn) as [P1 P0].
      destruct (classic (independent (st_rows g) (Gr g c A) (fun s => map (fun q => Gr g (fst q) (snd q) s) qs))) as [I|I].
      - rewrite (P1 I). split; [reflexivity|]. left. split; [exact I|reflexivity].
      - rewrite (P0 I). split; [reflexivity|]. right. split; [exact I|reflexivity]. }
    destruct E as (p & E).
    assert (V : value c A qs = fisher m2log sf (map Some (map p Gs))).
    { unfold value, combined. cbv zeta. f_equal. unfold Xs. rewrite !map_map. apply map_ext_in. intros g Ig. apply E. exact Ig. }
    destruct (classic (all_independent c A qs)) as [AI|AI]; [left|right]; (split; [exact AI|]); rewrite V; unfold fisher.
    - rewrite (fisher_numbers m2log (map p Gs) 0%Qc).
      + assert (Z : forall l : list Qc, (forall x, In x l -> x = 1%Qc) -> qsum (map m2log l) = 0%Qc).
        { induction l as [|x l IH]; intro H; [reflexivity|]. cbn [map]. unfold qsum in *. cbn [fold_right]. rewrite IH by (intros y Hy; apply H; right; exact Hy). rewrite (H x (or_introl eq_refl)), L1. ring. }
        rewrite Z; [|intros x Hx; apply in_map_iff in Hx; destruct Hx as (g & <- & Ig); destruct (E g Ig) as [_ [[_ P]|[N _]]]; [exact P|exfalso; apply N; apply AI; exact Ig]].
        replace (0 + 0)%Qc with 0%Qc by ring. apply S1.
      + intros x Hx. apply in_map_iff in Hx. destruct Hx as (g & <- & Ig). destruct (E g Ig) as [_ [[_ P]|[N _]]]; [rewrite P; discriminate|exfalso; apply N; apply AI; exact Ig].
    - rewrite fisher_zero; [apply S0|]. apply not_all_ex_not in AI. destruct AI as (g & AI). apply imply_to_and in AI. destruct AI as [Ig N].
      apply in_map_iff. exists g. split; [|exact Ig]. destruct (E g Ig) as [_ [[I _]|[_ P]]]; [contradiction|exact P].
  Qed.
  Lemma ind_joint : forall i A j B, ind i A j B = true <-> forall g, In g Gs -> independent (st_rows g) (Gr g i A) (Gr g j B).
  Proof.
    intros i A j B. unfold ind, combined_ind. cbv zeta. fold value.
    assert (EQ : all_independent i A [(j, B)] <-> forall g, In g Gs -> independent (st_rows g) (Gr g i A) (Gr g j B)).
    { split; intros H g Ig; specialize (H g Ig).
      - apply (independent_comp _ _ _ (fun x => x) (fun l => nth 0 l 0) _ _ H); reflexivity.
      - apply (independent_comp _ _ _ (fun x => x) (fun x => [x]) _ _ H); reflexivity. }
    rewrite <- EQ. destruct (value_joint i A [(j, B)]) as [[AI V]|[AI V]]; rewrite V; cbn [nltb]; rewrite qltb_lt.
    - tauto.
    - split; [intro C; exfalso; exact (Qclt_not_le _ _ C A0)|contradiction].
  Qed.
  Context (HD : forall i, (i < m)%nat -> exists g, In g Gs /\ matters g i).
  Context (HW : forall i Q, (i < m)%nat -> NoDup Q -> (forall x, In x Q -> (x < m)%nat) -> ~ In i Q -> exists g, In g Gs /\ oriented m g i Q).
  Lemma joint_found : forall iter maxnum, (forall l, Permutation (iter l) l) -> (1 <= maxnum)%nat ->
    exists P B, cam_fit (S m) maxnum true alpha None ind value iter = Ok (P, B) /\
    forall i j, (i <= m)%nat -> (j <= m)%nat -> B i j = Some (if (i =? m) && (j <? m) then 1%Qc else 0%Qc)%nat.
  Proof.
    intros iter maxnum IP HX. pose proof (decisive_exact hp alpha A0 A1 HP) as HE. apply star_found; try assumption.
    - intros i j Hi Hj N. apply ind_joint. intros g Ig. destruct (HG g Ig) as (Hn & MI & EX & EY).
      apply (ind_iff reg hp alpha (st_rows g) (st_X g) Hn HE). apply (causes_independent reg hp alpha (st_rows g) m (st_U g) (st_X g) Hn Hm HE MI EX i j Hi Hj N).
    - intros Q i ND HQ Hi Ni. destruct (HD i Hi) as (g & Ig & D). destruct (HG g Ig) as (Hn & MI & EX & EY).
      assert (A : ~ independent (st_rows g) (Gr g m Q) (Gr g i [])).
      { destruct (effect_residual reg (st_rows g) m (st_f g) (st_U g) (st_X g) Hn Hm HR MI EX EY Q ND HQ) as (c & Ec).
        intro I. apply (rest_dependent reg (st_rows g) m (st_f g) (st_U g) (st_X g) Hn Hm MI Q i ND HQ Hi Ni D).
        apply (independent_comp _ (Gr g m Q) (Gr g i []) (fun x => x - c) (fun x => x) _ _ I).
        - intros s Hs. unfold Gr. rewrite (Ec s Hs). ring.
        - intros s Hs. symmetry. apply EX; assumption. }
      split; (destruct (ind _ _ _ _) eqn:E; [|reflexivity]); exfalso; apply A; pose proof (proj1 (ind_joint _ _ _ _) E g Ig) as C; [exact C|apply independent_sym in C; exact C].
    - intros A qs ND HA Hq. exists 1%Qc. split; [|exact A1]. destruct (value_joint m A (map (fun q => (q, [])) qs)) as [[_ V]|[N _]]; [exact V|exfalso]. apply N. intros g Ig. destruct (HG g Ig) as (Hn & MI & EX & EY).
      destruct (value_effect reg hp alpha (st_rows g) m (st_f g) (st_U g) (st_X g) Hn Hm HR HE MI EX EY A qs ND HA Hq) as (q & E & Lt).
      destruct (value_iff reg hp alpha (st_rows g) (st_X g) Hn HE m A (map (fun q => (q, [])) qs)) as (q' & E' & Z). apply Z. congruence.
    - intros i Q Hi ND HQ Ni. exists 0%Qc. split; [|intro C; exact (Qclt_not_le _ _ C A0)]. destruct (value_joint i [m] [(m, Q)]) as [[AI _]|[_ V]]; [exfalso|exact V].
      destruct (HW i Q Hi ND HQ Ni) as (g & Ig & W). destruct (HG g Ig) as (Hn & MI & EX & EY). specialize (AI g Ig).
      destruct (effect_residual reg (st_rows g) m (st_f g) (st_U g) (st_X g) Hn Hm HR MI EX EY Q ND HQ) as (c & Ec).
      apply (W (reg (st_rows g) (values (st_X g) [m]) (st_X g i))).
      + apply (HR (st_rows g) 1%nat (values (st_X g) [m]) (st_X g i) Hn); [lia|reflexivity].
      + apply (independent_comp _ (Gr g i [m]) _ (fun x => x) (fun l => nth 0 l 0 - c) _ _ AI).
        * reflexivity.
        * intros s Hs. cbn [map nth fst snd]. unfold Gr. rewrite (Ec s Hs). unfold rest, memb. ring.
  Qed.
End Joint.
