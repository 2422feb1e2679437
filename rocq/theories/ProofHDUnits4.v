(** * Proofs: an exact sample in other units is an exact sample *)
From Coq Require Import List Arith Bool ZArith QArith Qcanon Lia Permutation Relations.
From Verif Require Import Prelude Spec SpecPop SpecRCDPop SpecHDPop Lib LibMat ProofLim ProofPop ProofHDPop ProofHDUnits2.
Import ListNotations.
Open Scope nat_scope.

Section Units.
  Variables (N n : nat) (B : mat Qc) (e x : nat -> sample) (c : nat -> Qc).
  Hypothesis Hc : forall i, c i <> 0%Qc.
  Definition unit_B : mat Qc := fun i j => (c i * B i j / c j)%Qc.
  Definition unit_x (i : nat) : sample := times (c i) (x i).
  Definition unit_e (i : nat) : sample := times (c i) (e i).
  Lemma c_nz : forall i, c i <> 0%Qc.
  Proof. exact Hc. Qed.
  Lemma unit_edge : forall a b, edge_of n unit_B a b <-> edge_of n B a b.
  Proof.
    intros a b. unfold edge_of, unit_B. assert (A := c_nz a). assert (A' := c_nz b).
    split; intros (H1 & H2 & H3); repeat split; try assumption; intro Z; apply H3.
    - rewrite Z. unfold Qcdiv. ring.
    - transitivity (c b * B b a / c a * c a / c b)%Qc; [field; split; assumption|rewrite Z; unfold Qcdiv; ring].
  Qed.
  Lemma unit_ancestor : forall a b, ancestor n unit_B a b <-> ancestor n B a b.
  Proof.
    intros a b. split; intro H; induction H as [a b H|a b d _ I1 _ I2]; try (apply t_step; apply unit_edge; exact H); apply t_trans with b; assumption.
  Qed.
  Lemma unit_sample : exact_sample N n B e x -> exact_sample N n unit_B unit_e unit_x.
  Proof.
    intros [R A E M I]. constructor.
    - exact R.
    - intros v P. apply (A v). apply unit_ancestor. exact P.
    - intros i r Hi Hr. unfold unit_x, unit_e, unit_B, times. rewrite (E i r Hi Hr). rewrite Qcmult_plus_distr_r. f_equal. rewrite <- sumn_scal. apply sumn_ext. intros j _. field. apply c_nz.
    - intros i Hi. unfold unit_e, times. rewrite mean_scal, (M i Hi). ring.
    - intros i Hi f g Hg. unfold unit_e, times.
      specialize (I i Hi (fun y => f (c i * y)%Qc) (fun a => g (fun k => c k * a k)%Qc)). apply I.
      intros a b H. apply Hg. intros k Hk Nk. rewrite (H k Hk Nk). reflexivity.
  Qed.
  Lemma unit_residual : forall C v u, residual_on N unit_x C v u -> residual_on N x C v (times (/ c v) u).
  Proof.
    intros C v u [(b & Hb) O]. split.
    - exists (fun q => b q * c q / c v)%Qc. intros r Hr. unfold times. rewrite (Hb r Hr). unfold unit_x, times.
      transitivity (x v r - / c v * sumf C (fun q => b q * (c q * x q r)))%Qc; [field; apply c_nz|]. rewrite <- sumf_scal. apply (f_equal (fun s => x v r - s)%Qc). apply sumf_ext. intros q _. field. apply c_nz.
    - intros q Hq. specialize (O q Hq). unfold dot, times, unit_x in *. unfold times in O.
      transitivity (/ c v * / c q * sumn N (fun r => u r * (c q * x q r)))%Qc; [|rewrite O; ring]. rewrite <- sumn_scal. apply sumn_ext. intros r _. field. split; apply c_nz.
  Qed.
  Lemma unit_faithful : forall K, 1 <= K -> faithful N n K B x -> faithful N n K unit_B unit_x.
  Proof.
    intros K HK F v p C u HE ND NI HC HR Z.
    apply (F v p C (times (/ c v) u)); try assumption.
    - apply unit_edge. exact HE.
    - intros q Hq. destruct (HC q Hq) as (A1 & A2 & A3). repeat split; try assumption. intro P. apply A3. apply unit_ancestor. exact P.
    - apply unit_residual. exact HR.
    - rewrite (moment_stat_ext N K (times (/ c v) u) (times (/ c v) u) (x p) (times (/ c p) (unit_x p))); [|reflexivity|].
      + rewrite moment_scaled by exact HK. rewrite Z. ring.
      + intros r _. unfold unit_x, times. field. apply c_nz.
  Qed.
End Units.
