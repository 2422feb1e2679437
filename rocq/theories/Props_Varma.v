(** * C187: the residuals VARMALiNGAM computes from given coefficients and the innovations of the series *)
From Coq Require Import List Arith Bool Lia QArith Qcanon.
From Verif Require Import Prelude Lib LibMat Spec ModelPaths ModelVAR ProofVAR.
Import ListNotations.
Open Scope nat_scope.

(** The series X of n variables and N times follows the VARMA equations with the innovations u from time max(p, q) on. *)
Definition varma_series (n : nat) (AR MA : list (mat Qc)) (X u : series) (N : nat) : Prop :=
  forall t i, Nat.max (length AR) (length MA) <= t -> t < N -> i < n ->
    X t i = (sumn (length AR) (fun k => sumn n (fun j => nth k AR zmat i j * X (t - (k + 1))%nat j)) +
             sumn (length MA) (fun k => sumn n (fun j => nth k MA zmat i j * u (t - (k + 1))%nat j)) + u t i)%Qc.
(** How far the residuals are from the innovations at time t; at the first times: the random start values. *)
Definition residual_error (n : nat) (AR MA : list (mat Qc)) (X u noise : series) (N t i : nat) : Qc :=
  let d := Nat.max (length AR) (length MA) in
  ((if (t <? d)%nat then noise t i else varma_residuals n AR MA X noise N (t - d)%nat i) - u t i)%Qc.

Lemma error_eps : forall n AR MA X u noise N t i, t < N -> residual_error n AR MA X u noise N t i = (eps n AR MA X noise N t i - u t i)%Qc.
Proof.
  intros n AR MA X u noise N t i Ht. unfold residual_error. cbv zeta. set (d := Nat.max (length AR) (length MA)). destruct (Nat.ltb_spec t d) as [H|H].
  - f_equal. rewrite eps_stable by exact Ht. cbn [eps]. rewrite Nat.eqb_refl. fold d. destruct (Nat.ltb_spec t d); [reflexivity|lia].
  - f_equal. unfold varma_residuals. fold d. replace (t - d + d) with t by lia. reflexivity.
Qed.
(** The error of the random start values is passed on by the moving average part and by nothing else. *)
Theorem C187_error_recursion : forall n AR MA X u noise N t i, varma_series n AR MA X u N ->
  Nat.max (length AR) (length MA) <= t -> t < N -> i < n ->
  residual_error n AR MA X u noise N t i
  = (- sumn (length MA) (fun k => sumn n (fun j => nth k MA zmat i j * residual_error n AR MA X u noise N (t - (k + 1))%nat j)))%Qc.
Proof.
  intros n AR MA X u noise N t i V Hd HN Hi. rewrite error_eps by exact HN. rewrite (eps_rec n AR MA X noise N t i HN Hd).
  rewrite (V t i Hd HN Hi) at 1.
  rewrite (sumn_ext (length MA) (fun k => sumn n (fun j => nth k MA zmat i j * residual_error n AR MA X u noise N (t - (k + 1))%nat j))%Qc
    (fun k => (sumn n (fun j => nth k MA zmat i j * eps n AR MA X noise N (t - (k + 1))%nat j) - sumn n (fun j => nth k MA zmat i j * u (t - (k + 1))%nat j))%Qc)).
  - rewrite sumn_minus. ring.
  - intros k Hk. rewrite <- sumn_minus. apply sumn_ext. intros j _. rewrite error_eps by lia. ring.
Qed.
(** With the right start values the residuals are the innovations; without a moving average part always. *)
Theorem C187_exact_start : forall n AR MA X u noise N, varma_series n AR MA X u N ->
  (forall t i, t < Nat.max (length AR) (length MA) -> i < n -> noise t i = u t i) ->
  forall t i, t < N -> Nat.max (length AR) (length MA) <= t -> i < n ->
  varma_residuals n AR MA X noise N (t - Nat.max (length AR) (length MA)) i = u t i.
Proof.
  intros n AR MA X u noise N V H0.
  assert (Z : forall t i, t < N -> i < n -> residual_error n AR MA X u noise N t i = 0%Qc).
  { induction t as [t IH] using lt_wf_ind. intros i Ht Hi. destruct (Nat.lt_ge_cases t (Nat.max (length AR) (length MA))) as [L|L].
    - unfold residual_error. destruct (Nat.ltb_spec t (Nat.max (length AR) (length MA))); [|lia]. rewrite H0 by assumption. ring.
    - rewrite C187_error_recursion by assumption. rewrite (sumn_ext _ _ (fun _ => 0%Qc)).
      + unfold sumn. rewrite sumf_zero by reflexivity. ring.
      + intros k Hk. unfold sumn. apply sumf_zero. intros j Hj. apply in_seq in Hj. rewrite IH by lia. ring. }
  intros t i Ht Hd Hi. specialize (Z t i Ht Hi). unfold residual_error in Z. cbv zeta in Z.
  destruct (Nat.ltb_spec t (Nat.max (length AR) (length MA))); [lia|]. 
  set (r := varma_residuals _ _ _ _ _ _ _ _) in *. replace r with ((r - u t i) + u t i)%Qc by ring. rewrite Z. ring.
Qed.
Theorem C187_no_moving_average : forall n AR X u noise N, varma_series n AR [] X u N ->
  forall t i, t < N -> length AR <= t -> i < n -> varma_residuals n AR [] X noise N (t - length AR) i = u t i.
Proof.
  intros n AR X u noise N V t i Ht Hd Hi.
  pose proof (C187_error_recursion n AR [] X u noise N t i V ltac:(cbn; lia) Ht Hi) as E. unfold residual_error in E at 1. cbv zeta in E. cbn [length] in E. rewrite Nat.max_0_r in E.
  destruct (Nat.ltb_spec t (length AR)); [lia|]. set (r := varma_residuals _ _ _ _ _ _ _ _) in *.
  replace r with ((r - u t i) + u t i)%Qc by ring. rewrite E. cbn. ring.
Qed.
(** With a moving average part they are not: for one variable with one moving average coefficient theta, the error at
    time t is (- theta)^t times the error of the random start value; it is never zero, and for |theta| > 1 it grows. *)
Theorem C187_moving_average_refuted : forall AR theta X u noise N, length AR <= 1 -> varma_series 1 AR [fun _ _ => theta] X u N ->
  (forall t, 1 <= t < N ->
     varma_residuals 1 AR [fun _ _ => theta] X noise N (t - 1) 0 = (u t 0%nat + (- theta) ^ t * (noise 0%nat 0%nat - u 0%nat 0%nat))%Qc) /\
  (theta <> 0%Qc -> noise 0 0 <> u 0 0 -> forall t, 1 <= t < N -> varma_residuals 1 AR [fun _ _ => theta] X noise N (t - 1) 0 <> u t 0).
Proof.
  intros AR theta X u noise N HA V. set (MA := [(fun _ _ => theta) : mat Qc]) in *.
  assert (D : Nat.max (length AR) (length MA) = 1) by (cbn [MA length]; lia).
  assert (E : forall t, t < N -> residual_error 1 AR MA X u noise N t 0 = ((- theta) ^ t * (noise 0%nat 0%nat - u 0%nat 0%nat))%Qc).
  { induction t as [|t IH]; intro Ht.
    - unfold residual_error. rewrite D. cbn. ring.
    - rewrite C187_error_recursion by (try assumption; lia). replace (length MA) with 1 by reflexivity. unfold sumn. cbn [seq]. unfold sumf. cbn [map]. unfold qsum. cbn [fold_right].
      replace (nth 0 MA zmat 0 0) with theta by reflexivity. replace (S t - (0 + 1)) with t by lia. rewrite IH by lia. change ((- theta) ^ S t)%Qc with (- theta * (- theta) ^ t)%Qc. ring. }
  assert (R : forall t, 1 <= t < N -> varma_residuals 1 AR MA X noise N (t - 1) 0 = (u t 0%nat + (- theta) ^ t * (noise 0%nat 0%nat - u 0%nat 0%nat))%Qc).
  { intros t Ht. rewrite <- E by lia. unfold residual_error. rewrite D. destruct (Nat.ltb_spec t 1); [lia|]. cbv zeta. ring. }
  split; [exact R|]. intros Hth Hn t Ht. rewrite R by exact Ht. intro Z.
  assert (P : ((- theta) ^ t * (noise 0%nat 0%nat - u 0%nat 0%nat))%Qc = 0%Qc).
  { replace ((- theta) ^ t * (noise 0%nat 0%nat - u 0%nat 0%nat))%Qc with (u t 0%nat + (- theta) ^ t * (noise 0%nat 0%nat - u 0%nat 0%nat) - u t 0%nat)%Qc by ring. rewrite Z. ring. }
  apply Qcmult_integral in P. destruct P as [P|P].
  - clear - P Hth. induction t as [|t IH]; cbn [Qcpower] in P; [discriminate|]. apply Qcmult_integral in P. destruct P as [P|P]; [|apply IH; exact P].
    apply Hth. replace theta with (- (- theta))%Qc by ring. rewrite P. reflexivity.
  - apply Hn. replace (noise 0 0) with (noise 0%nat 0%nat - u 0%nat 0%nat + u 0%nat 0%nat)%Qc by ring. rewrite P. ring.
Qed.
(** The start values are drawn from numpy's global generator, so random_state does not fix them: two runs on the same data
    with different draws disagree at every time. *)
Theorem C187_not_reproducible_refuted : forall AR theta X u noise noise' N, length AR <= 1 -> varma_series 1 AR [fun _ _ => theta] X u N -> theta <> 0%Qc ->
  noise 0 0 <> noise' 0 0 -> forall t, 1 <= t < N ->
  varma_residuals 1 AR [fun _ _ => theta] X noise N (t - 1) 0 <> varma_residuals 1 AR [fun _ _ => theta] X noise' N (t - 1) 0.
Proof.
  intros AR theta X u noise noise' N HA V Hth Hn t Ht.
  rewrite (proj1 (C187_moving_average_refuted AR theta X u noise N HA V) t Ht), (proj1 (C187_moving_average_refuted AR theta X u noise' N HA V) t Ht).
  intro Z. assert (P : ((- theta) ^ t * (noise 0%nat 0%nat - noise' 0%nat 0%nat))%Qc = 0%Qc).
  { replace ((- theta) ^ t * (noise 0%nat 0%nat - noise' 0%nat 0%nat))%Qc
      with ((u t 0%nat + (- theta) ^ t * (noise 0%nat 0%nat - u 0%nat 0%nat)) - (u t 0%nat + (- theta) ^ t * (noise' 0%nat 0%nat - u 0%nat 0%nat)))%Qc by ring. rewrite Z. ring. }
  apply Qcmult_integral in P. destruct P as [P|P].
  - clear - P Hth. induction t as [|t IH]; cbn [Qcpower] in P; [discriminate|]. apply Qcmult_integral in P. destruct P as [P|P]; [|apply IH; exact P].
    apply Hth. replace theta with (- (- theta))%Qc by ring. rewrite P. reflexivity.
  - apply Hn. replace (noise 0 0) with (noise 0%nat 0%nat - noise' 0%nat 0%nat + noise' 0%nat 0%nat)%Qc by ring. rewrite P. ring.
Qed.

(** ** Examples: AR coefficient 1/2, moving average coefficient 2, innovations 1, -1, 2, 0, 1 *)
Definition ex_u : series := fun t _ => nth t [qz 1; qz (-1); qz 2; qz 0; qz 1] 0%Qc.
Fixpoint ex_x (t : nat) : Qc := match t with O => qz 1 | S t' => (qf 1 2 * ex_x t' + qz 2 * ex_u t' 0%nat + ex_u (S t') 0%nat)%Qc end.
Example C187_example_series : varma_series 1 [fun _ _ => qf 1 2] [fun _ _ => qz 2] (fun t _ => ex_x t) ex_u 5.
Proof.
  intros t i Ht HN Hi. cbn in Ht. destruct t as [|t]; [lia|]. replace i with 0 by lia. unfold sumn, sumf, qsum. cbn [length seq map fold_right nth].
  replace (S t - (0 + 1)) with t by lia. cbn [ex_x]. change (ex_u t 0%nat) with (ex_u t 0). ring.
Qed.
(** with the start value 0 instead of 1 the residuals are off by +2, -4, +8, -16 *)
Example C187_example_errors :
  map (fun r => this (varma_residuals 1 [fun _ _ => qf 1 2] [fun _ _ => qz 2] (fun t _ => ex_x t) (fun _ _ => 0%Qc) 5 r 0 - ex_u (S r) 0%nat)) [0; 1; 2; 3]
  = [2; -4; 8; -16]%Q.
Proof. vm_compute. reflexivity. Qed.
Example C187_example_exact :
  map (fun r => this (varma_residuals 1 [fun _ _ => qf 1 2] [fun _ _ => qz 2] (fun t _ => ex_x t) ex_u 5 r 0)) [0; 1; 2; 3] = [-1; 2; 0; 1]%Q.
Proof. vm_compute. reflexivity. Qed.
(** no moving average part *)
Example C187_example_autoregression : varma_series 1 [fun _ _ => qf 1 2] [] (fun t _ => nth t [qz 2; qz 0; qz 2; qz 1] 0%Qc) (fun t _ => nth t [0; qz (-1); qz 2; 0] 0)%Qc 4.
Proof.
  intros t i Ht HN Hi. cbn in Ht. replace i with 0 by lia. destruct t as [|[|[|[|t]]]]; try lia; apply Qc_is_canon; vm_compute; reflexivity.
Qed.

Print Assumptions C187_error_recursion.
Print Assumptions C187_exact_start.
Print Assumptions C187_no_moving_average.
Print Assumptions C187_moving_average_refuted.
Print Assumptions C187_not_reproducible_refuted.
