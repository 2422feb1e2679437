(** * The HSIC test (lingam/hsic.py): C58, C91-C93 *)
From Coq Require Import List Arith Bool ZArith QArith Qcanon Lia Permutation.
From Verif Require Import Prelude Spec SpecBootstrap SpecHsic Lib LibMat ModelBootstrap ModelHsic ProofHsic ProofHsic2.
Import ListNotations.
Open Scope nat_scope.

(** A kernel and samples for the examples: [ex_exp] is an arbitrary function in place of exp. *)
Definition ex_exp (q : Qc) : Qc := (1 / (1 - q))%Qc.
Definition ex_sf (x a s : Qc) : num := Some (x / (x + a * s))%Qc.
Definition col (l : list Z) : mat Qc := fun r _ => qz (nth r l 0%Z).
Definition ex_x := col [1; 2; 4; 7; 3; 0]%Z.
Definition ex_y := col [5; 1; 1; 2; 0; 2]%Z.
Definition is_num (r : result (num * num)) : bool := match r with Ok (Some _, Some _) => true | _ => false end.

(** ** C58 *)
(** Every row and every column of the centred Gram matrix sums to zero. *)
Theorem C58_centred : forall rexp n m X w2, 1 <= n ->
  let Kc := centre n (rbf rexp m X w2) in
  (forall i, sumn n (fun j => Kc i j) = 0%Qc) /\ (forall j, sumn n (fun i => Kc i j) = 0%Qc).
Proof. intros rexp n m X w2 Hn Kc. split; intro; [apply centre_rows|apply centre_cols]; exact Hn. Qed.
Print Assumptions C58_centred.
(** The statistic is the textbook (1/n) tr(K H L H) with H = I - 1/n. *)
Theorem C58_statistic_is_hsic : forall n K L, 1 <= n ->
  let H : mat Qc := fun i j => (midn i j - 1 / qn n)%Qc in
  hsic_stat n (centre n K) (centre n L) = (1 / qn n * trace n (mmul n K (mmul n (mmul n H L) H)))%Qc.
Proof. intros n K L Hn H. exact (stat_trace n K L Hn). Qed.
Print Assumptions C58_statistic_is_hsic.
(** The whole test, statistic and p-value, does not depend on the order of its arguments. *)
Theorem C58_symmetric : forall rexp sf bw n m1 m2 X Y,
  hsic_gamma rexp sf bw n m1 m2 X Y = hsic_gamma rexp sf bw n m2 m1 Y X.
Proof. exact hsic_gamma_sym. Qed.
Print Assumptions C58_symmetric.
Example C58_example : is_num (hsic_gamma ex_exp ex_sf None 6 1 1 ex_x ex_y) = true /\
  centre 6 (rbf ex_exp 1 ex_x 1%Qc) 0 1 <> 0%Qc.
Proof. split; [vm_compute; reflexivity|]. intro E. apply (f_equal this) in E. vm_compute in E. discriminate. Qed.

(** ** C91: the order of the samples *)
(** With at most 100 samples the result does not depend on the order of the rows. *)
Theorem C91_row_order_partial : forall rexp sf n m1 m2 X Y p, n <= 100 -> Permutation (map p (seq 0 n)) (seq 0 n) ->
  hsic_gamma rexp sf None n m1 m2 (fun r c => X (p r) c) (fun r c => Y (p r) c) = hsic_gamma rexp sf None n m1 m2 X Y.
Proof.
  intros rexp sf n m1 m2 X Y p Hn P.
  assert (W : forall m Z, width2 None n m (fun r c => Z (p r) c) = width2 None n m Z).
  { intros m Z. unfold width2, kernel_width2. replace (100 <? n) with false by (symmetry; apply Nat.ltb_ge; exact Hn).
    rewrite (median_perm _ _ (positive_dists_perm n m Z p P)). reflexivity. }
  apply (hsic_gamma_related _ _ _ _ _ _ _ _ _ _ p P); rewrite W; try (intro H; exact H);
    (intros w Hw; exists w; split; [exact Hw|intros i j _ _; reflexivity]).
Qed.
Print Assumptions C91_row_order_partial.
Example C91_example : Permutation (map (fun i => match i with 0 => 3 | 3 => 0 | _ => i end) (seq 0 6)) (seq 0 6) /\
  is_num (hsic_gamma ex_exp ex_sf None 6 1 1 ex_x ex_y) = true.
Proof.
  split; [|vm_compute; reflexivity]. cbn.
  eapply perm_trans; [apply (Permutation_cons_app [1; 2; 0] [4; 5] 3 (l := [1; 2; 0; 4; 5])); apply Permutation_refl|].
  apply Permutation_sym. eapply perm_trans; [apply (Permutation_cons_app [1; 2] [3; 4; 5] 0 (l := [1; 2; 3; 4; 5])); apply Permutation_refl|].
  apply Permutation_refl.
Qed.
(** With more samples it does: the bandwidth is taken from the first 100 rows only.  Exchanging the
    first and the last of 101 rows turns a NaN into a number. *)
Definition spike : mat Qc := fun r _ => if r =? 100 then 1%Qc else 0%Qc.
Definition swap_ends (i : nat) : nat := if i =? 0 then 100 else if i =? 100 then 0 else i.
Theorem C91_row_order_refuted : forall rexp sf, exists n X p s q, Permutation (map p (seq 0 n)) (seq 0 n) /\
  hsic_gamma rexp sf None n 1 1 X X = Ok (None, None) /\
  hsic_gamma rexp sf None n 1 1 (fun r c => X (p r) c) (fun r c => X (p r) c) = Ok (Some s, q).
Proof.
  intros rexp sf. exists 101, spike, swap_ends.
  assert (W0 : kernel_width2 101 1 spike = None).
  { apply width_none. intros i j k Hi Hj _. unfold spike. change (Nat.min 101 100) with 100 in *.
    replace (i =? 100) with false by (symmetry; apply Nat.eqb_neq; lia). replace (j =? 100) with false by (symmetry; apply Nat.eqb_neq; lia). reflexivity. }
  destruct (kernel_width2 101 1 (fun r c => spike (swap_ends r) c)) as [w|] eqn:W1.
  - eexists. eexists. split; [|split].
    + change (seq 0 101) with ([0] ++ seq 1 99 ++ [100]). rewrite !map_app. cbn [map app].
      rewrite (map_ext_in swap_ends (fun i => i) (seq 1 99)).
      * rewrite map_id. change (swap_ends 0) with 100. change (swap_ends 100) with 0.
        eapply perm_trans; [apply (Permutation_cons_append (seq 1 99 ++ [0]))|]. rewrite <- app_assoc. cbn [app].
        apply Permutation_sym. apply (Permutation_cons_app (seq 1 99) [100] 0). apply Permutation_refl.
      * intros i Hi. apply in_seq in Hi. unfold swap_ends. destruct (Nat.eqb_spec i 0); [lia|]. destruct (Nat.eqb_spec i 100); [lia|reflexivity].
    + unfold hsic_gamma. cbn [width2]. rewrite W0. reflexivity.
    + unfold hsic_gamma. cbn [width2]. rewrite W1. replace (101 <=? 3) with false by reflexivity. reflexivity.
  - exfalso. apply (proj1 (width_none 101 1 _)) with (i := 0) (j := 1) (k := 0) in W1; [|change (Nat.min 101 100) with 100; lia|change (Nat.min 101 100) with 100; lia|lia].
    discriminate.
Qed.
Print Assumptions C91_row_order_refuted.

(** ** C92: units of measurement *)
(** Shifting every column and rescaling all of X by a non-zero factor changes neither the statistic
    nor the p-value (median bandwidth); by C58 the same holds for Y. *)
Theorem C92_affine_invariance : forall rexp sf n m1 m2 X Y a s, s <> 0%Qc ->
  hsic_gamma rexp sf None n m1 m2 (fun r c => a c + s * X r c)%Qc Y = hsic_gamma rexp sf None n m1 m2 X Y.
Proof.
  intros rexp sf n m1 m2 X Y a s Hs. fold (affine a s X).
  apply (hsic_gamma_related _ _ _ _ _ _ _ _ _ _ (fun i => i) (map_id_seq n)).
  - cbn [width2]. rewrite (width_affine n m1 a s X Hs). intros w Hw. rewrite Hw. cbn [option_map]. eexists. split; [reflexivity|].
    intros i j _ _. unfold rbf. rewrite sq_dist_affine. f_equal. pose proof (width_pos _ _ _ _ Hw) as P. field.
    repeat split; first [exact Hs|intro E; rewrite E in P; discriminate|intro E; apply (f_equal this) in E; discriminate].
  - intros w Hw. exists w. split; [exact Hw|intros i j _ _; reflexivity].
  - cbn [width2]. rewrite (width_affine n m1 a s X Hs). intro Hw. rewrite Hw. reflexivity.
  - intro H. exact H.
Qed.
Print Assumptions C92_affine_invariance.
Example C92_example : (qz (-2) <> 0)%Qc /\ is_num (hsic_gamma ex_exp ex_sf None 6 1 1 (fun r c => qz 5 + qz (-2) * ex_x r c)%Qc ex_y) = true.
Proof. split; [intro E; apply (f_equal this) in E; discriminate|vm_compute; reflexivity]. Qed.

(** ** C93: when there is a p-value *)
(** Up to three samples the test raises ZeroDivisionError; with four or five samples the p-value is
    NaN whatever the data. *)
Theorem C93_p_value_refuted : forall rexp sf bw n m1 m2 X Y,
  (n <= 3 -> hsic_gamma rexp sf bw n m1 m2 X Y = Err ZeroDivisionError) /\
  (n = 4 \/ n = 5 -> exists s, hsic_gamma rexp sf bw n m1 m2 X Y = Ok (s, None)).
Proof.
  intros rexp sf bw n m1 m2 X Y. split.
  - intro H. unfold hsic_gamma. replace (n <=? 3) with true by (symmetry; apply Nat.leb_le; exact H). reflexivity.
  - intro H. unfold hsic_gamma. replace (n <=? 3) with false by (symmetry; apply Nat.leb_gt; lia).
    destruct (width2 bw n m1 X) as [wx|]; destruct (width2 bw n m2 Y) as [wy|]; try (eexists; reflexivity). cbv zeta.
    match goal with |- context [qeqb ?v 0 || _] => replace v with 0%Qc end.
    + rewrite (qeqb_refl 0). cbn [orb]. eexists. reflexivity.
    + unfold h0_var. cbv zeta. destruct H as [-> | ->]; unfold qn; cbn [Z.of_nat Pos.of_succ_nat Pos.succ]; unfold Qcdiv; ring.
Qed.
Print Assumptions C93_p_value_refuted.
(** From four samples on (median bandwidth) the statistic is a number exactly when two of the first
    100 rows of X differ and two of the first 100 rows of Y differ. *)
Theorem C93_statistic_partial : forall rexp sf n m1 m2 X Y, 4 <= n ->
  exists s q, hsic_gamma rexp sf None n m1 m2 X Y = Ok (s, q) /\
  (s = None <-> (forall i j k, i < Nat.min n 100 -> j < Nat.min n 100 -> k < m1 -> X i k = X j k) \/
                (forall i j k, i < Nat.min n 100 -> j < Nat.min n 100 -> k < m2 -> Y i k = Y j k)).
Proof.
  intros rexp sf n m1 m2 X Y Hn. unfold hsic_gamma. replace (n <=? 3) with false by (symmetry; apply Nat.leb_gt; lia). cbn [width2].
  pose proof (width_none n m1 X) as A. pose proof (width_none n m2 Y) as B.
  destruct (kernel_width2 n m1 X) as [wx|]; destruct (kernel_width2 n m2 Y) as [wy|]; eexists; eexists; (split; [reflexivity|]);
    rewrite <- A, <- B; (split; intro H; try discriminate; try tauto; try reflexivity).
  destruct H; discriminate.
Qed.
Print Assumptions C93_statistic_partial.
Example C93_example : is_num (hsic_gamma ex_exp ex_sf None 6 1 1 ex_x ex_y) = true /\ hsic_gamma ex_exp ex_sf None 6 1 1 (col []) ex_y = Ok (None, None).
Proof. split; vm_compute; reflexivity. Qed.

(** ** C111: the p-value is the gamma approximation *)
(** Gaussian kernels with the squared widths [wx], [wy]; shape mean^2/var and scale n var/mean. *)
Theorem C111_gamma_approximation : forall rexp sf bw n m1 m2 X Y wx wy, 4 <= n ->
  width2 bw n m1 X = Some wx -> wx <> 0%Qc -> width2 bw n m2 Y = Some wy -> wy <> 0%Qc ->
  let K i j := rexp (- (dist2 m1 X i j / (qz 2 * wx)))%Qc in
  let L i j := rexp (- (dist2 m2 Y i j / (qz 2 * wy)))%Qc in
  hsic_gamma rexp sf bw n m1 m2 X Y = Ok (Some (hsic_value n K L),
    if Qc_eq_dec (null_var n K L) 0 then None else if Qc_eq_dec (null_mean n K L) 0 then None
    else sf (hsic_value n K L) (null_mean n K L * null_mean n K L / null_var n K L)%Qc
            (null_var n K L * qn n / null_mean n K L)%Qc).
Proof. exact gamma_formula. Qed.
Print Assumptions C111_gamma_approximation.
(** The widths: w^2 of the given rule if w is not zero, half the median squared distance by default. *)
Theorem C111_bandwidth : forall n m X,
  (forall f w2, width2 (Some f) n m X = Some w2 <-> f n m X <> 0%Qc /\ w2 = (f n m X * f n m X)%Qc) /\
  (forall w2, width2 None n m X = Some w2 -> (0 < w2)%Qc /\ median_distance (Nat.min n 100) m X (qz 2 * w2)).
Proof.
  intros n m X. split.
  - intros f w2. cbn [width2]. cbv zeta. destruct (qeqb (f n m X) 0) eqn:E.
    + apply qeqb_eq in E. split; [discriminate|]. intros [D _]. contradiction.
    + apply qeqb_neq in E. split; [intro H; inversion H; auto|]. intros [_ ->]. reflexivity.
  - intros w2 H. cbn [width2] in H. split; [exact (width_pos _ _ _ _ H)|exact (width_median _ _ _ _ H)].
Qed.
Print Assumptions C111_bandwidth.
Example C111_example : exists wx wy, width2 None 6 1 ex_x = Some wx /\ wx <> 0%Qc /\ width2 None 6 1 ex_y = Some wy /\ wy <> 0%Qc /\
  is_num (hsic_gamma ex_exp ex_sf None 6 1 1 ex_x ex_y) = true.
Proof.
  destruct (width2 None 6 1 ex_x) as [wx|] eqn:A; [|vm_compute in A; discriminate].
  destruct (width2 None 6 1 ex_y) as [wy|] eqn:B; [|vm_compute in B; discriminate].
  exists wx, wy. split; [reflexivity|]. split; [intros ->; apply width_pos in A; discriminate|]. split; [reflexivity|].
  split; [intros ->; apply width_pos in B; discriminate|vm_compute; reflexivity].
Qed.
