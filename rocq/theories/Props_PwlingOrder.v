(** * Properties of the default measure of DirectLiNGAM on exactly independent noise (C178) *)
From Coq Require Import Reals Lra Lia Arith Bool List ZArith.
From Verif Require Import Prelude LibR SpecMeasure SpecKernelMI SpecDirectR ModelDirectR ProofDirectR ProofKernelMI ProofInterval ProofCosh Props_DirectR2.
From Verif Require ModelDirect.
Import ListNotations.
Open Scope R_scope.

(** ** Bounds of ln cosh *)
Definition lc (u : R) : R := ln (cosh u).
Lemma cosh_pos : forall u, 0 < cosh u.
Proof. intro u. unfold cosh. pose proof (exp_pos u). pose proof (exp_pos (- u)). lra. Qed.
Lemma lc_opp : forall u, lc (- u) = lc u.
Proof. intro u. unfold lc, cosh. rewrite Ropp_involutive. f_equal. lra. Qed.
Lemma lc_scaled : forall u L, exp (- L) * (1 + exp (- (2 * u))) = 2 * exp (- u) * (exp (- L) * cosh u).
Proof.
  intros u L. unfold cosh. replace (exp (- (2 * u))) with (exp (- u) * exp (- u)) by (rewrite <- exp_plus; f_equal; ring).
  assert (E : exp (- u) * exp u = 1) by (rewrite <- exp_plus; replace (- u + u) with 0 by ring; apply exp_0).
  replace (2 * exp (- u) * (exp (- L) * ((exp u + exp (- u)) / 2))) with (exp (- L) * (exp (- u) * exp u + exp (- u) * exp (- u))) by field. rewrite E. ring.
Qed.
Lemma lc_le : forall u L, exp (- L) * (1 + exp (- (2 * u))) <= 2 * exp (- u) -> lc u <= L.
Proof.
  intros u L H. rewrite lc_scaled in H. pose proof (exp_pos (- u)) as P. pose proof (cosh_pos u) as C. pose proof (exp_pos (- L)) as Q.
  assert (H1 : exp (- L) * cosh u <= 1). { apply Rmult_le_reg_l with (2 * exp (- u)); lra. }
  assert (EL : exp (- L) * exp L = 1) by (rewrite <- exp_plus; replace (- L + L) with 0 by ring; apply exp_0).
  assert (H2 : cosh u <= exp L). { apply Rmult_le_reg_l with (exp (- L)); lra. }
  unfold lc. destruct H2 as [H2|H2]; [left; rewrite <- (ln_exp L); apply ln_increasing; assumption|right; rewrite H2; apply ln_exp].
Qed.
Lemma lc_ge : forall u L, 2 * exp (- u) <= exp (- L) * (1 + exp (- (2 * u))) -> L <= lc u.
Proof.
  intros u L H. rewrite lc_scaled in H. pose proof (exp_pos (- u)) as P. pose proof (cosh_pos u) as C. pose proof (exp_pos (- L)) as Q.
  assert (H1 : 1 <= exp (- L) * cosh u). { apply Rmult_le_reg_l with (2 * exp (- u)); lra. }
  assert (EL : exp (- L) * exp L = 1) by (rewrite <- exp_plus; replace (- L + L) with 0 by ring; apply exp_0).
  assert (H2 : exp L <= cosh u). { apply Rmult_le_reg_l with (exp (- L)); lra. }
  unfold lc. destruct H2 as [H2|H2]; [left; rewrite <- (ln_exp L); apply ln_increasing; [apply exp_pos|assumption]|right; rewrite <- H2; symmetry; apply ln_exp].
Qed.
Lemma cosh_mono : forall u v, 0 <= u -> u <= v -> cosh u <= cosh v.
Proof.
  intros u v Hu H. unfold cosh. pose proof (exp_pos u) as P. pose proof (exp_pos v) as Q.
  assert (U : exp u * exp (- u) = 1) by (rewrite <- exp_plus; replace (u + - u) with 0 by ring; apply exp_0). assert (V : exp v * exp (- v) = 1) by (rewrite <- exp_plus; replace (v + - v) with 0 by ring; apply exp_0).
  assert (L : exp u <= exp v) by (destruct H as [H|H]; [left; apply exp_increasing; exact H|right; rewrite H; reflexivity]).
  assert (U1 : 1 <= exp u) by (rewrite <- exp_0; destruct Hu as [Hu|Hu]; [left; apply exp_increasing; exact Hu|right; rewrite <- Hu; reflexivity]).
  assert (E : exp v + exp (- v) - (exp u + exp (- u)) = (exp v - exp u) * (1 - exp (- u) * exp (- v))).
  { replace ((exp v - exp u) * (1 - exp (- u) * exp (- v))) with (exp v - exp u - exp (- u) * (exp v * exp (- v)) + (exp u * exp (- u)) * exp (- v)) by ring. rewrite U, V. ring. }
  assert (W : exp (- u) * exp (- v) <= 1).
  { assert (exp (- u) <= 1) by (apply Rmult_le_reg_l with (exp u); lra). assert (exp (- v) <= 1) by (apply Rmult_le_reg_l with (exp v); lra).
    rewrite <- (Rmult_1_l 1). apply Rmult_le_compat; try assumption; apply Rlt_le, exp_pos. }
  assert (0 <= (exp v - exp u) * (1 - exp (- u) * exp (- v))) by (apply Rmult_le_pos; lra). lra.
Qed.
Lemma lc_mono : forall u v, 0 <= u -> u <= v -> lc u <= lc v.
Proof. intros u v Hu H. unfold lc. destruct (cosh_mono u v Hu H) as [L|E]; [left; apply ln_increasing; [apply cosh_pos|exact L]|right; rewrite E; reflexivity]. Qed.
(** ln cosh (un / den) between lo / den and hi / den *)
Definition lc_check (den ulo uhi lo hi : Z) : bool :=
  let e := fun z => iexp z den in
  let one := (SC, SC) in
  ((0 <=? ulo) && (0 <=? lo) && (0 <=? uhi) && (0 <=? hi) && (0 <? den))%Z &&
  (snd (imul (e hi) (iadd one (e (2 * uhi)%Z))) <=? 2 * fst (e uhi))%Z &&
  (2 * snd (e ulo) <=? fst (imul (e lo) (iadd one (e (2 * ulo)%Z))))%Z.
Lemma one_in : inI (SC, SC) 1.
Proof. unfold inI. cbn [fst snd]. lra. Qed.
Lemma lc_check_in : forall den ulo uhi lo hi u, lc_check den ulo uhi lo hi = true -> IZR ulo / IZR den <= u <= IZR uhi / IZR den -> IZR lo / IZR den <= lc u <= IZR hi / IZR den.
Proof.
  intros den ulo uhi lo hi u H [U1 U2]. unfold lc_check in H. cbv zeta in H. rewrite !andb_true_iff, !Z.leb_le, Z.ltb_lt in H. destruct H as [[[[[[P1 P2] P3] P4] P5] H1] H2].
  pose proof SC_posR as PS. assert (PD : 0 < IZR den) by (apply (IZR_lt 0); exact P5). assert (ID : 0 <= / IZR den) by (apply Rlt_le, Rinv_0_lt_compat; exact PD).
  assert (Q : 0 <= IZR ulo / IZR den). { apply Rmult_le_pos; [apply (IZR_le 0); exact P1|exact ID]. }
  assert (X : forall z, (0 <= z)%Z -> inI (iexp z den) (exp (- (IZR z / IZR den)))) by (intros z Hz; apply iexp_in; [exact Hz|exact P5|reflexivity]).
  assert (X2 : forall z, (0 <= z)%Z -> inI (iexp (2 * z) den) (exp (- (2 * (IZR z / IZR den))))). { intros z Hz. apply iexp_in; [lia|exact P5|]. rewrite mult_IZR. field. lra. }
  assert (Y : forall L z, (0 <= L)%Z -> (0 <= z)%Z -> inI (imul (iexp L den) (iadd (SC, SC) (iexp (2 * z) den))) (exp (- (IZR L / IZR den)) * (1 + exp (- (2 * (IZR z / IZR den)))))).
  { intros L z HL Hz. apply imul_in; [apply X; exact HL|]. apply iadd_in; [exact one_in|apply X2; exact Hz]. }
  split.
  - apply Rle_trans with (lc (IZR ulo / IZR den)); [|apply lc_mono; lra]. apply lc_ge.
    destruct (X ulo P1) as [_ A]. destruct (Y lo ulo P2 P1) as [B _]. apply IZR_le in H2. rewrite mult_IZR in H2. apply Rmult_le_reg_r with (IZR SC); [exact PS|]. lra.
  - apply Rle_trans with (lc (IZR uhi / IZR den)); [apply lc_mono; lra|]. apply lc_le.
    destruct (X uhi P3) as [A _]. destruct (Y hi uhi P4 P3) as [_ B]. apply IZR_le in H1. rewrite mult_IZR in H1. apply Rmult_le_reg_r with (IZR SC); [exact PS|]. lra.
Qed.

(** ** The sample: all pairs of values of {-3, -1, 0, 0, 1, 3}; the first is the cause, the second the noise *)
Definition xz (s : nat) : Z := nth s [-3; -3; -3; -3; -3; -3; -1; -1; -1; -1; -1; -1; 0; 0; 0; 0; 0; 0; 0; 0; 0; 0; 0; 0; 1; 1; 1; 1; 1; 1; 3; 3; 3; 3; 3; 3]%Z 0%Z.
Definition ez (s : nat) : Z := nth s [-3; -1; 0; 0; 1; 3; -3; -1; 0; 0; 1; 3; -3; -1; 0; 0; 1; 3; -3; -1; 0; 0; 1; 3; -3; -1; 0; 0; 1; 3; -3; -1; 0; 0; 1; 3]%Z 0%Z.
Definition yz (s : nat) : Z := nth s [-6; -4; -3; -3; -2; 0; -4; -2; -1; -1; 0; 2; -3; -1; 0; 0; 1; 3; -3; -1; 0; 0; 1; 3; -2; 0; 1; 1; 2; 4; 0; 2; 3; 3; 4; 6]%Z 0%Z.
Definition dz (s : nat) : Z := nth s [0; -2; -3; -3; -4; -6; 2; 0; -1; -1; -2; -4; 3; 1; 0; 0; -1; -3; 3; 1; 0; 0; -1; -3; 4; 2; 1; 1; 0; -2; 6; 4; 3; 3; 2; 0]%Z 0%Z.
Lemma yz_dz : forall s, (s < 36)%nat -> (xz s + ez s)%Z = yz s /\ (xz s - ez s)%Z = dz s.
Proof. intros s H. do 36 (destruct s as [|s]; [split; reflexivity|]). lia. Qed.
Definition kx (j s : nat) : R := match j with O => IZR (xz s) | _ => IZR (xz s) + IZR (ez s) end.
Definition sx : R := sqrt (10 / 3).
Definition sy : R := sqrt (20 / 3).
Lemma sx_sq : sx * sx = 10 / 3. Proof. apply sqrt_sqrt. lra. Qed.
Lemma sy_sq : sy * sy = 20 / 3. Proof. apply sqrt_sqrt. lra. Qed.
Lemma sx_pos : 0 < sx. Proof. apply sqrt_lt_R0. lra. Qed.
Lemma sy_pos : 0 < sy. Proof. apply sqrt_lt_R0. lra. Qed.
Lemma half_sy : sqrt (1 / 2) * sy = sx.
Proof. unfold sx, sy. rewrite <- sqrt_mult by lra. f_equal. lra. Qed.
Lemma half_sx : 2 * sqrt (1 / 2) * sx = sy.
Proof.
  rewrite <- half_sy. replace (2 * sqrt (1 / 2) * (sqrt (1 / 2) * sy)) with (2 * (sqrt (1 / 2) * sqrt (1 / 2)) * sy) by ring. rewrite sqrt_sqrt by lra. field.
Qed.
Ltac sums := unfold average, xz, ez, yz, dz; cbn [rsum nth]; replace (INR 36) with 36 by (cbn [INR]; lra).
Lemma mean_x : average 36 (fun s => IZR (xz s)) = 0. Proof. sums. field. Qed.
Lemma mean_e : average 36 (fun s => IZR (ez s)) = 0. Proof. sums. field. Qed.
Lemma sq_x : average 36 (fun s => IZR (xz s) ^ 2) = 10 / 3. Proof. sums. field. Qed.
Lemma sq_e : average 36 (fun s => IZR (ez s) ^ 2) = 10 / 3. Proof. sums. field. Qed.
Lemma prod_xe : average 36 (fun s => IZR (xz s) * IZR (ez s)) = 0. Proof. sums. field. Qed.
(** Averages of linear and quadratic expressions of cause and noise. *)
Lemma lin_mean : forall a b, average 36 (fun s => a * IZR (xz s) + b * IZR (ez s)) = 0.
Proof. intros a b. rewrite average_plus, !average_scal, mean_x, mean_e. ring. Qed.
Lemma lin_prod : forall a b c d, average 36 (fun s => (a * IZR (xz s) + b * IZR (ez s)) * (c * IZR (xz s) + d * IZR (ez s))) = (a * c + b * d) * (10 / 3).
Proof.
  intros a b c d. rewrite (average_ext 36 _ (fun s => (a * c) * IZR (xz s) ^ 2 + ((b * d) * IZR (ez s) ^ 2 + (a * d + b * c) * (IZR (xz s) * IZR (ez s))))) by (intros; ring).
  rewrite !average_plus, !average_scal, sq_x, sq_e, prod_xe. ring.
Qed.
Lemma lin_standard : forall a b u q s, (forall s, u s = a * IZR (xz s) + b * IZR (ez s)) -> 0 <= q -> (a * a + b * b) * (10 / 3) = q * q ->
  standardised 36 u s = (a * IZR (xz s) + b * IZR (ez s)) / q.
Proof.
  intros a b u q s E Hq Q. unfold standardised. assert (M : average 36 u = 0) by (rewrite <- (lin_mean a b); apply average_ext; intros; apply E). rewrite M.
  replace (average 36 (fun t => (u t - 0) ^ 2)) with (q * q).
  - rewrite sqrt_square by exact Hq. rewrite E. f_equal. ring.
  - rewrite <- Q, <- (lin_prod a b a b). apply average_ext. intros t _. rewrite E. ring.
Qed.
Lemma z0_eq : forall s, standardised 36 (kx 0%nat) s = IZR (xz s) / sx.
Proof. intro s. rewrite (lin_standard 1 0 (kx 0%nat) sx s); [f_equal; ring|intro; cbn; ring|apply Rlt_le, sx_pos|rewrite sx_sq; ring]. Qed.
Lemma z1_eq : forall s, standardised 36 (kx 1%nat) s = IZR (xz s + ez s) / sy.
Proof. intro s. rewrite (lin_standard 1 1 (kx 1%nat) sy s); [rewrite plus_IZR; f_equal; ring|intro; cbn; ring|apply Rlt_le, sy_pos|rewrite sy_sq; field]. Qed.
Lemma corr_eq : correlation 36 (kx 0%nat) (kx 1%nat) = (10 / 3) / (sx * sy) /\ correlation 36 (kx 1%nat) (kx 0%nat) = (10 / 3) / (sx * sy).
Proof.
  pose proof sx_pos. pose proof sy_pos. split; unfold correlation.
  - rewrite (average_ext 36 _ (fun s => (/ sx * IZR (xz s) + 0 * IZR (ez s)) * (/ sy * IZR (xz s) + / sy * IZR (ez s)))) by (intros; rewrite z0_eq, z1_eq, plus_IZR; field; lra).
    rewrite lin_prod. field. lra.
  - rewrite (average_ext 36 _ (fun s => (/ sx * IZR (xz s) + 0 * IZR (ez s)) * (/ sy * IZR (xz s) + / sy * IZR (ez s)))) by (intros; rewrite z0_eq, z1_eq, plus_IZR; field; lra).
    rewrite lin_prod. field. lra.
Qed.
Lemma u10_eq : forall s, standardised 36 (remainder 36 (kx 1%nat) (kx 0%nat)) s = IZR (ez s) / sx.
Proof.
  intro s. pose proof sx_pos. pose proof sy_pos. rewrite (lin_standard 0 (/ sy) _ (sqrt (1 / 2)) s).
  - rewrite <- half_sy. assert (sqrt (1 / 2) <> 0) by (intro Z; pose proof half_sy as Q; rewrite Z in Q; lra). field. lra.
  - intro t. unfold remainder. rewrite (proj2 corr_eq), z0_eq, z1_eq, plus_IZR.
    replace (10 / 3 / (sx * sy) * (IZR (xz t) / sx)) with (10 / 3 / (sx * sx) * (IZR (xz t) / sy)) by (field; lra). rewrite sx_sq. field. lra.
  - apply sqrt_pos.
  - rewrite sqrt_sqrt by lra. replace ((0 * 0 + / sy * / sy) * (10 / 3)) with (10 / 3 / (sy * sy)) by (field; lra). rewrite sy_sq. field.
Qed.
Lemma u01_eq : forall s, standardised 36 (remainder 36 (kx 0%nat) (kx 1%nat)) s = IZR (xz s - ez s) / sy.
Proof.
  intro s. pose proof sx_pos. pose proof sy_pos. rewrite (lin_standard (/ (2 * sx)) (- / (2 * sx)) _ (sqrt (1 / 2)) s).
  - rewrite minus_IZR, <- half_sx. assert (sqrt (1 / 2) <> 0) by (intro Z; pose proof half_sy as Q; rewrite Z in Q; lra). field. lra.
  - intro t. unfold remainder. rewrite (proj1 corr_eq), z0_eq, z1_eq, plus_IZR.
    replace (10 / 3 / (sx * sy) * ((IZR (xz t) + IZR (ez t)) / sy)) with (10 / 3 / (sy * sy) * ((IZR (xz t) + IZR (ez t)) / sx)) by (field; lra). rewrite sy_sq. field. lra.
  - apply sqrt_pos.
  - rewrite sqrt_sqrt by lra. replace ((/ (2 * sx) * / (2 * sx) + - / (2 * sx) * - / (2 * sx)) * (10 / 3)) with (10 / 3 / (2 * (sx * sx))) by (field; lra). rewrite sx_sq. field.
Qed.

(** Entropies: averages of even and odd functions *)
Definition even36 (q : R) (k : nat -> Z) : R := average 36 (fun s => lc (IZR (k s) / q)).
Definition od (q : R) (k : Z) : R := IZR k / q * exp (- (IZR k / q) ^ 2 / 2).
Lemma od_opp : forall q k, od q (- k) = - od q k.
Proof. intros q k. unfold od. rewrite opp_IZR. replace ((- IZR k / q) ^ 2) with ((IZR k / q) ^ 2) by (unfold Rdiv; ring). unfold Rdiv. ring. Qed.
Lemma lcz_opp : forall q k, lc (IZR (- k) / q) = lc (IZR k / q).
Proof. intros q k. rewrite opp_IZR. rewrite <- lc_opp. f_equal. unfold Rdiv. ring. Qed.
Lemma lc_0 : forall q, lc (0 / q) = 0.
Proof. intro q. unfold Rdiv. rewrite Rmult_0_l. unfold lc, cosh. rewrite Ropp_0, exp_0. replace ((1 + 1) / 2) with 1 by field. apply ln_1. Qed.
Lemma entropy36 : forall q u k, (forall s, u s = IZR (k s) / q) -> average 36 (fun s => od q (k s)) = 0 ->
  approx_entropy 36 u = (1 + ln (2 * PI)) / 2 - 79.047 * (even36 q k - 0.37457) ^ 2.
Proof.
  intros q u k E Z. unfold approx_entropy. replace (average 36 (fun s => u s * exp (- u s ^ 2 / 2))) with (average 36 (fun s => od q (k s))).
  - rewrite Z. unfold even36. rewrite (average_ext 36 (fun s => ln (cosh (u s))) (fun s => lc (IZR (k s) / q))) by (intros; rewrite E; reflexivity). ring.
  - apply average_ext. intros s _. rewrite E. reflexivity.
Qed.
Lemma odd_zero : forall q k, (forall s, (s < 36)%nat -> k (35 - s)%nat = (- k s)%Z) -> average 36 (fun s => od q (k s)) = 0.
Proof.
  intros q k H. assert (E : rsum 36 (fun s => od q (k s)) = - rsum 36 (fun s => od q (k s))); [|unfold average; replace (rsum 36 (fun s => od q (k s))) with 0 by lra; unfold Rdiv; ring].
  rewrite <- rsum_opp. rewrite (rsum_ext 36 (fun s => - od q (k s)) (fun s => od q (k (35 - s)%nat))) by (intros s Hs; rewrite H by exact Hs; rewrite od_opp; reflexivity).
  cbn [rsum Nat.sub]. ring.
Qed.
Lemma flip : forall s, (s < 36)%nat -> xz (35 - s) = (- xz s)%Z /\ ez (35 - s) = (- ez s)%Z.
Proof. intros s H. do 36 (destruct s as [|s]; [split; reflexivity|]). lia. Qed.

Ltac lcs q := unfold even36; sums; repeat match goal with |- context [lc (IZR (Zneg ?p) / q)] => change (lc (IZR (Zneg p) / q)) with (lc (IZR (- Zpos p) / q)); rewrite (lcz_opp q (Zpos p)) end; rewrite ?lc_0.
Lemma even_x : even36 sx xz = (lc (1 / sx) + lc (3 / sx)) / 3. Proof. lcs sx. field. Qed.
Lemma even_e : even36 sx ez = (lc (1 / sx) + lc (3 / sx)) / 3. Proof. lcs sx. field. Qed.
Lemma even_y : even36 sy (fun s => xz s + ez s)%Z = (4 * lc (1 / sy) + 3 * lc (2 / sy) + 4 * lc (3 / sy) + 2 * lc (4 / sy) + lc (6 / sy)) / 18. Proof. transitivity (even36 sy yz); [unfold even36; apply average_ext; intros s Hs; destruct (yz_dz s Hs) as [E1 E2]; rewrite E1; reflexivity|]. lcs sy. field.  Qed.
Lemma even_d : even36 sy (fun s => xz s - ez s)%Z = (4 * lc (1 / sy) + 3 * lc (2 / sy) + 4 * lc (3 / sy) + 2 * lc (4 / sy) + lc (6 / sy)) / 18. Proof. transitivity (even36 sy dz); [unfold even36; apply average_ext; intros s Hs; destruct (yz_dz s Hs) as [E1 E2]; rewrite E2; reflexivity|]. lcs sy. field.  Qed.

Lemma u_bounds : forall k q q2 lo hi, 0 < q -> q * q = q2 -> 0 <= lo -> 0 <= hi -> 0 <= k -> lo * lo * q2 <= k * k -> k * k <= hi * hi * q2 -> lo <= k / q <= hi.
Proof.
  intros k q q2 lo hi Pq Eq P1 P2 Pk H1 H2. subst q2. assert (E : k / q * q = k) by (field; lra). split.
  - apply Rmult_le_reg_r with q; [exact Pq|]. rewrite E. apply Rsqr_incr_0; [unfold Rsqr; lra|apply Rmult_le_pos; lra|exact Pk].
  - apply Rmult_le_reg_r with q; [exact Pq|]. rewrite E. apply Rsqr_incr_0; [unfold Rsqr; lra|exact Pk|apply Rmult_le_pos; lra].
Qed.
Lemma lc_bounds : forall k q q2 den ulo uhi lo hi, 0 < q -> q * q = q2 -> 0 <= k -> lc_check den ulo uhi lo hi = true ->
  (IZR ulo / IZR den) * (IZR ulo / IZR den) * q2 <= k * k -> k * k <= (IZR uhi / IZR den) * (IZR uhi / IZR den) * q2 -> IZR lo / IZR den <= lc (k / q) <= IZR hi / IZR den.
Proof.
  intros k q q2 den ulo uhi lo hi Pq Eq Pk C H1 H2. apply (lc_check_in den ulo uhi lo hi _ C). assert (C' := C). unfold lc_check in C'. cbv zeta in C'. rewrite !andb_true_iff, !Z.leb_le, Z.ltb_lt in C'. destruct C' as [[[[[[P1 P2] P3] P4] P5] _] _].
  assert (ID : 0 <= / IZR den) by (apply Rlt_le, Rinv_0_lt_compat, (IZR_lt 0); exact P5).
  apply (u_bounds k q q2); try assumption; (apply Rmult_le_pos; [apply (IZR_le 0); assumption|exact ID]).
Qed.
Ltac lcb k q qsq qpos ulo uhi lo hi :=
  let C := fresh in assert (C : lc_check 100000 ulo uhi lo hi = true) by (vm_cast_no_check (eq_refl true));
  pose proof (lc_bounds k q _ 100000 ulo uhi lo hi qpos qsq ltac:(lra) C ltac:(lra) ltac:(lra)); clear C.
(** the averages are close to the value 0.37457 of a Gaussian, that of cause and noise closer *)
Lemma averages : let a := (lc (1 / sx) + lc (3 / sx)) / 3 in
  let b := (4 * lc (1 / sy) + 3 * lc (2 / sy) + 4 * lc (3 / sy) + 2 * lc (4 / sy) + lc (6 / sy)) / 18 in 0.3764 <= a <= 0.3768 /\ 0.3778 <= b.
Proof.
  lcb 1 sx sx_sq sx_pos 54772%Z 54773%Z 14303%Z 14307%Z. lcb 3 sx sx_sq sx_pos 164316%Z 164318%Z 98669%Z 98676%Z.
  lcb 1 sy sy_sq sy_pos 38729%Z 38731%Z 7317%Z 7322%Z. lcb 2 sy sy_sq sy_pos 77459%Z 77461%Z 27404%Z 27409%Z. lcb 3 sy sy_sq sy_pos 116189%Z 116191%Z 56212%Z 56218%Z.
  lcb 4 sy sy_sq sy_pos 154919%Z 154920%Z 90015%Z 90021%Z. lcb 6 sy sy_sq sy_pos 232378%Z 232380%Z 164014%Z 164022%Z.
  cbv zeta. lra.
Qed.
Lemma ex_unrelated : ~ linearly_related 36 (kx 0%nat) (kx 1%nat).
Proof.
  intros (a & b & c & D & H). pose proof (H 0%nat ltac:(lia)) as H0. pose proof (H 1%nat ltac:(lia)) as H1. pose proof (H 7%nat ltac:(lia)) as H2. cbn in H0, H1, H2. lra.
Qed.
Lemma ex_independent : independent_sample 36 (kx 0%nat) (fun s => kx 1%nat s - kx 0%nat s).
Proof.
  intros f g. rewrite (average_ext 36 (fun s => f (kx 0%nat s) * g (kx 1%nat s - kx 0%nat s)) (fun s => f (IZR (xz s)) * g (IZR (ez s)))) by (intros s _; cbn [kx]; do 2 f_equal; ring).
  rewrite (average_ext 36 (fun s => g (kx 1%nat s - kx 0%nat s)) (fun s => g (IZR (ez s)))) by (intros s _; cbn [kx]; f_equal; ring). cbn [kx]. sums. field.
Qed.

(** C178.  The second variable is the first plus noise that is exactly independent of it; cause and noise have the same
    distribution, with five values.  The default measure gives the order with the second variable first. *)
Theorem C178_order_with_independent_noise_refuted : exists X : nat -> nat -> R,
  independent_sample 36 (X 0%nat) (fun s => X 1%nat s - X 0%nat s) /\ ~ linearly_related 36 (X 0%nat) (X 1%nat) /\
  forall logsv pk_shape_ok, fit_order logsv ModelDirect.Pwling 36 2 pk_shape_ok ModelDirect.NoPK X = Ok [1%nat; 0%nat].
Proof.
  exists kx. split; [exact ex_independent|]. split; [exact ex_unrelated|]. intros logsv ok. rewrite (C164_pwling_formula logsv 36 ok kx ltac:(lia) ex_unrelated).
  assert (OX : forall q, average 36 (fun s => od q (xz s)) = 0) by (intro q; apply odd_zero; intros s Hs; apply (flip s Hs)).
  assert (OE : forall q, average 36 (fun s => od q (ez s)) = 0) by (intro q; apply odd_zero; intros s Hs; apply (flip s Hs)).
  assert (OY : forall q, average 36 (fun s => od q (xz s + ez s)) = 0) by (intro q; apply (odd_zero q (fun s => xz s + ez s)%Z); intros s Hs; destruct (flip s Hs) as [-> ->]; lia).
  assert (OD : forall q, average 36 (fun s => od q (xz s - ez s)) = 0) by (intro q; apply (odd_zero q (fun s => xz s - ez s)%Z); intros s Hs; destruct (flip s Hs) as [-> ->]; lia).
  rewrite (entropy36 sx _ xz z0_eq (OX sx)), (entropy36 sx _ ez u10_eq (OE sx)), (entropy36 sy _ (fun s => xz s + ez s)%Z z1_eq (OY sy)), (entropy36 sy _ (fun s => xz s - ez s)%Z u01_eq (OD sy)).
  rewrite even_x, even_e, even_y, even_d. destruct averages as [[A1 A2] B].
  set (a := (lc (1 / sx) + lc (3 / sx)) / 3) in *. set (b := (4 * lc (1 / sy) + 3 * lc (2 / sy) + 4 * lc (3 / sy) + 2 * lc (4 / sy) + lc (6 / sy)) / 18) in *.
  destruct (Rle_dec _ _) as [L|L]; [|reflexivity]. exfalso.
  assert (D : (a - 0.37457) ^ 2 <= 0.00223 ^ 2) by (apply pow_incr; lra). assert (E : 0.00323 ^ 2 <= (b - 0.37457) ^ 2) by (apply pow_incr; lra). lra.
Qed.
Print Assumptions C178_order_with_independent_noise_refuted.

(** ** Two values, equally often *)
Definition two_valued (n : nat) (x : nat -> R) : Prop :=
  exists a, a <> 0 /\ forall s, (s < n)%nat -> x s = average n x + a \/ x s = average n x - a.

Section TwoValued.
  Context (n : nat) (Hn : (0 < n)%nat) (xi eta : nat -> R).
  Context (Sx : forall s, (s < n)%nat -> xi s = 1 \/ xi s = -1) (Se : forall s, (s < n)%nat -> eta s = 1 \/ eta s = -1).
  Context (Mx : average n xi = 0) (Me : average n eta = 0) (Mxe : average n (fun s => xi s * eta s) = 0).
  Lemma four_values : forall F al be, average n (fun s => F (al * xi s + be * eta s)) = (F (al + be) + F (al - be) + F (- (al - be)) + F (- (al + be))) / 4.
  Proof.
    intros F al be. set (A := F (al + be)). set (B := F (al - be)). set (C := F (- (al - be))). set (D := F (- (al + be))).
    rewrite (average_ext n _ (fun s => (A + B + C + D) / 4 + ((A + B - C - D) / 4 * xi s + ((A - B + C - D) / 4 * eta s + (A - B - C + D) / 4 * (xi s * eta s))))).
    - rewrite !average_plus, !average_scal, average_const, Mx, Me, Mxe by exact Hn. field.
    - intros s Hs. destruct (Sx s Hs) as [E|E], (Se s Hs) as [E'|E']; rewrite E, E'.
      + replace (al * 1 + be * 1) with (al + be) by ring. fold A. field.
      + replace (al * 1 + be * -1) with (al - be) by ring. fold B. field.
      + replace (al * -1 + be * 1) with (- (al - be)) by ring. fold C. field.
      + replace (al * -1 + be * -1) with (- (al + be)) by ring. fold D. field.
  Qed.
  Lemma pair_entropy : forall u al be, (forall s, (s < n)%nat -> u s = al * xi s + be * eta s) ->
    approx_entropy n u = (1 + ln (2 * PI)) / 2 - 79.047 * ((lc (al + be) + lc (al - be)) / 2 - 0.37457) ^ 2.
  Proof.
    intros u al be E. unfold approx_entropy.
    rewrite (average_ext n (fun s => ln (cosh (u s))) (fun s => lc (al * xi s + be * eta s))) by (intros s Hs; rewrite E by exact Hs; reflexivity).
    rewrite (average_ext n (fun s => u s * exp (- u s ^ 2 / 2)) (fun s => (fun v => v * exp (- v ^ 2 / 2)) (al * xi s + be * eta s))) by (intros s Hs; rewrite E by exact Hs; reflexivity).
    rewrite (four_values lc), (four_values (fun v => v * exp (- v ^ 2 / 2))). cbv beta. rewrite !lc_opp.
    replace ((- (al - be)) ^ 2) with ((al - be) ^ 2) by ring. replace ((- (al + be)) ^ 2) with ((al + be) ^ 2) by ring. 
    replace (((al + be) * exp (- (al + be) ^ 2 / 2) + (al - be) * exp (- (al - be) ^ 2 / 2) + - (al - be) * exp (- (al - be) ^ 2 / 2) + - (al + be) * exp (- (al + be) ^ 2 / 2)) / 4) with 0 by field.
    replace ((lc (al + be) + lc (al - be) + lc (al - be) + lc (al + be)) / 4) with ((lc (al + be) + lc (al - be)) / 2) by field. ring.
  Qed.
  Lemma sq_one : average n (fun s => xi s ^ 2) = 1 /\ average n (fun s => eta s ^ 2) = 1.
  Proof.
    split; rewrite (average_ext n _ (fun _ => 1)); try (apply average_const; exact Hn); intros s Hs; [destruct (Sx s Hs) as [-> | ->]|destruct (Se s Hs) as [-> | ->]]; ring.
  Qed.
  Lemma pair_mean : forall al be, average n (fun s => al * xi s + be * eta s) = 0.
  Proof. intros. rewrite average_plus, !average_scal, Mx, Me. ring. Qed.
  Lemma pair_prod : forall a b c d, average n (fun s => (a * xi s + b * eta s) * (c * xi s + d * eta s)) = a * c + b * d.
  Proof.
    intros a b c d. rewrite (average_ext n _ (fun s => (a * c) * xi s ^ 2 + ((b * d) * eta s ^ 2 + (a * d + b * c) * (xi s * eta s)))) by (intros; ring).
    rewrite !average_plus, !average_scal, Mxe, (proj1 sq_one), (proj2 sq_one). ring.
  Qed.
  Lemma pair_standard : forall m a b q u s, 0 < q -> a * a + b * b = q * q -> (forall s, (s < n)%nat -> u s = m + (a * xi s + b * eta s)) -> (s < n)%nat ->
    standardised n u s = a / q * xi s + b / q * eta s.
  Proof.
    intros m a b q u s Hq Q E Hs. unfold standardised.
    assert (M : average n u = m). { rewrite (average_ext n u (fun s => m + (a * xi s + b * eta s))) by exact E. rewrite average_plus, average_const, pair_mean by exact Hn. ring. }
    rewrite M. replace (average n (fun t => (u t - m) ^ 2)) with (q * q).
    - rewrite sqrt_square by lra. rewrite (E s Hs). field. lra.
    - rewrite <- Q, <- (pair_prod a b a b). apply average_ext. intros t Ht. rewrite (E t Ht). ring.
  Qed.
End TwoValued.
Lemma entropy_between : forall p r, p * p + r * r = 1 -> 0.37457 <= (lc (p + r) + lc (p - r)) / 2 <= lc 1.
Proof.
  intros p r E. destruct (cosh_prod_bounds (p + r) (p - r)) as [L U]; [lra|].
  assert (H : lc (p + r) + lc (p - r) = ln (cosh (p + r) * cosh (p - r))) by (unfold lc; rewrite ln_mult; [reflexivity|apply cosh_pos|apply cosh_pos]). rewrite H.
  pose proof (cosh_pos (p + r)). pose proof (cosh_pos (p - r)). pose proof (Rmult_lt_0_compat _ _ H0 H1) as P.
  assert (M : forall a b, 0 < a -> a <= b -> ln a <= ln b) by (intros a b Pa [Q|Q]; [left; apply ln_increasing; assumption|right; rewrite Q; reflexivity]). split.
  - pose proof (M _ _ (cosh_pos (sqrt 2)) L) as M1. change (ln (cosh (sqrt 2))) with (lc (sqrt 2)) in M1.
    assert (C : lc_check 100000 141421 141422 77000 79000 = true) by (vm_cast_no_check (eq_refl true)).
    assert (S : IZR 141421 / IZR 100000 <= sqrt 2 <= IZR 141422 / IZR 100000).
    { replace (sqrt 2) with (2 / sqrt 2) by (rewrite <- (sqrt_sqrt 2) at 1 by lra; field; pose proof (sqrt_lt_R0 2 ltac:(lra)); lra).
      apply (u_bounds 2 (sqrt 2) 2); try lra; [apply sqrt_lt_R0; lra|apply sqrt_sqrt; lra]. }
    pose proof (lc_check_in _ _ _ _ _ _ C S). lra.
  - pose proof (M _ _ P U) as M2. rewrite (ln_mult (cosh 1) (cosh 1)) in M2 by apply cosh_pos. unfold lc. lra.
Qed.

(** C178.  Cause and noise with two values, each equally often, and exactly independent: the default measure finds the right
    order, for every coefficient. *)
Theorem C178_two_valued_right : forall logsv n pk_shape_ok (X : nat -> nat -> R) b, (0 < n)%nat ->
  two_valued n (X 0%nat) -> two_valued n (fun s => X 1%nat s - b * X 0%nat s) -> independent_sample n (X 0%nat) (fun s => X 1%nat s - b * X 0%nat s) ->
  ~ linearly_related n (X 0%nat) (X 1%nat) ->
  fit_order logsv ModelDirect.Pwling n 2 pk_shape_ok ModelDirect.NoPK X = Ok [0%nat; 1%nat].
Proof.
  intros logsv n ok X b Hn (a & Na & VX) (c & Nc & VE) I NR. rewrite (C164_pwling_formula logsv n ok X Hn NR).
  set (x := X 0%nat) in *. set (y := X 1%nat) in *. set (e := fun s => y s - b * x s) in *. set (mx := average n x) in *. set (me := average n e) in *.
  set (xi := fun s => (x s - mx) / a). set (eta := fun s => (e s - me) / c).
  assert (Sx : forall s, (s < n)%nat -> xi s = 1 \/ xi s = -1) by (intros s Hs; unfold xi; destruct (VX s Hs) as [-> | ->]; [left|right]; field; exact Na).
  assert (Se : forall s, (s < n)%nat -> eta s = 1 \/ eta s = -1) by (intros s Hs; unfold eta; destruct (VE s Hs) as [Q|Q]; change (y s - b * x s) with (e s) in Q; rewrite Q; [left|right]; field; exact Nc).
  assert (Mx : average n xi = 0). { unfold xi, Rdiv, Rminus. rewrite (average_ext n _ (fun s => / a * x s + / a * - mx)) by (intros; ring). rewrite average_plus, average_scal, average_const by exact Hn. fold mx. ring. }
  assert (Me : average n eta = 0). { unfold eta, Rdiv, Rminus. rewrite (average_ext n _ (fun s => / c * e s + / c * - me)) by (intros; ring). rewrite average_plus, average_scal, average_const by exact Hn. fold me. ring. }
  assert (Mxe : average n (fun s => xi s * eta s) = 0). { pose proof (I (fun v => (v - mx) / a) (fun v => (v - me) / c)) as Q. cbv beta in Q. unfold xi, eta. transitivity (average n (fun s => (x s - mx) / a * ((y s - b * x s - me) / c))); [reflexivity|]. etransitivity; [exact Q|]. unfold xi in Mx. rewrite Mx. ring. }
  assert (EX : forall s, x s = mx + (a * xi s + 0 * eta s)) by (intro s; unfold xi; field; exact Na).
  assert (EY : forall s, y s = (b * mx + me) + (b * a * xi s + c * eta s)) by (intro s; unfold xi, eta, e; field; split; assumption).
  assert (Pa : 0 < Rabs a) by (apply Rabs_pos_lt; exact Na). set (sg := sqrt ((b * a) * (b * a) + c * c)).
  assert (Psq : 0 < (b * a) * (b * a) + c * c). { pose proof (Rle_0_sqr (b * a)) as Q. unfold Rsqr in Q. assert (0 < c * c) by (destruct (Rtotal_order c 0) as [L|[L|L]]; [replace (c * c) with (- c * - c) by ring; apply Rmult_lt_0_compat; lra|contradiction|apply Rmult_lt_0_compat; lra]). lra. }
  assert (Psg : 0 < sg) by (apply sqrt_lt_R0; exact Psq). assert (Esg : sg * sg = (b * a) * (b * a) + c * c) by (apply sqrt_sqrt; lra).
  assert (Ea : a * a + 0 * 0 = Rabs a * Rabs a) by (rewrite <- Rabs_mult, Rabs_pos_eq by apply Rle_0_sqr; ring).
  set (ep := a / Rabs a). assert (Eep : ep * ep = 1) by (unfold ep; replace (a / Rabs a * (a / Rabs a)) with ((a * a + 0 * 0) / (Rabs a * Rabs a)) by (field; lra); rewrite Ea; field; lra).
  set (p := b * a / sg). set (r := c / sg). assert (Epr : p * p + r * r = 1). { unfold p, r. replace (b * a / sg * (b * a / sg) + c / sg * (c / sg)) with (((b * a) * (b * a) + c * c) / (sg * sg)) by (field; lra). rewrite Esg. field. lra. }
  assert (Nr : r <> 0). { unfold r. intro Z. apply Nc. apply (Rmult_eq_reg_r (/ sg)); [unfold Rdiv in Z; rewrite Z; ring|apply Rinv_neq_0_compat; lra]. }
  assert (Z0 : forall s, (s < n)%nat -> standardised n x s = ep * xi s + 0 * eta s). { intros s Hs. rewrite (pair_standard n Hn xi eta Sx Se Mx Me Mxe mx a 0 (Rabs a) x s Pa Ea (fun t _ => EX t) Hs). unfold ep. field. lra. }
  assert (Z1 : forall s, (s < n)%nat -> standardised n y s = p * xi s + r * eta s). { intros s Hs. apply (pair_standard n Hn xi eta Sx Se Mx Me Mxe _ _ _ sg y s Psg (eq_sym Esg) (fun t _ => EY t) Hs). }
  assert (C10 : correlation n y x = p * ep). { unfold correlation. rewrite (average_ext n _ (fun s => (p * xi s + r * eta s) * (ep * xi s + 0 * eta s))) by (intros s Hs; rewrite Z0, Z1 by exact Hs; reflexivity). rewrite (pair_prod n Hn xi eta Sx Se Mxe). ring. }
  assert (C01 : correlation n x y = p * ep). { rewrite <- C10. unfold correlation. apply average_ext. intros; ring. }
  assert (R10 : forall s, (s < n)%nat -> remainder n y x s = 0 + (0 * xi s + r * eta s)). { intros s Hs. unfold remainder. rewrite C10, Z0, Z1 by exact Hs. replace (p * ep * (ep * xi s + 0 * eta s)) with (p * (ep * ep) * xi s) by ring. rewrite Eep. ring. }
  assert (R01 : forall s, (s < n)%nat -> remainder n x y s = 0 + (ep * r * r * xi s + - (ep * p * r) * eta s)).
  { intros s Hs. unfold remainder. rewrite C01, Z0, Z1 by exact Hs. replace (ep * xi s + 0 * eta s - p * ep * (p * xi s + r * eta s)) with (ep * (1 - p * p) * xi s - ep * p * r * eta s) by ring. rewrite <- Epr. ring. }
  assert (Pr : 0 < Rabs r) by (apply Rabs_pos_lt; exact Nr). assert (Er : r * r = Rabs r * Rabs r) by (rewrite <- Rabs_mult, Rabs_pos_eq by apply Rle_0_sqr; reflexivity).
  set (er := r / Rabs r). assert (Eer : er * er = 1) by (unfold er; replace (r / Rabs r * (r / Rabs r)) with (r * r / (Rabs r * Rabs r)) by (field; lra); rewrite Er; field; lra).
  assert (U10 : forall s, (s < n)%nat -> standardised n (remainder n y x) s = 0 * xi s + er * eta s).
  { intros s Hs. rewrite (pair_standard n Hn xi eta Sx Se Mx Me Mxe 0 0 r (Rabs r) _ s Pr ltac:(lra) R10 Hs). unfold er. field. lra. }
  assert (U01 : forall s, (s < n)%nat -> standardised n (remainder n x y) s = (ep * er * r) * xi s + - (ep * er * p) * eta s).
  { intros s Hs. rewrite (pair_standard n Hn xi eta Sx Se Mx Me Mxe 0 (ep * r * r) (- (ep * p * r)) (Rabs r) _ s Pr).
    - unfold er. field. lra.
    - replace (ep * r * r * (ep * r * r) + - (ep * p * r) * - (ep * p * r)) with ((ep * ep) * (r * r) * (p * p + r * r)) by ring. rewrite Eep, Epr, <- Er. ring.
    - exact R01.
    - exact Hs. }
  rewrite (pair_entropy n Hn xi eta Sx Se Mx Me Mxe _ _ _ Z0), (pair_entropy n Hn xi eta Sx Se Mx Me Mxe _ _ _ U10), (pair_entropy n Hn xi eta Sx Se Mx Me Mxe _ _ _ Z1), (pair_entropy n Hn xi eta Sx Se Mx Me Mxe _ _ _ U01).
  assert (One : forall v, v * v = 1 -> lc v = lc 1). { intros v Ev. assert (v = 1 \/ v = -1) as [-> | ->]; [|reflexivity|change (-1) with (- (1)); apply lc_opp].
    assert (Z : (v - 1) * (v + 1) = 0) by lra. apply Rmult_integral in Z. destruct Z; [left|right]; lra. }
  assert (L1 : lc (ep + 0) = lc 1 /\ lc (ep - 0) = lc 1 /\ lc (0 + er) = lc 1 /\ lc (0 - er) = lc 1). { repeat split; apply One; lra. }
  destruct L1 as (-> & -> & -> & ->).
  assert (Sw : lc (ep * er * r + - (ep * er * p)) = lc (p - r) /\ lc (ep * er * r - - (ep * er * p)) = lc (p + r)).
  { assert (S1 : (ep * er) * (ep * er) = 1) by (replace (ep * er * (ep * er)) with ((ep * ep) * (er * er)) by ring; rewrite Eep, Eer; ring). set (t := ep * er) in *.
    assert (t = 1 \/ t = -1) as [-> | ->]. { assert (Z : (t - 1) * (t + 1) = 0) by lra. apply Rmult_integral in Z. destruct Z; [left|right]; lra. }
    - split; [rewrite <- lc_opp|]; f_equal; ring.
    - split; [|rewrite <- lc_opp]; f_equal; ring. }
  destruct Sw as [-> ->]. destruct (entropy_between p r Epr) as [B1 B2]. set (B := (lc (p + r) + lc (p - r)) / 2) in *.
  replace ((lc (p - r) + lc (p + r)) / 2) with B by (unfold B; field). replace ((lc 1 + lc 1) / 2) with (lc 1) by field.
  destruct (Rle_dec _ _) as [L|L]; [reflexivity|]. exfalso. apply L. assert ((B - 0.37457) ^ 2 <= (lc 1 - 0.37457) ^ 2) by (apply pow_incr; lra). lra.
Qed.
Print Assumptions C178_two_valued_right.
(** x0 = 0, 0, 4, 4 and x1 = x0 + e with e = 0, 1, 0, 1 meet the hypotheses. *)
Definition bx (j s : nat) : R := match j with O => nth s [0; 0; 4; 4] 0 | _ => nth s [0; 1; 4; 5] 0 end.
Example C178_example_two_valued : two_valued 4 (bx 0%nat) /\ two_valued 4 (fun s => bx 1%nat s - 1 * bx 0%nat s) /\
  independent_sample 4 (bx 0%nat) (fun s => bx 1%nat s - 1 * bx 0%nat s) /\ ~ linearly_related 4 (bx 0%nat) (bx 1%nat).
Proof.
  split; [|split; [|split]].
  - exists 2. split; [lra|]. intros s Hs. unfold average. cbn [rsum INR bx nth]. do 4 (destruct s as [|s]; [cbn [nth]; lra|]). lia.
  - exists (1 / 2). split; [lra|]. intros s Hs. unfold average. cbn [rsum INR bx nth]. do 4 (destruct s as [|s]; [cbn [nth]; lra|]). lia.
  - intros f g. unfold average. cbn [rsum INR bx nth]. replace (0 - 1 * 0) with 0 by ring. replace (1 - 1 * 0) with 1 by ring. replace (4 - 1 * 4) with 0 by ring. replace (5 - 1 * 4) with 1 by ring. field.
  - intros (a & b & c & D & H). pose proof (H 0%nat ltac:(lia)) as H0. pose proof (H 1%nat ltac:(lia)) as H1. pose proof (H 2%nat ltac:(lia)) as H2. cbn in H0, H1, H2. lra.
Qed.
