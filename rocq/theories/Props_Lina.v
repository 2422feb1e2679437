(** * Property theorems: LiNA and MD-LiNA (C135-C138) *)
From Coq Require Import List Arith Lia Bool ZArith QArith Qcanon Permutation Relations.
From Verif Require Import Prelude Spec Lib LibMat ModelLim ProofLim ModelLina ProofLina ProofBootstrap.
Import ListNotations.
Open Scope nat_scope.

(** ** C135: the weights between the latent factors *)
(** With rho_max > 1 the estimation returns, whatever the minimiser does: the zero matrix without iterations,
    otherwise a point found by the minimiser, with the entries below the threshold set to zero. *)
Theorem C135_returns_partial : forall minimize d st, (1 < ls_rho_max st)%Qc ->
  exists W w, lina_estimate minimize d st = Ok W /\
    (if ls_max_iter st =? 0 then w = (fun _ => 0%Qc) else exists rho alpha w0, w = minimize rho alpha w0) /\
    (forall i j, W i j = if qltb (qabs (w (i * d + j) - w (d * d + i * d + j))) (ls_w_threshold st) then 0%Qc else (w (i * d + j)%nat - w (d * d + i * d + j)%nat)%Qc) /\
    (forall i j, W i j <> 0%Qc -> (ls_w_threshold st <= qabs (W i j))%Qc).
Proof.
  intros minimize d st HR. unfold lina_estimate.
  destruct (lina_outer_ok minimize d st (ls_max_iter st) (fun _ => 0%Qc) 1%Qc 0%Qc None (Qcle_refl 1) HR) as (w & rho & left & E & _ & Z & P). rewrite E. cbn [bind fst].
  eexists. exists w. split; [reflexivity|]. split; [|split].
  - destruct (Nat.eqb_spec (ls_max_iter st) 0) as [Q|Q]; [apply Z; exact Q|apply P; lia].
  - intros i j. reflexivity.
  - intros i j N. unfold threshold in *. destruct (qltb (qabs (adj_of d w i j)) (ls_w_threshold st)) eqn:T; [contradiction|]. apply qltb_nlt. exact T.
Qed.
Print Assumptions C135_returns_partial.
(** rho_max <= 1 is accepted by the constructor and then fails with a TypeError. *)
Theorem C135_rho_max_refuted : forall minimize d st, ~ (1 < ls_rho_max st)%Qc -> 1 <= ls_max_iter st -> lina_estimate minimize d st = Err TypeError.
Proof.
  intros minimize d st H M. unfold lina_estimate. destruct (ls_max_iter st) as [|k]; [lia|]. rewrite lina_no_run by exact H. reflexivity.
Qed.
Print Assumptions C135_rho_max_refuted.
(** No factor causes itself if the minimiser respects the bounds of line 159. *)
Theorem C135_no_self_loops : forall minimize d st W,
  (forall rho alpha w i, i < d -> minimize rho alpha w (i * d + i) = 0%Qc /\ minimize rho alpha w (d * d + i * d + i) = 0%Qc) ->
  lina_estimate minimize d st = Ok W -> forall i, i < d -> W i i = 0%Qc.
Proof.
  intros minimize d st W HB E i Hi. destruct (Qclt_le_dec 1 (ls_rho_max st)) as [HR|HR].
  - destruct (C135_returns_partial minimize d st HR) as (W' & w & E' & S & V & _). rewrite E in E'. injection E' as <-. rewrite V.
    assert (Z : (w (i * d + i)%nat = 0 /\ w (d * d + i * d + i)%nat = 0)%Qc) by (destruct (ls_max_iter st =? 0); [subst w; auto|destruct S as (r & a & w0 & ->); apply HB; exact Hi]).
    destruct Z as [-> ->]. destruct (qltb _ _); [reflexivity|ring].
  - destruct (ls_max_iter st) as [|k] eqn:M.
    + unfold lina_estimate in E. rewrite M in E. cbn in E. injection E as <-. unfold threshold, adj_of. destruct (qltb _ _); [reflexivity|ring].
    + rewrite C135_rho_max_refuted in E; [discriminate|apply Qcle_not_lt; exact HR|lia].
Qed.
Print Assumptions C135_no_self_loops.
(** Acyclic: if the loop is left with h at most h_tol and h_tol < (w_threshold^2/d)^d.  The loop is left otherwise
    only when rho has reached rho_max or all iterations are used. *)
Theorem C135_acyclic_partial : forall minimize d st w rho left, 1 <= d -> (0 <= ls_w_threshold st)%Qc -> (ls_w_threshold st <= 1)%Qc ->
  (ls_h_tol st < qprod (repeat (ls_w_threshold st * ls_w_threshold st / qn d) d))%Qc -> (1 < ls_rho_max st)%Qc -> 1 <= ls_max_iter st ->
  lina_outer minimize d st (ls_max_iter st) (fun _ => 0%Qc) 1%Qc 0%Qc None = Ok (w, rho, left) ->
  exists W, lina_estimate minimize d st = Ok W /\ (acyclic (edge_of d W) \/ (ls_rho_max st <= rho)%Qc \/ left = 0).
Proof.
  intros minimize d st w rho left Hd H0 H1 HT HR HM E. unfold lina_estimate. rewrite E. cbn [bind fst]. eexists. split; [reflexivity|].
  destruct (lina_outer_ok minimize d st (ls_max_iter st) (fun _ => 0%Qc) 1%Qc 0%Qc None (Qcle_refl 1) HR) as (w' & rho' & left' & E' & _ & _ & P). rewrite E in E'. injection E' as <- <- <-.
  destruct (P HM) as [_ [Q|Q]]; [left|right; exact Q]. apply (safe_tolerance d _ (ls_w_threshold st) Hd H0 H1).
  - intros i j Hi Hj N. unfold threshold in *. destruct (qltb (qabs (adj_of d w i j)) (ls_w_threshold st)) eqn:T; [contradiction|]. apply qltb_nlt. exact T.
  - eapply Qcle_lt_trans; [|exact HT]. eapply Qcle_trans; [|exact Q]. apply h_mono; [exact Hd|]. intros i j _ _. apply threshold_le.
Qed.
Print Assumptions C135_acyclic_partial.
(** The default constants (threshold 0.3, tolerance 1e-8) are safe for at most four factors. *)
Definition lina_default : settings := {| ls_max_iter := 100; ls_h_tol := qf 1 100000000; ls_rho_max := qz 10000000000000000; ls_w_threshold := qf 3 10 |}.
Theorem C135_default_safe_partial : forall minimize d W, 1 <= d -> d <= 4 ->
  (forall rho alpha w, (h_of d (adj_of d (minimize rho alpha w)) <= qf 1 100000000)%Qc) ->
  lina_estimate minimize d lina_default = Ok W -> acyclic (edge_of d W).
Proof.
  intros minimize d W H1 H4 HO E.
  destruct (C135_returns_partial minimize d lina_default) as (W' & w & E' & (r & a & w0 & S) & V & B); [reflexivity|]. rewrite E in E'. injection E' as <-.
  apply (safe_tolerance d _ (qf 3 10) H1); [discriminate|discriminate|intros i j _ _; apply B|].
  apply Qcle_lt_trans with (qf 1 100000000).
  - eapply Qcle_trans; [|apply (HO r a w0)]. rewrite <- S. apply h_mono; [exact H1|]. intros i j _ _. rewrite V. apply (threshold_le (qf 3 10) (adj_of d w)).
  - destruct d as [|[|[|[|[|d]]]]]; try lia; vm_compute; reflexivity.
Qed.
Print Assumptions C135_default_safe_partial.
Lemma lina_first_inner : forall minimize d st alpha w, (1 < ls_rho_max st)%Qc ->
  lina_inner minimize d st (lina_fuel st) alpha w None 1%Qc None = Ok (Some (minimize 1%Qc alpha w, h_of d (adj_of d (minimize 1%Qc alpha w))), 1%Qc).
Proof. intros minimize d st alpha w H. unfold lina_fuel. cbn [lina_inner]. apply qltb_lt in H. rewrite H. reflexivity. Qed.
Lemma lina_first_break : forall minimize d st n, (1 < ls_rho_max st)%Qc -> ls_max_iter st = S n ->
  let w := minimize 1%Qc 0%Qc (fun _ => 0%Qc) in (h_of d (adj_of d w) <= ls_h_tol st)%Qc ->
  lina_estimate minimize d st = Ok (threshold (ls_w_threshold st) (adj_of d w)).
Proof.
  intros minimize d st n HR HM w H. unfold lina_estimate. rewrite HM. cbn [lina_outer]. rewrite lina_first_inner by exact HR. cbn [bind]. fold w.
  apply qleb_le in H. rewrite H. reflexivity.
Qed.
(** With five factors a cycle of weights 0.3 passes the default tolerance. *)
Definition five_cycle : mat Qc := fun i j => match i, j with 0, 1 | 1, 2 | 2, 3 | 3, 4 | 4, 0 => qf 3 10 | _, _ => 0%Qc end.
Definition five_vec : nat -> Qc := fun k => if k <? 25 then five_cycle (k / 5) (k mod 5) else 0%Qc.
Theorem C135_five_factors_refuted : exists minimize W, lina_estimate minimize 5 lina_default = Ok W /\
  (h_of 5 W <= qf 1 100000000)%Qc /\ ~ acyclic (edge_of 5 W).
Proof.
  exists (fun _ _ _ => five_vec). eexists. split; [|split].
  - apply (lina_first_break _ _ _ 99); [reflexivity|reflexivity|vm_compute; discriminate].
  - vm_compute. discriminate.
  - set (W := threshold _ _). intro A. apply (A 0).
    assert (E : forall i j, i < 5 -> j < 5 -> this (W i j) = (3 # 10)%Q -> edge_of 5 W j i).
    { intros i j Hi Hj Hw. split; [exact Hi|]. split; [exact Hj|]. intro C. rewrite C in Hw. discriminate. }
    eapply t_trans; [apply t_step; apply (E 4 0); [lia|lia|vm_compute; reflexivity]|].
    eapply t_trans; [apply t_step; apply (E 3 4); [lia|lia|vm_compute; reflexivity]|].
    eapply t_trans; [apply t_step; apply (E 2 3); [lia|lia|vm_compute; reflexivity]|].
    eapply t_trans; [apply t_step; apply (E 1 2); [lia|lia|vm_compute; reflexivity]|].
    apply t_step. apply (E 0 1); [lia|lia|vm_compute; reflexivity].
Qed.
Print Assumptions C135_five_factors_refuted.
(** And when rho reaches rho_max the current point is returned even if it is far from acyclic. *)
Definition two_vec : nat -> Qc := fun k => match k with 1 | 2 => 1%Qc | _ => 0%Qc end.
Lemma two_inner : forall st alpha w h n rho cur, (0 < h)%Qc -> h = h_of 2 (adj_of 2 two_vec) -> (1 <= rho)%Qc ->
  (ls_rho_max st <= rho + qn n)%Qc -> exists rho', (ls_rho_max st <= rho')%Qc /\
  lina_inner (fun _ _ _ => two_vec) 2 st n alpha w (Some h) rho cur = Ok (if qltb rho (ls_rho_max st) then Some (two_vec, h) else cur, rho').
Proof.
  intros st alpha w h n rho cur HP HH. revert rho cur. induction n as [|n IH]; intros rho cur H1 HF; cbn [lina_inner].
  - destruct (qltb rho (ls_rho_max st)) eqn:E; cbn [negb].
    + exfalso. apply qltb_lt in E. apply Qclt_not_le in E. apply E. replace (rho + qn 0)%Qc with rho in HF; [exact HF|]. replace (qn 0) with 0%Qc by (apply Qc_is_canon; reflexivity). ring.
    + exists rho. split; [apply qltb_nlt; exact E|reflexivity].
  - destruct (qltb rho (ls_rho_max st)) eqn:E; cbn [negb]; [|exists rho; split; [apply qltb_nlt; exact E|reflexivity]].
    rewrite <- HH. assert (Q : qltb (qf 1 4 * h) h = true).
    { apply qltb_lt. apply Qclt_minus_iff. replace (h + - (qf 1 4 * h))%Qc with (qf 3 4 * h)%Qc; [apply Qcmult_pos; [reflexivity|exact HP]|]. replace (qf 3 4) with (1 - qf 1 4)%Qc by (apply Qc_is_canon; reflexivity). ring. }
    rewrite Q. destruct (IH (rho * qz 10)%Qc (Some (two_vec, h))) as (rho' & R & E').
    + eapply Qcle_trans; [exact H1|]. eapply Qcle_trans; [|apply ten_step; exact H1]. replace rho with (rho + 0)%Qc at 1 by ring. apply Qcplus_le_compat; [apply Qcle_refl|discriminate].
    + eapply Qcle_trans; [exact HF|]. rewrite qn_S. replace (rho + (qn n + 1))%Qc with ((rho + 1) + qn n)%Qc by ring. apply Qcplus_le_compat; [apply ten_step; exact H1|apply Qcle_refl].
    + exists rho'. split; [exact R|]. rewrite E'. destruct (qltb (rho * qz 10) (ls_rho_max st)); reflexivity.
Qed.
Lemma two_estimate : forall st n, (1 < ls_rho_max st)%Qc -> ls_max_iter st = S (S n) -> ~ (h_of 2 (adj_of 2 two_vec) <= ls_h_tol st)%Qc ->
  lina_estimate (fun _ _ _ => two_vec) 2 st = Ok (threshold (ls_w_threshold st) (adj_of 2 two_vec)).
Proof.
  intros st n HR HM HT. unfold lina_estimate. rewrite HM. set (h := h_of 2 (adj_of 2 two_vec)) in *.
  assert (HP : (0 < h)%Qc) by (vm_compute; reflexivity).
  assert (QT : qleb h (ls_h_tol st) = false) by (destruct (qleb h (ls_h_tol st)) eqn:E; [apply qleb_le in E; contradiction|reflexivity]).
  remember (S n) as m. cbn [lina_outer]. rewrite lina_first_inner by exact HR. cbn [bind]. fold h. rewrite QT. cbn [orb].
  assert (E2 : qleb (ls_rho_max st) 1 = false) by (destruct (qleb (ls_rho_max st) 1) eqn:E; [apply qleb_le in E; exfalso; exact (Qclt_not_le _ _ HR E)|reflexivity]). rewrite E2.
  subst m. cbn [lina_outer].
  destruct (two_inner st (0 + 1 * h)%Qc two_vec h (lina_fuel st) 1%Qc None HP eq_refl (Qcle_refl 1)) as (rho' & R & E3); [apply ceiling_fuel, Qcle_refl|].
  rewrite E3. apply qltb_lt in HR. rewrite HR. cbn [bind]. rewrite QT. cbn [orb]. apply qleb_le in R. rewrite R. reflexivity.
Qed.
Theorem C135_rho_limit_refuted : exists minimize W, lina_estimate minimize 2 lina_default = Ok W /\ W 0 1 = 1%Qc /\ W 1 0 = 1%Qc /\ ~ acyclic (edge_of 2 W).
Proof.
  exists (fun _ _ _ => two_vec). exists (threshold (qf 3 10) (adj_of 2 two_vec)). split; [|split; [apply Qc_is_canon; vm_compute; reflexivity|split; [apply Qc_is_canon; vm_compute; reflexivity|]]].
  - apply (two_estimate lina_default 98); [reflexivity|reflexivity|]. intro H. apply qleb_le in H. vm_compute in H. discriminate.
  - set (W := threshold _ _). assert (E : forall i j, i < 2 -> j < 2 -> this (W i j) = (1 # 1)%Q -> edge_of 2 W j i).
    { intros i j Hi Hj Hw. split; [exact Hi|]. split; [exact Hj|]. intro C. rewrite C in Hw. discriminate. }
    intro A. apply (A 0). eapply t_trans; apply t_step; [apply (E 1 0)|apply (E 0 1)]; try lia; vm_compute; reflexivity.
Qed.
Print Assumptions C135_rho_limit_refuted.

(** ** C136: factor scores *)
(** If the data are factor scores times the loadings and the inversion is right, the scores are recovered and each
    is multiplied by its own scale; the result is then a function of the true scores only. *)
Theorem C136_scores_exact : forall cfa inv minimize st p q X G_sign scale V (F : mat Qc),
  let G : mat Qc := cfa X G_sign in
  inv q (fun a b => sumn p (fun k => G k a * G k b))%Qc = Some V ->
  (forall a b, a < q -> b < q -> sumn q (fun c => V a c * sumn p (fun k => G k c * G k b))%Qc = if a =? b then 1%Qc else 0%Qc) ->
  (forall s k, k < p -> X s k = sumn q (fun b => F s b * G k b)%Qc) ->
  1 <= a_rows scale -> q <= a_cols scale -> (1 < ls_rho_max st)%Qc ->
  exists f W, (forall s j, j < q -> f s j = (F s j * a_at scale 0%nat j)%Qc) /\
    lina_estimate (minimize f) q st = Ok W /\ lina_fit cfa inv minimize st p q X G_sign scale = Ok (W, G).
Proof.
  intros cfa inv minimize st p q X G_sign scale V F G E HV HX HR HC HM.
  destruct (scores_exact inv p q G V F X E HV HX) as (f0 & E0 & S0).
  destruct (scaled_ok q (fun _ => 0) f0 scale) as (f & E1 & S1); [intros j Hj; split; lia|].
  destruct (C135_returns_partial (minimize f) q st HM) as (W & w & E2 & _).
  exists f, W. split; [intros s j Hj; rewrite S1, S0 by exact Hj; reflexivity|]. split; [exact E2|].
  unfold lina_fit. fold G. rewrite E0, E1. cbn [bind]. rewrite E2. reflexivity.
Qed.
Print Assumptions C136_scores_exact.
(** A scale array without a first row or with fewer columns than factors raises IndexError. *)
Theorem C136_scale_too_small : forall cfa inv minimize st p q X G_sign scale, 1 <= q -> (a_rows scale = 0 \/ a_cols scale < q) ->
  lina_fit cfa inv minimize st p q X G_sign scale = Err IndexError \/ lina_fit cfa inv minimize st p q X G_sign scale = Err RuntimeError.
Proof.
  intros cfa inv minimize st p q X G_sign scale Hq HS. unfold lina_fit. destruct (scores _ _ _ _ _) as [f|]; [|right; reflexivity]. left.
  unfold scaled. rewrite (factors_of_err scale (fun _ => 0) (seq 0 q) (q - 1)); [reflexivity|apply in_seq; lia|lia].
Qed.
Print Assumptions C136_scale_too_small.
Definition ex_inv (n : nat) (M : mat Qc) : option (mat Qc) := Some (fun i j => if i =? j then (/ M i i)%Qc else 0%Qc).
Definition ex_G : mat Qc := fun k b => match k, b with 0, 0 => 1%Qc | 1, 0 => qz 2 | 2, 1 => 1%Qc | 3, 1 => qz 3 | _, _ => 0%Qc end.
Definition ex_F : mat Qc := fun s b => match s, b with 0, 0 => qz 5 | 0, 1 => qz 7 | 1, 0 => qf 1 2 | 1, 1 => qz 4 | _, _ => 0%Qc end.
Definition ex_X : mat Qc := fun s k => sumn 2 (fun b => ex_F s b * ex_G k b)%Qc.
Example C136_example :
  (forall a b, a < 2 -> b < 2 -> sumn 2 (fun c => (match ex_inv 2 (fun a b => sumn 4 (fun k => ex_G k a * ex_G k b)%Qc) with Some V => V a c | None => 0%Qc end) * sumn 4 (fun k => ex_G k c * ex_G k b))%Qc = if a =? b then 1%Qc else 0%Qc) /\
  match scores ex_inv 4 2 ex_G ex_X with Some f => map (fun s => map (fun j => this (f s j)) [0; 1]) [0; 1] | None => [] end = [[5 # 1; 7 # 1]; [1 # 2; 4 # 1]]%Q.
Proof.
  split; [|vm_compute; reflexivity]. intros a b Ha Hb. apply Qc_is_canon. destruct a as [|[|a]]; try lia; destruct b as [|[|b]]; try lia; vm_compute; reflexivity.
Qed.

(** ** C137: MD-LiNA's alternation and the matching of factors *)
(** The documented scale, an array of shape (1, number of latent factors), never works: fit fails in all cases
    with at least one factor per domain. *)
Theorem C137_documented_scale_refuted : forall cfa inv step p L q X G_sign scale, 1 <= q -> a_rows scale = 1 -> a_cols scale = L ->
  forall r, md_fit cfa inv step p L q X G_sign scale <> Ok r.
Proof.
  intros cfa inv step p L q X G_sign scale Hq HR HC r. unfold md_fit. destruct (scores _ _ _ _ _) as [f|]; [|discriminate].
  unfold scaled. destruct (le_lt_dec L q) as [HL|HL].
  - destruct (factors_of scale _ (seq 0 L)) as [s|e]; cbn [bind]; [|discriminate]. destruct (alternation _) as [[[k [H W]] hw0]|e]; cbn [bind snd]; [|discriminate].
    unfold relabel, weights. destruct (Nat.leb_spec 1 q) as [_|N]; [|lia]. destruct (Nat.ltb_spec L (2 * q)) as [_|N]; [|lia]. discriminate.
  - rewrite (factors_of_err scale _ (seq 0 L) q); [discriminate|apply in_seq; lia|]. destruct (Nat.ltb_spec q q) as [N|_]; [lia|]. lia.
Qed.
Print Assumptions C137_documented_scale_refuted.
(** With two rows and two domains (or more) fit returns exactly when some round before number 10000 settles, and the
    result is built from the first such round: W of that round (of the round before if it is zero), its rows and
    columns permuted alike.  The permutation matches row i of the first two domains' weights with column pi i, the
    largest weights first.  Otherwise fit raises IndexError. *)
Theorem C137_fit_partial : forall cfa inv step p L q X G_sign scale f,
  scores inv p L (cfa X G_sign) X = Some f -> 2 * q <= L -> 2 <= a_rows scale -> L <= a_cols scale ->
  exists F, (forall s j, j < L -> F s j = (f s j * a_at scale (if (j <? q)%nat then 0%nat else 1%nat) j)%Qc) /\
  let settles := settled (step F) in
  ((forall t, 1 <= t < 100 * 100 -> ~ settles t) -> md_fit cfa inv step p L q X G_sign scale = Err IndexError) /\
  (forall t, 1 <= t < 100 * 100 -> settles t -> (forall s, 1 <= s < t -> ~ settles s) ->
   exists Wn ps (pi : nat -> nat), md_fit cfa inv step p L q X G_sign scale = Ok (Wn, cfa X G_sign) /\
     let W t := snd (fst (rounds (step F) t)) in
     let H t := fst (fst (rounds (step F) t)) in
     let W1 := if all_zero q q (W t) then W (t - 1) else W t in
     let H1 := if all_zero L q (H t) then H (t - 1) else H t in
     (forall i j, i < q -> j < q -> Wn i j = W1 (pi i) (pi j)) /\
     Permutation (map pi (seq 0 q)) (seq 0 q) /\
     (forall i, i < q -> In (i, pi i) ps /\ pi i < q) /\ length ps = q /\
     best_first (match_weight q H1) (seq 0 q) (seq 0 q) ps).
Proof.
  intros cfa inv step p L q X G_sign scale f E HL HR HC.
  destruct (scaled_ok L (fun j => if j <? q then 0 else 1) f scale) as (F & EF & SF); [intros j Hj; split; [destruct (j <? q); lia|lia]|].
  exists F. split; [exact SF|]. cbv zeta. unfold md_fit. rewrite E, EF. cbn [bind]. pose proof (alternation_spec (step F)) as A.
  destruct (alternation (step F)) as [[[k hw] hw0]|e]; cbn [bind].
  - destruct A as (A1 & A2 & A3 & -> & ->). split; [intro N; exfalso; exact (N k A1 A2)|].
    intros t Ht St Nt. assert (t = k). { destruct (Nat.lt_trichotomy t k) as [Q|[Q|Q]]; [exfalso; apply (A3 t); [lia|exact St]|exact Q|exfalso; apply (Nt k); [lia|exact A2]]. } subst k.
    destruct (rounds (step F) t) as [[H W] l] eqn:ER. cbn [fst snd].
    destruct (relabel_ok q L (if all_zero L q H then fst (fst (rounds (step F) (t - 1))) else H) (if all_zero q q W then snd (fst (rounds (step F) (t - 1))) else W) HL) as (ps & pi & Wn & B1 & B2 & B3 & B4 & B5 & B6).
    rewrite B5. cbn [bind]. exists Wn, ps, pi. auto 10.
  - destruct A as [-> A]. split; [intros _; reflexivity|]. intros t Ht St _. exfalso. exact (A t Ht St).
Qed.
Print Assumptions C137_fit_partial.
(** The likelihood of real data may keep changing: with one that grows by 1 in every round fit ends with an IndexError
    after 9999 rounds. *)
Theorem C137_no_limit_refuted : exists step : nat -> mat Qc -> (mat Qc * mat Qc * Qc), alternation step = Err IndexError.
Proof.
  exists (fun t _ => (fun _ _ => 0%Qc, fun _ _ => 0%Qc, qn t)). set (step := fun (t : nat) (_ : mat Qc) => _).
  assert (LK : forall t, like step t = qn t) by (intros [|t]; [apply Qc_is_canon; reflexivity|reflexivity]).
  pose proof (alternation_spec step) as A. destruct (alternation step) as [[[k hw] hw0]|e]; [|destruct A as [-> _]; reflexivity].
  exfalso. destruct A as (A1 & A2 & _).
  assert (G : forall a b, a < b -> ~ (qn b < qn a + qf 1 10)%Qc).
  { intros a b H Q. assert (P : (qn (S a) <= qn b)%Qc) by (destruct (Nat.eq_dec (S a) b) as [<-|N]; [apply Qcle_refl|apply Qclt_le_weak, qn_lt; lia]).
    rewrite qn_S in P. apply (Qclt_not_le _ _ Q). eapply Qcle_trans; [|exact P]. apply Qcplus_le_compat; [apply Qcle_refl|discriminate]. }
  destruct A2 as [Q|[(H & m & [(s & Hs & ->) M] & Q)|(H & m & [(s & Hs & ->) M] & Q)]]; rewrite ?LK in Q.
  - apply abs_lt in Q. apply (G (k - 1) k); [lia|exact Q].
  - apply (G 1 k); [lia|]. eapply Qclt_le_trans; [exact Q|]. apply Qcplus_le_compat; [|apply Qcle_refl]. rewrite <- !LK. apply M. lia.
  - apply (G s k); [lia|exact Q].
Qed.
Print Assumptions C137_no_limit_refuted.
(** Relabelling keeps a matrix acyclic. *)
Theorem C137_acyclic : forall q rows H W Wn, 2 * q <= rows -> relabel q rows H W = Ok Wn -> acyclic (edge_of q W) -> acyclic (edge_of q Wn).
Proof.
  intros q rows H W Wn HR E A. destruct (relabel_ok q rows H W HR) as (ps & pi & Wn' & _ & _ & B3 & _ & B5 & B6). rewrite E in B5. injection B5 as <-.
  apply (relabel_acyclic q pi W Wn); [intros i Hi; apply B3; exact Hi|exact B6|exact A].
Qed.
Print Assumptions C137_acyclic.
(** Only the first two domains count: the weights of a third one never change the matching. *)
Theorem C137_third_domain_refuted : forall q rows H H' W Wn Wn', 2 * q <= rows ->
  (forall a i, a < 2 * q -> i < q -> H a i = H' a i) -> relabel q rows H W = Ok Wn -> relabel q rows H' W = Ok Wn' ->
  forall i j, i < q -> j < q -> Wn i j = Wn' i j.
Proof.
  intros q rows H H' W Wn Wn' HR HH E E' i j Hi Hj.
  destruct (relabel_ok q rows H W HR) as (ps & pi & V & L1 & B2 & B3 & _ & B5 & B6). rewrite E in B5. injection B5 as <-.
  destruct (relabel_ok q rows H' W HR) as (ps' & pi' & V' & L1' & B2' & B3' & _ & B5' & B6'). rewrite E' in B5'. injection B5' as <-.
  assert (MW : forall a b, a < q -> b < q -> match_weight q H a b = match_weight q H' a b).
  { intros a b Ha Hb. unfold match_weight. cbv zeta. rewrite (existsb_ext_in' _ (fun a => qeqb (qabs (H' a b) + qabs (H' (a + q)%nat b)) 0)).
    - rewrite (HH a b), (HH (a + q) b) by lia. reflexivity.
    - intros x Hx. apply in_seq in Hx. rewrite (HH x b), (HH (x + q) b) by lia. reflexivity. }
  assert (U : forall ps ps' rows cols, (forall x, In x rows -> x < q) -> (forall x, In x cols -> x < q) -> length ps = length ps' ->
    best_first (match_weight q H) rows cols ps -> best_first (match_weight q H') rows cols ps' -> ps = ps').
  { clear - MW. induction ps as [|[r c] ps IH]; intros [|[r' c'] ps'] rows cols HRo HCo L G G'; try discriminate; [reflexivity|].
    destruct G as (G1 & G2 & G3 & G4), G' as (G1' & G2' & G3' & G4').
    destruct (G3 r' c' G1' G2') as [M1 M2]. destruct (G3' r c G1 G2) as [M1' M2']. rewrite <- !MW in M1', M2' by auto.
    assert (EQ : match_weight q H r' c' = match_weight q H r c) by (apply Qcle_antisym; assumption). specialize (M2 EQ). specialize (M2' (eq_sym EQ)).
    assert (X : r = r' /\ c = c') by lia. destruct X as [-> ->]. f_equal. apply (IH ps' (remove_nat r' rows) (remove_nat c' cols)); [intros x Hx; apply remove_nat_In in Hx; apply HRo, Hx|intros x Hx; apply remove_nat_In in Hx; apply HCo, Hx|cbn in L; lia|exact G4|exact G4']. }
  assert (EP : ps = ps') by (apply (U ps ps' (seq 0 q) (seq 0 q)); [intros x Hx; apply in_seq in Hx; lia|intros x Hx; apply in_seq in Hx; lia|lia|exact B2|exact B2']). subst ps'.
  assert (PP : forall i, i < q -> pi i = pi' i).
  { intros k Hk. destruct (best_first_perm (match_weight q H) ps (seq 0 q) (seq 0 q) (seq_NoDup q 0) (seq_NoDup q 0)) as [P1 _]; [rewrite seq_length; exact L1|rewrite seq_length; exact L1|exact B2|].
    assert (NF : NoDup (map fst ps)) by (eapply Permutation_NoDup; [apply Permutation_sym; exact P1|apply seq_NoDup]).
    destruct (B3 k Hk) as [A1 _]. destruct (B3' k Hk) as [A2 _]. clear - NF A1 A2. induction ps as [|p ps IH]; [contradiction|]. cbn in NF. apply NoDup_cons_iff in NF. destruct NF as [N1 N2].
    destruct A1 as [A1|A1], A2 as [A2|A2]; [congruence| | |apply IH; assumption].
    - exfalso. subst p. apply N1. apply (in_map fst) in A2. exact A2.
    - exfalso. subst p. apply N1. apply (in_map fst) in A1. exact A1. }
  rewrite B6, B6', (PP i Hi), (PP j Hj) by assumption. reflexivity.
Qed.
Print Assumptions C137_third_domain_refuted.
(** Two concepts; concept 0 has its weights on column 1 and concept 1 on column 0, so the factors are swapped. *)
Definition ex_H : mat Qc := fun a b => match a, b with 0, 1 => qz 3 | 1, 0 => qz 2 | 2, 1 => qz 1 | 3, 0 => qf 1 2 | _, _ => 0%Qc end.
Definition ex_W : mat Qc := fun i j => match i, j with 0, 1 => qf 7 10 | _, _ => 0%Qc end.
Example C137_example :
  match relabel 2 4 ex_H ex_W with Ok V => map (fun i => map (fun j => this (V i j)) [0; 1]) [0; 1] | Err _ => [] end = [[0 # 1; 0 # 1]; [7 # 10; 0 # 1]]%Q /\
  (exists r, md_fit (fun _ G => G) ex_inv (fun _ t _ => (ex_H, ex_W, 1%Qc)) 4 4 2 ex_X midn {| a_rows := 2; a_cols := 4; a_at := fun _ _ => 1%Qc |} = Ok r).
Proof.
  split; [vm_compute; reflexivity|].
  destruct (C137_fit_partial (fun _ G => G) ex_inv (fun _ t _ => (ex_H, ex_W, 1%Qc)) 4 4 2 ex_X midn {| a_rows := 2; a_cols := 4; a_at := fun _ _ => 1%Qc |} _ eq_refl) as (F & _ & _ & Y); [lia|cbn; lia|cbn; lia|].
  set (st := fun (_ : nat) (_ : mat Qc) => (ex_H, ex_W, 1%Qc)) in *. assert (S2 : settled st 2) by (left; vm_compute; reflexivity).
  assert (S1 : ~ settled st 1) by (intros [Q|[[Q _]|[Q _]]]; [vm_compute in Q; discriminate|lia|lia]).
  destruct (Y 2) as (Wn & ps & pi & E & _); [lia|exact S2|intros s Hs; assert (s = 1) by lia; subst s; exact S1|]. eexists. exact E.
Qed.

(** ** C138: the estimation of the factor matrix of MD-LiNA *)
(** The matrix comes from the last minimisation that was run (possibly shifted by 0.1 in its first eight entries):
    the last allowed one, or one whose score is within the tolerance of an earlier score. *)
Theorem C138_last_run : forall run rnd singular size tol iters, 1 <= iters ->
  exists n h0 h, h_step run rnd singular size tol iters = Some h /\ n < iters /\
    (h = fst (run n h0) \/ h = bump (fst (run n h0))) /\
    (n = iters - 1 \/ exists s, (qabs (s - snd (run n h0)) < tol)%Qc).
Proof.
  intros run rnd singular size tol iters H. unfold h_step. destruct (h_loop_last run rnd singular size tol iters 0 1 (rnd 0) None None H) as (n & h0 & N & V & X).
  exists n, h0. destruct V as [V|V]; [exists (fst (run n h0))|exists (bump (fst (run n h0)))]; (split; [exact V|]; split; [lia|]; split; [auto|]; destruct X as [X|X]; [left; lia|right; exact X]).
Qed.
Print Assumptions C138_last_run.
(** Not the best one: a first run of value 1 is replaced by a second run of value 5. *)
Theorem C138_best_run_refuted : exists run rnd h, h_step run rnd (fun _ => false) 4 (qf 1 100000000) 2 = Some h /\
  snd (run 0 (rnd 0)) = 1%Qc /\ (forall h1, snd (run 1 h1) = qz 5) /\ fst (run 0 (rnd 0)) 0 = 1%Qc /\ h 0 = qz 2.
Proof.
  exists (fun k _ => match k with 0 => (fun _ => 1%Qc, 1%Qc) | _ => (fun _ => qz 2, qz 5) end), (fun _ _ => 0%Qc). eexists. split; [reflexivity|]. repeat split.
Qed.
Print Assumptions C138_best_run_refuted.
(** max_iter = 0 leaves the result undefined (the code raises UnboundLocalError). *)
Theorem C138_no_iterations : forall run rnd singular size tol iters, h_step run rnd singular size tol iters = None <-> iters = 0.
Proof.
  intros run rnd singular size tol iters. split; [|intros ->; reflexivity]. intro E. destruct iters as [|iters]; [reflexivity|].
  destruct (C138_last_run run rnd singular size tol (S iters)) as (n & h0 & h & E' & _); [lia|]. congruence.
Qed.
Print Assumptions C138_no_iterations.
(** A run within the tolerance of the last accepted score ends the search with that run. *)
Example C138_example : match h_step (fun k _ => (fun _ => qn k, match k with 0 => qz 3 | 1 => qz 2 | _ => (qz 2 + qf 1 1000000000)%Qc end)) (fun _ _ => 0%Qc) (fun h => qeqb (h 0) 1) 4 (qf 1 100000000) 10 with Some h => this (h 0) | None => 0%Q end = 2%Q.
Proof. vm_compute. reflexivity. Qed.
(** The minimiser finds one directed edge and a small second one, which the threshold removes. *)
Definition ex_vec : nat -> Qc := fun k => if k =? 1 then qf 1 2 else if k =? 2 then qf 1 10000 else 0%Qc.
Example C135_example : exists W, lina_estimate (fun _ _ _ => ex_vec) 2 lina_default = Ok W /\
  map (fun i => map (fun j => this (W i j)) [0; 1]) [0; 1] = [[0 # 1; 1 # 2]; [0 # 1; 0 # 1]]%Q /\
  (ls_h_tol lina_default < qprod (repeat (ls_w_threshold lina_default * ls_w_threshold lina_default / qn 2) 2))%Qc.
Proof.
  eexists. split; [apply (lina_first_break _ _ _ 99); [reflexivity|reflexivity|vm_compute; discriminate]|]. split; vm_compute; reflexivity.
Qed.
