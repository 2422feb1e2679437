(** * Lemmas about the model of LiNA and MD-LiNA *)
From Coq Require Import List Arith Lia Bool ZArith QArith Qcanon Qround Permutation Relations.
From Verif Require Import Prelude Spec Lib LibMat ModelLim ProofLim ModelLina.
Import ListNotations.
Open Scope nat_scope.

(** ** h is monotone in the absolute weights *)
Lemma mpow_nonneg : forall d A k, (forall i j, i < d -> j < d -> (0 <= A i j)%Qc) -> forall i j, i < d -> j < d -> (0 <= mpow d A k i j)%Qc.
Proof.
  intros d A k H. induction k as [|k IH]; intros i j Hi Hj; cbn [mpow].
  - unfold midn. destruct (i =? j); discriminate.
  - unfold mmul. apply sumn_nonneg. intros l Hl. apply Qcmult_nonneg; [apply H; assumption|apply IH; assumption].
Qed.
Lemma mpow_mono : forall d A B k, (forall i j, i < d -> j < d -> (0 <= A i j)%Qc /\ (A i j <= B i j)%Qc) ->
  forall i j, i < d -> j < d -> (mpow d A k i j <= mpow d B k i j)%Qc.
Proof.
  intros d A B k H. induction k as [|k IH]; intros i j Hi Hj; cbn [mpow]; [apply Qcle_refl|].
  unfold mmul. apply sumn_le. intros l Hl. destruct (H i l Hi Hl) as [H1 H2].
  apply Qcle_trans with (A i l * mpow d B k l j)%Qc.
  - rewrite (Qcmult_comm (A i l) (mpow d A k l j)), (Qcmult_comm (A i l) (mpow d B k l j)). apply Qcmult_le_compat_r; [apply IH; assumption|exact H1].
  - apply Qcmult_le_compat_r; [exact H2|]. apply mpow_nonneg; [|exact Hl|exact Hj]. intros a b Ha Hb. eapply Qcle_trans; apply H; assumption.
Qed.
Lemma h_mono : forall d V W, 1 <= d -> (forall i j, i < d -> j < d -> (qabs (V i j) <= qabs (W i j))%Qc) -> (h_of d V <= h_of d W)%Qc.
Proof.
  intros d V W Hd H. rewrite !h_trace by exact Hd. unfold Qcminus. apply Qcplus_le_compat; [|apply Qcle_refl].
  apply sumn_le. intros i Hi. apply mpow_mono; [|exact Hi|exact Hi]. intros a b Ha Hb. unfold madd. split.
  - apply Qcplus_nonneg; [unfold midn; destruct (a =? b); discriminate|apply h_N_nonneg; assumption].
  - apply Qcplus_le_compat; [apply Qcle_refl|]. unfold h_N. unfold Qcdiv. apply Qcmult_le_compat_r; [|apply Qcinv_pos, qn_pos; exact Hd].
    rewrite <- (qabs_square (V a b)), <- (qabs_square (W a b)). apply Qcle_square; [apply qabs_nonneg|apply H; assumption].
Qed.
Lemma threshold_le : forall t W i j, (qabs (threshold t W i j) <= qabs (W i j))%Qc.
Proof. intros t W i j. unfold threshold. destruct (qltb (qabs (W i j)) t); [|apply Qcle_refl]. replace (qabs 0) with 0%Qc by reflexivity. apply qabs_nonneg. Qed.

(** ** The loop *)
Lemma lina_inner_ok : forall minimize d st fuel alpha w h rho cur, (1 <= rho)%Qc -> (ls_rho_max st <= rho + qn fuel)%Qc ->
  (forall wn hn, cur = Some (wn, hn) -> (exists r, wn = minimize r alpha w) /\ hn = h_of d (adj_of d wn)) ->
  exists cur' rho', lina_inner minimize d st fuel alpha w h rho cur = Ok (cur', rho') /\ (1 <= rho')%Qc /\
    (forall wn hn, cur' = Some (wn, hn) -> (exists r, wn = minimize r alpha w) /\ hn = h_of d (adj_of d wn)) /\
    ((rho < ls_rho_max st)%Qc \/ cur <> None -> cur' <> None) /\
    (cur = None -> ~ (rho < ls_rho_max st)%Qc -> cur' = None).
Proof.
  intros minimize d st fuel. induction fuel as [|fuel IH]; intros alpha w h rho cur H1 HF HC; cbn [lina_inner].
  - destruct (qltb rho (ls_rho_max st)) eqn:E; cbn [negb].
    + exfalso. apply qltb_lt in E. apply Qclt_not_le in E. apply E. replace (rho + qn 0)%Qc with rho in HF; [exact HF|].
      replace (qn 0) with 0%Qc by (apply Qc_is_canon; reflexivity). ring.
    + exists cur, rho. split; [reflexivity|]. split; [exact H1|]. split; [exact HC|]. split; [|intros; assumption].
      intros [H|H]; [|exact H]. apply qltb_lt in H. congruence.
  - destruct (qltb rho (ls_rho_max st)) eqn:E; cbn [negb].
    + set (wn := minimize rho alpha w). set (hn := h_of d (adj_of d wn)).
      assert (HS : forall wn' hn', Some (wn, hn) = Some (wn', hn') -> (exists r, wn' = minimize r alpha w) /\ hn' = h_of d (adj_of d wn')).
      { intros wn' hn' Q. injection Q as <- <-. split; [exists rho; reflexivity|reflexivity]. }
      destruct (match h with Some h0 => qltb (qf 1 4 * h0) hn | None => false end).
      * destruct (IH alpha w h (rho * qz 10)%Qc (Some (wn, hn))) as (cur' & rho' & E1 & E2 & E3 & E4 & E5).
        -- eapply Qcle_trans; [exact H1|]. eapply Qcle_trans; [|apply ten_step; exact H1]. replace rho with (rho + 0)%Qc at 1 by ring. apply Qcplus_le_compat; [apply Qcle_refl|discriminate].
        -- eapply Qcle_trans; [exact HF|]. rewrite qn_S. replace (rho + (qn fuel + 1))%Qc with ((rho + 1) + qn fuel)%Qc by ring.
           apply Qcplus_le_compat; [apply ten_step; exact H1|apply Qcle_refl].
        -- exact HS.
        -- exists cur', rho'. split; [exact E1|]. split; [exact E2|]. split; [exact E3|]. split; [intros _; apply E4; right; discriminate|].
           intros _ N. exfalso. apply N. apply qltb_lt. exact E.
      * exists (Some (wn, hn)), rho. split; [reflexivity|]. split; [exact H1|]. split; [exact HS|]. split; [discriminate|].
        intros _ N. exfalso. apply N. apply qltb_lt. exact E.
    + exists cur, rho. split; [reflexivity|]. split; [exact H1|]. split; [exact HC|]. split; [|intros; assumption].
      intros [H|H]; [|exact H]. apply qltb_lt in H. congruence.
Qed.
(** What the loop returns: the start if there is no iteration, otherwise a point found by the minimiser; and why
    it stopped. *)
Lemma lina_outer_ok : forall minimize d st iters w rho alpha h, (1 <= rho)%Qc -> (rho < ls_rho_max st)%Qc ->
  exists w' rho' left, lina_outer minimize d st iters w rho alpha h = Ok (w', rho', left) /\ left <= iters - 1 /\
    (iters = 0 -> w' = w) /\
    (1 <= iters -> (exists r a w0, w' = minimize r a w0) /\
       ((h_of d (adj_of d w') <= ls_h_tol st)%Qc \/ (ls_rho_max st <= rho')%Qc \/ left = 0)).
Proof.
  intros minimize d st. induction iters as [|iters IH]; intros w rho alpha h H1 H2; cbn [lina_outer].
  - exists w, rho, 0. split; [reflexivity|]. split; [lia|]. split; [reflexivity|]. intro H. lia.
  - destruct (lina_inner_ok minimize d st (lina_fuel st) alpha w h rho None H1) as (cur & rho' & E & R1 & HC & HN & _).
    { apply ceiling_fuel. exact H1. } { intros; discriminate. }
    rewrite E. cbn [bind]. destruct cur as [[wn hn]|]; [|exfalso; apply HN; [left; exact H2|reflexivity]].
    destruct (HC wn hn eq_refl) as [[r Hr] Hh].
    destruct (qleb hn (ls_h_tol st)) eqn:ET; cbn [orb].
    { exists wn, rho', iters. split; [reflexivity|]. split; [lia|]. split; [discriminate|]. intros _. split; [exists r, alpha, w; exact Hr|]. left. rewrite <- Hh. apply qleb_le. exact ET. }
    destruct (qleb (ls_rho_max st) rho') eqn:ER.
    { exists wn, rho', iters. split; [reflexivity|]. split; [lia|]. split; [discriminate|]. intros _. split; [exists r, alpha, w; exact Hr|]. right. left. apply qleb_le. exact ER. }
    assert (R2 : (rho' < ls_rho_max st)%Qc) by (unfold qleb in ER; apply negb_false_iff in ER; apply qltb_lt in ER; exact ER).
    destruct (IH wn rho' (alpha + rho' * hn)%Qc (Some hn) R1 R2) as (w' & rho2 & left & E' & L & Z & P).
    exists w', rho2, left. split; [exact E'|]. split; [lia|]. split; [discriminate|]. intros _. destruct iters as [|iters].
    + rewrite (Z eq_refl). split; [exists r, alpha, w; exact Hr|]. right. right. lia.
    + apply P. lia.
Qed.
Lemma lina_no_run : forall minimize d st iters w alpha h, ~ (1 < ls_rho_max st)%Qc ->
  lina_outer minimize d st (S iters) w 1%Qc alpha h = Err TypeError.
Proof.
  intros minimize d st iters w alpha h H. cbn [lina_outer].
  destruct (lina_inner_ok minimize d st (lina_fuel st) alpha w h 1%Qc None (Qcle_refl 1)) as (cur & rho' & E & _ & _ & _ & HN).
  { apply ceiling_fuel, Qcle_refl. } { intros; discriminate. }
  rewrite E. cbn [bind]. rewrite (HN eq_refl H). reflexivity.
Qed.

(** ** Scores *)
Lemma factors_of_ok : forall scale row js, (forall j, In j js -> row j < a_rows scale /\ j < a_cols scale) ->
  factors_of scale row js = Ok (map (fun j => a_at scale (row j) j) js).
Proof.
  intros scale row js. induction js as [|j js IH]; intro H; [reflexivity|]. cbn [factors_of map]. unfold get2.
  destruct (H j (or_introl eq_refl)) as [H1 H2]. apply Nat.ltb_lt in H1. apply Nat.ltb_lt in H2. rewrite H1, H2. cbn [andb bind]. rewrite IH; [reflexivity|]. intros k I. apply H. right. exact I.
Qed.
Lemma factors_of_err : forall scale row js j, In j js -> ~ (row j < a_rows scale /\ j < a_cols scale) -> factors_of scale row js = Err IndexError.
Proof.
  intros scale row js j I N. induction js as [|k js IH]; [contradiction|]. cbn [factors_of]. unfold get2.
  destruct (Nat.ltb_spec (row k) (a_rows scale)), (Nat.ltb_spec k (a_cols scale)); cbn [andb bind]; try reflexivity.
  destruct I as [-> |I]; [exfalso; apply N; auto|]. rewrite (IH I). reflexivity.
Qed.
Lemma scaled_ok : forall L row f scale, (forall j, j < L -> row j < a_rows scale /\ j < a_cols scale) ->
  exists F, scaled L row f scale = Ok F /\ forall s j, j < L -> F s j = (f s j * a_at scale (row j) j)%Qc.
Proof.
  intros L row f scale H. unfold scaled. rewrite factors_of_ok by (intros j I; apply H; apply in_seq in I; lia). cbn [bind]. eexists. split; [reflexivity|].
  intros s j Hj. cbn beta. f_equal. rewrite (nth_indep _ 0%Qc (a_at scale (row 0) 0)) by (rewrite map_length, seq_length; exact Hj).
  rewrite (map_nth (fun j => a_at scale (row j) j)). rewrite seq_nth by exact Hj. reflexivity.
Qed.
Lemma scores_exact : forall inv p q G V F X, inv q (fun a b => sumn p (fun k => G k a * G k b))%Qc = Some V ->
  (forall a b, a < q -> b < q -> sumn q (fun c => V a c * sumn p (fun k => G k c * G k b))%Qc = midn a b) ->
  (forall s k, k < p -> X s k = sumn q (fun b => F s b * G k b)%Qc) ->
  exists f, scores inv p q G X = Some f /\ forall s a, a < q -> f s a = F s a.
Proof.
  intros inv p q G V F X E HV HX. unfold scores. rewrite E. eexists. split; [reflexivity|]. intros s a Ha. cbn beta.
  transitivity (sumn q (fun c => V a c * sumn q (fun b => F s b * sumn p (fun k => G k c * G k b)))%Qc).
  { apply sumn_ext. intros c Hc. f_equal. transitivity (sumn p (fun k => sumn q (fun b => F s b * (G k c * G k b)))%Qc).
    - apply sumn_ext. intros k Hk. rewrite (HX s k Hk), <- sumn_scal. apply sumn_ext. intros b Hb. ring.
    - rewrite sumn_swap. apply sumn_ext. intros b Hb. apply sumn_scal. }
  transitivity (sumn q (fun b => F s b * sumn q (fun c => V a c * sumn p (fun k => G k c * G k b)))%Qc).
  { transitivity (sumn q (fun c => sumn q (fun b => F s b * (V a c * sumn p (fun k => G k c * G k b))))%Qc).
    - apply sumn_ext. intros c Hc. rewrite <- sumn_scal. apply sumn_ext. intros b Hb. ring.
    - rewrite sumn_swap. apply sumn_ext. intros b Hb. apply sumn_scal. }
  transitivity (sumn q (fun b => F s b * midn a b)%Qc).
  { apply sumn_ext. intros b Hb. rewrite HV by assumption. reflexivity. }
  rewrite (sumn_single q _ a Ha).
  - unfold midn. rewrite Nat.eqb_refl. ring.
  - intros b Hb N. unfold midn. destruct (Nat.eqb_spec a b); [congruence|]. ring.
Qed.

(** ** The H step *)
Lemma h_loop_last : forall run rnd singular size tol iters k r h s0 hn, 1 <= iters ->
  exists n h0, k <= n < k + iters /\
    (h_loop run rnd singular size tol iters k r h s0 hn = Some (fst (run n h0)) \/
     h_loop run rnd singular size tol iters k r h s0 hn = Some (bump (fst (run n h0)))) /\
    (n = k + iters - 1 \/ exists s, (qabs (s - snd (run n h0)) < tol)%Qc).
Proof.
  intros run rnd singular size tol. induction iters as [|iters IH]; intros k r h s0 hn H1; [lia|]. cbn [h_loop].
  destruct (run k h) as [h1 s1] eqn:R.
  destruct (match s0 with Some s0 => qltb (qabs (s0 - s1)) tol | None => false end) eqn:T.
  { exists k, h. rewrite R. cbn [fst snd]. split; [lia|]. split; [left; reflexivity|]. right. destruct s0 as [s0|]; [|discriminate]. exists s0. apply qltb_lt. exact T. }
  assert (D : forall r' h' s' hx, hx = h1 \/ hx = bump h1 ->
    exists n h0, k <= n < k + S iters /\
    (h_loop run rnd singular size tol iters (S k) r' h' s' (Some hx) = Some (fst (run n h0)) \/
     h_loop run rnd singular size tol iters (S k) r' h' s' (Some hx) = Some (bump (fst (run n h0)))) /\
    (n = k + S iters - 1 \/ exists s, (qabs (s - snd (run n h0)) < tol)%Qc)).
  { intros r' h' s' hx HX. destruct iters as [|iters].
    - exists k, h. rewrite R. cbn [fst snd h_loop]. split; [lia|]. split; [destruct HX as [-> | ->]; auto|]. left. lia.
    - destruct (IH (S k) r' h' s' (Some hx)) as (n & h0 & N & V & X); [lia|]. exists n, h0. split; [lia|]. split; [exact V|]. destruct X as [X|X]; [left; lia|right; exact X]. }
  destruct (qltb 0 s1 && match s0 with Some s0 => qltb s1 s0 | None => true end).
  - destruct (singular h1); cbv zeta; destruct (too_large size _); apply D; auto.
  - apply D. auto.
Qed.

(** ** The alternation *)
Section Alt.
  Variable step : nat -> mat Qc -> (mat Qc * mat Qc * Qc).
  (** The rounds: [rounds t] is H, W and the likelihood of round [t] (the start for [t = 0]). *)
  Fixpoint rounds (t : nat) : mat Qc * mat Qc * Qc :=
    match t with 0 => (fun _ _ => 0%Qc, fun _ _ => 0%Qc, 0%Qc) | S t => step (S t) (snd (fst (rounds t))) end.
  Definition like (t : nat) : Qc := snd (rounds t).
  Definition is_min (P : nat -> Prop) (m : Qc) : Prop := (exists t, P t /\ m = like t) /\ forall t, P t -> (m <= like t)%Qc.
  (** Round [t] settles: the likelihood changed by less than 0.1; from round 30 on it is within 0.1 of the
      smallest value so far; from round 50 on it is below the smallest of 19 earlier rounds plus 0.1. *)
  Definition settled (t : nat) : Prop :=
    (qabs (like t - like (t - 1)) < qf 1 10)%Qc \/
    (30 <= t /\ exists m, is_min (fun s => 1 <= s <= t) m /\ (like t < m + qf 1 10)%Qc) \/
    (50 <= t /\ exists m, is_min (fun s => t - 20 <= s <= t - 2) m /\ (like t < m + qf 1 10)%Qc).

  Lemma min_of_spec : forall l acc, exists m', fold_left (fun m x => match m with None => Some x | Some y => Some (if qltb x y then x else y) end) l (Some acc) = Some m' /\
    (m' = acc \/ In m' l) /\ (m' <= acc)%Qc /\ forall x, In x l -> (m' <= x)%Qc.
  Proof.
    induction l as [|x l IH]; intro acc; cbn [fold_left].
    - exists acc. split; [reflexivity|]. split; [left; reflexivity|]. split; [apply Qcle_refl|contradiction].
    - destruct (IH (if qltb x acc then x else acc)) as (m & E & I & A & B). exists m. split; [exact E|].
      destruct (qltb x acc) eqn:Q.
      + apply qltb_lt in Q. split; [destruct I as [-> |I]; [right; left; reflexivity|right; right; exact I]|]. split; [eapply Qcle_trans; [exact A|apply Qclt_le_weak; exact Q]|]. intros y [<-|H]; [exact A|apply B; exact H].
      + apply qltb_nlt in Q. split; [destruct I as [-> |I]; [left; reflexivity|right; right; exact I]|]. split; [exact A|]. intros y [<-|H]; [eapply Qcle_trans; eassumption|apply B; exact H].
  Qed.
  Lemma min_of_map : forall hist a n, 1 <= n -> exists m, min_of (map hist (seq a n)) = Some m /\
    (exists t, a <= t < a + n /\ m = hist t) /\ forall t, a <= t < a + n -> (m <= hist t)%Qc.
  Proof.
    intros hist a n H. destruct n as [|n]; [lia|]. unfold min_of. cbn [seq map fold_left].
    destruct (min_of_spec (map hist (seq (S a) n)) (hist a)) as (m & E & I & A & B). exists m. split; [exact E|]. split.
    - destruct I as [-> |I]; [exists a; split; [lia|reflexivity]|]. apply in_map_iff in I. destruct I as (t & <- & I). apply in_seq in I. exists t. split; [lia|reflexivity].
    - intros t H1. destruct (Nat.eq_dec t a) as [-> |N]; [exact A|]. apply B. apply in_map. apply in_seq. lia.
  Qed.
  Lemma abs_lt : forall x y, (qabs (x - y) < qf 1 10)%Qc -> (x < y + qf 1 10)%Qc.
  Proof.
    intros x y H. apply Qclt_minus_iff. replace (y + qf 1 10 + - x)%Qc with (qf 1 10 + - (x - y))%Qc by ring. apply (proj1 (Qclt_minus_iff _ _)).
    eapply Qcle_lt_trans; [|exact H]. unfold qabs. destruct (qltb (x - y) 0) eqn:E; [|apply Qcle_refl]. apply qltb_lt in E. apply Qclt_le_weak. apply Qclt_trans with 0%Qc; [exact E|].
    apply (proj1 (Qclt_minus_iff _ _)) in E. replace (0 + - (x - y))%Qc with (- (x - y))%Qc in E by ring. exact E.
  Qed.
  Lemma abs_close : forall x y, (y <= x)%Qc -> (x < y + qf 1 10)%Qc -> (qabs (x - y) < qf 1 10)%Qc.
  Proof.
    intros x y H H1. unfold qabs. assert (P : (0 <= x - y)%Qc) by (apply (proj1 (Qcle_minus_iff _ _)); exact H).
    assert (E : qltb (x - y) 0 = false) by (apply qltb_nlt; exact P). rewrite E.
    apply Qclt_minus_iff. replace (qf 1 10 + - (x - y))%Qc with (y + qf 1 10 + - x)%Qc by ring. apply (proj1 (Qclt_minus_iff _ _)). exact H1.
  Qed.
  Lemma tenth : forall y, (y < y + qf 1 10)%Qc.
  Proof. intro y. apply Qclt_minus_iff. replace (y + qf 1 10 + - y)%Qc with (qf 1 10) by ring. reflexivity. Qed.
  Lemma stop_settled : forall t hist m, 1 <= t -> (forall s, s <= t -> hist s = like s) ->
    is_min (fun s => 1 <= s <= t) m -> (stop_test t hist (Some m) = true <-> settled t).
  Proof.
    intros t hist m Ht HH HM. unfold stop_test. cbv zeta.
    destruct (min_of_map hist (t - 20) 19) as (r & Er & (tr & Tr & Vr) & Br); [lia|]. rewrite Er. cbn [near at_most].
    rewrite !orb_true_iff, !andb_true_iff, !Nat.leb_le, !qltb_lt, !qleb_le, !HH by lia.
    assert (ML : (m <= like t)%Qc) by (apply HM; lia).
    assert (IR : 50 <= t -> is_min (fun s => t - 20 <= s <= t - 2) r).
    { intro H5. split; [exists tr; split; [lia|rewrite Vr; apply HH; lia]|]. intros s Hs. rewrite <- HH by lia. apply Br. lia. }
    assert (UM : forall P a b, is_min P a -> is_min P b -> a = b).
    { intros P a b [(s & Ps & ->) A] [(u & Pu & ->) B]. apply Qcle_antisym; auto. }
    split.
    - intros [[[[H|[H1 H2]]|[H1 H2]]|[H1 H2]]|[H1 H2]].
      + left. exact H.
      + right. left. split; [exact H1|]. exists m. split; [exact HM|apply abs_lt; exact H2].
      + right. left. split; [exact H1|]. exists m. split; [exact HM|]. eapply Qcle_lt_trans; [exact H2|apply tenth].
      + right. right. split; [exact H1|]. exists r. split; [apply IR; exact H1|apply abs_lt; exact H2].
      + right. right. split; [exact H1|]. exists r. split; [apply IR; exact H1|]. eapply Qcle_lt_trans; [exact H2|apply tenth].
    - intros [H|[(H1 & m' & M' & H2)|(H1 & m' & M' & H2)]].
      + left. left. left. left. exact H.
      + left. left. left. right. split; [exact H1|]. rewrite (UM _ _ _ M' HM) in H2. apply abs_close; assumption.
      + rewrite (UM _ _ _ M' (IR H1)) in H2. destruct (Qclt_le_dec (like t) r) as [Q|Q].
        * right. split; [exact H1|apply Qclt_le_weak; exact Q].
        * left. right. split; [exact H1|]. apply abs_close; assumption.
  Qed.
  Lemma alternate_spec : forall fuel t W0 H0 hist m, rounds t = (H0, W0, like t) -> (forall s, s <= t -> hist s = like s) ->
    (t = 0 /\ m = None \/ 1 <= t /\ exists v, m = Some v /\ is_min (fun s => 1 <= s <= t) v) ->
    (forall s, 1 <= s <= t -> ~ settled s) ->
    match alternate step fuel t W0 H0 hist m with
    | Ok (k, hw, hw0) => t < k <= t + fuel /\ settled k /\ (forall s, 1 <= s < k -> ~ settled s) /\ hw = fst (rounds k) /\ hw0 = fst (rounds (k - 1))
    | Err e => e = IndexError /\ forall s, 1 <= s <= t + fuel -> ~ settled s
    end.
  Proof.
    induction fuel as [|fuel IH]; intros t W0 H0 hist m R HH HM NS; cbn [alternate].
    - split; [reflexivity|]. intros s Hs. apply NS. lia.
    - destruct (step (S t) W0) as [[H W] l] eqn:E.
      assert (R' : rounds (S t) = (H, W, l)) by (cbn [rounds]; rewrite R; exact E).
      assert (L : like (S t) = l) by (unfold like; rewrite R'; reflexivity).
      set (m' := if at_most l m then Some l else m).
      assert (HH' : forall s, s <= S t -> upd hist (S t) l s = like s).
      { intros s Hs. unfold upd. destruct (Nat.eqb_spec s (S t)) as [-> |N]; [symmetry; exact L|apply HH; lia]. }
      assert (M' : exists v, m' = Some v /\ is_min (fun s => 1 <= s <= S t) v).
      { destruct HM as [[-> ->]|(T1 & v & -> & (u & Pu & Eu) & B)].
        - exists l. split; [reflexivity|]. split; [exists 1; split; [lia|symmetry; exact L]|]. intros s Hs. assert (s = 1) by lia. subst s. rewrite L. apply Qcle_refl.
        - unfold m'. cbn [at_most]. destruct (qleb l v) eqn:Q.
          + apply qleb_le in Q. exists l. split; [reflexivity|]. split; [exists (S t); split; [lia|symmetry; exact L]|]. intros s Hs.
            destruct (Nat.eq_dec s (S t)) as [-> |N]; [rewrite L; apply Qcle_refl|]. eapply Qcle_trans; [exact Q|]. apply B. lia.
          + unfold qleb in Q. apply negb_false_iff, qltb_lt, Qclt_le_weak in Q. exists v. split; [reflexivity|]. split; [exists u; split; [lia|exact Eu]|]. intros s Hs.
            destruct (Nat.eq_dec s (S t)) as [-> |N]; [rewrite L; exact Q|]. apply B. lia. }
      destruct M' as (v & Ev & Mv). rewrite Ev. pose proof (stop_settled (S t) (upd hist (S t) l) v (le_n_S _ _ (Nat.le_0_l t)) HH' Mv) as ST.
      destruct (stop_test (S t) (upd hist (S t) l) (Some v)).
      + split; [lia|]. split; [apply ST; reflexivity|]. split; [intros s Hs; apply NS; lia|]. rewrite R'. split; [reflexivity|]. replace (S t - 1) with t by lia. rewrite R. reflexivity.
      + assert (NS' : forall s, 1 <= s <= S t -> ~ settled s).
        { intros s Hs. destruct (Nat.eq_dec s (S t)) as [-> |N]; [intro Q; apply ST in Q; discriminate|apply NS; lia]. }
        specialize (IH (S t) W H (upd hist (S t) l) (Some v)). rewrite L in IH. specialize (IH R' HH').
        assert (C : S t = 0 /\ Some v = None \/ 1 <= S t /\ exists v0, Some v = Some v0 /\ is_min (fun s => 1 <= s <= S t) v0) by (right; split; [lia|]; exists v; auto).
        specialize (IH C NS'). destruct (alternate step fuel (S t) W H (upd hist (S t) l) (Some v)) as [[[k hw] hw0]|e].
        * destruct IH as (I1 & I2 & I3 & I4 & I5). split; [lia|]. auto.
        * destruct IH as (I1 & I2). split; [exact I1|]. intros s Hs. apply I2. lia.
  Qed.
  Lemma alternation_spec :
    match alternation step with
    | Ok (k, hw, hw0) => 1 <= k < 100 * 100 /\ settled k /\ (forall s, 1 <= s < k -> ~ settled s) /\ hw = fst (rounds k) /\ hw0 = fst (rounds (k - 1))
    | Err e => e = IndexError /\ forall s, 1 <= s < 100 * 100 -> ~ settled s
    end.
  Proof.
    unfold alternation. pose proof (alternate_spec (100 * 100 - 1) 0 (fun _ _ => 0%Qc) (fun _ _ => 0%Qc) (fun _ => 0%Qc) None eq_refl) as A.
    assert (H1 : forall s, s <= 0 -> 0%Qc = like s) by (intros s Hs; assert (s = 0) by lia; subst s; reflexivity). specialize (A H1).
    assert (H2 : 0 = 0 /\ (None : option Qc) = None \/ 1 <= 0 /\ exists v, (None : option Qc) = Some v /\ is_min (fun s => 1 <= s <= 0) v) by (left; auto).
    specialize (A H2). assert (H3 : forall s, 1 <= s <= 0 -> ~ settled s) by (intros; lia). specialize (A H3).
    destruct (alternate step (100 * 100 - 1) 0 _ _ _ None) as [[[k hw] hw0]|e].
    - destruct A as (A1 & A2). split; [lia|exact A2].
    - destruct A as (A1 & A2). split; [exact A1|]. intros s Hs. apply A2. lia.
  Qed.
End Alt.

(** ** The relabelling *)
(** The pairs (row, column) taken one after the other: each has the largest weight among the rows and columns
    that are left, the first one in row-major order among equals. *)
Fixpoint best_first (B : mat Qc) (rows cols : list nat) (ps : list (nat * nat)) : Prop :=
  match ps with
  | [] => True
  | (r, c) :: ps =>
      In r rows /\ In c cols /\
      (forall a b, In a rows -> In b cols -> (B a b <= B r c)%Qc /\ (B a b = B r c -> r < a \/ (r = a /\ c <= b))) /\
      best_first B (remove_nat r rows) (remove_nat c cols) ps
  end.
Definition before (x y : nat * nat) : Prop := fst x < fst y \/ (fst x = fst y /\ snd x < snd y).
Lemma before_trans : forall x y z, before x y -> before y z -> before x z.
Proof. intros [a b] [c d] [e f]. unfold before. cbn. lia. Qed.
(** The scan keeps the first maximum of a list sorted by [before]. *)
Lemma scan_max : forall (B : mat Qc) cs c, (forall x, In x cs -> before c x) -> (forall a b l1 l2 l3, cs = l1 ++ a :: l2 ++ b :: l3 -> before a b) ->
  let m := fold_left (fun b x => if qltb (B (fst b) (snd b)) (B (fst x) (snd x)) then x else b) cs c in
  In m (c :: cs) /\ forall x, In x (c :: cs) -> (B (fst x) (snd x) <= B (fst m) (snd m))%Qc /\ (B (fst x) (snd x) = B (fst m) (snd m) -> x = m \/ before m x).
Proof.
  intros B cs. induction cs as [|y cs IH]; intros c HB HS; cbn [fold_left].
  - split; [left; reflexivity|]. intros x [<-|[]]. split; [apply Qcle_refl|auto].
  - cbv zeta in *. assert (S2 : forall a b l1 l2 l3, cs = l1 ++ a :: l2 ++ b :: l3 -> before a b).
    { intros a b l1 l2 l3 E. apply (HS a b (y :: l1) l2 l3). rewrite E. reflexivity. }
    destruct (qltb (B (fst c) (snd c)) (B (fst y) (snd y))) eqn:Q.
    + apply qltb_lt in Q. destruct (IH y) as [I M].
      * intros x Hx. apply in_split in Hx. destruct Hx as (l1 & l2 & ->). apply (HS y x [] l1 l2). reflexivity.
      * exact S2.
      * set (m := fold_left _ cs y) in *. split; [right; exact I|]. intros x [<-|Hx]; [|apply M; exact Hx].
        destruct (M y (or_introl eq_refl)) as [M1 _]. split; [apply Qclt_le_weak; eapply Qclt_le_trans; eassumption|].
        intro E. exfalso. rewrite E in Q. exact (Qclt_not_le _ _ Q M1).
    + apply qltb_nlt in Q. destruct (IH c) as [I M].
      * intros x Hx. apply HB. right. exact Hx.
      * exact S2.
      * set (m := fold_left _ cs c) in *. split; [destruct I as [I|I]; [left; exact I|right; right; exact I]|].
        intros x [<-|[<-|Hx]]; [apply M; left; reflexivity| |apply M; right; exact Hx].
        destruct (M c (or_introl eq_refl)) as [M1 M2]. split; [eapply Qcle_trans; eassumption|]. intro E.
        assert (EC : B (fst c) (snd c) = B (fst m) (snd m)) by (apply Qcle_antisym; [exact M1|rewrite <- E; exact Q]).
        destruct (M2 EC) as [<-|BM]; [right; apply HB; left; reflexivity|right; eapply before_trans; [exact BM|apply HB; left; reflexivity]].
Qed.
(** Sorted: every element is before all later ones. *)
Fixpoint sorted_before (l : list (nat * nat)) : Prop :=
  match l with [] => True | x :: l => (forall y, In y l -> before x y) /\ sorted_before l end.
Lemma sorted_before_app : forall l l', sorted_before l -> sorted_before l' -> (forall x y, In x l -> In y l' -> before x y) -> sorted_before (l ++ l').
Proof.
  induction l as [|x l IH]; intros l' H H' HB; [exact H'|]. destruct H as [H1 H2]. cbn. split.
  - intros y Hy. apply in_app_or in Hy. destruct Hy as [Hy|Hy]; [apply H1; exact Hy|apply HB; [left; reflexivity|exact Hy]].
  - apply IH; [exact H2|exact H'|]. intros a b Ha Hb. apply HB; [right; exact Ha|exact Hb].
Qed.
Lemma row_sorted : forall i n s, sorted_before (map (fun y => (i, y)) (seq s n)).
Proof.
  intros i n. induction n as [|n IH]; intro s; [exact I|]. cbn. split; [|apply IH].
  intros y Hy. apply in_map_iff in Hy. destruct Hy as (k & <- & Hk). apply in_seq in Hk. right. cbn. lia.
Qed.
Lemma cells_sorted : forall m n s, sorted_before (list_prod (seq s m) (seq 0 n)).
Proof.
  induction m as [|m IH]; intros n s; [exact I|]. cbn [seq list_prod]. apply sorted_before_app; [apply row_sorted|apply IH|].
  intros x y Hx Hy. apply in_map_iff in Hx. destruct Hx as (k & <- & _). destruct y as [a b]. apply in_prod_iff in Hy. destruct Hy as [Hy _]. apply in_seq in Hy. left. cbn. lia.
Qed.
Lemma sorted_before_pairs : forall l, sorted_before l -> forall a b l1 l2 l3, l = l1 ++ a :: l2 ++ b :: l3 -> before a b.
Proof.
  induction l as [|x l IH]; intros H a b l1 l2 l3 E; [destruct l1; discriminate|]. destruct H as [H1 H2]. destruct l1 as [|y l1]; cbn in E; injection E as -> ->.
  - apply H1. apply in_or_app. right. left. reflexivity.
  - apply (IH H2 a b l1 l2 l3). reflexivity.
Qed.
Lemma first_max_spec : forall q B, 1 <= q -> exists r c, first_max q B = Some (r, c) /\ r < q /\ c < q /\
  forall a b, a < q -> b < q -> (B a b <= B r c)%Qc /\ (B a b = B r c -> r < a \/ (r = a /\ c <= b)).
Proof.
  intros q B Hq. unfold first_max. pose proof (cells_sorted q q 0) as S. assert (IN : forall a b, In (a, b) (cells q) <-> a < q /\ b < q).
  { intros a b. unfold cells. rewrite in_prod_iff, !in_seq. lia. }
  fold (cells q) in S. destruct (cells q) as [|c0 cs] eqn:E; [exfalso; apply (proj2 (IN 0 0)); lia|].
  destruct S as [S1 S2]. pose proof (scan_max B cs c0 S1 (sorted_before_pairs cs S2)) as [I M]. set (m := fold_left _ cs c0) in *.
  destruct m as [r c]. exists r, c. split; [reflexivity|]. apply IN in I. split; [apply I|]. split; [apply I|].
  intros a b Ha Hb. destruct (M (a, b)) as [M1 M2]; [apply IN; auto|]. cbn [fst snd] in *. split; [exact M1|]. intro Q. destruct (M2 Q) as [X|X]; [injection X as -> ->; right; lia|]. unfold before in X. cbn in X. lia.
Qed.
Lemma remove_nat_In : forall x m l, In x (remove_nat m l) <-> In x l /\ x <> m.
Proof. intros x m l. unfold remove_nat. rewrite filter_In, negb_true_iff, Nat.eqb_neq. tauto. Qed.
Lemma remove_nat_perm : forall m l, NoDup l -> In m l -> Permutation l (m :: remove_nat m l).
Proof.
  intros m l N I. apply NoDup_Permutation; [exact N| |].
  - constructor; [rewrite remove_nat_In; tauto|apply NoDup_filter; exact N].
  - intro x. cbn. rewrite remove_nat_In. destruct (Nat.eq_dec x m) as [-> |Q]; [tauto|]. split; [tauto|]. intros [->|[H _]]; [congruence|exact H].
Qed.
Lemma best_first_perm : forall B ps rows cols, NoDup rows -> NoDup cols -> length ps = length rows -> length ps = length cols ->
  best_first B rows cols ps -> Permutation (map fst ps) rows /\ Permutation (map snd ps) cols.
Proof.
  intros B ps. induction ps as [|[r c] ps IH]; intros rows cols NR NC LR LC H.
  - destruct rows; [|discriminate]. destruct cols; [|discriminate]. split; constructor.
  - destruct H as (Ir & Ic & _ & H). pose proof (remove_nat_perm r rows NR Ir) as PR. pose proof (remove_nat_perm c cols NC Ic) as PC.
    destruct (IH (remove_nat r rows) (remove_nat c cols)) as [P1 P2]; [apply NoDup_filter; exact NR|apply NoDup_filter; exact NC| | |exact H|].
    + apply Permutation_length in PR. cbn in *. lia.
    + apply Permutation_length in PC. cbn in *. lia.
    + cbn [map fst snd]. split; [eapply Permutation_trans; [apply perm_skip; exact P1|apply Permutation_sym; exact PR]|eapply Permutation_trans; [apply perm_skip; exact P2|apply Permutation_sym; exact PC]].
Qed.
Lemma memb_remove : forall x m l, memb x (remove_nat m l) = memb x l && negb (x =? m).
Proof.
  intros x m l. apply eq_true_iff_eq. rewrite andb_true_iff, negb_true_iff, Nat.eqb_neq, !memb_In, remove_nat_In. reflexivity.
Qed.
Lemma assign_spec : forall q B k rows cols BB order, NoDup rows -> NoDup cols -> length rows = k -> length cols = k ->
  (forall x, In x rows -> x < q) -> (forall x, In x cols -> x < q) ->
  (forall a b, a < q -> b < q -> (0 < B a b)%Qc) ->
  (forall a b, a < q -> b < q -> BB a b = if memb a rows && memb b cols then B a b else 0%Qc) ->
  exists ps, length ps = k /\ best_first B rows cols ps /\ assign q k BB order = fold_left (fun o p => upd o (snd p) (fst p)) ps order.
Proof.
  intros q B. induction k as [|k IH]; intros rows cols BB order NR NC LR LC HR HC HB HBB.
  - exists []. split; [reflexivity|]. split; [exact I|reflexivity].
  - destruct rows as [|r0 rows0]; [discriminate|]. destruct cols as [|c0 cols0]; [discriminate|]. remember (r0 :: rows0) as rows. remember (c0 :: cols0) as cols.
    assert (R0 : In r0 rows) by (subst rows; left; reflexivity). assert (C0 : In c0 cols) by (subst cols; left; reflexivity). clear Heqrows Heqcols.
    assert (Hq : 1 <= q) by (specialize (HR r0 R0); lia). cbn [assign]. destruct (first_max_spec q BB Hq) as (r & c & E & Hr & Hc & M). rewrite E.
    assert (IN : In r rows /\ In c cols).
    { destruct (M r0 c0 (HR r0 R0) (HC c0 C0)) as [M1 _]. rewrite (HBB r0 c0 (HR r0 R0) (HC c0 C0)) in M1.
      apply memb_In in R0. apply memb_In in C0. rewrite R0, C0 in M1. cbn [andb] in M1. rewrite (HBB r c Hr Hc) in M1.
      destruct (memb r rows) eqn:X, (memb c cols) eqn:Y; cbn [andb] in M1; try (exfalso; apply memb_In in R0; apply memb_In in C0; eapply Qclt_not_le; [apply (HB r0 c0); [apply HR; exact R0|apply HC; exact C0]|exact M1]).
      split; apply memb_In; assumption. }
    destruct IN as [Ir Ic].
    destruct (IH (remove_nat r rows) (remove_nat c cols) (fun a b => if (a =? r) || (b =? c) then 0%Qc else BB a b) (upd order c r)) as (ps & L & G & A).
    + apply NoDup_filter. exact NR.
    + apply NoDup_filter. exact NC.
    + pose proof (Permutation_length (remove_nat_perm r rows NR Ir)) as P. cbn in P. lia.
    + pose proof (Permutation_length (remove_nat_perm c cols NC Ic)) as P. cbn in P. lia.
    + intros x Hx. apply remove_nat_In in Hx. apply HR, Hx.
    + intros x Hx. apply remove_nat_In in Hx. apply HC, Hx.
    + exact HB.
    + intros a b Ha Hb. rewrite !memb_remove, (HBB a b Ha Hb). destruct (a =? r), (b =? c), (memb a rows), (memb b cols); reflexivity.
    + exists ((r, c) :: ps). split; [cbn; lia|]. split; [|exact A]. cbn [best_first]. split; [exact Ir|]. split; [exact Ic|]. split; [|exact G].
      intros a b Ia Ib. destruct (M a b (HR a Ia) (HC b Ib)) as [M1 M2]. rewrite (HBB a b (HR a Ia) (HC b Ib)), (HBB r c Hr Hc) in M1, M2.
      apply memb_In in Ia. apply memb_In in Ib. apply memb_In in Ir. apply memb_In in Ic. rewrite Ia, Ib, Ir, Ic in M1, M2. split; assumption.
Qed.
Lemma fold_upd_other : forall (ps : list (nat * nat)) (order : nat -> nat) c, ~ In c (map snd ps) -> fold_left (fun o p => upd o (snd p) (fst p)) ps order c = order c.
Proof.
  induction ps as [|[r c'] ps IH]; intros order c H; [reflexivity|]. cbn [fold_left]. cbn [map snd] in H. rewrite IH by (intro Q; apply H; right; exact Q).
  cbn [fst snd]. unfold upd. destruct (Nat.eqb_spec c c') as [-> |N]; [exfalso; apply H; left; reflexivity|reflexivity].
Qed.
Lemma fold_upd_in : forall (ps : list (nat * nat)) (order : nat -> nat) r c, NoDup (map snd ps) -> In (r, c) ps -> fold_left (fun o p => upd o (snd p) (fst p)) ps order c = r.
Proof.
  induction ps as [|[r' c'] ps IH]; intros order r c N I; [contradiction|]. cbn [fold_left fst snd]. cbn [map snd] in N. apply NoDup_cons_iff in N. destruct N as [N1 N2].
  destruct I as [I|I]; [|apply IH; assumption]. injection I as -> ->. rewrite fold_upd_other by exact N1. unfold upd. rewrite Nat.eqb_refl. reflexivity.
Qed.
Lemma single_list : forall (l : list nat) c, NoDup l -> (forall x, In x l <-> x = c) -> l = [c].
Proof.
  intros l c N H. destruct l as [|x l]; [exfalso; apply (proj2 (H c) eq_refl)|]. assert (x = c) by (apply H; left; reflexivity). subst x. f_equal.
  destruct l as [|y l]; [reflexivity|]. exfalso. assert (y = c) by (apply H; right; left; reflexivity). subst y. apply NoDup_cons_iff in N. apply (proj1 N). left. reflexivity.
Qed.
Lemma places_ok : forall q order (pi : nat -> nat) is, (forall i, In i is -> place q order i = Ok (pi i)) -> places q order is = Ok (map pi is).
Proof.
  intros q order pi is. induction is as [|i is IH]; intro H; [reflexivity|]. cbn [places map]. rewrite (H i (or_introl eq_refl)). cbn [bind]. rewrite IH; [reflexivity|]. intros j J. apply H. right. exact J.
Qed.
(** The weights the factors are matched by. *)
Definition match_weight (q : nat) (H : mat Qc) : mat Qc := fun j i =>
  let w a := (qabs (H a i) + qabs (H (a + q)%nat i))%Qc in
  if existsb (fun a => qeqb (w a) 0) (seq 0 q) then (w j + qf 1 100)%Qc else w j.
Lemma qabs_abs : forall x, qabs (qabs x) = qabs x.
Proof. intro x. unfold qabs at 1. assert (E : qltb (qabs x) 0 = false) by (apply qltb_nlt, qabs_nonneg). rewrite E. reflexivity. Qed.
Lemma existsb_ext_in' : forall (f g : nat -> bool) l, (forall x, In x l -> f x = g x) -> existsb f l = existsb g l.
Proof. intros f g l H. induction l as [|x l IH]; [reflexivity|]. cbn. rewrite (H x (or_introl eq_refl)), IH; [reflexivity|]. intros y Hy. apply H. right. exact Hy. Qed.
Lemma lift_weights : forall q H j i, lift_zeros q (fun j i => qabs (qabs (H j i)) + qabs (qabs (H (j + q)%nat i)))%Qc j i = match_weight q H j i.
Proof.
  intros q H j i. unfold lift_zeros, match_weight. cbv zeta. rewrite !qabs_abs.
  rewrite (existsb_ext_in' _ (fun a => qeqb (qabs (H a i) + qabs (H (a + q)%nat i)) 0)); [reflexivity|]. intros x _. rewrite !qabs_abs. reflexivity.
Qed.
Lemma match_weight_pos : forall q H j i, j < q -> (0 < match_weight q H j i)%Qc.
Proof.
  intros q H j i Hj. unfold match_weight. cbv zeta. assert (N : forall a, (0 <= qabs (H a i) + qabs (H (a + q)%nat i))%Qc) by (intro a; apply Qcplus_nonneg; apply qabs_nonneg).
  destruct (existsb _ _) eqn:E.
  - eapply Qclt_le_trans; [|apply Qcplus_le_compat; [apply N|apply Qcle_refl]]. reflexivity.
  - destruct (Qcle_lt_or_eq _ _ (N j)) as [P|P]; [exact P|]. exfalso. assert (X : existsb (fun a => qeqb (qabs (H a i) + qabs (H (a + q)%nat i)) 0) (seq 0 q) = true).
    { apply existsb_exists. exists j. split; [apply in_seq; lia|]. rewrite <- P. reflexivity. } congruence.
Qed.
Lemma relabel_ok : forall q rows H W, 2 * q <= rows -> exists ps (pi : nat -> nat) Wn,
  length ps = q /\ best_first (match_weight q H) (seq 0 q) (seq 0 q) ps /\
  (forall i, i < q -> In (i, pi i) ps /\ pi i < q) /\ Permutation (map pi (seq 0 q)) (seq 0 q) /\
  relabel q rows H W = Ok Wn /\ forall i j, i < q -> j < q -> Wn i j = W (pi i) (pi j).
Proof.
  intros q rows H W HR. unfold relabel, weights. destruct (Nat.ltb_spec rows (2 * q)) as [L|L]; [lia|]. rewrite andb_false_r. cbn [bind].
  set (BB := lift_zeros q _).
  destruct (assign_spec q (match_weight q H) q (seq 0 q) (seq 0 q) BB (fun _ => 0) (seq_NoDup _ _) (seq_NoDup _ _) (seq_length _ _) (seq_length _ _)) as (ps & L1 & BF & A).
  { intros x I. apply in_seq in I. lia. } { intros x I. apply in_seq in I. lia. }
  { intros a b Ha _. apply match_weight_pos. exact Ha. }
  { intros a b Ha Hb. unfold BB. rewrite lift_weights. assert (M : forall x, x < q -> memb x (seq 0 q) = true) by (intros x Hx; apply memb_In, in_seq; lia). rewrite (M a Ha), (M b Hb). reflexivity. }
  destruct (best_first_perm (match_weight q H) ps (seq 0 q) (seq 0 q) (seq_NoDup q 0) (seq_NoDup q 0)) as [P1 P2]; [rewrite seq_length; exact L1|rewrite seq_length; exact L1|exact BF|].
  set (pi := fun i => match find (fun p => fst p =? i) ps with Some p => snd p | None => 0 end).
  assert (HP : forall i, i < q -> In (i, pi i) ps).
  { intros i Hi. unfold pi. destruct (find (fun p => fst p =? i) ps) as [[r c]|] eqn:F.
    - apply find_some in F. destruct F as [F1 F2]. cbn in F2. apply Nat.eqb_eq in F2. subst r. exact F1.
    - exfalso. assert (I : In i (map fst ps)) by (eapply Permutation_in; [apply Permutation_sym; exact P1|apply in_seq; lia]).
      apply in_map_iff in I. destruct I as ([r c] & <- & I). pose proof (find_none _ _ F _ I) as Q. cbn in Q. rewrite Nat.eqb_refl in Q. discriminate. }
  clearbody pi.
  assert (HL : forall i, i < q -> pi i < q).
  { intros i Hi. specialize (HP i Hi). apply (in_map snd) in HP. cbn in HP. eapply Permutation_in in HP; [|exact P2]. apply in_seq in HP. lia. }
  assert (NF : NoDup (map fst ps)) by (eapply Permutation_NoDup; [apply Permutation_sym; exact P1|apply seq_NoDup]).
  assert (NS : NoDup (map snd ps)) by (eapply Permutation_NoDup; [apply Permutation_sym; exact P2|apply seq_NoDup]).
  assert (INJ : forall i j, i < q -> j < q -> pi i = pi j -> i = j).
  { intros i j Hi Hj E. pose proof (HP i Hi) as A1. pose proof (HP j Hj) as A2. rewrite E in A1.
    pose proof (fold_upd_in ps (fun _ => 0) i (pi j) NS A1) as Q1. pose proof (fold_upd_in ps (fun _ => 0) j (pi j) NS A2) as Q2. congruence. }
  assert (PL : places q (assign q q BB (fun _ => 0)) (seq 0 q) = Ok (map pi (seq 0 q))).
  { apply places_ok. intros i I. apply in_seq in I. unfold place. rewrite (single_list (filter _ (seq 0 q)) (pi i)); [reflexivity|apply NoDup_filter, seq_NoDup|].
    intro x. rewrite filter_In, in_seq, Nat.eqb_eq, A. split.
    - intros [Hx E]. assert (I2 : In x (map snd ps)) by (eapply Permutation_in; [apply Permutation_sym; exact P2|apply in_seq; lia]).
      apply in_map_iff in I2. destruct I2 as ([r c] & <- & I2). cbn [snd] in *. rewrite (fold_upd_in ps _ r c NS I2) in E. subst r.
      assert (Hi : i < q) by lia. pose proof (HP i Hi) as A1. clear - NF A1 I2. induction ps as [|p ps IH]; [contradiction|]. cbn in NF. apply NoDup_cons_iff in NF. destruct NF as [N1 N2].
      destruct A1 as [-> |A1], I2 as [I2|I2].
      + injection I2 as ->. reflexivity.
      + exfalso. apply N1. apply (in_map fst) in I2. exact I2.
      + exfalso. subst p. apply N1. apply (in_map fst) in A1. exact A1.
      + apply IH; assumption.
    - intros ->. assert (Hi : i < q) by lia. split; [specialize (HL i Hi); lia|]. apply fold_upd_in; [exact NS|apply HP; exact Hi]. }
  exists ps, pi. rewrite PL. cbn [bind]. eexists. split; [exact L1|]. split; [exact BF|]. split; [intros i Hi; split; [apply HP; exact Hi|apply HL; exact Hi]|]. split; [|split; [reflexivity|]].
  - apply NoDup_Permutation_bis.
    + clear - INJ. assert (G : forall l, NoDup l -> (forall x, In x l -> x < q) -> NoDup (map pi l)).
      { induction l as [|x l IH]; intros N H; [constructor|]. apply NoDup_cons_iff in N. destruct N as [N1 N2]. cbn. constructor; [|apply IH; [exact N2|intros y Hy; apply H; right; exact Hy]].
        intro I. apply in_map_iff in I. destruct I as (y & E & I). apply INJ in E; [subst y; contradiction|apply H; right; exact I|apply H; left; reflexivity]. }
      apply G; [apply seq_NoDup|]. intros x I. apply in_seq in I. lia.
    + rewrite map_length. lia.
    + intros x I. apply in_map_iff in I. destruct I as (i & <- & I). apply in_seq in I. apply in_seq. specialize (HL i). lia.
  - intros i j Hi Hj. cbn beta. assert (N : forall k, k < q -> nth k (map pi (seq 0 q)) 0 = pi k).
    { intros k Hk. rewrite (nth_indep _ 0 (pi 0)) by (rewrite map_length, seq_length; exact Hk). rewrite map_nth, seq_nth by exact Hk. reflexivity. }
    rewrite (N i Hi), (N j Hj). reflexivity.
Qed.
Lemma relabel_acyclic : forall q (pi : nat -> nat) (W Wn : mat Qc), (forall i, i < q -> pi i < q) -> (forall i j, i < q -> j < q -> Wn i j = W (pi i) (pi j)) ->
  acyclic (edge_of q W) -> acyclic (edge_of q Wn).
Proof.
  intros q pi W Wn HP HW A v C. apply (A (pi v)). assert (G : forall a b, clos_trans nat (edge_of q Wn) a b -> clos_trans nat (edge_of q W) (pi a) (pi b)).
  { intros a b T. induction T as [a b E|a b c _ IH1 _ IH2]; [|eapply t_trans; eassumption]. apply t_step. destruct E as (E1 & E2 & E3). split; [apply HP; exact E1|]. split; [apply HP; exact E2|]. rewrite <- HW by assumption. exact E3. }
  apply G. exact C.
Qed.
