(** * DirectLiNGAM on data: the adjacency matrix in other units *)
From Coq Require Import Reals Lra Lia Arith Bool List FunctionalExtensionality.
From Verif Require Import Prelude LibR SpecFcorr SpecDirectR ModelDirectR ProofDirectR ProofDirectR2 ProofDirectR3.
From Verif Require ModelDirect ProofDirect.
Import ListNotations.
Open Scope R_scope.

Lemma scale_units : forall n a t x, (0 < n)%nat -> a <> 0 -> std n x <> 0 -> scale n (in_units a t x) = in_units (a / Rabs a) 0 (scale n x).
Proof.
  intros n a t x Hn Ha Hs.
  assert (H : rel n (fun s => s) a t x (in_units a t x)) by (intros s _; reflexivity).
  pose proof (rel_mean n n _ (sd_id n) Hn a t x _ H) as M. pose proof (rel_std n n _ (sd_id n) Hn a t x _ H) as S.
  extensionality s. unfold scale. rewrite M, S. pose proof (Rabs_no_R0 a Ha) as Na.
  destruct (Req_EM_T (Rabs a * std n x) 0) as [E|E]; [apply Rmult_integral in E; tauto|].
  destruct (Req_EM_T (std n x) 0); [contradiction|]. unfold in_units. field. split; assumption.
Qed.
Lemma scale_in_units : forall n x, std n x <> 0 -> scale n x = in_units (/ std n x) (- mean n x / std n x) x.
Proof. intros n x H. extensionality s. unfold scale, in_units. destruct (Req_EM_T (std n x) 0); [contradiction|]. field. exact H. Qed.

Section Units.
Context (lr : list (nat -> R) -> (nat -> R) -> list R) (lars : list (nat -> R) -> (nat -> R) -> result (list R)).
Context (n p : nat) (X : nat -> nat -> R) (a t : nat -> R).
Context (Pn : (0 < n)%nat) (Ha : forall j, (j < p)%nat -> a j <> 0).
Context (IND : independent_columns n (map X (seq 0 p))).
Context (LRS : forall cols y, independent_columns n cols -> least_squares n cols y (lr cols y)).
Context (LL : forall cols y c, lars cols y = Ok c -> length c = length cols).
Context (LS : forall es e cols y, length es = length cols -> Forall is_sign es -> is_sign e ->
  lars (flip_columns es cols) (fun s => e * y s)
  = match lars cols y with Ok c => Ok (map (fun ec => e * fst ec * snd ec) (combine es c)) | Err x => Err x end).
Let X' : nat -> nat -> R := fun j => in_units (a j) (t j) (X j).
Let e (j : nat) : R := a j / Rabs (a j).

Lemma e_sign : forall j, (j < p)%nat -> is_sign (e j).
Proof. intros j Hj. apply sign_of. apply Ha. exact Hj. Qed.
Lemma std_nz : forall j, (j < p)%nat -> std n (X j) <> 0.
Proof.
  intros j Hj. apply independent_std; [exact Pn|]. apply (independent_sub n X (seq 0 p) [j]); [apply seq_NoDup|repeat constructor; intros []| |exact IND].
  intros k [<-|[] ]. apply in_seq. lia.
Qed.
Section Preds.
Context (ps : list nat) (target : nat) (ND : NoDup ps) (HP : forall j, In j ps -> (j < p)%nat) (HT : (target < p)%nat).
Lemma ps_incl : incl ps (seq 0 p).
Proof. intros j Hj. apply in_seq. pose proof (HP j Hj) as L. clear - L. lia. Qed.
Lemma ind_ps : independent_columns n (map X ps).
Proof. apply (independent_sub n X (seq 0 p)); [apply seq_NoDup|exact ND|exact ps_incl|exact IND]. Qed.
Lemma ind_scaled : independent_columns n (map (fun j => scale n (X j)) ps).
Proof.
  rewrite (map_ext_in _ (fun j => in_units (/ std n (X j)) (- mean n (X j) / std n (X j)) (X j))).
  - apply (independent_units n X (fun j => / std n (X j)) (fun j => - mean n (X j) / std n (X j))); [|exact ind_ps].
    intros j Hj. apply Rinv_neq_0_compat. apply std_nz. apply HP. exact Hj.
  - intros j Hj. apply scale_in_units. apply std_nz. apply HP. exact Hj.
Qed.
Lemma lr_units : forall (Y : nat -> nat -> R) c u b w y, (forall j, In j ps -> c j <> 0) -> b <> 0 -> independent_columns n (map Y ps) ->
  lr (map (fun j => in_units (c j) (u j) (Y j)) ps) (in_units b w y) = unit_coefs b c ps (lr (map Y ps) y).
Proof.
  intros Y c u b w y Hc Hb I. pose proof (independent_units n Y c u ps Hc I) as I'.
  apply (least_squares_unique n (map (fun j => in_units (c j) (u j) (Y j)) ps) (in_units b w y)); [exact I'|apply LRS; exact I'|].
  apply least_squares_units; try assumption. apply LRS. exact I.
Qed.
Lemma lr_len : forall (Y : nat -> nat -> R) y, independent_columns n (map Y ps) -> length (lr (map Y ps) y) = length ps.
Proof. intros Y y I. destruct (LRS (map Y ps) y I) as (L & _). rewrite map_length in L. exact L. Qed.

Lemma abs_unit_coefs : forall b cs, is_sign b -> length cs = length ps -> map Rabs (unit_coefs b e ps cs) = map Rabs cs.
Proof.
  intros b cs Sb L. clear ND. revert cs L HP. induction ps as [|j l IH]; intros [|c cs] L HP'; try discriminate; [reflexivity|].
  rewrite unit_coefs_cons. cbn [map]. rewrite IH; [|injection L; auto|intros; apply HP'; right; assumption]. f_equal.
  pose proof (e_sign j (HP' j (or_introl eq_refl))) as Se. rewrite Rabs_mult.
  replace (Rabs (b / e j)) with 1; [ring|]. symmetry. destruct Sb as [-> | ->], Se as [-> | ->].
  - replace (1 / 1) with 1 by field. apply Rabs_R1.
  - replace (1 / -1) with (-1) by field. rewrite Rabs_left; lra.
  - replace (-1 / 1) with (-1) by field. rewrite Rabs_left; lra.
  - replace (-1 / -1) with 1 by field. apply Rabs_R1.
Qed.
Lemma weighted_flip : forall (w : list R) (Y : nat -> nat -> R), length w = length ps ->
  map (fun wz => fun s => snd wz s * fst wz) (combine w (map (fun j => in_units (e j) 0 (Y j)) ps))
  = flip_columns (map e ps) (map (fun wz => fun s => snd wz s * fst wz) (combine w (map Y ps))).
Proof.
  intros w Y. clear ND HP. revert w. induction ps as [|j l IH]; intros [|x w] L; try discriminate; [reflexivity|].
  cbn [map combine flip_columns fst snd]. unfold flip_columns. cbn [map combine]. f_equal; [|apply IH; injection L; auto].
  cbn [fst snd]. extensionality s. unfold in_units. ring.
Qed.
Lemma sign_mask : forall b (w c : list R), is_sign b -> length w = length ps -> length c = length ps ->
  map (fun cw => Rltb 0 (Rabs (fst cw * snd cw))) (combine (map (fun ec => b * fst ec * snd ec) (combine (map e ps) c)) w)
  = map (fun cw => Rltb 0 (Rabs (fst cw * snd cw))) (combine c w).
Proof.
  intros b w c Sb. clear ND. revert w c HP. induction ps as [|j l IH]; intros [|x w] [|y c] HP' Lw Lc; try discriminate; [reflexivity|].
  cbn [map combine fst snd]. rewrite IH; [|intros; apply HP'; right; assumption|injection Lw; auto|injection Lc; auto]. f_equal.
  pose proof (e_sign j (HP' j (or_introl eq_refl))) as Se. f_equal.
  destruct Sb as [-> | ->], Se as [-> | ->]; rewrite <- (Rabs_Ropp (y * x)) || idtac.
  - rewrite Rabs_Ropp. f_equal. ring.
  - f_equal. ring.
  - f_equal. ring.
  - rewrite Rabs_Ropp. f_equal. ring.
Qed.
Lemma mask_units : lasso_mask lr lars n X' ps target = lasso_mask lr lars n X ps target.
Proof.
  unfold lasso_mask. destruct ps as [|j0 l] eqn:Eps; [reflexivity|]. rewrite <- Eps in *. cbn zeta.
  assert (Z : map (fun q => scale n (X' q)) ps = map (fun q => in_units (e q) 0 (scale n (X q))) ps).
  { apply map_ext_in. intros q Hq. apply scale_units; [exact Pn|apply Ha; apply HP; exact Hq|apply std_nz; apply HP; exact Hq]. }
  assert (T : scale n (X' target) = in_units (e target) 0 (scale n (X target))) by (apply scale_units; [exact Pn|apply Ha; exact HT|apply std_nz; exact HT]).
  rewrite Z, T. pose proof (e_sign target HT) as St.
  rewrite (lr_units (fun q => scale n (X q)) e (fun _ => 0)); [|intros q Hq; apply sign_nz, e_sign, HP, Hq|apply sign_nz; exact St|exact ind_scaled].
  pose proof (lr_len (fun q => scale n (X q)) (scale n (X target)) ind_scaled) as Len.
  set (w0 := lr (map (fun q => scale n (X q)) ps) (scale n (X target))) in *.
  rewrite (abs_unit_coefs (e target) w0 St Len).
  rewrite (weighted_flip (map Rabs w0) (fun q => scale n (X q))) by (rewrite map_length; exact Len).
  set (W := map (fun wz => fun s => snd wz s * fst wz) (combine (map Rabs w0) (map (fun q => scale n (X q)) ps))).
  assert (LW : length W = length ps) by (unfold W; rewrite map_length, combine_length, !map_length; lia).
  replace (in_units (e target) 0 (scale n (X target))) with (fun s => e target * scale n (X target) s) by (extensionality s; unfold in_units; ring).
  rewrite LS; [|rewrite map_length; congruence| |exact St].
  2:{ apply Forall_forall. intros x Hx. apply in_map_iff in Hx. destruct Hx as (q & <- & Hq). apply e_sign, HP, Hq. }
  destruct (lars W (scale n (X target))) as [c|] eqn:EL; [|reflexivity]. cbn [bind]. f_equal.
  apply sign_mask; [exact St|rewrite map_length; exact Len|]. rewrite (LL _ _ _ EL). exact LW.
Qed.
End Preds.

Lemma select_in : forall (A : Type) mask (l : list A) x, In x (select mask l) -> In x l.
Proof. induction mask as [|[|] mask IH]; intros [|y l] x H; cbn in H; try destruct H as [H|H]; try tauto; [left; exact H|right; apply IH; exact H|right; apply IH; exact H]. Qed.
Lemma select_nodup : forall (A : Type) mask (l : list A), NoDup l -> NoDup (select mask l).
Proof.
  induction mask as [|b mask IH]; intros [|y l] H; try destruct b; cbn; try constructor; inversion H; subst; auto.
  intro Q. apply select_in in Q. contradiction.
Qed.
Lemma scatter_units : forall b ps mask vals, length mask = length ps -> length vals = length (select mask ps) ->
  scatter mask (unit_coefs b a (select mask ps) vals) = unit_coefs b a ps (scatter mask vals).
Proof.
  intros b. induction ps as [|q ps IH]; intros [|[|] mask] vals Lm Lv; try discriminate; [reflexivity| |].
  - cbn [select] in *. destruct vals as [|v vals]; [discriminate|]. cbn [scatter]. rewrite !unit_coefs_cons. cbn [scatter]. f_equal.
    apply IH; [injection Lm; auto|injection Lv; auto].
  - cbn [select scatter] in *. rewrite unit_coefs_cons. f_equal; [ring|]. apply IH; [injection Lm; auto|exact Lv].
Qed.
Lemma scatter_len : forall mask vals, length (scatter mask vals) = length mask.
Proof. induction mask as [|[|] mask IH]; intro vals; cbn; [reflexivity| |]; [destruct vals; cbn; f_equal; apply IH|f_equal; apply IH]. Qed.
Lemma unit_coefs_zero : forall b ps k, length ps = k -> unit_coefs b a ps (repeat 0 k) = repeat 0 k.
Proof. intros b. induction ps as [|q ps IH]; intros k <-; [reflexivity|]. cbn [length repeat]. rewrite unit_coefs_cons, IH by reflexivity. f_equal. ring. Qed.
Lemma mask_len : forall ps target mask, NoDup ps -> (forall j, In j ps -> (j < p)%nat) -> lasso_mask lr lars n X ps target = Ok mask -> length mask = length ps.
Proof.
  intros ps target mask ND HP H. unfold lasso_mask in H. destruct ps as [|q l] eqn:E; [discriminate|]. rewrite <- E in *. cbn zeta in H.
  pose proof (lr_len ps (fun q => scale n (X q)) (scale n (X target)) (ind_scaled ps ND HP)) as Len.
  destruct (lars _ _) as [c|] eqn:EL in H; [|discriminate]. cbn [bind] in H. injection H as <-.
  pose proof (LL _ _ _ EL) as L2. rewrite map_length, combine_length, !map_length in L2. rewrite map_length, combine_length, map_length. lia.
Qed.
Lemma adaptive_units : forall ps target, NoDup ps -> (forall j, In j ps -> (j < p)%nat) -> (target < p)%nat ->
  adaptive_lasso lr lars n X' ps target
  = match adaptive_lasso lr lars n X ps target with Ok c => Ok (unit_coefs (a target) a ps c) | Err x => Err x end.
Proof.
  intros ps target ND HP HT. unfold adaptive_lasso. rewrite (mask_units ps target ND HP HT).
  destruct (lasso_mask lr lars n X ps target) as [mask|] eqn:M; [|reflexivity]. cbn [bind].
  pose proof (mask_len ps target mask ND HP M) as Lm.
  destruct (existsb (fun b => b) mask); [|rewrite unit_coefs_zero by congruence; reflexivity]. f_equal.
  assert (NS : NoDup (select mask ps)) by (apply select_nodup; exact ND).
  assert (HS : forall j, In j (select mask ps) -> (j < p)%nat) by (intros j Hj; apply HP; apply (select_in _ mask ps j Hj)).
  rewrite <- scatter_units; [|exact Lm|apply lr_len; apply ind_ps; assumption].
  f_equal. apply (lr_units (select mask ps) X a t); [intros; apply Ha; apply HS; assumption|apply Ha; exact HT|apply ind_ps; assumption].
Qed.
Lemma adaptive_len : forall ps target c, NoDup ps -> (forall j, In j ps -> (j < p)%nat) -> adaptive_lasso lr lars n X ps target = Ok c -> length c = length ps.
Proof.
  intros ps target c ND HP H. unfold adaptive_lasso in H. destruct (lasso_mask lr lars n X ps target) as [mask|] eqn:M; [|discriminate]. cbn [bind] in H.
  pose proof (mask_len ps target mask ND HP M) as Lm.
  destruct (existsb _ mask); injection H as <-; [rewrite scatter_len; exact Lm|rewrite repeat_length; exact Lm].
Qed.
Definition in_units_matrix (B B' : rmat) : Prop := forall i j, B' i j = a i / a j * B i j.
Lemma write_units : forall target ps c B B', length c = length ps -> in_units_matrix B B' ->
  in_units_matrix (write_coefs target ps c B) (write_coefs target ps (unit_coefs (a target) a ps c) B').
Proof.
  intros target. induction ps as [|q ps IH]; intros [|c cs] B B' L H; try discriminate; [exact H|].
  rewrite unit_coefs_cons. cbn [write_coefs]. apply IH; [injection L; auto|]. intros i j.
  destruct (Nat.eqb_spec i target) as [->|]; [|apply H]. destruct (Nat.eqb_spec j q) as [->|]; [|apply H]. reflexivity.
Qed.
Lemma adjacency_units : forall pk rest before B B', NoDup (before ++ rest) -> (forall j, In j (before ++ rest) -> (j < p)%nat) -> in_units_matrix B B' ->
  match adjacency_loop lr lars n X pk before rest B, adjacency_loop lr lars n X' pk before rest B' with
  | Ok C, Ok C' => in_units_matrix C C'
  | Err x, Err x' => x = x'
  | _, _ => False
  end.
Proof.
  intros pk. induction rest as [|target rest IH]; intros before B B' ND HP H; [exact H|]. cbn [adjacency_loop]. cbn zeta.
  assert (ND' : NoDup ((before ++ [target]) ++ rest)) by (rewrite <- app_assoc; exact ND).
  assert (HP' : forall j, In j ((before ++ [target]) ++ rest) -> (j < p)%nat) by (intros j Hj; apply HP; rewrite <- app_assoc in Hj; exact Hj).
  set (ps := ModelDirect.predictors_of pk target before).
  assert (NDp : NoDup ps).
  { apply NoDup_remove_1 in ND. assert (NB : NoDup before) by (clear - ND; induction before as [|x l IH]; [constructor|]; cbn in ND; inversion ND; subst; constructor; [intro Q; apply H1; apply in_or_app; left; exact Q|apply IH; assumption]).
    unfold ps, ModelDirect.predictors_of. destruct pk; [apply NoDup_filter|]; exact NB. }
  assert (HPp : forall j, In j ps -> (j < p)%nat).
  { intros j Hj. apply HP. apply in_or_app. left. unfold ps, ModelDirect.predictors_of in Hj. destruct pk; [apply filter_In in Hj; tauto|exact Hj]. }
  assert (HT : (target < p)%nat) by (apply HP; apply in_or_app; right; left; reflexivity).
  clearbody ps. destruct ps as [|q l]; [apply IH; assumption|].
  rewrite (adaptive_units (q :: l) target NDp HPp HT). destruct (adaptive_lasso lr lars n X (q :: l) target) as [c|] eqn:E; [|reflexivity]. cbn [bind].
  apply IH; [exact ND'|exact HP'|]. apply write_units; [|exact H]. apply (adaptive_len _ target); assumption.
Qed.
End Units.
