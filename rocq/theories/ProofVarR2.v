(** * VARLiNGAM on data: order and matrices in other units *)
From Coq Require Import Reals Lra Lia Arith Bool List FunctionalExtensionality Permutation.
From Verif Require Import Prelude LibR SpecDirectR SpecVarR ModelDirectR ProofDirectR3 ProofDirectR4 ModelVarR ProofVarR.
From Verif Require ModelDirect Lib.
Import ListNotations.
Open Scope R_scope.

(** matrices of the old and the new series, as far as the p variables go *)
Definition mats_rel (p : nat) (a : nat -> R) (Ms Ms' : list rmat) : Prop :=
  length Ms' = length Ms /\
  forall u i l, (u < length Ms)%nat -> (i < p)%nat -> (l < p)%nat -> nth u Ms' (fun _ _ => 0) i l = a i / a l * nth u Ms (fun _ _ => 0) i l.
Lemma mats_rel_cons : forall p a M M' Ms Ms', (forall i l, (i < p)%nat -> (l < p)%nat -> M' i l = a i / a l * M i l) ->
  mats_rel p a Ms Ms' -> mats_rel p a (M :: Ms) (M' :: Ms').
Proof. intros p a M M' Ms Ms' H [L R]. split; [cbn; congruence|]. intros [|u] i l Hu Hi Hl; cbn; [apply H; assumption|]. apply R; [cbn in Hu; lia|assumption|assumption]. Qed.
Lemma mats_rel_inv : forall p a M M' Ms Ms', mats_rel p a (M :: Ms) (M' :: Ms') ->
  (forall i l, (i < p)%nat -> (l < p)%nat -> M' i l = a i / a l * M i l) /\ mats_rel p a Ms Ms'.
Proof.
  intros p a M M' Ms Ms' [L R]. split; [intros i l Hi Hl; apply (R 0%nat i l); cbn; [lia|assumption|assumption]|].
  split; [injection L; auto|]. intros u i l Hu Hi Hl. apply (R (S u) i l); cbn; [lia|assumption|assumption].
Qed.

Section Var.
Context (ols : nat -> nat -> rseries -> nat -> result (list rmat)) (crit : nat -> nat -> rseries -> nat -> option R).
Context (lr : nat -> list (nat -> R) -> (nat -> R) -> list R) (lars : nat -> list (nat -> R) -> (nat -> R) -> result (list R)).
Context (N p L : nat) (X : rseries) (a : nat -> R) (Hp : (0 < p)%nat) (Ha : forall j, (j < p)%nat -> a j <> 0).
Context (VO : var_oracle ols) (CO : criterion_oracle crit).
Context (IND : forall k, (1 <= k <= L)%nat -> var_independent N p X k).
Let X' : rseries := series_in_units a X.

Lemma ols_rel : forall k, (1 <= k <= L)%nat -> exists Ms Ms', ols N p X k = Ok Ms /\ ols N p X' k = Ok Ms' /\ mats_rel p a Ms Ms' /\ length Ms = k.
Proof.
  intros k Hk. destruct (VO N p X k (IND k Hk)) as (Ms & E & LS).
  pose proof (independent_series p X a Hp Ha N k (IND k Hk)) as I'. destruct (VO N p X' k I') as (Ms' & E' & LS').
  exists Ms, Ms'. split; [exact E|]. split; [exact E'|]. pose proof (proj1 LS) as Lk. split; [|exact Lk].
  pose proof (least_units p X a Ha N k Ms LS) as LU. split; [rewrite (proj1 LS'); congruence|]. intros u i l Hu Hi Hl.
  rewrite (least_unique N p X' k (map (mat_in_units a) Ms) Ms' Hp I' LU LS') by (try assumption; lia).
  rewrite nth_mapped by exact Hu. reflexivity.
Qed.
Definition best_rel (c d : R) (best best' : option (R * list rmat)) : Prop :=
  match best, best' with
  | None, None => True
  | Some (v, Ms), Some (v', Ms') => v' = c * v + d /\ mats_rel p a Ms Ms' /\ (1 <= length Ms <= L)%nat
  | _, _ => False
  end.
Lemma select_rel : forall c d, 0 < c -> (forall k, crit N p X' k = option_map (fun v => c * v + d) (crit N p X k)) ->
  forall lags best best', (forall k, In k lags -> (1 <= k <= L)%nat) -> best_rel c d best best' ->
  exists r r', select_lag ols crit N p X lags best = Ok r /\ select_lag ols crit N p X' lags best' = Ok r' /\ best_rel c d r r'.
Proof.
  intros c d Hc HC. induction lags as [|k lags IH]; intros best best' HL B; [exists best, best'; auto|].
  destruct (ols_rel k (HL k (or_introl eq_refl))) as (Ms & Ms' & E & E' & R & Lk). cbn [select_lag]. rewrite E, E'. cbn [bind]. rewrite HC.
  apply IH; [intros; apply HL; right; assumption|].
  pose proof (HL k (or_introl eq_refl)) as Hk. assert (Lb : (1 <= length Ms <= L)%nat) by lia.
  destruct (crit N p X k) as [v|]; cbn [option_map]; [|exact B].
  destruct best as [[m Ms0]|], best' as [[m' Ms0']|]; try contradiction; [|cbn; auto].
  destruct B as (-> & B). unfold Rltb. destruct (Rlt_dec v m) as [Q|Q], (Rlt_dec (c * v + d) (c * m + d)) as [Q'|Q'].
  - cbn; auto.
  - exfalso. apply Q'. apply Rplus_lt_compat_r. apply Rmult_lt_compat_l; assumption.
  - exfalso. apply Q. apply (Rmult_lt_reg_l c); lra.
  - cbn; auto.
Qed.
Lemma estimate_rel : forall searching, (1 <= L)%nat ->
  match estimate_var_coefs ols crit searching N p L X, estimate_var_coefs ols crit searching N p L X' with
  | Ok Ms, Ok Ms' => mats_rel p a Ms Ms' /\ (1 <= length Ms <= L)%nat
  | Err x, Err x' => x' = x
  | _, _ => False
  end.
Proof.
  intros searching HL. unfold estimate_var_coefs. destruct searching.
  - destruct (CO N p X a Ha) as (c & d & Hc & HC).
    destruct (select_rel c d Hc HC (seq 1 L) None None ltac:(intros k Hk; apply in_seq in Hk; lia) I) as (r & r' & E & E' & B).
    fold X'. rewrite E, E'. cbn [bind]. destruct r as [[v Ms]|], r' as [[v' Ms']|]; try contradiction; [|reflexivity]. destruct B as (_ & B). exact B.
  - destruct (ols_rel L ltac:(lia)) as (Ms & Ms' & E & E' & R & Lk). fold X'. rewrite E, E'. split; [exact R|lia].
Qed.
Lemma calc_b_rel : forall B B' Ms Ms', in_units_matrix a B B' -> mats_rel p a Ms Ms' ->
  exists Bt Bt', calc_b p B Ms = B :: Bt /\ calc_b p B' Ms' = B' :: Bt' /\ mats_rel p a Bt Bt' /\ length Bt = length Ms.
Proof.
  intros B B' Ms Ms' HB R. unfold calc_b. eexists. eexists. split; [reflexivity|]. split; [reflexivity|]. split; [|apply map_length].
  revert Ms' R. induction Ms as [|M Ms IH]; intros [|M' Ms'] R; try (destruct R as [R _]; discriminate); [exact R|].
  apply mats_rel_inv in R. destruct R as [RM R]. cbn [map]. apply mats_rel_cons; [|apply IH; exact R]. intros i j Hi Hj.
  rewrite <- rsum_scal. apply rsum_ext. intros l Hl. rewrite HB, RM by assumption. assert (a i <> 0) by auto. assert (a j <> 0) by auto. assert (a l <> 0) by auto.
  unfold rid. destruct (Nat.eqb_spec i l) as [->|]; field; auto.
Qed.

(** ** Pruning *)
Context (RO : forall n, regression_oracle n (lr n)).
Context (LL : forall n cols y c, lars n cols y = Ok c -> length c = length cols).
Context (LS : forall n es e cols y, length es = length cols -> Forall is_sign es -> is_sign e ->
  lars n (flip_columns es cols) (fun s => e * y s)
  = match lars n cols y with Ok c => Ok (map (fun ec => e * fst ec * snd ec) (combine es c)) | Err x => Err x end).
Lemma blocks_independent : (1 <= L)%nat -> independent_columns (N - L) (map (blocks_col N p X) (seq 0 (p * S L))).
Proof.
  intros HL cs b Len H. apply (IND L ltac:(lia) cs b).
  - rewrite map_length in *. exact Len.
  - intros s Hs. rewrite <- (H (N - L - 1 - s)%nat) by lia. f_equal. clear H. rewrite map_length in Len. revert Len. generalize (seq 0 (p * S L)) as l. intros l Len.
    revert cs Len. induction l as [|c l IH]; intros [|x cs] Len; try discriminate; [reflexivity|]. cbn [map lin]. f_equal; [|apply IH; injection Len; auto].
    f_equal. unfold stacked, blocks_col. f_equal. lia.
Qed.
Lemma before_in : forall i order x, In x (before i order) -> In x order.
Proof. induction order as [|y order IH]; intros x H; [destruct H|]. cbn in H. destruct (y =? i)%nat; [destruct H|]. destruct H as [->|H]; [left; reflexivity|right; apply IH; exact H]. Qed.
Lemma before_nodup : forall i order, NoDup order -> NoDup (before i order).
Proof. induction order as [|y order IH]; intro H; [constructor|]. cbn. inversion H; subst. destruct (y =? i)%nat; [constructor|]. constructor; [intro Q; apply before_in in Q; contradiction|apply IH; assumption]. Qed.
Lemma nth_unit_coefs : forall b (a : nat -> R) ps cs q, length cs = length ps -> (q < length ps)%nat -> nth q (unit_coefs b a ps cs) 0 = b / a (nth q ps 0%nat) * nth q cs 0.
Proof. intros b a0. induction ps as [|x ps IH]; intros [|c cs] q E H; try discriminate; cbn in H; [lia|]. rewrite unit_coefs_cons. destruct q as [|q]; [reflexivity|]. cbn [nth]. apply IH; [injection E; auto|lia]. Qed.
Lemma firstn_unit_coefs : forall b (a : nat -> R) ps qs cs, length cs = length (ps ++ qs) ->
  firstn (length ps) (unit_coefs b a (ps ++ qs) cs) = unit_coefs b a ps (firstn (length ps) cs).
Proof. intros b a0. induction ps as [|x ps IH]; intros qs [|c cs] E; try discriminate; [reflexivity|reflexivity|]. cbn [app]. rewrite unit_coefs_cons. cbn [length firstn]. rewrite unit_coefs_cons. f_equal. apply IH. injection E; auto. Qed.
Lemma write_lags_rel : forall i no coef coef' Bt Bt' j, (i < p)%nat ->
  (forall q c, (q < j + length Bt)%nat -> (c < p)%nat -> nth (no + p * q + c) coef' 0 = a i / a c * nth (no + p * q + c) coef 0) ->
  mats_rel p a Bt Bt' -> mats_rel p a (write_lags p i no coef j Bt) (write_lags p i no coef' j Bt').
Proof.
  intros i no coef coef'. induction Bt as [|B Bt IH]; intros [|B' Bt'] j Hi H R; try (destruct R as [R _]; discriminate); [exact R|].
  apply mats_rel_inv in R. destruct R as [RB R]. cbn [write_lags]. apply mats_rel_cons.
  - intros r c Hr Hc. unfold write_lag. destruct (Nat.eqb_spec r i) as [->|]; [|apply RB; assumption]. destruct (Nat.ltb_spec c p); [|lia]. cbn [andb].
    apply H; [cbn; lia|exact Hc].
  - apply IH; [exact Hi| |exact R]. intros q c Hq Hc. apply H; [cbn; lia|exact Hc].
Qed.
Definition pruned_rel (Bs Bs' : list rmat) : Prop :=
  exists B Bt B' Bt', Bs = B :: Bt /\ Bs' = B' :: Bt' /\ in_units_matrix a B B' /\ mats_rel p a Bt Bt' /\ (length Bt <= L)%nat.
Lemma prune_one_rel : forall order Bs Bs' i, (1 <= L)%nat -> Permutation order (seq 0 p) -> (i < p)%nat -> pruned_rel Bs Bs' ->
  match prune_one lr lars N p L X order Bs i, prune_one lr lars N p L X' order Bs' i with
  | Ok Cs, Ok Cs' => pruned_rel Cs Cs'
  | Err x, Err x' => x' = x
  | _, _ => False
  end.
Proof.
  intros order Bs Bs' i HL PO Hi (B & Bt & B' & Bt' & -> & -> & RB & RT & HT). unfold prune_one.
  unfold blocks_rows. destruct (Nat.eqb_spec L 0) as [|_]; [lia|].
  pose proof (independent_rows N p X L Hp (IND L ltac:(lia))) as HN. destruct (Nat.eqb_spec (N - L) 0) as [|_]; [lia|].
  set (anc := before i order). set (ps := anc ++ seq p (p * L)). set (n := (N - L)%nat) in *.
  assert (HA : forall x, In x anc -> (x < p)%nat).
  { intros x Hx. apply before_in in Hx. apply (Permutation_in _ PO) in Hx. apply in_seq in Hx. lia. }
  assert (NDo : NoDup order) by (apply (Permutation_NoDup (Permutation_sym PO)), seq_NoDup).
  assert (ND : NoDup ps).
  { unfold ps. apply Lib.NoDup_app_iff'. split; [apply before_nodup; exact NDo|]. split; [apply seq_NoDup|]. intros x Hx Hy. apply HA in Hx. apply in_seq in Hy. lia. }
  assert (HPS : forall x, In x ps -> (x < p * S L)%nat).
  { intros x Hx. apply in_app_or in Hx. destruct Hx as [Hx|Hx]; [apply HA in Hx; nia|apply in_seq in Hx; nia]. }
  set (Z := blocks_col N p X). set (am := fun c => a (c mod p)%nat).
  assert (Ham : forall c, am c <> 0) by (intro c; apply Ha; apply Nat.mod_upper_bound; lia).
  assert (EZ : blocks_col N p X' = fun c => in_units (am c) 0 (Z c)).
  { extensionality c. extensionality r. unfold blocks_col, X', series_in_units, in_units, am, Z. unfold blocks_col. ring. }
  pose proof (blocks_independent HL) as IB. fold n in IB. fold Z in IB.
  rewrite EZ.
  rewrite (adaptive_units (lr n) (lars n) n (p * S L) Z am (fun _ => 0) ltac:(unfold n; lia) (fun j _ => Ham j) IB (RO n) (LL n) (LS n) ps i ND HPS ltac:(nia)).
  destruct (adaptive_lasso (lr n) (lars n) n Z ps i) as [coef|x] eqn:EA; [|reflexivity]. cbn [bind].
  assert (Lc : length coef = length ps) by (apply (adaptive_len (lr n) (lars n) n (p * S L) Z ltac:(unfold n; lia) IB (RO n) (LL n) ps i coef ND HPS EA)).
  assert (ami : forall c, (c < p)%nat -> am c = a c) by (intros c Hc; unfold am; rewrite Nat.mod_small by exact Hc; reflexivity).
  eexists. eexists. eexists. eexists. split; [reflexivity|]. split; [reflexivity|]. split; [|split].
  - unfold ps. rewrite firstn_unit_coefs by exact Lc. rewrite (ami i Hi).
    replace (unit_coefs (a i) am anc (firstn (length anc) coef)) with (unit_coefs (a i) a anc (firstn (length anc) coef)).
    + apply write_units; [|exact RB]. rewrite firstn_length. rewrite Lc. unfold ps. rewrite app_length. lia.
    + unfold unit_coefs. apply map_ext_in. intros [q v] Hq. cbn [fst snd]. apply in_combine_l in Hq. rewrite (ami q) by (apply HA; exact Hq). reflexivity.
  - apply write_lags_rel; [exact Hi| |exact RT]. intros q c Hq Hc. cbn [Nat.add] in Hq.
    assert (HQ : (p * q + c < p * L)%nat) by nia.
    rewrite nth_unit_coefs; [|exact Lc|unfold ps; rewrite app_length, seq_length; lia].
    rewrite (ami i Hi). do 2 f_equal. unfold ps. rewrite app_nth2 by lia. replace (length anc + p * q + c - length anc)%nat with (p * q + c)%nat by lia.
    rewrite seq_nth by exact HQ. unfold am. f_equal. replace (p + (p * q + c))%nat with (c + S q * p)%nat by lia. rewrite Nat.mod_add by lia. apply Nat.mod_small. exact Hc.
  - assert (WL : forall j, length (write_lags p i (length anc) coef j Bt) = length Bt) by (clear; induction Bt as [|B0 Bt IH]; intro j; [reflexivity|]; cbn; f_equal; apply IH).
    rewrite WL. exact HT.
Qed.
Lemma prune_rel : forall order, (1 <= L)%nat -> Permutation order (seq 0 p) -> forall is Bs Bs', (forall i, In i is -> (i < p)%nat) -> pruned_rel Bs Bs' ->
  match fold_left (fun acc i => let* Bs := acc in prune_one lr lars N p L X order Bs i) is (Ok Bs),
        fold_left (fun acc i => let* Bs := acc in prune_one lr lars N p L X' order Bs i) is (Ok Bs') with
  | Ok Cs, Ok Cs' => pruned_rel Cs Cs'
  | Err x, Err x' => x' = x
  | _, _ => False
  end.
Proof.
  intros order HL PO. induction is as [|i is IH]; intros Bs Bs' H R; [exact R|]. cbn [fold_left bind].
  pose proof (prune_one_rel order Bs Bs' i HL PO (H i (or_introl eq_refl)) R) as Q.
  destruct (prune_one lr lars N p L X order Bs i) as [Cs|x], (prune_one lr lars N p L X' order Bs' i) as [Cs'|x']; try contradiction.
  - apply IH; [intros; apply H; right; assumption|exact Q].
  - subst x'. assert (S : forall Y, fold_left (fun acc i => let* Bs := acc in prune_one lr lars N p L Y order Bs i) is (Err x) = Err x).
    { clear. intro Y. induction is as [|i is IH]; [reflexivity|exact IH]. }
    rewrite !S. reflexivity.
Qed.
End Var.
