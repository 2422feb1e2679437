(** * DirectLiNGAM on a table of whole numbers *)
From Coq Require Import Reals Lra Lia Arith Bool List Permutation FunctionalExtensionality ZArith.
From Verif Require Import Prelude LibR SpecDirectR ModelDirectR ModelDirectInt ProofDirectR ProofDirectR2 ProofDirectR5 ProofDirectR6 ProofDirectR7.
From Verif Require ModelDirect ProofDirect.
Import ListNotations.
Open Scope R_scope.

(** ** Cutting off *)
Lemma int_part_eq : forall x z, IZR z <= x < IZR z + 1 -> Int_part x = z.
Proof.
  intros x z [A B]. destruct (base_Int_part x) as [C D]. apply Z.le_antisymm.
  - apply Zlt_succ_le. apply lt_IZR. unfold Z.succ. rewrite plus_IZR. lra.
  - apply Zlt_succ_le. apply lt_IZR. unfold Z.succ. rewrite plus_IZR. lra.
Qed.
Lemma trunc_small : forall x, -1 < x < 1 -> trunc x = 0.
Proof.
  intros x H. unfold trunc. destruct (Rle_dec 0 x) as [L|L].
  - rewrite (int_part_eq x 0); [reflexivity|lra].
  - rewrite (int_part_eq (- x) 0); [lra|lra].
Qed.
Lemma trunc_whole : forall z, trunc (IZR z) = IZR z.
Proof.
  intro z. unfold trunc. destruct (Rle_dec 0 (IZR z)) as [L|L].
  - rewrite (int_part_eq (IZR z) z); [reflexivity|lra].
  - rewrite (int_part_eq (- IZR z) (- z)); rewrite opp_IZR; lra.
Qed.

(** ** The loop *)
Lemma regress_out_false : forall v n U X m, regress_out_int false v n X U m = regress_out n X U m.
Proof. intros v n U. induction U as [|i U IH]; intros X m; [reflexivity|]. unfold regress_out_int, regress_out. cbn [fold_left store]. apply IH. Qed.
Lemma loop_false : forall score argsel v steps n mode po X U K,
  loop_int score argsel false v steps n mode po X U K = loop score argsel steps n mode po X U K.
Proof.
  intros score argsel v. induction steps as [|steps IH]; intros; [reflexivity|]. cbn [loop_int loop].
  destruct (search score argsel mode po X U) as [m|]; [|reflexivity]. cbn [bind]. rewrite regress_out_false. apply IH.
Qed.
Lemma regress_out_int_eq : forall whole v n U X m j, NoDup U ->
  regress_out_int whole v n X U m j = if memb j U && negb (j =? m)%nat then store whole v (residual n (X j) (X m)) else X j.
Proof.
  intros whole v n U. induction U as [|i U IH]; intros X m j ND; [reflexivity|]. inversion ND as [|? ? NI ND']; subst.
  unfold regress_out_int. cbn [fold_left]. unfold regress_out_int in IH. rewrite IH by exact ND'. clear IH.
  assert (Mi : memb i U = false) by (apply not_true_is_false; intro Q; apply existsb_exists in Q; destruct Q as (y & Hy & E); apply Nat.eqb_eq in E; subst; contradiction).
  cbn [memb existsb]. change (existsb (Nat.eqb j) U) with (memb j U).
  destruct (Nat.eqb_spec i m) as [->|D].
  - destruct (Nat.eqb_spec j m) as [->|D2]; [cbn [negb]; rewrite !andb_false_r; reflexivity|]. cbn [orb]. reflexivity.
  - unfold upd. destruct (Nat.eqb_spec j i) as [->|D2].
    + rewrite Mi. cbn [andb orb]. destruct (Nat.eqb_spec i m); [contradiction|]. reflexivity.
    + cbn [orb]. destruct (Nat.eqb_spec m i) as [->|_]; [contradiction|]. reflexivity.
Qed.
Lemma loop_int_perm : forall score argsel whole v steps n mode po X U K K', NoDup U -> length U = steps ->
  loop_int score argsel whole v steps n mode po X U K = Ok K' -> Permutation K' (K ++ U).
Proof.
  intros score argsel whole v. induction steps as [|steps IH]; intros n mode po X U K K' ND L H.
  - injection H as <-. destruct U; [|discriminate]. rewrite app_nil_r. reflexivity.
  - cbn [loop_int] in H. destruct (search score argsel mode po X U) as [m|] eqn:S; [|discriminate]. cbn [bind] in H.
    apply search_in in S. pose proof (remove_perm m U ND S) as P. apply IH in H.
    + rewrite H, <- app_assoc. apply Permutation_app_head. cbn. symmetry. exact P.
    + apply NoDup_filter. exact ND.
    + apply Permutation_length in P. cbn in P. lia.
Qed.
Lemma loop_int_prefix : forall score argsel whole v steps n mode po X U K K',
  loop_int score argsel whole v steps n mode po X U K = Ok K' -> exists L, K' = K ++ L.
Proof.
  intros score argsel whole v. induction steps as [|steps IH]; intros n mode po X U K K' H; cbn [loop_int] in H.
  - injection H as <-. exists []. rewrite app_nil_r. reflexivity.
  - destruct (search score argsel mode po X U) as [m|]; [|discriminate]. cbn [bind] in H. apply IH in H. destruct H as (L & ->).
    exists (m :: L). rewrite <- app_assoc. reflexivity.
Qed.
Lemma search_single : forall score argsel mode po X X' x, search score argsel mode po X [x] = search score argsel mode po X' [x].
Proof.
  intros. unfold search. destruct mode as [|pk|pk]; cbn [ModelDirect.search_candidate]; [reflexivity| |].
  - destruct po as [|p po]; [reflexivity|]. cbn [filter]. destruct (negb _); reflexivity.
  - cbn [filter]. replace (ModelDirect.row_sum_zero pk x (remove_nat x [x])) with true; [reflexivity|].
    unfold remove_nat. cbn [filter]. rewrite Nat.eqb_refl. reflexivity.
Qed.

(** ** A column without variance *)
Section Nan.
Context (n : nat) (Pn : (0 < n)%nat) (whole : bool) (v : R).
Lemma store_degenerate : forall c, degenerate n c -> degenerate n (store whole v c).
Proof.
  intros [x|] H; unfold store; destruct whole; cbn in *; try exact H; try exact I; apply std_zero.
  - apply std_zero in H. apply (const_var n Pn _ (trunc (mean n x))). intros s Hs. rewrite (var_zero_const n x Pn H s Hs). reflexivity.
  - apply (const_var n Pn _ v). reflexivity.
Qed.
Lemma loop_int_degenerate : forall U X K, NoDup U -> (exists c, In c U /\ degenerate n (X c)) ->
  loop_int (pwling_score n) argmax whole v (length U) n ModelDirect.NoPK [] X U K = Ok (K ++ U).
Proof.
  induction U as [|h T IH]; intros X K ND (c & Hc & Dc); [destruct Hc|]. cbn [length loop_int].
  assert (S : search (pwling_score n) argmax ModelDirect.NoPK [] X (h :: T) = Ok h).
  { destruct T as [|b T']; [reflexivity|]. apply (search_nan n Pn X [] h (b :: T')); [intros i []|].
    destruct (Nat.eq_dec c h) as [->|D].
    - exists b. split; [right; left; reflexivity|]. split; [intros ->; inversion ND; subst; apply H1; left; reflexivity|]. apply degenerate_pair'; [exact Pn|exact Dc].
    - exists c. split; [exact Hc|]. split; [exact D|]. apply degenerate_pair; [exact Pn|exact Dc]. }
  rewrite S. cbn [bind]. pose proof (remove_app h [] T ND) as E. cbn [app] in E. rewrite E.
  destruct T as [|b T']; [reflexivity|]. inversion ND as [|? ? NI ND']; subst.
  rewrite IH; [rewrite <- app_assoc; reflexivity|exact ND'|].
  assert (C : exists d, In d (b :: T') /\ nan_pair n (X d) (X h)).
  { destruct (Nat.eq_dec c h) as [->|D].
    - exists b. split; [left; reflexivity|]. apply degenerate_pair; [exact Pn|exact Dc].
    - exists c. destruct Hc as [->|Hc]; [contradiction|]. split; [exact Hc|]. apply degenerate_pair'; [exact Pn|exact Dc]. }
  destruct C as (d & Hd & Nd). exists d. split; [exact Hd|]. rewrite regress_out_int_eq by exact ND.
  rewrite (proj2 (memb_in d (h :: b :: T')) (or_intror Hd)). destruct (Nat.eqb_spec d h) as [->|_]; [contradiction|]. cbn [andb negb].
  apply store_degenerate. apply residual_degenerate; [exact Pn|exact Nd].
Qed.
End Nan.

(** ** The difference of mutual informations under changes of units and rows *)
Lemma dmi_rel : forall n n' pi x y x' y', same_distribution n n' pi -> (0 < n)%nat ->
  affine_rel n' pi (Some x) (Some x') -> affine_rel n' pi (Some y) (Some y') -> dmi n' x' y' = dmi n x y.
Proof.
  intros n n' pi x y x' y' SD Pn Hx Hy. unfold dmi.
  destruct (standardize_rel n n' pi SD Pn _ _ Hx) as (e & Se & He). destruct (standardize_rel n n' pi SD Pn _ _ Hy) as (d & Sd & Hd).
  apply (diff_sign n n' pi SD Pn e d e d); try assumption.
  - apply (residual_sign n n' pi SD Pn e d); assumption.
  - apply (residual_sign n n' pi SD Pn d e); assumption.
Qed.
Lemma dmi_symmetric : forall n pi x y, same_distribution n n pi -> (0 < n)%nat ->
  (forall s, (s < n)%nat -> y s = x (pi s)) -> (forall s, (s < n)%nat -> x s = y (pi s)) -> ~ linearly_related n x y -> dmi n x y = Some 0.
Proof.
  intros n pi x y SD Pn H1 H2 NR. destruct (dmi n x y) as [D|] eqn:E; [|exfalso; apply NR; apply dmi_none; assumption].
  assert (Q : dmi n y x = dmi n x y).
  { apply (dmi_rel n n pi); try assumption; (exists 1, 0; split; [lra|]; intros s Hs).
    - rewrite (H1 s Hs). ring.
    - rewrite (H2 s Hs). ring. }
  rewrite dmi_antisym, E in Q. cbn in Q. injection Q as Q. f_equal. lra.
Qed.
Lemma unit_std_one : forall n x, std n x = 1 -> unit_std n (Some x) = Some x.
Proof. intros n x H. cbn. rewrite H. destruct (Req_EM_T 1 0); [lra|]. f_equal. extensionality s. field. Qed.
Lemma dmi_uncorrelated : forall n x y, (0 < n)%nat -> std n x <> 0 -> std n y <> 0 -> cov n x y = 0 -> dmi n x y = Some 0.
Proof.
  intros n x y Pn Hx Hy C. unfold dmi. rewrite !standardize_none.
  destruct (Req_EM_T (std n x) 0); [contradiction|]. destruct (Req_EM_T (std n y) 0); [contradiction|].
  assert (Z : forall a b, std n a <> 0 -> std n b <> 0 -> cov n a b = 0 -> residual n (Some (zs n a)) (Some (zs n b)) = Some (zs n a)).
  { intros a b Ha Hb Cab. cbn [residual]. destruct (Req_EM_T (var n (zs n b)) 0) as [E|E].
    - exfalso. apply std_zero in E. rewrite zs_std in E by assumption. lra.
    - f_equal. extensionality s.
      assert (R1 : rel n (fun s => s) (/ std n a) (- mean n a / std n a) a (zs n a)) by (intros t _; unfold zs; field; exact Ha).
      assert (R2 : rel n (fun s => s) (/ std n b) (- mean n b / std n b) b (zs n b)) by (intros t _; unfold zs; field; exact Hb).
      rewrite (rel_cov n n _ (sd_id n) Pn _ _ _ _ _ _ _ _ R1 R2), Cab. field. tauto. }
  rewrite (Z x y), (Z y x); try assumption.
  2:{ rewrite <- C. unfold cov. apply mean_ext. intros. ring. }
  unfold diff_mutual_info. rewrite !unit_std_one by (apply zs_std; assumption). cbn. f_equal. ring.
Qed.

(** ** A table: u, (v + w) / 2 and (v + u) / 2 for all signs u, v, w *)
Definition int_u (s : nat) : R := if (s <? 4)%nat then 1 else -1.
Definition int_table (j s : nat) : R :=
  match j with
  | O => int_u s
  | 1%nat => ex_x1 (s mod 4) / 2
  | _ => (ex_x0 (s mod 4) + int_u s) / 2
  end.
Lemma mean8 : forall f, mean 8 f = (f 0%nat + f 1%nat + f 2%nat + f 3%nat + f 4%nat + f 5%nat + f 6%nat + f 7%nat) / 8.
Proof. intro f. unfold mean. cbn [rsum]. replace (INR 8) with 8 by (cbn; ring). field. Qed.
Lemma below8 : forall (P : nat -> Prop), P 0%nat -> P 1%nat -> P 2%nat -> P 3%nat -> P 4%nat -> P 5%nat -> P 6%nat -> P 7%nat -> forall s, (s < 8)%nat -> P s.
Proof. intros P P0 P1 P2 P3 P4 P5 P6 P7 s Hs. do 8 (destruct s as [|s]; [assumption|]). lia. Qed.
Lemma sd_half : same_distribution 4 8 (fun s => (s / 2)%nat).
Proof.
  split; [apply below8; cbn; lia|]. intro f. cbn [rsum]. cbn [Nat.div Nat.divmod fst]. replace (INR 8) with 8 by (cbn; ring). replace (INR 4) with 4 by (cbn; ring). field.
Qed.
Lemma sd_mod4 : same_distribution 4 8 (fun s => (s mod 4)%nat).
Proof. apply (sd_repeat 4 2); lia. Qed.
(** u and w exchanged *)
Definition exchange (s : nat) : nat := nth s [0; 4; 2; 6; 1; 5; 3; 7]%nat 0%nat.
Lemma sd_exchange : same_distribution 8 8 exchange.
Proof. split; [apply below8; cbn; lia|]. intro f. cbn [rsum exchange nth]. f_equal. ring. Qed.
Lemma table_u_x2 : exists D, 0 < D /\ dmi 8 (int_table 0) (int_table 2) = Some D.
Proof.
  destruct ex_dmi as (D & P & E). exists D. split; [exact P|]. rewrite <- E. apply (dmi_rel 4 8 (fun s => (s / 2)%nat) ex_x0 ex_x1 _ _ sd_half); [lia| |].
  - exists 1, 0. split; [lra|]. unfold rel. apply below8; cbn; lra.
  - exists (/ 2), 0. split; [lra|]. unfold rel. apply below8; cbn; lra.
Qed.
Lemma table_u_x1 : dmi 8 (int_table 0) (int_table 1) = Some 0.
Proof.
  apply dmi_uncorrelated; [lia| | |].
  - intro E. apply std_zero in E. unfold var in E. rewrite !mean8 in E. cbn in E. lra.
  - intro E. apply std_zero in E. unfold var in E. rewrite !mean8 in E. cbn in E. lra.
  - unfold cov. rewrite !mean8. cbn. lra.
Qed.
Lemma table_x1_x2 : dmi 8 (int_table 1) (int_table 2) = Some 0.
Proof.
  apply (dmi_symmetric 8 exchange _ _ sd_exchange); [lia| | |].
  - apply below8; cbn; lra.
  - apply below8; cbn; lra.
  - intros (a & b & c & D & H). pose proof (H 0%nat ltac:(lia)) as H0. pose proof (H 1%nat ltac:(lia)) as H1.
    pose proof (H 4%nat ltac:(lia)) as H4. pose proof (H 5%nat ltac:(lia)) as H5. cbn in H0, H1, H4, H5. lra.
Qed.
Lemma table_first : search (pwling_score 8) argmax ModelDirect.NoPK [] (fun j => Some (int_table j)) [0; 1; 2]%nat = Ok 0%nat.
Proof.
  destruct table_u_x2 as (D & P & E2). pose proof table_u_x1 as E1. pose proof table_x1_x2 as E3.
  unfold search. cbn [ModelDirect.search_candidate traverse]. rewrite !score_eq. cbn [fold_left Nat.eqb]. unfold pair_term.
  repeat match goal with |- context [diff_mutual_info 8 (standardize 8 (Some (int_table ?i))) (standardize 8 (Some (int_table ?j))) _ _] =>
    change (diff_mutual_info 8 (standardize 8 (Some (int_table i))) (standardize 8 (Some (int_table j))) _ _) with (dmi 8 (int_table i) (int_table j)) end.
  rewrite (dmi_antisym 8 (int_table 0) (int_table 1)), (dmi_antisym 8 (int_table 0) (int_table 2)), (dmi_antisym 8 (int_table 1) (int_table 2)), E1, E2, E3.
  cbn [oopp option_map min0_sq oadd bind argmax argbest]. unfold Rltb. rewrite (Rmin_left 0 D), (Rmin_right 0 (- D)) by lra.
  replace (- 0) with 0 by ring. rewrite (Rmin_left 0 0) by lra.
  destruct (Rlt_dec _ _) as [B|B]; [exfalso; nra|]. destruct (Rlt_dec _ _) as [B2|B2]; [exfalso; nra|]. reflexivity.
Qed.
