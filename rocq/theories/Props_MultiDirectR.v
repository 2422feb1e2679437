(** * MultiGroupDirectLiNGAM on data: agreement between data sets, their order and units (C184, C185) *)
From Coq Require Import Reals Arith List Lia Lra Bool Permutation.
From Verif Require Import Prelude Lib LibR SpecMeasure SpecDirectR ModelDirectR ProofDirectR ProofDirectR2 ProofDirectR4 ProofDirectR5 ProofDirectR7 ProofDirectR8 ModelMultiDirectR ProofMultiDirectR SpecKernelMI Props_DirectR Props_PwlingOrder.
From Verif Require ModelDirect.
Import ListNotations.
Open Scope R_scope.

Lemma order_unfold : forall p ok mode Xs, (2 <= length Xs)%nat -> (forall d, In d Xs -> (0 < fst d)%nat) -> (0 < p)%nat ->
  group_fit_order p ok mode Xs
  = let run po := group_loop p mode po (map (fun d => (fst d, fun j => Some (snd d j))) Xs) (seq 0 p) [] in
    match mode with
    | ModelDirect.NoPK => run []
    | ModelDirect.Strong pk => if ok then let* po := ModelDirect.extract_partial_orders p pk in run po else Err ValueError
    | ModelDirect.Soft pk => if ok then run [] else Err ValueError
    end.
Proof.
  intros p ok mode Xs L H Hp. unfold group_fit_order. replace (length Xs <? 2)%nat with false by (symmetry; apply Nat.ltb_ge; exact L).
  replace (existsb (fun d => fst d =? 0)%nat Xs) with false; [replace (p =? 0)%nat with false by (symmetry; apply Nat.eqb_neq; lia); reflexivity|].
  symmetry. apply Bool.not_true_is_false. intro C. apply existsb_exists in C. destruct C as (d & Hd & E). apply Nat.eqb_eq in E. pose proof (H d Hd). lia.
Qed.
Lemma order_ok : forall p ok mode Xs K, group_fit_order p ok mode Xs = Ok K -> (2 <= length Xs)%nat /\ (forall d, In d Xs -> (0 < fst d)%nat) /\ (0 < p)%nat.
Proof.
  intros p ok mode Xs K E. unfold group_fit_order in E. destruct (Nat.ltb_spec (length Xs) 2) as [L|L]; [discriminate|]. destruct (existsb (fun d => fst d =? 0)%nat Xs) eqn:X; [discriminate|]. destruct (Nat.eqb_spec p 0) as [Z|Z]; [discriminate|]. split; [lia|]. split; [|lia].
  intros d Hd. destruct (Nat.eq_dec (fst d) 0) as [Q|Q]; [|lia]. exfalso. assert (existsb (fun d => fst d =? 0)%nat Xs = true); [|congruence]. apply existsb_exists. exists d. split; [exact Hd|]. apply Nat.eqb_eq. exact Q.
Qed.
Lemma occupied_map : forall Xs : list (nat * (nat -> nat -> R)), Xs <> [] -> (forall d, In d Xs -> (0 < fst d)%nat) -> occupied (map (fun d => (fst d, fun j => Some (snd d j))) Xs).
Proof. intros Xs N H. split; [destruct Xs; [contradiction|discriminate]|]. intros d Hd. apply in_map_iff in Hd. destruct Hd as (d0 & <- & Hd). apply H. exact Hd. Qed.

Lemma group_loop_perm : forall steps mode po ds U K K', NoDup U -> length U = steps -> group_loop steps mode po ds U K = Ok K' -> Permutation K' (K ++ U).
Proof.
  induction steps as [|steps IH]; intros mode po ds U K K' ND L H.
  - injection H as <-. destruct U; [|discriminate]. rewrite app_nil_r. reflexivity.
  - cbn [group_loop] in H. destruct (group_search mode po ds U) as [m|] eqn:S; [|discriminate]. cbn [bind] in H.
    apply ProofMultiDirectR.search_in in S. pose proof (remove_perm m U ND S) as P. apply IH in H.
    + rewrite H, <- app_assoc. apply Permutation_app_head. cbn. symmetry. exact P.
    + apply NoDup_filter. exact ND.
    + apply Permutation_length in P. cbn in P. lia.
Qed.
Lemma group_order_perm : forall p ok mode Xs K, group_fit_order p ok mode Xs = Ok K -> Permutation K (seq 0 p).
Proof.
  intros p ok mode Xs K E. destruct (order_ok _ _ _ _ _ E) as (L & H & Hp). rewrite order_unfold in E by assumption. cbn zeta in E.
  destruct mode as [|pk|pk]; [| |]; try (destruct ok; [|discriminate]); try (destruct (ModelDirect.extract_partial_orders p pk) as [po|]; [|discriminate]; cbn [bind] in E); apply group_loop_perm in E; try exact E; try apply seq_NoDup; apply seq_length.
Qed.

(** ** C184: when the data sets agree *)
(** If DirectLiNGAM finds the order K in each of the data sets, MultiGroupDirectLiNGAM finds K from all of them together. *)
Theorem C184_agreement : forall logsv p pk_shape_ok mode (Xs : list (nat * (nat -> nat -> R))) K, (2 <= length Xs)%nat ->
  (forall d, In d Xs -> fit_order logsv ModelDirect.Pwling (fst d) p pk_shape_ok mode (snd d) = Ok K) ->
  group_fit_order p pk_shape_ok mode Xs = Ok K.
Proof.
  intros logsv p ok mode Xs K L H.
  assert (P0 : forall d, In d Xs -> (0 < fst d)%nat /\ (0 < p)%nat). { intros d Hd. specialize (H d Hd). unfold fit_order in H. destruct (Nat.eqb_spec (fst d) 0); [discriminate|]. destruct (Nat.eqb_spec p 0); [discriminate|]. lia. }
  assert (Hp : (0 < p)%nat) by (destruct Xs as [|d Xs]; [cbn in L; lia|]; apply (P0 d (or_introl eq_refl))).
  rewrite order_unfold; [|exact L|intros d Hd; apply (P0 d Hd)|exact Hp].
  assert (G : forall po, (forall d, In d Xs -> loop (pwling_score (fst d)) argmax p (fst d) mode po (fun j => Some (snd d j)) (seq 0 p) [] = Ok K) ->
    group_loop p mode po (map (fun d => (fst d, fun j => Some (snd d j))) Xs) (seq 0 p) [] = Ok K).
  { intro po. clear H. revert L. intro L. assert (NE : Xs <> []) by (intros ->; cbn in L; lia). clear L. induction Xs as [|d Xs IH]; intro H; [contradiction|]. destruct Xs as [|d' Xs].
    - cbn [map]. rewrite loop_single by (apply (P0 d (or_introl eq_refl))). apply H. left. reflexivity.
    - change (map (fun d => (fst d, fun j => Some (snd d j))) (d :: d' :: Xs)) with ([(fst d, fun j => Some (snd d j))] ++ map (fun d => (fst d, fun j => Some (snd d j))) (d' :: Xs)).
      apply loop_app; [apply seq_NoDup| | | |].
      + split; [discriminate|]. intros x [<-|[]]. apply (P0 d (or_introl eq_refl)).
      + apply occupied_map; [discriminate|]. intros x Hx. apply (P0 x (or_intror Hx)).
      + rewrite loop_single by (apply (P0 d (or_introl eq_refl))). apply H. left. reflexivity.
      + apply IH; [intros x Hx; apply P0; right; exact Hx|discriminate|intros x Hx; apply H; right; exact Hx]. }
  assert (Z : forall d, In d Xs -> (fst d =? 0)%nat || (p =? 0)%nat = false) by (intros d Hd; apply orb_false_intro; apply Nat.eqb_neq; pose proof (P0 d Hd); lia).
  destruct Xs as [|d0 Xs0] eqn:EX; [cbn in L; lia|]. rewrite <- EX in *. assert (I0 : In d0 Xs) by (rewrite EX; left; reflexivity).
  destruct mode as [|pk|pk]; cbn zeta.
  - apply G. intros d Hd. specialize (H d Hd). unfold fit_order in H. rewrite (Z d Hd) in H. exact H.
  - pose proof (H d0 I0) as H0. unfold fit_order in H0. rewrite (Z d0 I0) in H0. destruct ok; [|discriminate]. destruct (ModelDirect.extract_partial_orders p pk) as [po|] eqn:EP; [|discriminate]. cbn [bind]. apply G. intros d Hd. specialize (H d Hd). unfold fit_order in H. rewrite (Z d Hd), EP in H. exact H.
  - pose proof (H d0 I0) as H0. unfold fit_order in H0. rewrite (Z d0 I0) in H0. destruct ok; [|discriminate]. apply G. intros d Hd. specialize (H d Hd). unfold fit_order in H. rewrite (Z d Hd) in H. exact H.
Qed.
Print Assumptions C184_agreement.
(** If two collections of data sets lead to the same order, so does their union. *)
Theorem C184_union : forall p pk_shape_ok mode (Xs Ys : list (nat * (nat -> nat -> R))) K,
  group_fit_order p pk_shape_ok mode Xs = Ok K -> group_fit_order p pk_shape_ok mode Ys = Ok K -> group_fit_order p pk_shape_ok mode (Xs ++ Ys) = Ok K.
Proof.
  intros p ok mode Xs Ys K E F. destruct (order_ok _ _ _ _ _ E) as (L & H & Hp). destruct (order_ok _ _ _ _ _ F) as (L' & H' & _).
  rewrite order_unfold in E by assumption. rewrite order_unfold in F by assumption. rewrite order_unfold; [|rewrite app_length; lia|intros d Hd; apply in_app_or in Hd; destruct Hd as [Hd|Hd]; auto|exact Hp].
  cbn zeta in *. rewrite map_app.
  assert (O : occupied (map (fun d => (fst d, fun j => Some (snd d j))) Xs)) by (apply occupied_map; [intros ->; cbn in L; lia|exact H]).
  assert (O' : occupied (map (fun d => (fst d, fun j => Some (snd d j))) Ys)) by (apply occupied_map; [intros ->; cbn in L'; lia|exact H']).
  destruct mode as [|pk|pk].
  - apply loop_app; try assumption. apply seq_NoDup.
  - destruct ok; [|discriminate]. destruct (ModelDirect.extract_partial_orders p pk) as [po|]; [|discriminate]. cbn [bind] in *. apply loop_app; try assumption. apply seq_NoDup.
  - destruct ok; [|discriminate]. apply loop_app; try assumption. apply seq_NoDup.
Qed.
Print Assumptions C184_union.
(** Two data sets of different sizes and with different, even opposite, effects; the cause comes first in both and hence in the joint order. *)
Definition ox (j s : nat) : R := nth s (match j with O => [1; 1; 1; 1; 7; 7; 7; 7] | _ => [-3; 1; -3; 1; -21; -17; -21; -17] end) 0.
Lemma ox_right : forall logsv ok, fit_order logsv ModelDirect.Pwling 8 2 ok ModelDirect.NoPK ox = Ok [0%nat; 1%nat].
Proof.
  intros logsv ok. apply (C178_two_valued_right logsv 8 ok ox (-3)); [lia| | | |].
  - exists 3. split; [lra|]. intros s Hs. unfold average. cbn [rsum INR ox nth]. do 8 (destruct s as [|s]; [cbn [nth]; lra|]). lia.
  - exists 2. split; [lra|]. intros s Hs. unfold average. cbn [rsum INR ox nth]. do 8 (destruct s as [|s]; [cbn [nth]; lra|]). lia.
  - intros f g. unfold average. cbn [rsum INR ox nth]. replace (-3 - -3 * 1) with 0 by ring. replace (1 - -3 * 1) with 4 by ring. replace (-21 - -3 * 7) with 0 by ring. replace (-17 - -3 * 7) with 4 by ring. field.
  - intros (a & b & c & D & H). pose proof (H 0%nat ltac:(lia)) as H0. pose proof (H 1%nat ltac:(lia)) as H1. pose proof (H 4%nat ltac:(lia)) as H2. cbn in H0, H1, H2. lra.
Qed.
Example C184_example : forall ok, group_fit_order 2 ok ModelDirect.NoPK [(4%nat, bx); (8%nat, ox)] = Ok [0%nat; 1%nat].
Proof.
  intro ok. apply (C184_agreement (fun _ _ => 0)); [cbn; lia|]. intros d [<-|[<-|[]]]; cbn [fst snd].
  - destruct C178_example_two_valued as (A & B & C & D). exact (C178_two_valued_right _ 4 ok bx 1 ltac:(lia) A B C D).
  - apply ox_right.
Qed.

(** ** C185: the order of the data sets, their units and repetitions *)
Theorem C185_order_of_data_sets : forall p pk_shape_ok mode (Xs Ys : list (nat * (nat -> nat -> R))), Permutation Xs Ys ->
  group_fit_order p pk_shape_ok mode Xs = group_fit_order p pk_shape_ok mode Ys.
Proof.
  intros p ok mode Xs Ys P. unfold group_fit_order. rewrite (Permutation_length P).
  assert (E : existsb (fun d => fst d =? 0)%nat Xs = existsb (fun d => fst d =? 0)%nat Ys).
  { apply Bool.eq_iff_eq_true. rewrite !existsb_exists. split; intros (d & Hd & E); exists d; (split; [|exact E]); [exact (Permutation_in _ P Hd)|exact (Permutation_in _ (Permutation_sym P) Hd)]. }
  rewrite E. destruct (length Ys <? 2)%nat; [reflexivity|]. destruct (_ || _); [reflexivity|].
  assert (G : forall po, group_loop p mode po (map (fun d => (fst d, fun j => Some (snd d j))) Xs) (seq 0 p) [] = group_loop p mode po (map (fun d => (fst d, fun j => Some (snd d j))) Ys) (seq 0 p) []) by (intro po; apply loop_perm; apply Permutation_map; exact P).
  destruct mode as [|pk|pk]; [apply G| |destruct ok; [apply G|reflexivity]]. destruct ok; [|reflexivity]. destruct (ModelDirect.extract_partial_orders p pk) as [po|]; [apply G|reflexivity].
Qed.
Print Assumptions C185_order_of_data_sets.
(** Each data set may be given in its own units and origins, with its rows in any order; all data sets may be repeated the same number of times. *)
Theorem C185_units : forall p pk_shape_ok mode (Xs Ys : list (nat * (nat -> nat -> R))) k, 0 < k ->
  Forall2 (fun d d' => INR (fst d') = k * INR (fst d) /\ exists pi a t, same_distribution (fst d) (fst d') pi /\
    forall j, (j < p)%nat -> a j <> 0 /\ forall s, (s < fst d')%nat -> snd d' j s = in_units (a j) (t j) (snd d j) (pi s)) Xs Ys ->
  group_fit_order p pk_shape_ok mode Ys = group_fit_order p pk_shape_ok mode Xs.
Proof.
  intros p ok mode Xs Ys k Hk F. unfold group_fit_order.
  assert (L : length Ys = length Xs) by (clear - F; induction F; cbn; congruence). rewrite L. destruct (length Xs <? 2)%nat; [reflexivity|].
  assert (E : existsb (fun d => fst d =? 0)%nat Ys = existsb (fun d => fst d =? 0)%nat Xs).
  { clear L. induction F as [|d d' l l' [E _] F IH]; [reflexivity|]. cbn [existsb]. rewrite IH. f_equal. apply Bool.eq_iff_eq_true. rewrite !Nat.eqb_eq. split; intro Z.
    - apply INR_eq. rewrite Z in E. cbn in *. destruct (Rmult_integral _ _ (eq_sym E)); lra.
    - apply INR_eq. rewrite E, Z. cbn. ring. }
  rewrite E. destruct (existsb (fun d => fst d =? 0)%nat Xs) eqn:EX; [reflexivity|]. cbn [orb]. destruct (p =? 0)%nat; [reflexivity|].
  assert (G : forall po, group_loop p mode po (map (fun d => (fst d, fun j => Some (snd d j))) Ys) (seq 0 p) [] = group_loop p mode po (map (fun d => (fst d, fun j => Some (snd d j))) Xs) (seq 0 p) []).
  { intro po. apply (loop_converted k Hk). clear E L. induction F as [|d d' l l' [E (pi & a & t & SD & H)] F IH]; [constructor|]. cbn [existsb] in EX. apply orb_false_elim in EX. destruct EX as [E0 EX]. apply Nat.eqb_neq in E0.
    constructor; [|apply IH; exact EX]. cbn [fst snd]. split; [|exact E]. split; [cbn; lia|]. exists pi. cbn [fst snd]. split; [exact SD|]. intros j Hj. apply in_seq in Hj. destruct (H j ltac:(lia)) as [Ha Hs]. exists (a j), (t j). split; [exact Ha|]. exact Hs. }
  destruct mode as [|pk|pk]; [apply G| |destruct ok; [apply G|reflexivity]]. destruct ok; [|reflexivity]. destruct (ModelDirect.extract_partial_orders p pk) as [po|]; [apply G|reflexivity].
Qed.
Print Assumptions C185_units.

(** The same two data sets in the opposite order, the first of them with the cause in another unit and the effect with the opposite sign. *)
Example C185_example : forall ok, group_fit_order 2 ok ModelDirect.NoPK [(8%nat, fun j => in_units (match j with O => 100 | _ => -1 end) 5 (ox j)); (4%nat, bx)] = Ok [0%nat; 1%nat].
Proof.
  intro ok. rewrite (C185_units 2 ok ModelDirect.NoPK [(8%nat, ox); (4%nat, bx)] _ 1); [rewrite (C185_order_of_data_sets 2 ok ModelDirect.NoPK _ [(4%nat, bx); (8%nat, ox)]); [apply C184_example|constructor]|lra|].
  repeat constructor; cbn [fst snd]; try lra.
  - exists (fun s => s), (fun j => match j with O => 100 | _ => -1 end), (fun _ => 5). split; [apply sd_id|]. intros j Hj. split; [destruct j; lra|]. intros s Hs. reflexivity.
  - exists (fun s => s), (fun _ => 1), (fun _ => 0). split; [apply sd_id|]. intros j Hj. split; [lra|]. intros s Hs. unfold in_units. ring.
Qed.
(** The matrix of each data set changes with its units as it should. *)
Theorem C185_matrices_units : forall lr lars p pk_shape_ok mode (Xs : list (nat * (nat -> nat -> R))) (units : list ((nat -> R) * (nat -> R))) K Bs,
  length units = length Xs ->
  (forall d, In d Xs -> regression_oracle (fst d) (lr (fst d))) ->
  (forall n cols y c, lars n cols y = Ok c -> length c = length cols) ->
  (forall n es e cols y, length es = length cols -> Forall is_sign es -> is_sign e ->
     lars n (flip_columns es cols) (fun s => e * y s)
     = match lars n cols y with Ok c => Ok (map (fun ec => e * fst ec * snd ec) (combine es c)) | Err x => Err x end) ->
  (forall d, In d Xs -> independent_columns (fst d) (map (snd d) (seq 0 p))) ->
  (forall u, In u units -> forall j, (j < p)%nat -> fst u j <> 0) ->
  group_fit lr lars p pk_shape_ok mode Xs = Ok (K, Bs) ->
  exists Bs', group_fit lr lars p pk_shape_ok mode (map (fun du => (fst (fst du), fun j => in_units (fst (snd du) j) (snd (snd du) j) (snd (fst du) j))) (combine Xs units)) = Ok (K, Bs') /\
    length Bs = length Xs /\ length Bs' = length Xs /\
    forall q i j, (q < length Xs)%nat -> nth q Bs' (fun _ _ => 0) i j = fst (nth q units (fun _ => 1, fun _ => 0)) i / fst (nth q units (fun _ => 1, fun _ => 0)) j * nth q Bs (fun _ _ => 0) i j.
Proof.
  intros lr lars p ok mode Xs units K Bs LU RO LL LS IND HU E. unfold group_fit in *.
  destruct (group_fit_order p ok mode Xs) as [K0|] eqn:EK; [|discriminate]. cbn [bind] in E. destruct (traverse _ Xs) as [Bs0|] eqn:ET; [|discriminate]. cbn [bind] in E. injection E as -> ->.
  destruct (order_ok _ _ _ _ _ EK) as (L2 & HP & Hp).
  pose proof (group_order_perm _ _ _ _ _ EK) as PK.
  rewrite (C185_units p ok mode Xs _ 1 ltac:(lra)).
  2:{ clear - LU HU. revert units LU HU. induction Xs as [|d Xs IH]; intros [|u units] LU HU; try discriminate; [constructor|]. cbn [combine map]. constructor; [|apply IH; [cbn in LU; congruence|intros v Hv; apply HU; right; exact Hv]].
      cbn [fst snd]. split; [lra|]. exists (fun s => s), (fst u), (snd u). split; [apply sd_id|]. intros j Hj. split; [apply (HU u (or_introl eq_refl) j Hj)|]. reflexivity. }
  rewrite EK. cbn [bind].
  assert (ND : NoDup K) by (apply (Permutation_NoDup (Permutation_sym PK)), seq_NoDup).
  assert (HB : forall j, In j K -> (j < p)%nat) by (intros j Hj; apply (Permutation_in _ PK) in Hj; apply in_seq in Hj; lia).
  assert (G : exists Bs', traverse (fun d => adjacency_loop (lr (fst d)) (lars (fst d)) (fst d) (snd d) (ModelDirect.pk_of_mode mode) [] K (fun _ _ => 0)) (map (fun du => (fst (fst du), fun j => in_units (fst (snd du) j) (snd (snd du) j) (snd (fst du) j))) (combine Xs units)) = Ok Bs' /\
    length Bs = length Xs /\ length Bs' = length Xs /\ forall q i j, (q < length Xs)%nat -> nth q Bs' (fun _ _ => 0) i j = fst (nth q units (fun _ => 1, fun _ => 0)) i / fst (nth q units (fun _ => 1, fun _ => 0)) j * nth q Bs (fun _ _ => 0) i j).
  { clear EK L2. revert units Bs LU HU ET. induction Xs as [|d Xs IH]; intros [|u units] Bs LU HU ET; try discriminate.
    - cbn in ET. injection ET as <-. exists []. repeat split. intros q i j Hq. cbn in Hq. lia.
    - cbn [traverse] in ET. destruct (adjacency_loop (lr (fst d)) (lars (fst d)) (fst d) (snd d) (ModelDirect.pk_of_mode mode) [] K (fun _ _ => 0)) as [B|] eqn:EB; [|discriminate]. cbn [bind] in ET. destruct (traverse _ Xs) as [Bs1|] eqn:ET1; [|discriminate]. cbn [bind] in ET. injection ET as <-.
      destruct (IH (fun x Hx => RO x (or_intror Hx)) (fun x Hx => IND x (or_intror Hx)) (fun x Hx => HP x (or_intror Hx)) units Bs1) as (Bs' & T & L & L' & M); [cbn in LU; congruence|intros v Hv; apply HU; right; exact Hv|reflexivity|].
      pose proof (adjacency_units (lr (fst d)) (lars (fst d)) (fst d) p (snd d) (fst u) (snd u) (HP d (or_introl eq_refl)) (HU u (or_introl eq_refl)) (IND d (or_introl eq_refl)) (RO d (or_introl eq_refl)) (LL (fst d)) (LS (fst d)) (ModelDirect.pk_of_mode mode) K [] (fun _ _ => 0) (fun _ _ => 0) ND HB ltac:(intros i j; ring)) as A.
      rewrite EB in A. cbn [combine map traverse fst snd]. destruct (adjacency_loop (lr (fst d)) (lars (fst d)) (fst d) (fun j => in_units (fst u j) (snd u j) (snd d j)) _ [] K _) as [B'|]; [|contradiction]. cbn [bind]. rewrite T. cbn [bind].
      exists (B' :: Bs'). split; [reflexivity|]. cbn [length]. split; [congruence|]. split; [congruence|]. intros [|q] i j Hq; cbn [nth]; [apply A|apply M; cbn in Hq; lia]. }
  destruct G as (Bs' & T & L & L' & M). exists Bs'. rewrite T. cbn [bind]. repeat split; assumption.
Qed.
Print Assumptions C185_matrices_units.
Example C185_example_matrices : exists B B', group_fit (fun _ => ex_lr) (fun _ => ex_lars) 2 true ModelDirect.NoPK
    [(4%nat, fun j => in_units 2 1 (ex_data j)); (4%nat, fun j => in_units (if (j =? 0)%nat then 1000 else -3) 7 (ex_data j))] = Ok ([0%nat; 1%nat], [B; B']) /\ B 1%nat 0%nat = 1 /\ B' 1%nat 0%nat = -3 / 1000.
Proof.
  destruct (ex_fit (fun _ _ => 0)) as (B & E & B1 & _). unfold fit in E. destruct (fit_order _ _ _ _ _ _ _) as [K|] eqn:F; [|discriminate]. cbn [bind] in E. destruct (adjacency_loop _ _ _ _ _ _ _ _) as [B0|] eqn:A; [|discriminate]. cbn [bind] in E. injection E as -> ->.
  assert (G : group_fit (fun _ => ex_lr) (fun _ => ex_lars) 2 true ModelDirect.NoPK [(4%nat, ex_data); (4%nat, ex_data)] = Ok ([0%nat; 1%nat], [B; B])).
  { unfold group_fit. rewrite (C184_agreement (fun _ _ => 0) 2 true ModelDirect.NoPK _ [0%nat; 1%nat]); [|cbn; lia|intros d [<-|[<-|[]]]; exact F]. cbn [bind traverse fst snd]. rewrite A. reflexivity. }
  edestruct (C185_matrices_units (fun _ => ex_lr) (fun _ => ex_lars) 2 true ModelDirect.NoPK [(4%nat, ex_data); (4%nat, ex_data)] [(fun _ => 2, fun _ => 1); (fun j => if (j =? 0)%nat then 1000 else -3, fun _ => 7)]) as (Bs & E & _ & L & M).
  - reflexivity.
  - intros d [<-|[<-|[]]]; exact ex_lr_oracle.
  - intros _. exact ex_lars_length.
  - intros _. exact ex_lars_signs.
  - intros d [<-|[<-|[]]]; exact Props_DirectR.ex_independent.
  - intros u [<-|[<-|[]]] j _; cbn [fst]; [lra|]. destruct (j =? 0)%nat; lra.
  - exact G.
  - destruct Bs as [|C [|C' [|]]]; try discriminate. exists C, C'. split; [exact E|]. pose proof (M 0%nat 1%nat 0%nat ltac:(cbn; lia)) as M0. pose proof (M 1%nat 1%nat 0%nat ltac:(cbn; lia)) as M1. cbn [nth fst Nat.eqb] in M0, M1. rewrite M0, M1, B1. split; lra.
Qed.
