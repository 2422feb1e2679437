(** * Property theorems: what is rejected, and with which exception. *)
From Coq Require Import List Arith Bool ZArith QArith Qcanon Lia Permutation.
From Verif Require Import Prelude Spec Lib ModelBootstrap ModelTools ProofTools ProofTools2 Props_Tools.
Import ListNotations.
Open Scope nat_scope.

(** ** C117: bootstrap_with_imputation *)
(** At least one completed data set, all of the shape of X, without missing values. *)
Definition valid_imputation (n p : nat) (o : imp_out) (k : nat) (v : nat -> nat -> nat -> num) : Prop :=
  o = Arr3 k n p v /\ 1 <= k /\ forall a b d, a < k -> b < n -> d < p -> v a b d <> None.
(** [p] rows (or entries), all numbers, with {0,...,p-1} as set of values. *)
Definition valid_order (p : nat) (o : order_out) : Prop :=
  exists l, (o = O1 l /\ length l = p \/
             exists rows w, o = O2 rows /\ l = concat rows /\ length rows = p /\ 1 <= w /\ forall r, In r rows -> length r = w) /\
    1 <= p /\ ~ In None l /\ forall q, In (Some q) l <-> exists k, k < p /\ q = qn k.
(** Stacked p x p matrices of numbers, at least one along the first axis. *)
Definition valid_matrices (p : nat) (a : adj_out) : Prop :=
  ao_rows a = p /\ ao_cols a = p /\ hd (ao_rows a) (ao_pre a) <> 0 /\
  forall ix i j, Forall2 lt ix (ao_pre a) -> i < p -> j < p -> ao_val a ix i j <> None.
Definition dims (o : order_out) : list nat :=
  match o with O1 l => [length l] | O2 [] => [0; 0] | O2 (r :: l) => [S (length l); length r] | OOther => [] end.

Theorem C117_imputer_checked :
  forall o n p,
  (forall k d, check_imputer o n p = Ok (k, d) -> exists v, valid_imputation n p o k v /\ forall a b c, v a b c = Some (d a b c) \/ v a b c = None) /\
  (forall k v, valid_imputation n p o k v -> exists d, check_imputer o n p = Ok (k, d)) /\
  (forall e, check_imputer o n p = Err e -> e = ValueError).
Proof.
  intros o n p. unfold check_imputer. destruct o as [k r c v|].
  - destruct (all3 k r c (fun a b d => is_num (v a b d))) eqn:F; cbn [negb].
    + destruct (Nat.eqb_spec k 0) as [Z|Z].
      * split; [discriminate|]. split; [|congruence]. intros k' v' (E & L & _). injection E as -> -> -> ->. lia.
      * destruct (Nat.eqb_spec r n) as [->|R]; [destruct (Nat.eqb_spec c p) as [->|C]|]; cbn [andb negb].
        -- split; [|split; [|discriminate]].
           ++ intros k' d E. injection E as <- <-. exists v. split; [|intros a b c; destruct (v a b c); cbn; auto].
              split; [reflexivity|]. split; [lia|]. intros a b d Ha Hb Hd. rewrite all3_true in F. specialize (F a b d Ha Hb Hd). destruct (v a b d); [discriminate|discriminate F].
           ++ intros k' v' (E & _). injection E as -> _. eexists. reflexivity.
        -- split; [discriminate|]. split; [|congruence]. intros k' v' (E & _). congruence.
        -- split; [discriminate|]. split; [|congruence]. intros k' v' (E & _). congruence.
    + split; [discriminate|]. split; [|congruence]. intros k' v' (E & L & H). injection E as -> -> -> ->.
      exfalso. apply not_true_iff_false in F. apply F. apply all3_true. intros a b d Ha Hb Hd. specialize (H a b d Ha Hb Hd). destruct (v' a b d); [reflexivity|congruence].
  - split; [discriminate|]. split; [|congruence]. intros k v (E & _). discriminate.
Qed.
Print Assumptions C117_imputer_checked.

Lemma order_flat_iff : forall o len l, order_flat o = Some (len, l) <->
  exists l0, (o = O1 l0 /\ length l0 = len \/
             exists rows w, o = O2 rows /\ l0 = concat rows /\ length rows = len /\ 1 <= w /\ forall r, In r rows -> length r = w) /\
    1 <= len /\ ~ In None l0 /\ l = map nan_to_num l0.
Proof.
  intros o len l. split.
  - destruct o as [l0|rows|]; cbn [order_flat]; [| |discriminate].
    + destruct (Nat.eqb_spec (length l0) 0); [discriminate|]. destruct (forallb is_num l0) eqn:F; [|discriminate]. intro E. injection E as <- <-.
      exists l0. split; [left; auto|]. split; [lia|]. split; [apply all_nums; exact F|reflexivity].
    + destruct (Nat.eqb_spec (length rows) 0); [discriminate|].
      destruct (forallb (fun r => length r =? length (hd [] rows)) rows && negb (length (hd [] rows) =? 0) && forallb (forallb is_num) rows) eqn:F; [|discriminate].
      intro E. injection E as <- <-. apply andb_true_iff in F. destruct F as [F F3]. apply andb_true_iff in F. destruct F as [F1 F2].
      exists (concat rows). split.
      * right. exists rows, (length (hd [] rows)). repeat split; try reflexivity.
        -- apply negb_true_iff, Nat.eqb_neq in F2. lia.
        -- rewrite forallb_forall in F1. intros r I. apply Nat.eqb_eq. apply F1. exact I.
      * split; [lia|]. split; [|reflexivity]. intro I. apply in_concat in I. destruct I as (r & I & J). rewrite forallb_forall in F3. specialize (F3 r I). apply all_nums in F3. contradiction.
  - intros (l0 & H & L & N & ->). destruct H as [[-> <-]|(rows & w & -> & -> & <- & W & R)]; cbn [order_flat].
    + destruct (Nat.eqb_spec (length l0) 0); [lia|]. apply all_nums in N. rewrite N. reflexivity.
    + destruct (Nat.eqb_spec (length rows) 0); [lia|].
      replace (forallb (fun r => length r =? length (hd [] rows)) rows && negb (length (hd [] rows) =? 0) && forallb (forallb is_num) rows) with true; [reflexivity|].
      symmetry. assert (HD : length (hd [] rows) = w) by (apply R; destruct rows as [|r rows]; [cbn in L; lia|left; reflexivity]).
      rewrite HD. apply andb_true_iff. split; [apply andb_true_iff; split|].
      * apply forallb_forall. intros r I. apply Nat.eqb_eq. apply R. exact I.
      * apply negb_true_iff, Nat.eqb_neq. lia.
      * apply forallb_forall. intros r I. apply all_nums. intro J. apply N. apply in_concat. exists r. auto.
Qed.
Theorem C117_discovery_checked :
  forall o reps p,
  (forall ord a, check_cd o reps p = Ok (ord, a) <-> o = Pair ord a /\ valid_order p ord /\ valid_matrices p a) /\
  (forall e, check_cd o reps p = Err e -> e = ValueError).
Proof.
  intros o reps p. destruct o as [|ord a]; cbn [check_cd].
  { split; [|congruence]. intros ord a. split; [discriminate|]. intros (E & _). discriminate. }
  assert (VO : forall len l, order_flat ord = Some (len, l) -> (valid_order p ord <-> len = p /\ forall q, In q l <-> exists k, k < p /\ q = qn k)).
  { intros len l E. pose proof E as E0. apply order_flat_iff in E. destruct E as (l0 & H & L & N & ->). split.
    - intros (l1 & H1 & L1 & N1 & Q). assert (F1 : order_flat ord = Some (p, map nan_to_num l1)).
      { apply order_flat_iff. exists l1. auto. }
      rewrite E0 in F1. injection F1 as E1 E2. split; [exact E1|]. intro q. rewrite E2, nan_to_num_In by exact N1. apply Q.
    - intros [-> Q]. exists l0. split; [exact H|]. split; [exact L|]. split; [exact N|]. intro q. rewrite <- Q. symmetry. apply nan_to_num_In. exact N. }
  assert (VN : order_flat ord = None -> ~ valid_order p ord).
  { intros E (l1 & H1 & L1 & N1 & Q). assert (F1 : order_flat ord = Some (p, map nan_to_num l1)) by (apply order_flat_iff; exists l1; auto). congruence. }
  assert (VM : valid_matrices p a <-> adj_finite a = true /\ first_dim a <> 0 /\ ao_rows a = p /\ ao_cols a = p).
  { unfold valid_matrices. rewrite adj_finite_iff. unfold first_dim. split.
    - intros (R & C & D & H). rewrite R, C in *. auto.
    - intros (H & D & R & C). rewrite R, C in *. auto. }
  destruct (order_flat ord) as [[len l]|].
  2:{ split; [|congruence]. intros ord' a'. split; [discriminate|]. intros (E & V & _). injection E as <- <-. contradiction (VN eq_refl V). }
  specialize (VO len l eq_refl).
  destruct (Nat.eqb_spec len p) as [->|NE]; cbn [negb].
  2:{ split; [|congruence]. intros ord' a'. split; [discriminate|]. intros (E & V & _). injection E as <- <-. apply VO in V. destruct V. contradiction. }
  destruct (array_equal (np_unique l) (arange p)) eqn:U; cbn [negb].
  2:{ split; [|congruence]. intros ord' a'. split; [discriminate|]. intros (E & V & _). injection E as <- <-. apply VO in V. destruct V as [_ V]. apply unique_iff_set in V. congruence. }
  pose proof U as U0. rewrite unique_iff_set in U0.
  destruct (adj_finite a) eqn:F; cbn [negb orb].
  2:{ split; [|congruence]. intros ord' a'. split; [discriminate|]. intros (E & _ & V). injection E as <- <-. apply VM in V. destruct V. discriminate. }
  destruct (Nat.eqb_spec (first_dim a) 0) as [Z|Z].
  { split; [|congruence]. intros ord' a'. split; [discriminate|]. intros (E & _ & V). injection E as <- <-. apply VM in V. destruct V as (_ & V & _). contradiction. }
  destruct (Nat.eqb_spec (ao_rows a) p) as [R|R]; [destruct (Nat.eqb_spec (ao_cols a) p) as [C|C]|]; cbn [andb negb].
  - split; [|discriminate]. intros ord' a'. split.
    + intro E. injection E as <- <-. split; [reflexivity|]. split; [apply VO; auto|apply VM; auto].
    + intros (E & _). injection E as -> ->. reflexivity.
  - split; [|congruence]. intros ord' a'. split; [discriminate|]. intros (E & _ & V). injection E as <- <-. apply VM in V. destruct V as (_ & _ & _ & V). contradiction.
  - split; [|congruence]. intros ord' a'. split; [discriminate|]. intros (E & _ & V). injection E as <- <-. apply VM in V. destruct V as (_ & _ & V & _). contradiction.
Qed.
Print Assumptions C117_discovery_checked.

(** The whole run succeeds exactly when the number of iterations is positive and every iteration passes
    the checks with the same shapes; otherwise the exception is ValueError. *)
Theorem C117_run_checked :
  forall draw imp cd n p X N,
  ((exists r, boot_imp draw imp cd n p X N = Ok r) <->
   1 <= N /\ exists k pre od, forall s, s < N -> exists v d ord a,
     let S := fun r c => X (draw s r) c in
     valid_imputation n p (imp s S) k v /\ check_imputer (imp s S) n p = Ok (k, d) /\
     cd s S k d = Pair ord a /\ valid_order p ord /\ valid_matrices p a /\ ao_pre a = pre /\ dims ord = od) /\
  forall e, boot_imp draw imp cd n p X N = Err e -> e = ValueError.
Proof.
  intros draw imp cd n p X N.
  assert (OS : forall o, order_shape o = dims o) by (intros [l|[|r l]|]; reflexivity).
  assert (IT : forall s it, iterate draw imp cd n p X s = Ok it -> exists v,
      valid_imputation n p (imp s (fun r c => X (draw s r) c)) (it_reps it) v /\ check_imputer (imp s (fun r c => X (draw s r) c)) n p = Ok (it_reps it, it_data it) /\
      cd s (fun r c => X (draw s r) c) (it_reps it) (it_data it) = Pair (it_order it) (it_adj it) /\ valid_order p (it_order it) /\ valid_matrices p (it_adj it)).
  { intros s it E. unfold iterate in E. destruct (check_imputer (imp s (fun r c => X (draw s r) c)) n p) as [[k d]|] eqn:E1; [|discriminate]. cbn [bind] in E.
    destruct (check_cd (cd s (fun r c => X (draw s r) c) k d) k p) as [[o a]|] eqn:E2; [|discriminate]. cbn [bind] in E. injection E as <-. cbn [it_reps it_data it_order it_adj].
    destruct (proj1 (C117_imputer_checked _ n p) _ _ E1) as (v & V & _). exists v. split; [exact V|]. split; [reflexivity|].
    apply (proj1 (C117_discovery_checked _ k p)) in E2. exact E2. }
  assert (IE : forall s e, iterate draw imp cd n p X s = Err e -> e = ValueError).
  { intros s e E. unfold iterate in E. destruct (check_imputer (imp s (fun r c => X (draw s r) c)) n p) as [[k d]|e1] eqn:E1; cbn [bind] in E.
    - destruct (check_cd (cd s (fun r c => X (draw s r) c) k d) k p) as [[o a]|e2] eqn:E2; cbn [bind] in E; [discriminate|].
      injection E as <-. apply (proj2 (C117_discovery_checked _ k p)) in E2. exact E2.
    - injection E as <-. apply (C117_imputer_checked _ n p) in E1. exact E1. }
  assert (RE : forall l e, run_all draw imp cd n p X l = Err e -> e = ValueError).
  { induction l as [|s l IH]; intros e E; [discriminate|]. cbn [run_all] in E. destruct (iterate draw imp cd n p X s) eqn:E1; cbn [bind] in E.
    - destruct (run_all draw imp cd n p X l); cbn [bind] in E; [discriminate|]. apply IH. congruence.
    - apply (IE s). congruence. }
  assert (RO : forall l, (forall s, In s l -> exists it, iterate draw imp cd n p X s = Ok it) -> exists r, run_all draw imp cd n p X l = Ok r).
  { induction l as [|s l IH]; intro H; [exists []; reflexivity|]. destruct (H s (or_introl eq_refl)) as (it & E). cbn [run_all]. rewrite E. cbn [bind].
    destruct IH as (r & ER); [intros; apply H; right; assumption|]. rewrite ER. cbn [bind]. eexists. reflexivity. }
  assert (SS : forall a b, same_shapes a b = true <-> ao_pre (it_adj a) = ao_pre (it_adj b) /\ dims (it_order a) = dims (it_order b) /\ it_reps a = it_reps b).
  { intros a b. unfold same_shapes. rewrite !OS. destruct (list_eq_dec Nat.eq_dec (ao_pre (it_adj a)) (ao_pre (it_adj b)));
      destruct (list_eq_dec Nat.eq_dec (dims (it_order a)) (dims (it_order b))); cbn [andb]; rewrite ?Nat.eqb_eq; intuition congruence. }
  split.
  - split.
    + intros [r E]. unfold boot_imp in E. destruct (Nat.eqb_spec N 0) as [|NZ]; [discriminate|]. split; [lia|].
      destruct (run_all draw imp cd n p X (seq 0 N)) as [l|] eqn:ER; [|discriminate]. cbn [bind] in E.
      destruct (run_all_spec _ _ _ _ _ _ _ _ ER) as [L G]. rewrite seq_length in *.
      destruct l as [|it l]; [cbn in L; lia|]. destruct (forallb (same_shapes it) l) eqn:F; [|discriminate].
      exists (it_reps it), (ao_pre (it_adj it)), (dims (it_order it)). intros s Hs. destruct (G s Hs) as (it' & E1 & E2). rewrite seq_nth in E2 by exact Hs. cbn [plus] in E2.
      destruct (IT s it' E2) as (v & V1 & V2 & V3 & V4 & V5). exists v, (it_data it'), (it_order it'), (it_adj it').
      assert (Q : ao_pre (it_adj it) = ao_pre (it_adj it') /\ dims (it_order it) = dims (it_order it') /\ it_reps it = it_reps it').
      { destruct s as [|s]; [injection E1 as <-; auto|]. apply SS. rewrite forallb_forall in F. apply F. apply (nth_error_In _ s). exact E1. }
      destruct Q as (Q1 & Q2 & Q3). rewrite Q1, Q2, Q3. cbv zeta. auto 10.
    + intros (HN & k & pre & od & H).
      assert (EX : forall s, s < N -> exists it, iterate draw imp cd n p X s = Ok it /\ ao_pre (it_adj it) = pre /\ dims (it_order it) = od /\ it_reps it = k).
      { intros s Hs. destruct (H s Hs) as (v & d & ord & a & V1 & V2 & V3 & V4 & V5 & V6 & V7). unfold iterate. rewrite V2. cbn [bind]. rewrite V3.
        assert (E := proj2 (proj1 (C117_discovery_checked (Pair ord a) k p) ord a) (conj eq_refl (conj V4 V5))). rewrite E. cbn [bind]. eexists. split; [reflexivity|]. cbn. auto. }
      destruct (RO (seq 0 N)) as (r & ER); [intros s I; apply in_seq in I; destruct (EX s) as (it & E & _); [lia|eauto]|].
      unfold boot_imp. destruct (Nat.eqb_spec N 0); [lia|]. rewrite ER. cbn [bind]. destruct r as [|it r]; [eexists; reflexivity|].
      destruct (run_all_spec _ _ _ _ _ _ _ _ ER) as [L G]. rewrite seq_length in *.
      assert (ALL : forall it', In it' (it :: r) -> ao_pre (it_adj it') = pre /\ dims (it_order it') = od /\ it_reps it' = k).
      { intros it' I. apply In_nth_error in I. destruct I as [s Es]. assert (Hs : s < N) by (rewrite <- L; apply nth_error_Some; congruence).
        destruct (G s Hs) as (it2 & E1 & E2). rewrite seq_nth in E2 by exact Hs. cbn [plus] in E2. destruct (EX s Hs) as (it3 & E3 & E4). assert (it3 = it') by congruence. subst. exact E4. }
      replace (forallb (same_shapes it) r) with true; [eexists; reflexivity|]. symmetry. apply forallb_forall. intros it' I. apply SS.
      destruct (ALL it (or_introl eq_refl)) as (A1 & A2 & A3). destruct (ALL it' (or_intror I)) as (B1 & B2 & B3). repeat split; congruence.
  - intros e E. unfold boot_imp in E. destruct (N =? 0); [congruence|].
    destruct (run_all draw imp cd n p X (seq 0 N)) as [l|e1] eqn:ER; cbn [bind] in E; [|apply (RE _ _ ER)||(injection E as <-; apply (RE _ _ ER))].
    destruct l as [|it l]; [discriminate|]. destruct (forallb (same_shapes it) l); congruence.
Qed.
Print Assumptions C117_run_checked.
Example C117_example :
  is_ok (boot_imp ex_draw ex_imp ex_cd 3 2 ex_X 2) /\ boot_imp ex_draw ex_imp ex_cd 3 2 ex_X 0 = Err ValueError /\
  boot_imp ex_draw ex_imp (fun s S k d => if s =? 0 then ex_cd s S k d else Pair (O2 [[Some (qn 0)]; [Some (qn 1)]]) (one_adj [k])) 3 2 ex_X 2 = Err ValueError /\
  valid_order 2 (O2 [[Some (qn 0); Some (qn 1)]; [Some (qn 1); Some (qn 1)]]) /\ valid_order 2 (O1 [Some (qn 1); Some (qn 0)]) /\ valid_matrices 2 (one_adj [3]) /\ ~ valid_matrices 2 (one_adj [0]).
Proof.
  split; [eexists; reflexivity|]. split; [reflexivity|]. split; [reflexivity|].
  assert (V : forall q, Some q = Some (qn 0) \/ Some q = Some (qn 1) <-> exists k, k < 2 /\ q = qn k).
  { intro q. split; [intros [E|E]; injection E as ->; [exists 0|exists 1]; split; auto|]. intros (k & L & ->). destruct k as [|[|k]]; [auto|auto|lia]. }
  split; [|split; [|split]].
  - exists [Some (qn 0); Some (qn 1); Some (qn 1); Some (qn 1)]. split; [right; eexists; exists 2; split; [reflexivity|]|].
    + repeat split; auto. intros r [<-|[<-|[]]]; reflexivity.
    + split; [lia|]. split; [cbn; intuition discriminate|]. intro q. rewrite <- V. cbn. intuition congruence.
  - exists [Some (qn 1); Some (qn 0)]. split; [left; auto|]. split; [lia|]. split; [cbn; intuition discriminate|]. intro q. rewrite <- V. cbn. intuition congruence.
  - repeat split; try discriminate.
  - intros (_ & _ & D & _). apply D. reflexivity.
Qed.
