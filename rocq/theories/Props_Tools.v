(** * bootstrap_with_imputation (lingam/tools): C59, C94-C96 *)
From Coq Require Import List Arith Bool ZArith QArith Qcanon Lia Permutation.
From Verif Require Import Prelude Spec Lib ModelBootstrap ModelTools ProofTools.
Import ListNotations.
Open Scope nat_scope.

(** An instance: three samples of two variables, the value of x1 in sample 1 is missing. *)
Definition ex_X : mat num := fun r c => if (r =? 1) && (c =? 1) then None else Some (qn (10 * r + c)).
Definition ex_draw (s r : nat) : nat := (r + s) mod 3.
Definition ex_imp (s : nat) (S : mat num) : imp_out :=
  Arr3 2 3 2 (fun k r c => Some (match S r c with Some q => q | None => qn k end)).
Definition one_adj (pre : list nat) : adj_out := {| ao_pre := pre; ao_rows := 2; ao_cols := 2; ao_val := fun _ _ _ => Some 1%Qc |}.
Definition ex_cd (s : nat) (S : mat num) (k : nat) (d : nat -> nat -> nat -> Qc) : cd_out := Pair (O1 [Some (qn 1); Some (qn 0)]) (one_adj [k]).
Definition ex_run := boot_imp ex_draw ex_imp ex_cd 3 2 ex_X 2.
Example ex_run_ok : exists a b, ex_run = Ok [a; b] /\ it_imp a 1 1 1 = Some (qn 1) /\ it_imp a 1 0 1 = None /\ it_imp b 1 0 1 = Some (qn 1).
Proof. eexists. eexists. split; [reflexivity|]. split; [reflexivity|]. split; reflexivity. Qed.

(** ** C59 *)
(** Every entry of the imputation results is the imputer's value where the resampled observation is
    missing, and NaN where it is present. *)
Theorem C59_imputed_exactly_where_missing : forall draw imp cd n p X N r, boot_imp draw imp cd n p X N = Ok r ->
  forall s, s < N -> exists it v, nth_error r s = Some it /\ it_index it = draw s /\
    imp s (fun i c => X (draw s i) c) = Arr3 (it_reps it) n p v /\
    forall k i c, k < it_reps it -> i < n -> c < p ->
      (X (draw s i) c = None -> it_imp it k i c = v k i c /\ v k i c <> None) /\
      (X (draw s i) c <> None -> it_imp it k i c = None).
Proof.
  intros draw imp cd n p X N r H s Hs. destruct (boot_spec _ _ _ _ _ _ _ _ H) as (_ & _ & S & _).
  destruct (S s Hs) as (it & A & B). destruct (iterate_spec _ _ _ _ _ _ _ _ B) as (v & I1 & _ & I3 & I4 & I5 & _).
  exists it, v. split; [exact A|]. split; [exact I4|]. split; [exact I1|]. intros k i c Hk Hi Hc. rewrite I5, (I3 k i c Hk Hi Hc).
  destruct (X (draw s i) c) as [q|]; split; intro E; try congruence. split; [reflexivity|discriminate].
Qed.
Print Assumptions C59_imputed_exactly_where_missing.
(** A one-dimensional causal order returned by a user's model is accepted if and only if it is a
    permutation of the column numbers (the matrices being acceptable). *)
Theorem C59_order_accepted_iff_permutation_partial : forall l a reps p, 1 <= p ->
  adj_finite a = true -> 1 <= first_dim a -> ao_rows a = p -> ao_cols a = p ->
  (is_ok (check_cd (Pair (O1 (map Some l)) a) reps p) <-> Permutation l (map qn (seq 0 p))).
Proof.
  intros l a reps p Hp HF H1 HR HC. unfold check_cd. cbn [order_flat]. rewrite map_length.
  assert (F : forallb is_num (map Some l) = true) by (apply forallb_forall; intros x Hx; apply in_map_iff in Hx; destruct Hx as (q & <- & _); reflexivity).
  assert (M : map nan_to_num (map Some l) = l) by (rewrite map_map; apply map_id).
  rewrite F, M, HF, HR, HC, !Nat.eqb_refl. replace (first_dim a =? 0) with false by (symmetry; apply Nat.eqb_neq; lia). cbn [negb orb andb].
  fold (arange p). destruct (Nat.eqb_spec (length l) 0) as [Z|Z].
  - split; [intros [v E]; discriminate|]. intro P. apply Permutation_length in P. rewrite arange_length in P. lia.
  - destruct (Nat.eqb_spec (length l) p) as [L|L]; cbn [negb].
    + rewrite <- (unique_iff_perm l p L), L. destruct (array_equal (np_unique l) (arange p)); cbn [negb].
      * split; [reflexivity|]. intros _. eexists. reflexivity.
      * split; [intros [v E]; discriminate|discriminate].
    + split; [intros [v E]; discriminate|]. intro P. apply Permutation_length in P. rewrite arange_length in P. lia.
Qed.
Print Assumptions C59_order_accepted_iff_permutation_partial.
Example C59_order_example : is_ok (check_cd (Pair (O1 (map Some [qn 1; qn 0])) (one_adj [3])) 3 2) /\ ~ is_ok (check_cd (Pair (O1 (map Some [qn 1; qn 1])) (one_adj [3])) 3 2).
Proof. split; [eexists; reflexivity|]. intros [v E]. vm_compute in E. discriminate. Qed.
(** A two-dimensional array with the right length and the right set of values is accepted as well,
    although it is not an order. *)
Theorem C59_order_accepted_iff_permutation_refuted : exists rows a reps p,
  check_cd (Pair (O2 rows) a) reps p = Ok (O2 rows, a) /\ 2 <= length (hd [] rows).
Proof. exists [[Some (qn 0); Some (qn 1)]; [Some (qn 1); Some (qn 1)]], (one_adj [3]), 3, 2. split; [reflexivity|cbn; lia]. Qed.
Print Assumptions C59_order_accepted_iff_permutation_refuted.

(** ** C94: one p x p matrix per repetition *)
(** The number of matrices is not checked against the number of repetitions. *)
Theorem C94_one_matrix_per_repetition_refuted : exists draw imp cd n p X N r it,
  boot_imp draw imp cd n p X N = Ok r /\ nth_error r 0 = Some it /\ it_reps it = 2 /\ ao_pre (it_adj it) = [7].
Proof.
  exists ex_draw, ex_imp, (fun _ _ _ _ => Pair (O1 [Some (qn 1); Some (qn 0)]) (one_adj [7])), 3, 2, ex_X, 2.
  eexists. eexists. split; [reflexivity|]. split; [reflexivity|]. split; reflexivity.
Qed.
Print Assumptions C94_one_matrix_per_repetition_refuted.
(** What is checked: in every iteration the last two dimensions are p x p, all entries are numbers,
    and all iterations have the same leading dimensions and the same number of repetitions. *)
Theorem C94_matrix_shapes_partial : forall draw imp cd n p X N r, boot_imp draw imp cd n p X N = Ok r ->
  length r = N /\
  (forall it, In it r -> ao_rows (it_adj it) = p /\ ao_cols (it_adj it) = p /\ adj_finite (it_adj it) = true) /\
  (forall it it', In it r -> In it' r -> ao_pre (it_adj it) = ao_pre (it_adj it') /\ it_reps it = it_reps it').
Proof.
  intros draw imp cd n p X N r H. destruct (boot_spec _ _ _ _ _ _ _ _ H) as (_ & L & S & C). split; [exact L|]. split; [|exact C].
  intros it Hit. apply In_nth_error in Hit. destruct Hit as [s Es].
  assert (Hs : s < N) by (rewrite <- L; apply nth_error_Some; congruence).
  destruct (S s Hs) as (it' & A & B). assert (it' = it) by congruence. subst it'.
  destruct (iterate_spec _ _ _ _ _ _ _ _ B) as (v & _ & _ & _ & _ & _ & I6). unfold check_cd in I6.
  destruct (cd s _ _ _) as [|ord a]; [discriminate|]. destruct (order_flat ord) as [[len l]|]; [|discriminate].
  destruct (len =? p); cbn [negb] in I6; [|discriminate]. destruct (array_equal _ _); cbn [negb] in I6; [|discriminate].
  destruct (adj_finite a) eqn:F; cbn [negb orb] in I6; [|discriminate]. destruct (first_dim a =? 0); [discriminate|].
  destruct ((ao_rows a =? p) && (ao_cols a =? p)) eqn:Q; cbn [negb] in I6; [|discriminate].
  apply andb_true_iff in Q. destruct Q as [Q1 Q2]. apply Nat.eqb_eq in Q1, Q2. injection I6 as _ <-. tauto.
Qed.
Print Assumptions C94_matrix_shapes_partial.
Example C94_example : exists r, boot_imp ex_draw ex_imp ex_cd 3 2 ex_X 2 = Ok r /\ map (fun it => (it_reps it, ao_rows (it_adj it))) r = [(2, 2); (2, 2)].
Proof. eexists. split; [reflexivity|]. vm_compute. reflexivity. Qed.

(** ** C95: observed values are kept *)
(** An imputer that overwrites observed values goes unnoticed: the discovery model is fitted to the
    changed data, and the imputation results do not show it. *)
Theorem C95_observed_values_kept_refuted : exists draw imp cd n p X N r it i c q,
  boot_imp draw imp cd n p X N = Ok r /\ nth_error r 0 = Some it /\ i < n /\ c < p /\
  X (draw 0 i) c = Some q /\ it_data it 0 i c <> q /\ it_imp it 0 i c = None.
Proof.
  exists ex_draw, (fun _ _ => Arr3 2 3 2 (fun _ _ _ => Some 0%Qc)), ex_cd, 3, 2, ex_X, 2.
  eexists. eexists. exists 0, 1. eexists. split; [reflexivity|]. split; [reflexivity|]. split; [lia|]. split; [lia|].
  split; [reflexivity|]. split; [|reflexivity]. intro E. apply (f_equal this) in E. vm_compute in E. discriminate.
Qed.
Print Assumptions C95_observed_values_kept_refuted.
(** With an imputer that keeps observed values, the default one included, every data set given to the
    discovery model is the bootstrap sample with its missing values filled in. *)
Theorem C95_observed_values_kept_partial : forall draw fill cd n p reps X N r,
  boot_imp draw (default_imp fill n p reps) cd n p X N = Ok r ->
  forall s, s < N -> exists it, nth_error r s = Some it /\ it_reps it = reps /\
    forall k i c, k < reps -> i < n -> c < p -> forall q, X (draw s i) c = Some q -> it_data it k i c = q.
Proof.
  intros draw fill cd n p reps X N r H s Hs. destruct (boot_spec _ _ _ _ _ _ _ _ H) as (_ & _ & S & _).
  destruct (S s Hs) as (it & A & B). destruct (iterate_spec _ _ _ _ _ _ _ _ B) as (v & I1 & _ & I3 & _).
  unfold default_imp in I1. injection I1 as E1 E2 E3. exists it. split; [exact A|]. split; [symmetry; exact E1|].
  set (cols := kept n p (fun r0 c => X (draw s r0) c)) in *.
  assert (K : forall c, c < p -> nth c cols 0 = c).
  { assert (F : cols = seq 0 p).
    { unfold cols, kept in *. clear - E2. set (f := fun c => existsb (fun r => is_num (X (draw s r) c)) (seq 0 n)) in *.
      assert (G : forall l, length (filter f l) = length l -> filter f l = l).
      { induction l as [|x l IH]; [reflexivity|]. cbn [filter length]. destruct (f x); cbn [length]; intro Q; [f_equal; apply IH; lia|].
        assert (Y : length (filter f l) <= length l) by (clear; induction l as [|y l IH]; [cbn; lia|]; cbn [filter]; destruct (f y); cbn [length]; lia). lia. }
      apply G. rewrite seq_length. exact E2. }
    intros c Hc. rewrite F. rewrite seq_nth by exact Hc. reflexivity. }
  intros k i c Hk Hi Hc q Hq. rewrite <- E1 in I3. specialize (I3 k i c Hk Hi Hc). rewrite <- E3 in I3. cbv beta zeta in I3.
  rewrite (K c Hc) in I3. cbv beta in I3. rewrite Hq in I3. injection I3 as I3. symmetry. exact I3.
Qed.
Print Assumptions C95_observed_values_kept_partial.
Example C95_example : is_ok (boot_imp ex_draw (default_imp (fun _ _ _ _ _ => 0%Qc) 3 2 2) ex_cd 3 2 ex_X 2).
Proof. eexists. reflexivity. Qed.

(** ** C96: the default imputer *)
(** Although every variable has observed values, a bootstrap sample in which some variable is
    observed in no row makes the whole call fail: the default imputer leaves that column out. *)
Theorem C96_default_imputer_refuted : forall fill cd, exists draw n p X N,
  (forall c, c < p -> exists r, r < n /\ X r c <> None) /\ (forall s r, r < n -> draw s r < n) /\
  boot_imp draw (default_imp fill n p 10) cd n p X N = Err ValueError.
Proof.
  intros fill cd. exists (fun _ _ => 1), 3, 2, ex_X, 1. split; [|split].
  - intros c Hc. exists 0. split; [lia|discriminate].
  - intros; lia.
  - reflexivity.
Qed.
Print Assumptions C96_default_imputer_refuted.
(** It never fails for that reason when each bootstrap sample has an observed value of each
    variable. *)
Theorem C96_default_imputer_partial : forall fill n p reps s S, 1 <= reps ->
  (forall c, c < p -> exists r, r < n /\ S r c <> None) -> is_ok (check_imputer (default_imp fill n p reps s S) n p).
Proof.
  intros fill n p reps s S Hr H. unfold default_imp, check_imputer.
  replace (kept n p S) with (seq 0 p).
  - rewrite seq_length, !Nat.eqb_refl. replace (reps =? 0) with false by (symmetry; apply Nat.eqb_neq; lia). cbn [negb andb].
    match goal with |- context [all3 ?a ?b ?c ?P] => replace (all3 a b c P) with true; [eexists; reflexivity|] end.
    symmetry. apply all3_true. reflexivity.
  - unfold kept. symmetry. set (f := fun c => existsb (fun r => is_num (S r c)) (seq 0 n)).
    assert (G : forall l, (forall x, In x l -> f x = true) -> filter f l = l).
    { induction l as [|x l IH]; intro Q; [reflexivity|]. cbn [filter]. rewrite (Q x (or_introl eq_refl)). f_equal. apply IH. intros y Hy. apply Q. right. exact Hy. }
    apply G. intros c Hc. apply in_seq in Hc. destruct (H c ltac:(lia)) as (r & Hrn & N). apply existsb_exists. exists r.
    split; [apply in_seq; lia|]. destruct (S r c); [reflexivity|congruence].
Qed.
Print Assumptions C96_default_imputer_partial.
Example C96_example : forall c, c < 2 -> exists r, r < 3 /\ ex_X r c <> None.
Proof. intros c Hc. exists 0. split; [lia|discriminate]. Qed.
