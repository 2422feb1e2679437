(** * C190, C191: the names of the simulator's variables. *)
From Coq Require Import List Arith Lia Bool ZArith QArith Qcanon String Ascii Decimal DecimalString DecimalNat Permutation.
From Verif Require Import Prelude Spec Lib LibMat ModelOrder ProofOrder ModelSim SpecSim ProofSim ModelSimNames ProofSimNames.
From Verif Require Props_Sim.
Import ListNotations.
Open Scope nat_scope.

(** ** Distinct names *)
Lemma decimal_inj i j : decimal i = decimal j -> i = j.
Proof.
  unfold decimal. intro E. apply Unsigned.to_uint_inj.
  apply (f_equal NilEmpty.uint_of_string) in E. rewrite !NilEmpty.usu in E. injection E as E. exact E.
Qed.
Lemma NoDup_map_on {A B} (f : A -> B) l : (forall x y, In x l -> In y l -> f x = f y -> x = y) -> NoDup l -> NoDup (map f l).
Proof.
  induction l as [|x l IH]; intros I N; [constructor|]. apply NoDup_cons_iff in N. destruct N as [N0 N]. cbn [map]. constructor.
  - intro H. apply in_map_iff in H. destruct H as [y [E Hy]]. apply N0. rewrite (I x y); [exact Hy|left; reflexivity|right; exact Hy|symmetry; exact E].
  - apply IH; [|exact N]. intros; apply I; try (right; assumption); assumption.
Qed.
(** The part of a name after its last opening bracket. *)
Fixpoint last_part (s : string) : option string :=
  match s with
  | EmptyString => None
  | String c r => match last_part r with Some x => Some x | None => if Ascii.eqb c "[" then Some r else None end
  end.
Lemma last_part_app s u x : last_part u = Some x -> last_part (String.append s u) = Some x.
Proof. intro H. induction s as [|c s IH]; [exact H|]. cbn [String.append last_part]. rewrite IH. reflexivity. Qed.
Lemma last_part_none s u : last_part s = None -> last_part u = None -> last_part (String.append s u) = None.
Proof.
  intros H K. induction s as [|c s IH]; [exact K|]. cbn [String.append last_part] in *.
  destruct (last_part s); [discriminate|]. rewrite IH by reflexivity. destruct (Ascii.eqb c "["); [discriminate|reflexivity].
Qed.
Lemma digits_no_bracket d : last_part (NilEmpty.string_of_uint d) = None.
Proof. induction d; cbn [NilEmpty.string_of_uint last_part]; [reflexivity|..]; rewrite IHd; reflexivity. Qed.
Definition after_bracket (i : nat) : string :=
  if i =? 0 then "t]"%string else String.append "t-" (String.append (decimal i) "]").
Lemma suffix_part i : last_part (lag_suffix i) = Some (after_bracket i).
Proof.
  unfold lag_suffix, after_bracket. destruct (i =? 0); [reflexivity|].
  assert (last_part (String.append (decimal i) "]") = None) as E by (apply last_part_none; [apply digits_no_bracket|reflexivity]).
  cbn [String.append last_part]. rewrite E. reflexivity.
Qed.
Lemma append_length a b : String.length (String.append a b) = String.length a + String.length b.
Proof. induction a as [|c a IH]; [reflexivity|]. cbn. rewrite IH. reflexivity. Qed.
Lemma append_cancel a b u : String.append a u = String.append b u -> a = b.
Proof.
  revert b. induction a as [|c a IH]; intros [|c' b] E; [reflexivity| | |].
  - exfalso. apply (f_equal String.length) in E. cbn in E. rewrite append_length in E. lia.
  - exfalso. apply (f_equal String.length) in E. cbn in E. rewrite append_length in E. lia.
  - cbn in E. injection E as -> E. rewrite (IH b E). reflexivity.
Qed.
Lemma after_inj i j : after_bracket i = after_bracket j -> i = j.
Proof.
  unfold after_bracket. destruct (Nat.eqb_spec i 0) as [->|Di], (Nat.eqb_spec j 0) as [->|Dj]; intro E; try reflexivity; try discriminate.
  cbn [String.append] in E. injection E as E. apply append_cancel in E. apply decimal_inj. exact E.
Qed.
Lemma suffix_inj a b i j : String.append a (lag_suffix i) = String.append b (lag_suffix j) -> a = b /\ i = j.
Proof.
  intro E. assert (i = j) as <-.
  { apply after_inj. apply (f_equal last_part) in E.
    rewrite (last_part_app _ _ _ (suffix_part i)), (last_part_app _ _ _ (suffix_part j)) in E. congruence. }
  split; [|reflexivity]. apply append_cancel in E. exact E.
Qed.

Lemma add_suffixes_strings u bases : add_suffixes u (map LStr bases) = Ok (map (fun b => String.append b u) bases).
Proof. induction bases as [|b r IH]; [reflexivity|]. cbn [map add_suffixes add_suffix bind]. rewrite IH. reflexivity. Qed.
Lemma lagged_strings bases lags :
  lagged_names (map LStr bases) lags = Ok (flat_map (fun i => map (fun b => String.append b (lag_suffix i)) bases) lags).
Proof. induction lags as [|i r IH]; [reflexivity|]. cbn [lagged_names flat_map]. rewrite add_suffixes_strings. cbn [bind]. rewrite IH. reflexivity. Qed.
Lemma flat_nth {A B} (f : nat -> A -> B) (l : list A) d d' p a k i v : List.length l = p -> v < p -> i < k ->
  nth (i * p + v) (flat_map (fun i => map (f i) l) (seq a k)) d = f (a + i) (nth v l d').
Proof.
  intros L Hv. revert a i. induction k as [|k IH]; intros a i Hi; [lia|]. cbn [seq flat_map].
  destruct i as [|i].
  - cbn [Nat.mul Nat.add]. rewrite app_nth1 by (rewrite map_length; lia).
    rewrite (nth_indep _ d (f a d')) by (rewrite map_length; lia). rewrite map_nth, Nat.add_0_r. reflexivity.
  - rewrite app_nth2 by (rewrite map_length; nia). rewrite map_length, L.
    replace (S i * p + v - p) with (i * p + v) by nia. rewrite IH by lia. f_equal. lia.
Qed.
Lemma flat_length {A B} (f : nat -> A -> B) (l : list A) lags : List.length (flat_map (fun i => map (f i) l) lags) = List.length l * List.length lags.
Proof. induction lags as [|i r IH]; [cbn; lia|]. cbn [flat_map List.length]. rewrite app_length, map_length, IH. lia. Qed.

Definition columns_of (f : frame) : nat := match f with Frame ls => List.length ls | Array p => p end.
Definition base_names (f : frame) : list string := match f with Frame ls => map str ls | Array p => map decimal (seq 0 p) end.

(** Arrays get distinct names; so do tables whose labels are written differently. *)
Theorem C190_plain_names : forall f,
  (match f with Frame ls => NoDup (map str ls) | Array _ => True end) ->
  NoDup (plain_names f) /\ List.length (plain_names f) = columns_of f.
Proof.
  intros [ls|p] H; cbn [plain_names columns_of]; rewrite map_length; [split; [exact H|reflexivity]|].
  rewrite seq_length. split; [|reflexivity]. apply NoDup_map_on; [intros i j _ _; apply decimal_inj|apply seq_NoDup].
Qed.
Print Assumptions C190_plain_names.
(** For time series, distinct text labels, even ones with brackets in them, give distinct names for all
    lags, and the name of variable v at lag l stands at position l * p + v. *)
Theorem C190_lag_names : forall bases L, NoDup bases ->
  exists names, ts_names (Frame (map LStr bases)) L = Ok names /\ NoDup names /\
    List.length names = List.length bases * S L /\
    forall v l, v < List.length bases -> l <= L ->
      nth (l * List.length bases + v) names EmptyString = String.append (nth v bases EmptyString) (lag_suffix l).
Proof.
  intros bases L ND. unfold ts_names. rewrite lagged_strings. eexists. split; [reflexivity|].
  split; [|split].
  - apply NoDup_flat_map; [apply seq_NoDup| |].
    + intros i _. apply NoDup_map_on; [intros a b _ _ E; apply suffix_inj in E; tauto|exact ND].
    + intros i j z _ _ H1 H2. apply in_map_iff in H1. apply in_map_iff in H2. destruct H1 as [a [<- _]], H2 as [b [E _]].
      apply suffix_inj in E. symmetry. tauto.
  - rewrite (flat_length (fun i b => String.append b (lag_suffix i))), seq_length. reflexivity.
  - intros v l Hv Hl. rewrite (flat_nth (fun i b => String.append b (lag_suffix i)) bases EmptyString EmptyString (List.length bases) 0 (S L) l v) by lia. reflexivity.
Qed.
Print Assumptions C190_lag_names.

(** ** With distinct names, the simulation by names is the simulation by positions (C52-C54). *)
Theorem C190_by_position_partial : forall fit s changes exog shuffle,
  NoDup (si_names s) -> List.length (si_names s) = im_n (si_im s) ->
  (forall v, v < im_n (si_im s) -> im_discrete (si_im s) v = known (nth v (si_names s) EmptyString) (si_discrete s)) ->
  (forall x c m, In (x, c) changes -> nc_model c = Some m -> md_width m = List.length (nc_parents c)) ->
  match nrun fit s changes exog shuffle,
        run (fun v => fit (nth v (si_names s) EmptyString)) (Some (si_im s)) (map (change_at (si_names s)) changes)
          (map (fun kv => (index_of (fst kv) (si_names s), snd kv)) exog) shuffle with
  | Ok sim, Ok sim' => forall q, q < im_n (si_im s) -> sim q = sim' q
  | Err e, Err e' => e = e'
  | _, _ => False
  end.
Proof. exact nrun_agrees. Qed.
Print Assumptions C190_by_position_partial.
Lemma no_flags_discrete names : plain_discrete names NoFlags = Ok [].
Proof.
  unfold plain_discrete, by_mask. rewrite map_length, Nat.eqb_refl. f_equal.
  induction names as [|x r IH]; [reflexivity|]. cbn [map combine filter snd]. exact IH.
Qed.
Theorem C190_replay_partial : forall fit f N X G s,
  (match f with Frame ls => NoDup (map str ls) | Array _ => True end) ->
  plain_simulator f N (columns_of f) X G NoFlags = Ok s ->
  exists sim, nrun fit s [] [] None = Ok sim /\ forall v, v < columns_of f -> sim v = Some (map (fun r => X r v) (seq 0 N)).
Proof.
  intros fit f N X G s HF E. destruct (C190_plain_names f HF) as [ND LN].
  unfold plain_simulator in E. cbv zeta in E. rewrite no_flags_discrete in E. cbn [bind] in E.
  destruct (plain_impl N (columns_of f) X G (fun _ => false)) as [im|e] eqn:EI; [|discriminate]. cbn [bind] in E. injection E as <-.
  destruct (plain_impl_ok _ _ _ _ _ _ EI) as (E1 & E2 & E3 & E4 & E5 & E6 & E7).
  set (s := {| si_names := plain_names f; si_discrete := []; si_im := with_discrete im (plain_names f) [] |}).
  pose proof (nrun_agrees fit s [] [] None ND (eq_trans LN (eq_sym E1)) (fun v _ => eq_refl) (fun x c m H => match H with end)) as A.
  unfold agree in A. cbn [map] in A.
  destruct (replay (fun v => fit (nth v (plain_names f) EmptyString)) (with_discrete im (plain_names f) [])) as [sim' [R Hs]]; [exact E6|exact E7|intros; reflexivity|].
  assert (R' : run (fun v => fit (nth v (si_names s) EmptyString)) (Some (si_im s)) [] [] None = Ok sim') by exact R.
  rewrite R' in A.
  destruct (nrun fit s [] [] None) as [sim|]; [|contradiction]. exists sim. split; [reflexivity|].
  intros v Hv. rewrite A by (cbn; lia). rewrite Hs by (cbn; lia). cbn [with_discrete im_data]. rewrite E5. reflexivity.
Qed.
Print Assumptions C190_replay_partial.

(** ** Labels that are written alike *)
(** The columns 1 and "1" of a table both become "1": replaying the training data returns the first column twice. *)
Definition any_fit : string -> list (list Qc) -> column -> predictor := fun _ _ _ _ _ => 0%Qc.
Definition two_columns : nat -> nat -> Qc := fun r v => match v with 0 => qz (Z.of_nat r) | _ => qz 7 end.
Theorem C190_like_labels_refuted : exists f X G s sim,
  match f with Frame ls => NoDup ls | Array _ => False end /\
  plain_simulator f 3 2 X G NoFlags = Ok s /\ nrun any_fit s [] [] None = Ok sim /\
  sim 1 = Some (map (fun r => X r 0) (seq 0 3)) /\ sim 1 <> Some (map (fun r => X r 1) (seq 0 3)).
Proof.
  exists (Frame [LInt 1; LStr "1"]), two_columns, (fun _ _ => 0%Qc). eexists. eexists.
  split; [repeat constructor; cbn; intuition discriminate|].
  split; [unfold plain_simulator; vm_compute plain_discrete; cbn [bind]; unfold plain_impl; vm_compute (ica_search _ _); cbn [bind]; reflexivity|].
  split; [vm_compute; reflexivity|]. split; [vm_compute; reflexivity|].
  intro E. apply (f_equal (fun o => match o with Some (x :: _) => this x | _ => 0%Q end)) in E. vm_compute in E. discriminate E.
Qed.
Print Assumptions C190_like_labels_refuted.
(** With an edge between them, the replay fails: the model of one parent is given two columns. *)
Theorem C190_like_parents_refuted : exists f X G s,
  match f with Frame ls => NoDup ls | Array _ => False end /\
  plain_simulator f 3 3 X G NoFlags = Ok s /\ nrun any_fit s [] [] None = Err ValueError.
Proof.
  exists (Frame [LInt 1; LStr "1"; LStr "y"]), two_columns, (fun i j => match i, j with 2, 0 => 1%Qc | _, _ => 0%Qc end). eexists.
  split; [repeat constructor; cbn; intuition discriminate|].
  split; [unfold plain_simulator; vm_compute plain_discrete; cbn [bind]; unfold plain_impl; vm_compute (ica_search _ _); cbn [bind]; reflexivity|].
  vm_compute; reflexivity.
Qed.
Print Assumptions C190_like_parents_refuted.
(** A time series in a table whose labels are integers cannot be used at all, although the same table
    can be used with the other algorithms. *)
Theorem C190_integer_labels_refuted : forall ls N p L X B fl k, In (LInt k) ls ->
  ts_simulator (Frame ls) N p L X B fl = Err TypeError.
Proof.
  intros ls N p L X B fl k I. unfold ts_simulator, ts_names.
  assert (forall u, add_suffixes u ls = Err TypeError) as E.
  { intro u. induction ls as [|l ls IH]; [contradiction|]. cbn [add_suffixes]. destruct I as [->|I]; [reflexivity|].
    destruct l; [reflexivity|]. cbn [add_suffix bind]. rewrite (IH I). reflexivity. }
  cbn [seq lagged_names]. rewrite E. reflexivity.
Qed.
Print Assumptions C190_integer_labels_refuted.
Example C190_example :
  plain_names (Frame [LStr "a"; LInt 12; LStr "a[t-1]"]) = ["a"; "12"; "a[t-1]"]%string /\
  ts_names (Frame [LStr "a"; LStr "a[t]"]) 2 =
    Ok ["a[t]"; "a[t][t]"; "a[t-1]"; "a[t][t-1]"; "a[t-2]"; "a[t][t-2]"]%string /\
  (exists s, plain_simulator (Frame [LStr "a"; LInt 1]) 3 2 two_columns (fun i j => match i, j with 1, 0 => 1%Qc | _, _ => 0%Qc end) NoFlags = Ok s /\
     Props_Sim.show 3 2 (nrun (fun _ => Props_Sim.times3 0) s [] [("a"%string, (true, [qz 1; qz 1; qz 1]))] None) = [[1; 1; 1]; [10; 7; 4]]%Q) /\
  ts_simulator (Frame [LInt 0]) 3 1 1 two_columns (fun _ _ _ => 0%Qc) NoFlags = Err TypeError.
Proof.
  split; [reflexivity|]. split; [reflexivity|]. split; [|reflexivity].
  eexists. split; [unfold plain_simulator; vm_compute plain_discrete; cbn [bind]; unfold plain_impl; vm_compute (ica_search _ _); cbn [bind]; reflexivity|].
  vm_compute. reflexivity.
Qed.

(** ** C191: the discrete variables *)
Lemma mask_known names m d v : NoDup names -> by_mask names m = Ok d -> v < List.length names ->
  known (nth v names EmptyString) d = nth v m false.
Proof.
  unfold by_mask. intros ND E Hv. destruct (Nat.eqb_spec (List.length m) (List.length names)) as [L|]; [|discriminate]. injection E as <-.
  revert m v L Hv. induction names as [|x r IH]; intros m v L Hv; [cbn in Hv; lia|].
  destruct m as [|b m]; [discriminate|]. cbn [List.length] in L, Hv. injection L as L.
  apply NoDup_cons_iff in ND. destruct ND as [N0 ND].
  assert (Sub : forall y, In y (map fst (filter snd (combine r m))) -> In y r).
  { intros y Hy. apply in_map_iff in Hy. destruct Hy as [[y' b'] [E' Hy]]. cbn in E'. subst y'. apply filter_In in Hy. destruct Hy as [Hy _].
    apply in_combine_l in Hy. exact Hy. }
  cbn [combine filter snd]. destruct v as [|v]; cbn [nth].
  - destruct b; cbn [map fst]; [unfold known; cbn [existsb]; rewrite String.eqb_refl; reflexivity|].
    destruct (known x (map fst (filter snd (combine r m)))) eqn:K; [|reflexivity]. apply known_In in K. exfalso. apply N0. apply Sub. exact K.
  - destruct b; cbn [map fst]; [|apply IH; try assumption; lia].
    unfold known. cbn [existsb]. destruct (String.eqb (nth v r EmptyString) x) eqn:E'; [|apply IH; try assumption; lia].
    apply String.eqb_eq in E'. exfalso. apply N0. rewrite <- E'. apply nth_In. lia.
Qed.
Lemma repeat_list_nth (l : list bool) p k i v : List.length l = p -> v < p -> i < k -> nth (i * p + v) (repeat_list k l) false = nth v l false.
Proof.
  intros L Hv. revert i. induction k as [|k IH]; intros i Hi; [lia|]. cbn [repeat_list]. destruct i as [|i].
  - cbn [Nat.mul Nat.add]. apply app_nth1. lia.
  - rewrite app_nth2 by nia. replace (S i * p + v - List.length l) with (i * p + v) by nia. apply IH. lia.
Qed.
Lemma repeat_list_length {A} (l : list A) k : List.length (repeat_list k l) = k * List.length l.
Proof. induction k as [|k IH]; [reflexivity|]. cbn [repeat_list]. rewrite app_length, IH. lia. Qed.

(** A list of flags with one entry for every column is accepted and marks exactly the columns it says,
    for time series at every lag. *)
Theorem C191_list_partial : forall names l, NoDup names -> List.length l = List.length names ->
  exists d, plain_discrete names (FList l) = Ok d /\ plain_discrete names (FArray l) = Ok d /\
    forall v, v < List.length names -> known (nth v names EmptyString) d = nth v l false.
Proof.
  intros names l ND L. unfold plain_discrete. destruct (by_mask names l) as [d|e] eqn:E.
  - exists d. split; [reflexivity|]. split; [reflexivity|]. intros v Hv. apply (mask_known names l d v ND E Hv).
  - unfold by_mask in E. rewrite L, Nat.eqb_refl in E. discriminate.
Qed.
Print Assumptions C191_list_partial.
Theorem C191_time_series_list_partial : forall bases L l, NoDup bases -> List.length l = List.length bases ->
  exists names d, ts_names (Frame (map LStr bases)) L = Ok names /\ ts_discrete (List.length bases) names L (FList l) = Ok d /\
    forall v i, v < List.length bases -> i <= L ->
      known (String.append (nth v bases EmptyString) (lag_suffix i)) d = nth v l false.
Proof.
  intros bases L l ND LL. destruct (C190_lag_names bases L ND) as (names & E1 & N1 & N2 & N3). exists names.
  unfold ts_discrete. destruct (by_mask names (repeat_list (S L) l)) as [d|e] eqn:E.
  - exists d. split; [exact E1|]. split; [reflexivity|]. intros v i Hv Hi. rewrite <- (N3 v i Hv Hi).
    rewrite (mask_known names _ d _ N1 E) by (rewrite N2; nia). apply repeat_list_nth; lia.
  - exfalso. unfold by_mask in E. rewrite repeat_list_length, N2, LL, (Nat.mul_comm (S L)), Nat.eqb_refl in E. discriminate.
Qed.
Print Assumptions C191_time_series_list_partial.
(** The same flags in a numpy array are read as positions: whatever they say, only the first variable and
    the one at position n_lags + 1 can be marked; an array with no flag set marks the first variable. *)
Theorem C191_time_series_array_refuted : forall p names L l d,
  ts_discrete p names L (FArray l) = Ok d ->
  forall x, In x d <-> (In false l /\ x = nth 0 names EmptyString \/ In true l /\ x = nth (S L) names EmptyString).
Proof.
  intros p names L l d E x. unfold ts_discrete in E. revert d E. induction l as [|b l IH]; intros d E; cbn [map by_positions] in E.
  - injection E as <-. cbn. tauto.
  - destruct (nth_error names (if b then S L else 0)) as [y|] eqn:Ey; [|discriminate].
    destruct (by_positions names (map (fun b : bool => if b then S L else 0) l)) as [r|] eqn:Er; [|discriminate]. cbn [bind] in E. injection E as <-.
    specialize (IH r eq_refl). cbn [In]. rewrite IH.
    assert (nth (if b then S L else 0) names EmptyString = y) as <- by (apply nth_error_nth; exact Ey).
    destruct b; intuition (try discriminate; subst; auto).
Qed.
Print Assumptions C191_time_series_array_refuted.
Theorem C191_array_not_list_refuted : exists bases L l names d d',
  NoDup bases /\ ts_names (Frame (map LStr bases)) L = Ok names /\
  ts_discrete 2 names L (FList l) = Ok d /\ ts_discrete 2 names L (FArray l) = Ok d' /\
  d = ["y[t]"; "y[t-1]"]%string /\ d' = ["x[t]"; "x[t-1]"]%string.
Proof.
  exists ["x"; "y"]%string, 1, [false; true]. do 3 eexists. split; [repeat constructor; cbn; intuition discriminate|].
  split; [vm_compute; reflexivity|]. split; [vm_compute; reflexivity|]. split; [vm_compute; reflexivity|]. split; reflexivity.
Qed.
Print Assumptions C191_array_not_list_refuted.
Example C191_example :
  plain_discrete ["x"; "y"; "z"]%string (FList [false; true; true]) = Ok ["y"; "z"]%string /\
  plain_discrete ["x"; "y"; "z"]%string (FList [true]) = Err IndexError /\
  ts_discrete 1 ["x[t]"; "x[t-1]"]%string 1 (FArray [true]) = Err IndexError.
Proof. repeat split. Qed.
