(** * CausalBasedSimulator: C52-C54, C84-C87.  Every theorem is followed by its assumptions. *)
From Coq Require Import List Arith Lia Bool ZArith QArith Qcanon Permutation Relations.
From Verif Require Import Prelude Spec Lib ModelOrder ProofOrder ModelSim SpecSim ProofSim.
Import ListNotations.
Open Scope nat_scope.

(** A run for the examples: three samples of two variables, x1 = 2 x0 + e; the model of x1 is
    "three times the parent" (deliberately not the best fit). *)
Definition sx (l : list (list Z)) : nat -> nat -> Qc := fun r v => qz (nth v (nth r l []) 0%Z).
Definition sg (l : list (list Z)) : mat Qc := fun i j => qz (nth j (nth i l []) 0%Z).
Definition times3 : nat -> list (list Qc) -> column -> predictor :=
  fun _ _ _ R r => (qz 3 * nth 0 (nth r R []) 0)%Qc.
Definition ex_im : result impl := plain_impl 3 2 (sx [[1; 2]; [2; 5]; [0; 1]]%Z) (sg [[0; 0]; [2; 0]]%Z) (fun _ => false).
Definition show (N n : nat) (o : result (nat -> option column)) : list (list Q) :=
  match o with
  | Ok sim => map (fun v => match sim v with Some c => map this c | None => [] end) (seq 0 n)
  | Err _ => []
  end.

(** ** C52 *)
Theorem C52_replay :
  forall fit N n X G im, plain_impl N n X G (fun _ => false) = Ok im ->
  exists sim, run fit (Some im) [] [] None = Ok sim /\
    forall v, v < n -> sim v = Some (map (fun r => X r v) (seq 0 N)).
Proof.
  intros fit N n X G im H. destruct (plain_impl_ok _ _ _ _ _ _ H) as (E1 & E2 & E3 & E4 & E5 & E6 & E7).
  destruct (replay fit im E6 E7) as [sim [R Hs]]; [intros; rewrite E4; reflexivity|].
  exists sim. split; [exact R|]. intros v Hv. rewrite Hs by lia. rewrite E5. reflexivity.
Qed.
Print Assumptions C52_replay.
(** Training accepts exactly the acyclic graphs. *)
Theorem C52_train_accepts :
  forall N n X G d, ((exists im, plain_impl N n X G d = Ok im) <-> acyclic (edge_of n G)).
Proof.
  intros N n X G d. unfold plain_impl. destruct (ica_search_exact n (fun i j => Some (G i j))) as [_ [H1 H2]].
  assert (EQ : forall a b, edge_of_num n (fun i j => Some (G i j)) a b <-> edge_of n G a b).
  { intros a b. unfold edge_of_num, edge_of. split; intros (Ha & Hb & Hab); (split; [exact Ha|]); (split; [exact Hb|]); congruence. }
  split.
  - intros [im H]. destruct (ica_search n (fun i j => Some (G i j))) as [K|]; [|discriminate].
    eapply acyclic_sub; [|apply H1; exists K; reflexivity]. intros a b. apply EQ.
  - intro A. destruct H2 as [K E]; [eapply acyclic_sub; [|exact A]; intros a b; apply EQ|]. rewrite E. eexists. reflexivity.
Qed.
Print Assumptions C52_train_accepts.
Example C52_example :
  match ex_im with Ok im => show 3 2 (run times3 (Some im) [] [] None) | Err _ => [] end = [[1; 2; 0]; [2; 5; 1]]%Q /\
  match ex_im with Ok im => match tr_resid (train times3 im 1) with Some e => map this e | None => [] end | Err _ => [] end = [-1; -1; 1]%Q.
Proof. split; vm_compute; reflexivity. Qed.

(** ** C53 *)
(** For admissible changes of models and errors: ValueError exactly when the changed graph is
    cyclic; otherwise every column is complete and solves its (changed) equation, in which the
    parents' columns are the simulated ones. *)
Theorem C53_equations :
  forall fit N n X G d im changes exog shuffle, plain_impl N n X G d = Ok im ->
  good_changes im changes -> good_exog im exog -> good_shuffle im shuffle ->
  (acyclic (new_edge im changes) ->
     exists sim s, run fit (Some im) changes exog shuffle = Ok sim /\
       forall v, v < n -> sim v = Some (s v) /\ length (s v) = N /\ solution im (train fit im) changes exog shuffle s v) /\
  (~ acyclic (new_edge im changes) -> run fit (Some im) changes exog shuffle = Err ValueError).
Proof.
  intros fit N n X G d im changes exog shuffle H GC GE GS. destruct (plain_impl_ok _ _ _ _ _ _ H) as (E1 & E2 & E3 & E4 & E5 & E6 & E7). split.
  - intro A. destruct (run_ok fit im changes exog shuffle GC GE GS E6 A) as (sim & s & R & Hs). exists sim, s. split; [exact R|].
    intros v Hv. rewrite <- E2. apply Hs. lia.
  - intro A. unfold run. rewrite (ge_check _ _ GE), (gc_check _ _ GC). cbn [negb]. apply simulate_cyclic; [apply GC|exact A].
Qed.
Print Assumptions C53_equations.
(** Two runs that differ only in what is said about variable [x] agree on every variable that is
    neither [x] nor a descendant of [x]. *)
Theorem C53_locality :
  forall fit N n X G d im changes exog changes' exog' shuffle x sim sim', plain_impl N n X G d = Ok im ->
  good_changes im changes -> good_exog im exog -> good_changes im changes' -> good_exog im exog' -> good_shuffle im shuffle ->
  (forall v, v <> x -> lookup v changes = lookup v changes' /\ lookup v exog = lookup v exog') ->
  run fit (Some im) changes exog shuffle = Ok sim -> run fit (Some im) changes' exog' shuffle = Ok sim' ->
  forall v, v < n -> v <> x -> ~ clos_trans nat (new_edge im changes) x v -> sim v = sim' v.
Proof.
  intros fit N n X G d im changes exog changes' exog' shuffle x sim sim' H GC GE GC' GE' GS HX R R' v Hv.
  destruct (plain_impl_ok _ _ _ _ _ _ H) as (E1 & E2 & E3 & E4 & E5 & E6 & E7).
  apply (locality fit im changes exog changes' exog' shuffle x sim sim'); try assumption. lia.
Qed.
Print Assumptions C53_locality.
(** x1 becomes exogenous and x0 its child with coefficient 1; and a cyclic change. *)
Definition ex_changes : list (nat * change) :=
  [(1, {| ch_parents := []; ch_model := None |}); (0, {| ch_parents := [1]; ch_model := Some (fun R r => nth 0 (nth r R []) 0%Qc) |})].
Definition cyc_changes : list (nat * change) := [(0, {| ch_parents := [1]; ch_model := Some (fun R r => nth 0 (nth r R []) 0%Qc) |})].
Definition ex_exog : list (nat * (bool * column)) := [(1, (true, [qz 7; qz 8; qz 9]))].
Example C53_example :
  match ex_im with Ok im => show 3 2 (run times3 (Some im) ex_changes ex_exog None) | Err _ => [] end = [[8; 10; 9]; [7; 8; 9]]%Q /\
  match ex_im with Ok im => match run times3 (Some im) cyc_changes [] None with Err ValueError => true | _ => false end | Err _ => false end = true /\
  match ex_im with Ok im => check_changes im ex_changes && check_exog im ex_exog | Err _ => false end = true /\
  NoDup (map fst ex_changes).
Proof. repeat split; try (vm_compute; reflexivity). repeat (constructor; [cbn; intuition lia|]). constructor. Qed.

(** ** C54 *)
Theorem C54_lagged_columns :
  forall N p L X B d im, ts_impl N p L X B d = Ok im -> L <= N ->
  im_n im = p * (L + 1) /\ im_N im = N - L /\
  forall v l, v < p -> l <= L ->
    length (im_data im (l * p + v)) = N - L /\
    (forall r, r < N - L -> nth r (im_data im (l * p + v)) 0%Qc = X (L - l + r)%nat v).
Proof.
  intros N p L X B d im H HN. destruct (ts_impl_ok _ _ _ _ _ _ _ H) as (E1 & E2 & E3 & E4 & E5 & E6 & E7).
  split; [exact E1|]. split; [exact E2|]. intros v l Hv Hl. rewrite E5, ts_column_spec by assumption.
  split; [rewrite map_length, seq_length; reflexivity|]. intros r Hr.
  rewrite nth_indep with (d' := X (L - l + 0)%nat v) by (rewrite map_length, seq_length; exact Hr).
  rewrite (map_nth (fun r => X (L - l + r)%nat v) (seq 0 (N - L)) 0 r). rewrite seq_nth by exact Hr. reflexivity.
Qed.
Print Assumptions C54_lagged_columns.
(** The parents of x_v(t) are the x_u(t-l) with a coefficient B_l[v,u] not close to zero; lagged
    variables have none. *)
Theorem C54_parents :
  forall N p L X B d im, ts_impl N p L X B d = Ok im ->
  forall v u l, v < p -> u < p -> l <= L ->
    (In (l * p + u) (parents_of (im_n im) (im_graph im) v) <-> near_zero (B l v u) = false) /\
    (1 <= l -> parents_of (im_n im) (im_graph im) (l * p + v) = []).
Proof.
  intros N p L X B d im H v u l Hv Hu Hl. destruct (ts_impl_ok _ _ _ _ _ _ _ H) as (E1 & E2 & E3 & E4 & E5 & E6 & E7).
  rewrite E1, E3. split.
  - rewrite parents_of_In. unfold ts_graph. destruct (Nat.ltb_spec v p); [|lia].
    rewrite (Nat.add_comm (l * p) u), Nat.div_add, Nat.mod_add by lia. rewrite Nat.div_small, Nat.mod_small by exact Hu. cbn [Nat.add].
    split; [tauto|]. intro E. split; [nia|exact E].
  - intro H1. unfold parents_of. induction (seq 0 (p * (L + 1))) as [|a s IH]; [reflexivity|]. cbn [filter]. unfold ts_graph at 1.
    destruct (Nat.ltb_spec (l * p + v) p); [nia|]. exact IH.
Qed.
Print Assumptions C54_parents.
Definition ex_ts : result impl := ts_impl 4 2 1 (sx [[1; 10]; [2; 20]; [3; 30]; [4; 40]]%Z)
  (fun l => if l =? 0 then sg [[0; 0]; [1; 0]]%Z else sg [[1; 0]; [0; 0]]%Z) (fun _ => false).
Example C54_example :
  match ex_ts with Ok im => map (fun i => map this (im_data im i)) (seq 0 4) | Err _ => [] end = [[2; 3; 4]; [20; 30; 40]; [1; 2; 3]; [10; 20; 30]]%Q /\
  match ex_ts with Ok im => map (fun i => parents_of 4 (im_graph im) i) (seq 0 4) | Err _ => [] end = [[2]; [0]; []; []].
Proof. split; vm_compute; reflexivity. Qed.

(** ** C84 *)
(** The columns of a simulated series are shifts of each other when nothing is changed ... *)
Definition consistent_series (p L rows : nat) (sim : nat -> option column) : Prop :=
  forall v l r, v < p -> l <= L -> l <= r -> r < rows ->
  exists a b, sim (l * p + v) = Some a /\ sim v = Some b /\ nth r a 0%Qc = nth (r - l) b 0%Qc.
Theorem C84_series_unchanged_partial :
  forall fit N p L X B im, ts_impl N p L X B (fun _ => false) = Ok im -> L <= N ->
  exists sim, run fit (Some im) [] [] None = Ok sim /\ consistent_series p L (N - L) sim.
Proof.
  intros fit N p L X B im H HN. destruct (ts_impl_ok _ _ _ _ _ _ _ H) as (E1 & E2 & E3 & E4 & E5 & E6 & E7).
  destruct (replay fit im E6 E7) as [sim [R Hs]]; [intros; rewrite E4; reflexivity|].
  exists sim. split; [exact R|]. intros v l r Hv Hl H1 H2. exists (im_data im (l * p + v)), (im_data im v).
  destruct (C54_lagged_columns N p L X B _ im H HN) as (_ & _ & C).
  split; [apply Hs; rewrite E1; nia|]. split; [apply Hs; rewrite E1; nia|].
  destruct (C v l Hv Hl) as [_ C1]. destruct (C v 0 Hv (Nat.le_0_l L)) as [_ C2]. cbn [Nat.mul Nat.add] in C2.
  rewrite C1 by exact H2. rewrite C2 by lia. f_equal. lia.
Qed.
Print Assumptions C84_series_unchanged_partial.
Example C84_example : exists im, ex_ts = Ok im /\ show 3 4 (run times3 (Some im) [] [] None) = [[2; 3; 4]; [20; 30; 40]; [1; 2; 3]; [10; 20; 30]]%Q.
Proof.
  assert (V : match ex_ts with Ok im => show 3 4 (run times3 (Some im) [] [] None) | Err _ => [] end = [[2; 3; 4]; [20; 30; 40]; [1; 2; 3]; [10; 20; 30]]%Q) by (vm_compute; reflexivity).
  destruct ex_ts as [im|]; [|discriminate]. exists im. split; [reflexivity|exact V].
Qed.
(** ... but not after a change: the lagged columns keep the training data. *)
Theorem C84_series_refuted : exists im sim,
  ex_ts = Ok im /\ run times3 (Some im) [] [(0, (true, [qz 5; qz 5; qz 5]))] None = Ok sim /\
  ~ consistent_series 2 1 3 sim.
Proof.
  destruct ex_ts as [im|] eqn:E; [|vm_compute in E; discriminate]. exists im.
  destruct (ts_impl_ok _ _ _ _ _ _ _ E) as (E1 & E2 & E3 & E4 & E5 & E6 & E7).
  assert (GE : good_exog im [(0, (true, [qz 5; qz 5; qz 5]))]).
  { split; [repeat (constructor; [cbn; tauto|]); constructor| |].
    - unfold check_exog. cbn [forallb fst snd length]. rewrite E1, E2, E4. reflexivity.
    - intros v b e H. rewrite lookup_cons in H. destruct (fst (0, (true, [qz 5; qz 5; qz 5])) =? v); [cbn in H; congruence|discriminate]. }
  destruct (run_ok times3 im [] _ None (no_changes im) GE Logic.I E6 E7) as (sim & s & R & Hs).
  exists sim. split; [reflexivity|]. split; [exact R|]. intro C.
  assert (V : match ex_ts with Ok im => show 3 3 (run times3 (Some im) [] [(0, (true, [qz 5; qz 5; qz 5]))] None) | Err _ => [] end
              = [[8; 11; 14]; [20 + 3 * 6; 30 + 3 * 8; 40 + 3 * 10]; [1; 2; 3]]%Q).
  { vm_compute. reflexivity. }
  rewrite E, R in V. cbn [show map seq] in V.
  destruct (C 0 1 1 ltac:(lia) ltac:(lia) ltac:(lia) ltac:(lia)) as (a & b & Ea & Eb & Ev).
  cbn [Nat.mul Nat.add] in Ea. rewrite Ea, Eb in V. injection V as V1 V2 V3. subst.
  apply (f_equal this) in Ev. destruct a as [|a1 [|a2 a]]; try discriminate. destruct b as [|b1 b]; try discriminate.
  cbn [map] in V1, V3. injection V1 as V1 _. injection V3 as _ V3 _. cbn [nth Nat.sub] in Ev. rewrite V1, V3 in Ev. discriminate.
Qed.
Print Assumptions C84_series_refuted.

(** ** C85 *)
(** New errors given as a list of the right length pass the check and then fail. *)
Theorem C85_list_exog_refuted : exists im,
  ex_im = Ok im /\ check_exog im [(0, (false, [qz 7; qz 8; qz 9]))] = true /\
  run times3 (Some im) [] [(0, (false, [qz 7; qz 8; qz 9]))] None = Err AttributeError.
Proof.
  destruct ex_im as [im|] eqn:E; [|vm_compute in E; discriminate]. exists im.
  assert (V : match ex_im with Ok im => check_exog im [(0, (false, [qz 7; qz 8; qz 9]))] | Err _ => false end = true) by (vm_compute; reflexivity).
  assert (W : match ex_im with Ok im => match run times3 (Some im) [] [(0, (false, [qz 7; qz 8; qz 9]))] None with Err AttributeError => true | _ => false end | Err _ => false end = true) by (vm_compute; reflexivity).
  rewrite E in V, W. split; [reflexivity|]. split; [exact V|].
  destruct (run times3 (Some im) [] [(0, (false, [qz 7; qz 8; qz 9]))] None) as [?|[]]; try discriminate. reflexivity.
Qed.
Print Assumptions C85_list_exog_refuted.
(** Arrays of the right length for continuous variables are always accepted and used as the error. *)
Theorem C85_array_exog_partial :
  forall fit N n X G d im exog, plain_impl N n X G d = Ok im -> good_exog im exog ->
  exists sim s, run fit (Some im) [] exog None = Ok sim /\
    forall v, v < n -> sim v = Some (s v) /\ solution im (train fit im) [] exog None s v.
Proof.
  intros fit N n X G d im exog H GE. destruct (plain_impl_ok _ _ _ _ _ _ H) as (E1 & E2 & E3 & E4 & E5 & E6 & E7).
  destruct (C53_equations fit N n X G d im [] exog None H (no_changes im) GE Logic.I) as [C _].
  destruct (C E7) as (sim & s & R & Hs). exists sim, s. split; [exact R|]. intros v Hv. destruct (Hs v Hv) as (A & _ & B). tauto.
Qed.
Print Assumptions C85_array_exog_partial.
Example C85_example : exists im, ex_im = Ok im /\ good_exog im [(0, (true, [qz 7; qz 8; qz 9]))] /\
  show 3 1 (run times3 (Some im) [] [(0, (true, [qz 7; qz 8; qz 9]))] None) = [[7; 8; 9]]%Q.
Proof.
  assert (V : match ex_im with Ok im => show 3 1 (run times3 (Some im) [] [(0, (true, [qz 7; qz 8; qz 9]))] None) | Err _ => [] end = [[7; 8; 9]]%Q) by (vm_compute; reflexivity).
  destruct ex_im as [im|] eqn:E; [|discriminate]. exists im. split; [reflexivity|]. split; [|exact V].
  destruct (plain_impl_ok _ _ _ _ _ _ E) as (E1 & E2 & E3 & E4 & E5 & E6 & E7).
  split; [repeat (constructor; [cbn; tauto|]); constructor| |].
  - unfold check_exog. cbn [forallb fst snd length]. rewrite E1, E2, E4. reflexivity.
  - intros v b e H. rewrite lookup_cons in H. destruct (fst (0, (true, [qz 7; qz 8; qz 9])) =? v); [cbn in H; congruence|discriminate].
Qed.

(** ** C86 *)
Theorem C86_run_before_train_refuted :
  forall fit changes exog shuffle, run fit None changes exog shuffle = Err AttributeError /\ run fit None changes exog shuffle <> Err RuntimeError.
Proof. intros. split; [reflexivity|discriminate]. Qed.
Print Assumptions C86_run_before_train_refuted.

(** ** C87 *)
(** With models that predict row by row, shuffling the residuals only permutes the rows of the
    training data. *)
Theorem C87_shuffle_permutes_rows :
  forall fit N n X G im idx, plain_impl N n X G (fun _ => false) = Ok im ->
  (forall v R y, exists f, forall R' r, r < length R' -> fit v R y R' r = f (nth r R' [])) ->
  Permutation idx (seq 0 N) ->
  exists sim, run fit (Some im) [] [] (Some idx) = Ok sim /\
    forall v, v < n -> sim v = Some (map (fun k => X k v) idx).
Proof.
  intros fit N n X G im idx H HF HP. destruct (plain_impl_ok _ _ _ _ _ _ H) as (E1 & E2 & E3 & E4 & E5 & E6 & E7).
  destruct (shuffle_permutes fit im idx E6 E7) as [sim [R Hs]]; [intros; rewrite E4; reflexivity|exact HF|rewrite E2; exact HP|].
  exists sim. split; [exact R|]. intros v Hv. rewrite Hs by lia. f_equal. rewrite E5. unfold permute. apply map_ext_in.
  intros k Hk. apply (Permutation_in _ HP) in Hk. apply in_seq in Hk.
  rewrite nth_indep with (d' := X 0%nat v) by (rewrite map_length, seq_length; lia).
  rewrite (map_nth (fun r => X r v) (seq 0 N) 0 k). rewrite seq_nth by lia. reflexivity.
Qed.
Print Assumptions C87_shuffle_permutes_rows.
Example C87_example :
  match ex_im with Ok im => show 3 2 (run times3 (Some im) [] [] (Some [2; 0; 1])) | Err _ => [] end = [[0; 1; 2]; [1; 2; 5]]%Q /\
  (forall v R y, exists f, forall R' r, r < length R' -> times3 v R y R' r = f (nth r R' [])).
Proof. split; [vm_compute; reflexivity|]. intros v R y. exists (fun row => (qz 3 * nth 0 row 0)%Qc). intros. reflexivity. Qed.
