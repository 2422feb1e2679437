(** * C202-C204: new coefficients in the simulator, its argument checks and its state. *)
From Coq Require Import List Arith Lia Bool ZArith QArith Qcanon String Permutation Relations.
From Verif Require Import Prelude Spec Lib LibMat ModelOrder ProofOrder ModelSim SpecSim ProofSim ModelSimNames ProofSimNames ModelSimCheck SpecSimCheck.
From Verif Require Props_Sim.
Import ListNotations.
Open Scope nat_scope.

(** ** C202 *)
Lemma trans_sub (E F : nat -> nat -> Prop) : (forall a b, E a b -> F a b) -> forall a b, clos_trans nat E a b -> clos_trans nat F a b.
Proof. intros S a b T. induction T as [a b T|a b c _ IH1 _ IH2]; [apply t_step, S, T|eapply t_trans; eassumption]. Qed.
Section Coef.
  Context (fit : nat -> list (list Qc) -> column -> predictor) (N n : nat) (X : nat -> nat -> Qc) (G : mat Qc) (im : impl)
          (IM : plain_impl N n X G (fun _ => false) = Ok im) (v : nat) (Hv : v < n).
  Let parents := parents_of n G v.
  Let row (r : nat) : list Qc := map (fun q => X r q) parents.
  Lemma one_change_checked ps (m : option predictor) : (forall q, In q ps -> q < n) -> (ps <> [] -> m <> None) ->
    good_changes im [(v, {| ch_parents := ps; ch_model := m |})].
  Proof using Hv IM.
    destruct (plain_impl_ok _ _ _ _ _ _ IM) as (E1 & E2 & E3 & E4 & E5 & E6 & E7).
    intros H M. split; [cbn; constructor; [easy|constructor]|].
    unfold check_changes. cbn [forallb fst snd ch_parents ch_model]. rewrite andb_true_r. apply andb_true_iff. split; [apply andb_true_iff; split|].
    - apply Nat.ltb_lt. lia.
    - apply forallb_forall. intros q Hq. apply Nat.ltb_lt. rewrite E1. exact (H q Hq).
    - destruct ps; [reflexivity|]. destruct m; [reflexivity|]. exfalso. apply M; congruence.
  Qed.
  Lemma no_exog : good_exog im [].
  Proof. split; [constructor|reflexivity|intros w b e H; discriminate H]. Qed.
  (** A change of [v] that introduces no new parents keeps the graph acyclic and the data of the parents. *)
  Lemma change_one ps m : incl ps parents -> (ps <> [] -> m <> None) ->
    let changes := [(v, {| ch_parents := ps; ch_model := m |})] in
    exists sim s, run fit (Some im) changes [] None = Ok sim /\
      (forall w, w < n -> sim w = Some (s w) /\ solution im (train fit im) changes [] None s w) /\
      (forall w, w < n -> w <> v -> ~ clos_trans nat (edge_of n G) v w -> s w = map (fun r => X r w) (seq 0 N)).
  Proof using Hv IM.
    intros Inc M changes. destruct (plain_impl_ok _ _ _ _ _ _ IM) as (E1 & E2 & E3 & E4 & E5 & E6 & E7).
    assert (PL : forall q, In q ps -> q < n /\ G v q <> 0%Qc).
    { intros q Hq. apply Inc in Hq. unfold parents, parents_of in Hq. apply filter_In in Hq. destruct Hq as [Hq Z].
      apply in_seq in Hq. split; [lia|]. intro E. rewrite E in Z. discriminate Z. }
    pose proof (one_change_checked ps m (fun q Hq => proj1 (PL q Hq)) M) as GC. fold changes in GC.
    assert (SUB : forall a b, new_edge im changes a b -> edge_of n G a b).
    { intros a b (Ha & Hb & H). rewrite E1 in Ha, Hb. unfold edge_of.
      unfold changes, lookup in H. cbn [find fst] in H. destruct (Nat.eqb_spec v b) as [<-|D]; cbn [option_map snd ch_parents] in H.
      - destruct (PL a H) as [_ Z]. auto.
      - rewrite E3 in H. auto. }
    assert (AC : acyclic (edge_of n G)).
    { apply (Props_Sim.C52_train_accepts N n X G (fun _ => false)). exists im. exact IM. }
    assert (A : acyclic (new_edge im changes)) by (eapply acyclic_sub; [exact SUB|exact AC]).
    destruct (Props_Sim.C53_equations fit N n X G (fun _ => false) im changes [] None IM GC no_exog Logic.I) as [P _].
    destruct (P A) as (sim & s & R & S). exists sim, s. split; [exact R|]. split.
    { intros w Hw. destruct (S w Hw) as (S1 & _ & S3). split; assumption. }
    intros w Hw Dw Nd.
    destruct (Props_Sim.C52_replay fit N n X G im IM) as (sim0 & R0 & S0).
    assert (GC0 : good_changes im []) by (split; [constructor|reflexivity]).
    assert (L : sim w = sim0 w).
    { apply (Props_Sim.C53_locality fit N n X G (fun _ => false) im changes [] [] [] None v sim sim0 IM GC no_exog GC0 no_exog Logic.I).
      - intros u Du. unfold changes, lookup. cbn [find fst]. destruct (Nat.eqb_spec v u); [congruence|]. split; reflexivity.
      - exact R.
      - exact R0.
      - exact Hw.
      - exact Dw.
      - intro T. apply Nd. exact (trans_sub _ _ SUB v w T). }
    destruct (S w Hw) as (S1 & _ & _). rewrite S0 in L by exact Hw. congruence.
  Qed.
End Coef.

Lemma rows_data N (X : nat -> nat -> Qc) ps : rows N (map (fun q => map (fun r => X r q) (seq 0 N)) ps) = map (fun r => map (X r) ps) (seq 0 N).
Proof.
  unfold rows. apply map_ext_in. intros r Hr. apply in_seq in Hr. rewrite map_map. apply map_ext. intro q.
  rewrite (nth_indep _ 0%Qc (X 0 q)) by (rewrite map_length, seq_length; lia).
  rewrite (map_nth (fun r => X r q)), seq_nth by lia. reflexivity.
Qed.
Lemma nth_map_seq {A} (f : nat -> A) N r d : r < N -> nth r (map f (seq 0 N)) d = f r.
Proof. intro H. rewrite (nth_indep _ d (f 0)) by (rewrite map_length, seq_length; lia). rewrite (map_nth f), seq_nth by lia. reflexivity. Qed.
Lemma combine_map_seq {A B} (f : nat -> A) (g : nat -> B) l : combine (map f l) (map g l) = map (fun r => (f r, g r)) l.
Proof. induction l as [|x l IH]; [reflexivity|]. cbn [map combine]. rewrite IH. reflexivity. Qed.
(** The residual of a variable whose trained model has coefficients [c] and intercept [b]. *)
Lemma linear_residual fit N n X G im v c b : plain_impl N n X G (fun _ => false) = Ok im -> parents_of n G v <> [] ->
  fit v (map (fun r => map (X r) (parents_of n G v)) (seq 0 N)) (map (fun r => X r v) (seq 0 N)) = linear_predictor c b ->
  tr_resid (train fit im v) = Some (map (fun r => (X r v - (dot c (map (X r) (parents_of n G v)) + b))%Qc) (seq 0 N)).
Proof.
  intros IM P F. destruct (plain_impl_ok _ _ _ _ _ _ IM) as (E1 & E2 & E3 & E4 & E5 & E6 & E7).
  unfold train. rewrite E1, E2, E3, E4. cbv zeta. destruct (parents_of n G v) as [|p0 ps] eqn:EP; [congruence|].
  cbn [tr_resid]. f_equal. rewrite <- EP in *.
  assert (D : map (im_data im) (parents_of n G v) = map (fun q => map (fun r => X r q) (seq 0 N)) (parents_of n G v)) by (apply map_ext; exact E5).
  rewrite D, rows_data, E5, F. unfold predict. rewrite rows_data. unfold vsub. rewrite combine_map_seq, map_map. apply map_ext_in.
  intros r Hr. apply in_seq in Hr. cbn [fst snd]. unfold linear_predictor. rewrite nth_map_seq by lia. reflexivity.
Qed.

(** Giving a variable new coefficients [c'] for its parents, when its trained model has coefficients [c] and
    intercept [b]: the variable changes by what the coefficients say, and also by -b.  Variables that are
    not effects of it keep their data. *)
Theorem C202_new_coefficients_partial : forall fit N n X G im v c b c',
  plain_impl N n X G (fun _ => false) = Ok im -> v < n -> parents_of n G v <> [] ->
  fit v (map (fun r => map (X r) (parents_of n G v)) (seq 0 N)) (map (fun r => X r v) (seq 0 N)) = linear_predictor c b ->
  exists sim, run fit (Some im) [(v, {| ch_parents := parents_of n G v; ch_model := Some (coef_predictor c') |})] [] None = Ok sim /\
    sim v = Some (map (fun r => (X r v + (dot c' (map (X r) (parents_of n G v)) - dot c (map (X r) (parents_of n G v))) - b)%Qc) (seq 0 N)) /\
    forall w, w < n -> w <> v -> ~ clos_trans nat (edge_of n G) v w -> sim w = Some (map (fun r => X r w) (seq 0 N)).
Proof.
  intros fit N n X G im v c b c' IM Hv P F.
  destruct (change_one fit N n X G im IM v Hv (parents_of n G v) (Some (coef_predictor c')) (incl_refl _)) as (sim & s & R & S & K); [discriminate|].
  destruct (plain_impl_ok _ _ _ _ _ _ IM) as (E1 & E2 & E3 & E4 & E5 & E6 & E7).
  exists sim. split; [exact R|]. split.
  - destruct (S v Hv) as [S1 S2]. rewrite S1. f_equal. unfold solution, new_parents, new_model, new_error, lookup in S2.
    cbn [find fst] in S2. rewrite Nat.eqb_refl in S2. cbn [option_map snd ch_parents ch_model] in S2.
    rewrite E2, E4, (linear_residual fit N n X G im v c b IM P F) in S2.
    assert (AC : acyclic (edge_of n G)) by (apply (Props_Sim.C52_train_accepts N n X G (fun _ => false)); exists im; exact IM).
    assert (D : map s (parents_of n G v) = map (fun q => map (fun r => X r q) (seq 0 N)) (parents_of n G v)).
    { apply map_ext_in. intros q Hq. unfold parents_of in Hq. apply filter_In in Hq. destruct Hq as [Hq Z]. apply in_seq in Hq.
      assert (EDG : edge_of n G q v) by (split; [exact Hv|]; split; [lia|]; intro E; rewrite E in Z; discriminate Z).
      apply K; [lia| |].
      - intros ->. apply (AC v). apply t_step. exact EDG.
      - intro T. apply (AC v). eapply t_trans; [exact T|apply t_step; exact EDG]. }
    unfold equation in S2. destruct (parents_of n G v) as [|p0 ps] eqn:EP; [congruence|].
    destruct S2 as (m & Em & e & Ee & S2). injection Em as <-. injection Ee as <-. rewrite S2, D. unfold predict. rewrite rows_data. unfold vadd.
    rewrite combine_map_seq, map_map. apply map_ext_in. intros r Hr. apply in_seq in Hr. cbn [fst snd].
    unfold coef_predictor. rewrite nth_map_seq by lia. cbn [map]. ring.
  - intros w Hw Dw Nd. destruct (S w Hw) as [S1 _]. rewrite S1, (K w Hw Dw Nd). reflexivity.
Qed.
Print Assumptions C202_new_coefficients_partial.
(** "Changing" the model to its own coefficients changes nothing -- unless the intercept is not zero, which
    is the case for nearly every trained regression: then the variable is moved by the intercept. *)
Theorem C202_same_coefficients_refuted : forall fit N n X G im v c b,
  plain_impl N n X G (fun _ => false) = Ok im -> v < n -> parents_of n G v <> [] ->
  fit v (map (fun r => map (X r) (parents_of n G v)) (seq 0 N)) (map (fun r => X r v) (seq 0 N)) = linear_predictor c b ->
  exists sim, run fit (Some im) [(v, {| ch_parents := parents_of n G v; ch_model := Some (coef_predictor c) |})] [] None = Ok sim /\
    sim v = Some (map (fun r => (X r v - b)%Qc) (seq 0 N)) /\
    (0 < N -> b <> 0%Qc -> sim v <> Some (map (fun r => X r v) (seq 0 N))).
Proof.
  intros fit N n X G im v c b IM Hv P F. destruct (C202_new_coefficients_partial fit N n X G im v c b c IM Hv P F) as (sim & R & S & _).
  exists sim. split; [exact R|].
  assert (S' : sim v = Some (map (fun r => (X r v - b)%Qc) (seq 0 N))) by (rewrite S; f_equal; apply map_ext; intro r; ring).
  split; [exact S'|]. intros HN Hb E. rewrite S' in E. injection E as E. apply Hb.
  pose proof (f_equal (fun l => nth 0 l 0%Qc) E) as E0. cbv beta in E0. rewrite !nth_map_seq in E0 by exact HN.
  transitivity (X 0%nat v - (X 0%nat v - b))%Qc; [ring|]. rewrite E0. ring.
Qed.
Print Assumptions C202_same_coefficients_refuted.
(** Removing all parents leaves the residual: the influence of the parents is taken away and the intercept too. *)
Theorem C202_without_parents : forall fit N n X G im v c b,
  plain_impl N n X G (fun _ => false) = Ok im -> v < n -> parents_of n G v <> [] ->
  fit v (map (fun r => map (X r) (parents_of n G v)) (seq 0 N)) (map (fun r => X r v) (seq 0 N)) = linear_predictor c b ->
  exists sim, run fit (Some im) [(v, {| ch_parents := []; ch_model := None |})] [] None = Ok sim /\
    sim v = Some (map (fun r => (X r v - dot c (map (X r) (parents_of n G v)) - b)%Qc) (seq 0 N)) /\
    forall w, w < n -> w <> v -> ~ clos_trans nat (edge_of n G) v w -> sim w = Some (map (fun r => X r w) (seq 0 N)).
Proof.
  intros fit N n X G im v c b IM Hv P F.
  destruct (change_one fit N n X G im IM v Hv [] None) as (sim & s & R & S & K); [intros q []|congruence|].
  destruct (plain_impl_ok _ _ _ _ _ _ IM) as (E1 & E2 & E3 & E4 & E5 & E6 & E7).
  exists sim. split; [exact R|]. split.
  - destruct (S v Hv) as [S1 S2]. rewrite S1. f_equal. unfold solution, new_parents, new_model, new_error, lookup in S2.
    cbn [find fst] in S2. rewrite Nat.eqb_refl in S2. cbn [option_map snd ch_parents ch_model equation] in S2.
    rewrite E4, (linear_residual fit N n X G im v c b IM P F) in S2. injection S2 as <-. apply map_ext. intro r. ring.
  - intros w Hw Dw Nd. destruct (S w Hw) as [S1 _]. rewrite S1, (K w Hw Dw Nd). reflexivity.
Qed.
Print Assumptions C202_without_parents.
(** x1 = 2 x0 + 5 + error, trained with coefficient 2 and intercept 5; the coefficients 2 (its own), 3 and none. *)
Definition c202_X : nat -> nat -> Qc := Props_Sim.sx [[1; 8]; [2; 8]; [0; 5]]%Z.
Definition c202_fit : nat -> list (list Qc) -> column -> predictor := fun _ _ _ => linear_predictor [qz 2] (qz 5).
Definition c202_run (ch : change) : list (list Q) :=
  match plain_impl 3 2 c202_X (Props_Sim.sg [[0; 0]; [2; 0]]%Z) (fun _ => false) with
  | Ok im => Props_Sim.show 3 2 (run c202_fit (Some im) [(1, ch)] [] None)
  | Err _ => []
  end.
Example C202_example :
  parents_of 2 (Props_Sim.sg [[0; 0]; [2; 0]]%Z) 1 = [0] /\
  c202_run {| ch_parents := [0]; ch_model := Some (coef_predictor [qz 2]) |} = [[1; 2; 0]; [3; 3; 0]]%Q /\
  c202_run {| ch_parents := [0]; ch_model := Some (coef_predictor [qz 3]) |} = [[1; 2; 0]; [4; 5; 0]]%Q /\
  c202_run {| ch_parents := []; ch_model := None |} = [[1; 2; 0]; [1; -1; 0]]%Q.
Proof. repeat split; vm_compute; reflexivity. Qed.

(** ** C203 *)
Lemma known_In x names : known x names = true <-> In x names.
Proof.
  unfold known. rewrite existsb_exists. split.
  - intros (y & H & E). apply String.eqb_eq in E. congruence.
  - intro H. exists x. split; [exact H|apply String.eqb_refl].
Qed.
Lemma instance_ok d e : check_model_instance d e = Ok tt <-> suitable d e.
Proof.
  unfold check_model_instance, suitable, deciding. destruct (es_shape e) as [t|steps|t].
  2: destruct (rev steps) as [|t r] eqn:ER.
  all: cbn [bind].
  2:{ split; [discriminate|]. intros (t & (b & ->) & _). rewrite rev_app_distr in ER. discriminate ER. }
  2:{ apply (f_equal (@rev tag)) in ER. rewrite rev_involutive in ER. cbn in ER.
      destruct d; split.
      - intro H. exists t. split; [eexists; exact ER|]. destruct (tg_classifier t), (es_proba e); try discriminate H. auto.
      - intros (u & (b & E) & T1 & T2). rewrite ER in E. apply app_inj_tail in E. destruct E as [_ <-]. rewrite T1, T2. reflexivity.
      - intro H. exists t. split; [eexists; exact ER|]. destruct (tg_regressor t); [reflexivity|discriminate H].
      - intros (u & (b & E) & T1). rewrite ER in E. apply app_inj_tail in E. destruct E as [_ <-]. rewrite T1. reflexivity. }
  all: destruct d; split;
      [intro H; exists t; split; [reflexivity|]; destruct (tg_classifier t), (es_proba e); try discriminate H; auto
      |intros (u & -> & T1 & T2); rewrite T1, T2; reflexivity
      |intro H; exists t; split; [reflexivity|]; destruct (tg_regressor t); [reflexivity|discriminate H]
      |intros (u & -> & T1); rewrite T1; reflexivity].
Qed.
Lemma instance_err d e ex : proper e -> check_model_instance d e = Err ex -> ex = RuntimeError.
Proof.
  unfold check_model_instance, proper. destruct (es_shape e) as [t|steps|t].
  2: destruct (rev steps) as [|t r] eqn:ER.
  2:{ intros P _. exfalso. apply P. apply (f_equal (@rev tag)) in ER. rewrite rev_involutive in ER. rewrite ER. reflexivity. }
  all: intros _; cbn [bind]; destruct (negb _); [congruence|]; destruct (d && _); congruence.
Qed.
Lemma each_ok {A B} (f : pykey -> A -> result B) (P : pykey -> A -> Prop) (items : list (pykey * A)) :
  (forall k a, (exists b, f k a = Ok b) <-> P k a) ->
  ((exists bs, each f items = Ok bs) <-> Forall (fun ka => P (fst ka) (snd ka)) items).
Proof.
  intro H. induction items as [|[k a] r IH]; [split; [constructor|exists []; reflexivity]|]. cbn [each]. split.
  - intros [bs E]. destruct (f k a) as [b|] eqn:E1; [|discriminate]. cbn [bind] in E.
    destruct (each f r) as [bs'|] eqn:E2; [|discriminate]. constructor; [apply H; exists b; exact E1|apply IH; eexists; reflexivity].
  - intro F. inversion F as [|? ? F1 F2]; subst. cbn [fst snd] in F1. apply H in F1. destruct F1 as [b E1].
    apply IH in F2. destruct F2 as [bs E2]. exists (b :: bs). rewrite E1, E2. reflexivity.
Qed.
Lemma each_first {A B} (f : pykey -> A -> result B) (P : pykey -> A -> Prop) before k a after ex :
  (forall k a, (exists b, f k a = Ok b) <-> P k a) ->
  Forall (fun ka => P (fst ka) (snd ka)) before -> f k a = Err ex -> each f (before ++ (k, a) :: after) = Err ex.
Proof.
  intros H F E. induction F as [|[k' a'] r F1 F2 IH]; cbn [app each]; [rewrite E; reflexivity|].
  apply H in F1. destruct F1 as [b E1]. cbn [fst snd] in E1. rewrite E1. cbn [bind]. rewrite IH. reflexivity.
Qed.
Lemma each_forall2 {A B} (f : pykey -> A -> result B) items bs : each f items = Ok bs -> Forall2 (fun ka b => f (fst ka) (snd ka) = Ok b) items bs.
Proof.
  revert bs. induction items as [|[k a] r IH]; intros bs E; cbn [each] in E; [injection E as <-; constructor|].
  destruct (f k a) as [b|] eqn:E1; [|discriminate]. cbn [bind] in E. destruct (each f r) as [bs'|] eqn:E2; [|discriminate].
  injection E as <-. constructor; [exact E1|apply IH; reflexivity].
Qed.

Lemma known_key_some k names x : known_key k names = Some x <-> k = KStr x /\ In x names.
Proof.
  destruct k as [y|]; cbn [known_key]; [|split; [discriminate|intros [E _]; discriminate E]].
  destruct (known y names) eqn:E.
  - apply known_In in E. split; [intro H; injection H as <-; auto|intros [H _]; injection H as <-; reflexivity].
  - split; [discriminate|]. intros [H K]. injection H as <-. apply known_In in K. congruence.
Qed.
Lemma model_item_ok s k e : (exists b, check_model_item s k e = Ok b) <-> good_model s k e.
Proof.
  unfold check_model_item, good_model. destruct (known_key k (si_names s)) as [x|] eqn:E.
  - apply known_key_some in E. destruct E as [-> Hx]. split.
    + intros [b H]. destruct (check_model_instance _ e) as [[]|] eqn:EI; [|discriminate]. exists x. repeat split; [exact Hx|apply instance_ok; exact EI].
    + intros (y & E & _ & S). injection E as <-. apply instance_ok in S. rewrite S. eexists. reflexivity.
  - split; [intros [b H]; discriminate|]. intros (x & -> & Hx & _).
    assert (known_key (KStr x) (si_names s) = Some x) by (apply known_key_some; auto). congruence.
Qed.
Lemma exog_item_ok s k v : (exists b, check_exog_item s k v = Ok b) <-> good_error s k v.
Proof.
  unfold check_exog_item, good_error. destruct (known_key k (si_names s)) as [x|] eqn:E.
  - apply known_key_some in E. destruct E as [-> Hx]. destruct (known x (si_discrete s)) eqn:ED.
    + split; [intros [b H]; discriminate|]. intros (y & ac & E & _ & Nd & _). injection E as <-. apply known_In in ED. contradiction.
    + split.
      * intros [b H]. destruct v as [ac|]; [|discriminate]. cbn [bind] in H. destruct (Nat.eqb_spec (List.length (snd ac)) (im_N (si_im s))); [|discriminate].
        exists x, ac. repeat split; try assumption. intro Z. apply known_In in Z. congruence.
      * intros (y & ac & E & _ & _ & -> & L). injection E as <-. cbn [bind]. rewrite L, Nat.eqb_refl. eexists. reflexivity.
  - split; [intros [b H]; discriminate|]. intros (x & ac & -> & Hx & _).
    assert (known_key (KStr x) (si_names s) = Some x) by (apply known_key_some; auto). congruence.
Qed.
Lemma forallb_known ps names : forallb (fun q => known q names) ps = true <-> (forall q, In q ps -> In q names).
Proof. rewrite forallb_forall. split; intros H q Hq; apply known_In; auto. Qed.
Lemma change_item_ok s k v : (exists b, check_change_item s k v = Ok b) <-> good_change s k v.
Proof.
  unfold check_change_item, good_change. destruct v as [i|].
  2:{ split; [intros [b H]; discriminate|intros (x & i & ps & _ & E & _); discriminate E]. }
  destruct k as [x|]; [|split; [intros [b H]; discriminate|intros (x & j & ps & E & _); discriminate E]].
  destruct (known x (si_names s)) eqn:EK; cbn [negb].
  2:{ split; [intros [b H]; discriminate|]. intros (y & j & ps & E & _ & Hy & _). injection E as <-. apply known_In in Hy. congruence. }
  apply known_In in EK.
  destruct (in_parents i) as [[ps|]|] eqn:EP.
  2,3: (split; [intros [b H]; discriminate|]; intros (y & j & qs & _ & E & _ & E2 & _); injection E as <-; congruence).
  destruct (forallb (fun q => known q (si_names s)) ps) eqn:EF; cbn [negb].
  2:{ split; [intros [b H]; discriminate|]. intros (y & j & qs & _ & E & _ & E2 & E3 & _). injection E as <-.
      rewrite EP in E2. injection E2 as <-. apply forallb_known in E3. congruence. }
  assert (EF' := proj1 (forallb_known ps (si_names s)) EF).
  split.
  - intros [b H]. exists x, i, ps. repeat split; try assumption.
    destruct ps as [|p0 pr]; [left; reflexivity|]. right.
    destruct (in_coef i) as [[c|]|] eqn:EC; cbn [bind] in H.
    + left. exists c. destruct (Nat.eqb_spec (List.length c) (List.length (p0 :: pr))); [auto|discriminate].
    + discriminate.
    + right. split; [reflexivity|]. destruct (in_model i) as [[e|]|]; [|discriminate|discriminate].
      destruct (check_model_instance _ e) as [[]|] eqn:EI; [|discriminate]. exists e. split; [reflexivity|]. apply instance_ok. exact EI.
  - intros (y & j & qs & E1 & E & _ & E2 & _ & D). injection E as <-. injection E1 as <-. rewrite EP in E2. injection E2 as <-.
    destruct ps as [|p0 pr]; [eexists; reflexivity|]. destruct D as [D|[(c & EC & L)|(EC & e & EM & S)]]; [discriminate| |].
    + rewrite EC. cbn [bind]. rewrite L, Nat.eqb_refl. eexists. reflexivity.
    + rewrite EC, EM. apply instance_ok in S. rewrite S. eexists. reflexivity.
Qed.

(** The three checks accept exactly the arguments the documentation allows. *)
Theorem C203_accepts : forall s,
  (forall models, (exists l, check_models s models = Ok l) <->
     match models with DNone => True | DNotDict => False | DItems items => Forall (fun ka => good_model s (fst ka) (snd ka)) items end) /\
  (forall exog, (exists l, check_changing_exog s exog = Ok l) <->
     match exog with DNone => True | DNotDict => False | DItems items => Forall (fun ka => good_error s (fst ka) (snd ka)) items end) /\
  (forall changes, (exists l, check_changing_models s changes = Ok l) <->
     match changes with DNone => True | DNotDict => False | DItems items => Forall (fun ka => good_change s (fst ka) (snd ka)) items end).
Proof.
  intro s. repeat split.
  all: match goal with |- _ -> match ?d with _ => _ end => destruct d as [| |items] | |- match ?d with _ => _ end -> _ => destruct d as [| |items] end;
       try exact (fun _ => Logic.I); try (intros [l H]; discriminate H); try contradiction; try (intros _; exists []; reflexivity).
  - apply (each_ok _ _ items (model_item_ok s)).
  - apply (each_ok _ _ items (model_item_ok s)).
  - apply (each_ok _ _ items (exog_item_ok s)).
  - apply (each_ok _ _ items (exog_item_ok s)).
  - apply (each_ok _ _ items (change_item_ok s)).
  - apply (each_ok _ _ items (change_item_ok s)).
Qed.
Print Assumptions C203_accepts.
(** What an accepted change means: no parents -- no model, whatever else is given; coefficients come before
    a model; for a discrete variable they decide by the sign of their combination. *)
Theorem C203_meaning : forall s items ch, check_changing_models s (DItems items) = Ok ch ->
  Forall2 (fun item (c : string * nchange) => exists i parents,
     fst item = KStr (fst c) /\ snd item = Some i /\ in_parents i = Some (Some parents) /\ nc_parents (snd c) = parents /\
     match parents, in_coef i, in_model i, nc_model (snd c) with
     | [], _, _, m => m = None
     | _, Some (Ok coef), _, Some m => md_width m = List.length parents /\ List.length coef = List.length parents /\
         forall R r, md_predict m R r =
           if known (fst c) (si_discrete s) then (if qleb 0 (dot coef (nth r R [])) then 1%Qc else 0%Qc) else dot coef (nth r R [])
     | _, None, Some (Some e), Some m => m = es_model e
     | _, _, _, _ => False
     end) items ch.
Proof.
  intros s items ch H. apply each_forall2 in H. induction H as [|[k v] [x c] items ch E F IH]; [constructor|]. constructor; [|exact IH]. clear F IH.
  cbn [fst snd] in *. unfold check_change_item in E. destruct v as [i|]; [|discriminate]. destruct k as [y|]; [|discriminate].
  destruct (known y (si_names s)) eqn:EK; [|discriminate]. cbn [negb] in E.
  destruct (in_parents i) as [[ps|]|] eqn:EP; [|discriminate|discriminate].
  destruct (forallb _ ps); [|discriminate]. cbn [negb] in E. exists i, ps.
  destruct ps as [|p0 pr].
  - injection E as <- <-. repeat split. exact EP.
  - destruct (in_coef i) as [[co|]|] eqn:EC; cbn [bind] in E.
    + destruct (Nat.eqb_spec (List.length co) (List.length (p0 :: pr))) as [L|]; [|discriminate]. cbn [negb] in E. injection E as <- <-.
      repeat split; [exact EP|exact L|exact L|]. intros R r. cbn [nc_model md_predict]. destruct (known y (si_discrete s)); reflexivity.
    + discriminate.
    + destruct (in_model i) as [[e|]|] eqn:EM; [|discriminate|discriminate].
      destruct (check_model_instance _ e) as [[]|]; [|discriminate]. cbn [bind] in E. injection E as <- <-. repeat split. exact EP.
Qed.
Print Assumptions C203_meaning.
(** The first item that is not allowed decides which exception is raised, in this order of complaints. *)
Theorem C203_first_complaint : forall s before k v after,
  Forall (fun ka => good_change s (fst ka) (snd ka)) before ->
  let outcome := check_changing_models s (DItems (before ++ (k, v) :: after)) in
  (v = None -> outcome = Err RuntimeError) /\
  (forall i, v = Some i ->
    (k = KOther -> outcome = Err TypeError) /\
    (forall x, k = KStr x ->
      (~ In x (si_names s) -> outcome = Err RuntimeError) /\
      (In x (si_names s) ->
        (in_parents i = None \/ in_parents i = Some None -> outcome = Err KeyError) /\
        (forall parents, in_parents i = Some (Some parents) ->
          ((exists q, In q parents /\ ~ In q (si_names s)) -> outcome = Err RuntimeError) /\
          (parents <> [] -> (forall q, In q parents -> In q (si_names s)) ->
            (forall e, in_coef i = Some (Err e) -> outcome = Err e) /\
            (forall coef, in_coef i = Some (Ok coef) -> List.length coef <> List.length parents -> outcome = Err ValueError) /\
            (in_coef i = None -> in_model i = None \/ in_model i = Some None -> outcome = Err KeyError) /\
            (forall e, in_coef i = None -> in_model i = Some (Some e) -> proper e ->
               ~ suitable (known x (si_discrete s)) e -> outcome = Err RuntimeError)))))).
Proof.
  intros s before k v after F outcome.
  assert (FI : forall ex, check_change_item s k v = Err ex -> outcome = Err ex)
    by (intros ex E; exact (each_first _ _ before k v after ex (change_item_ok s) F E)).
  split; [intros ->; apply FI; reflexivity|]. intros i ->.
  split; [intros ->; apply FI; reflexivity|]. intros x ->.
  split; [intro Nx; apply FI; cbn [check_change_item]; destruct (known x (si_names s)) eqn:E; [apply known_In in E; contradiction|reflexivity]|].
  intro Hx. apply known_In in Hx. cbn [check_change_item] in FI. rewrite Hx in FI. cbn [negb] in FI.
  split; [intros [E|E]; rewrite E in FI; apply FI; reflexivity|]. intros ps EP. rewrite EP in FI.
  split.
  { intros (q & Hq & Nq). apply FI. destruct (forallb (fun q => known q (si_names s)) ps) eqn:E; [|reflexivity].
    apply forallb_known with (q := q) in E; [contradiction|exact Hq]. }
  intros Ne A. apply forallb_known in A. rewrite A in FI. cbn [negb] in FI. destruct ps as [|p0 pr]; [congruence|].
  split; [intros e E; rewrite E in FI; apply FI; reflexivity|].
  split; [intros co E L; rewrite E in FI; apply FI; cbn [bind]; destruct (Nat.eqb_spec (List.length co) (List.length (p0 :: pr))); [contradiction|reflexivity]|].
  split; [intros E [E2|E2]; rewrite E, E2 in FI; apply FI; reflexivity|].
  intros e E E2 PR NS. rewrite E, E2 in FI. apply FI. destruct (check_model_instance _ e) as [[]|ex] eqn:EI.
  - apply instance_ok in EI. contradiction.
  - apply instance_err in EI; [|exact PR]. rewrite EI. reflexivity.
Qed.
Print Assumptions C203_first_complaint.

(** ** C204 *)
(** A call of train that raises leaves an earlier training in place, and run changes nothing: a later run
    gives what it would have given. *)
Theorem C204_failed_training : forall self a f N X g fl models self' e,
  train_call self a f N X g fl models = (self', Err e) -> self' = self.
Proof.
  intros self a f N X g fl models self' e H. unfold train_call in H.
  destruct (let* h := dispatch a in _) as [t|e']; congruence.
Qed.
Print Assumptions C204_failed_training.
Theorem C204_history : forall default self exog changes shuffle exog' changes' shuffle' a f N X g fl models e,
  let self1 := fst (run_call default self exog changes shuffle) in
  let self2 := fst (train_call self1 a f N X g fl models) in
  snd (train_call self1 a f N X g fl models) = Err e ->
  run_call default self2 exog' changes' shuffle' = run_call default self exog' changes' shuffle'.
Proof.
  intros default self exog changes shuffle exog' changes' shuffle' a f N X g fl models e self1 self2 H.
  destruct (train_call self1 a f N X g fl models) as [s2 o] eqn:E. cbn [snd] in H. subst o.
  apply C204_failed_training in E. unfold self2. rewrite E. reflexivity.
Qed.
Print Assumptions C204_history.
(** An accepted training replaces the earlier one completely. *)
Theorem C204_new_training : forall self1 self2 a f N X g fl models,
  snd (train_call self1 a f N X g fl models) = Ok tt ->
  train_call self1 a f N X g fl models = train_call self2 a f N X g fl models.
Proof.
  intros self1 self2 a f N X g fl models H. unfold train_call in *. destruct (let* h := dispatch a in _) as [t|e']; [reflexivity|discriminate].
Qed.
Print Assumptions C204_new_training.
(** With accepted arguments a run is the run of C190 (and, by position, of C52-C54). *)
Theorem C204_run : forall default t exog changes shuffle ex ch,
  check_changing_exog (st_sim t) exog = Ok ex -> check_changing_models (st_sim t) changes = Ok ch ->
  snd (run_call default (Some t) exog changes shuffle) = nrun (choose default (st_sim t) (st_models t)) (st_sim t) ch ex shuffle.
Proof.
  intros default t exog changes shuffle ex ch E1 E2. cbn [run_call snd]. rewrite E1, E2. cbn [bind]. unfold nrun.
  assert (C1 : ncheck_exog (st_sim t) ex = true).
  { unfold ncheck_exog. apply forallb_forall. intros kv Hk. destruct exog as [| |items]; cbn [check_changing_exog check_dict] in E1; [injection E1 as <-; destruct Hk|discriminate|].
    apply each_forall2 in E1. clear - E1 Hk. induction E1 as [|[k v] b items l E F IH]; [destruct Hk|]. destruct Hk as [<-|Hk]; [|exact (IH Hk)].
    cbn [fst snd] in E. unfold check_exog_item in E. destruct (known_key k _) as [x|] eqn:EK; [|discriminate].
    apply known_key_some in EK. destruct EK as [_ Hx]. apply known_In in Hx. destruct (known x (si_discrete (st_sim t))) eqn:ED; [discriminate|].
    destruct v as [ac|]; [|discriminate]. cbn [bind] in E. destruct (Nat.eqb_spec (List.length (snd ac)) (im_N (si_im (st_sim t)))) as [L|]; [|discriminate].
    cbn [negb] in E. injection E as <-. cbn [fst snd]. rewrite Hx, ED. cbn [negb andb]. apply Nat.eqb_eq. exact L. }
  assert (C2 : ncheck_changes (st_sim t) ch = true).
  { unfold ncheck_changes. apply forallb_forall. intros kv Hk. destruct changes as [| |items]; cbn [check_changing_models check_dict] in E2; [injection E2 as <-; destruct Hk|discriminate|].
    apply each_forall2 in E2. clear - E2 Hk. induction E2 as [|[k v] b items l E F IH]; [destruct Hk|]. destruct Hk as [<-|Hk]; [|exact (IH Hk)].
    cbn [fst snd] in E. unfold check_change_item in E. destruct v as [i|]; [|discriminate]. destruct k as [y|]; [|discriminate].
    destruct (known y (si_names (st_sim t))) eqn:EK; [|discriminate]. cbn [negb] in E.
    destruct (in_parents i) as [[ps|]|] eqn:EP; [|discriminate|discriminate].
    destruct (forallb _ ps) eqn:EF; [|discriminate]. cbn [negb] in E. destruct ps as [|p0 pr].
    - injection E as <-. cbn [fst snd nc_parents nc_model forallb]. rewrite EK. reflexivity.
    - destruct (in_coef i) as [[co|]|] eqn:EC; cbn [bind] in E.
      + destruct (negb _); [discriminate|]. injection E as <-. cbn [fst snd nc_parents nc_model]. rewrite EK, EF. reflexivity.
      + discriminate.
      + destruct (in_model i) as [[e|]|] eqn:EM; [|discriminate|discriminate].
        destruct (check_model_instance _ e) as [[]|]; [|discriminate]. cbn [bind] in E. injection E as <-. cbn [fst snd nc_parents nc_model]. rewrite EK, EF. reflexivity. }
  rewrite C1, C2. reflexivity.
Qed.
Print Assumptions C204_run.
(** Entries of the graph that BottomUpParceLiNGAM leaves open (NaN) count as "no edge"; the other algorithms'
    graphs must not contain any. *)
Theorem C204_open_entries : forall self f N X n G fl models,
  (exists i j, i < n /\ j < n /\ G i j = None) ->
  train_call self (AlgoName "DirectLiNGAM") f N X (Flat n G) fl models = (self, Err ValueError) /\
  train_call self (AlgoName "BottomUpParceLiNGAM") f N X (Flat n G) fl models =
    train_call self (AlgoName "DirectLiNGAM") f N X (Flat n (fun i j => Some (match G i j with Some q => q | None => 0%Qc end))) fl models.
Proof.
  intros self f N X n G fl models (i & j & Hi & Hj & E). split.
  - unfold train_call. cbn [dispatch String.eqb Ascii.eqb Bool.eqb bind make_handler]. assert (Z : no_nan n G = false).
    { apply Bool.not_true_iff_false. unfold no_nan. rewrite forallb_forall. intro H. specialize (H i ltac:(apply in_seq; lia)).
      rewrite forallb_forall in H. specialize (H j ltac:(apply in_seq; lia)). rewrite E in H. discriminate H. }
    rewrite Z, andb_false_r. reflexivity.
  - unfold train_call. cbn [dispatch String.eqb Ascii.eqb Bool.eqb bind make_handler].
    assert (Z : no_nan n (fun i j => Some (match G i j with Some q => q | None => 0%Qc end)) = true).
    { unfold no_nan. apply forallb_forall. intros a _. apply forallb_forall. intros b _. reflexivity. }
    rewrite Z, andb_true_r.
    reflexivity.
Qed.
Print Assumptions C204_open_entries.
Lemma no_nan_iff n G : no_nan n G = true <-> forall i j, i < n -> j < n -> G i j <> None.
Proof.
  unfold no_nan. rewrite forallb_forall. split.
  - intros H i j Hi Hj E. specialize (H i ltac:(apply in_seq; lia)). rewrite forallb_forall in H. specialize (H j ltac:(apply in_seq; lia)).
    rewrite E in H. discriminate H.
  - intros H i Hi. apply in_seq in Hi. rewrite forallb_forall. intros j Hj. apply in_seq in Hj.
    specialize (H i j ltac:(lia) ltac:(lia)). destruct (G i j); congruence.
Qed.
Lemma no_flags_none names : plain_discrete names NoFlags = Ok [].
Proof.
  unfold plain_discrete, by_mask. rewrite map_length, Nat.eqb_refl. f_equal.
  induction names as [|x r IH]; [reflexivity|]. cbn [map combine filter snd]. exact IH.
Qed.
(** Training (all variables continuous, default models) succeeds exactly for the known algorithms with a
    graph of the right size, without open entries unless the algorithm is BottomUpParceLiNGAM, and acyclic;
    otherwise it is the exception that says what is wrong. *)
Theorem C204_train : forall self a f N X n G,
  let outcome := snd (train_call self a f N X (Flat n G) NoFlags DNone) in
  (outcome = Ok tt <->
     exists h, match a with
               | AlgoNone => h = PlainHandler
               | AlgoNotText => False
               | AlgoName x => ((x = "DirectLiNGAM" \/ x = "ICALiNGAM") /\ h = PlainHandler) \/ (x = "BottomUpParceLiNGAM" /\ h = UnobservedHandler)
               end%string /\
       n = width f /\ (h = PlainHandler -> forall i j, i < n -> j < n -> G i j <> None) /\
       acyclic (fun j i => i < n /\ j < n /\ exists q, G i j = Some q /\ q <> 0%Qc)) /\
  (outcome = Ok tt \/ outcome = Err (match a with AlgoNotText => TypeError | _ => ValueError end)).
Proof.
  intros self a f N X n G outcome.
  assert (AC : forall d, (exists im, plain_impl N n X (fill G) d = Ok im) <-> acyclic (fun j i => i < n /\ j < n /\ exists q, G i j = Some q /\ q <> 0%Qc)).
  { intro d. rewrite (Props_Sim.C52_train_accepts N n X (fill G) d).
    assert (EQ : forall u v, edge_of n (fill G) u v <-> (v < n /\ u < n /\ exists q, G v u = Some q /\ q <> 0%Qc)).
    { intros u v. unfold edge_of, fill. split.
      - intros (H1 & H2 & H3). destruct (G v u) as [q|] eqn:E; [|congruence]. eauto.
      - intros (H1 & H2 & q & E & H3). rewrite E. auto. }
    split; apply acyclic_sub; intros u v; apply EQ. }
  assert (PS : forall d, match plain_simulator f N n X (fill G) NoFlags with
               | Ok s => exists im, plain_impl N n X (fill G) d = Ok im
               | Err e => e = ValueError /\ ~ exists im, plain_impl N n X (fill G) d = Ok im end).
  { intro d. unfold plain_simulator. cbv zeta. rewrite no_flags_none. cbn [bind]. unfold plain_impl.
    destruct (ica_search n _); cbn [bind]; [eexists; reflexivity|]. split; [reflexivity|]. intros [im H]. discriminate H. }
  specialize (PS (fun _ => false)). specialize (AC (fun _ => false)).
  assert (HN : forall h, h <> SeriesHandler -> match make_handler h f N X (Flat n G) NoFlags with
     | Ok s => n = width f /\ (h = PlainHandler -> forall i j, i < n -> j < n -> G i j <> None) /\
          acyclic (fun j i => i < n /\ j < n /\ exists q, G i j = Some q /\ q <> 0%Qc)
     | Err e => e = ValueError /\ ~ (n = width f /\ (h = PlainHandler -> forall i j, i < n -> j < n -> G i j <> None) /\
          acyclic (fun j i => i < n /\ j < n /\ exists q, G i j = Some q /\ q <> 0%Qc)) end).
  { intros h Dh. destruct h; [| |congruence]; cbn [make_handler].
    - destruct (Nat.eqb_spec n (width f)) as [En|En]; cbn [andb]; [|split; [reflexivity|tauto]].
      destruct (no_nan n G) eqn:EN.
      + pose proof (proj1 (no_nan_iff n G) EN) as EN2. destruct (plain_simulator f N n X (fill G) NoFlags).
        * apply AC in PS. auto.
        * destruct PS as [-> PS]. split; [reflexivity|]. intros (_ & _ & A). apply PS, AC, A.
      + split; [reflexivity|]. intros (_ & H & _). specialize (H eq_refl). pose proof (proj2 (no_nan_iff n G) H). congruence.
    - destruct (Nat.eqb_spec n (width f)) as [En|En]; [|split; [reflexivity|tauto]].
      destruct (plain_simulator f N n X (fill G) NoFlags).
      * apply AC in PS. repeat split; [exact En|discriminate|exact PS].
      * destruct PS as [-> PS]. split; [reflexivity|]. intros (_ & _ & A). apply PS, AC, A. }
  assert (OUT : forall h, dispatch a = Ok h -> h <> SeriesHandler ->
     (outcome = Ok tt <-> n = width f /\ (h = PlainHandler -> forall i j, i < n -> j < n -> G i j <> None) /\
          acyclic (fun j i => i < n /\ j < n /\ exists q, G i j = Some q /\ q <> 0%Qc)) /\ (outcome = Ok tt \/ outcome = Err ValueError)).
  { intros h D Dh. specialize (HN h Dh). unfold outcome, train_call. rewrite D. cbn [bind].
    destruct (make_handler h f N X (Flat n G) NoFlags) as [s|e]; cbn [bind check_models check_dict snd].
    - split; [split; [intros _; exact HN|intros _; reflexivity]|left; reflexivity].
    - destruct HN as [-> HN]. split; [split; [discriminate|intro Z; contradiction]|right; reflexivity]. }
  destruct a as [| |x].
  - destruct (OUT PlainHandler eq_refl ltac:(discriminate)) as [O1 O2]. split; [|exact O2]. rewrite O1. split.
    + intro H. exists PlainHandler. auto.
    + intros (h & -> & H). exact H.
  - unfold outcome, train_call. cbn. split; [split; [discriminate|intros (h & [] & _)]|right; reflexivity].
  - destruct (String.eqb_spec x "DirectLiNGAM") as [->|D1].
    { destruct (OUT PlainHandler eq_refl ltac:(discriminate)) as [O1 O2]. split; [|exact O2]. rewrite O1. split.
      - intro H. exists PlainHandler. auto.
      - intros (h & [[_ ->]|[Z _]] & H); [exact H|discriminate Z]. }
    destruct (String.eqb_spec x "ICALiNGAM") as [->|D2].
    { destruct (OUT PlainHandler eq_refl ltac:(discriminate)) as [O1 O2]. split; [|exact O2]. rewrite O1. split.
      - intro H. exists PlainHandler. auto.
      - intros (h & [[_ ->]|[Z _]] & H); [exact H|discriminate Z]. }
    destruct (String.eqb_spec x "BottomUpParceLiNGAM") as [->|D3].
    { destruct (OUT UnobservedHandler eq_refl ltac:(discriminate)) as [O1 O2]. split; [|exact O2]. rewrite O1. split.
      - intro H. exists UnobservedHandler. auto.
      - intros (h & [[[Z|Z] _]|[_ ->]] & H); [discriminate Z|discriminate Z|exact H]. }
    assert (O : outcome = Err ValueError).
    { unfold outcome, train_call. cbn [dispatch]. rewrite (proj2 (String.eqb_neq _ _) D1), (proj2 (String.eqb_neq _ _) D2), (proj2 (String.eqb_neq _ _) D3).
      destruct (String.eqb x "VARLiNGAM"); reflexivity. }
    rewrite O. split; [|right; reflexivity]. split; [discriminate|].
    intros (h & [[[Z|Z] _]|[Z _]] & _); contradiction.
Qed.
Print Assumptions C204_train.

(** *** Examples: three continuous variables a -> b, and a discrete variable c. *)
Definition c203_reg : tag := {| tg_regressor := true; tg_classifier := false |}.
Definition c203_cls : tag := {| tg_regressor := false; tg_classifier := true |}.
Definition c203_est (sh : shape) (proba : bool) : estimator :=
  {| es_shape := sh; es_proba := proba; es_fit := fun _ _ => linear_predictor [qz 2] (qz 5); es_model := {| md_width := 1; md_predict := coef_predictor [qz 7] |} |}.
Definition c203_default : bool -> list (list Qc) -> column -> predictor := fun _ _ _ => linear_predictor [qz 2] (qz 5).
Definition c203_G : mat num := fun i j => Some (Props_Sim.sg [[0; 0; 0]; [2; 0; 0]; [0; 0; 0]]%Z i j).
Definition c203_X : nat -> nat -> Qc := Props_Sim.sx [[1; 8; 0]; [2; 8; 1]; [0; 5; 1]]%Z.
Definition c203_frame : frame := Frame [LStr "a"; LStr "b"; LStr "c"].
Definition c203_trained : option stored :=
  fst (train_call None AlgoNone c203_frame 3 c203_X (Flat 3 c203_G) (FList [false; false; true])
         (DItems [(KStr "b"%string, c203_est (Pipeline [c203_cls; c203_reg]) false)])).
Definition c203_run ex ch : result (list (list Q)) :=
  match snd (run_call c203_default c203_trained ex ch None) with Ok sim => Ok (Props_Sim.show 3 3 (Ok sim)) | Err e => Err e end.
Definition c203_info ps co m : option info := Some {| in_parents := Some (Some ps); in_coef := co; in_model := m |}.
Example C203_example : let a := "a"%string in let b := "b"%string in let c := "c"%string in
  c203_run DNone DNone = Ok [[1; 2; 0]; [8; 8; 5]; [0; 1; 1]]%Q /\
  (* coefficients for b and, with a decision at 0, for the discrete c; the model given for b as well is not used *)
  c203_run DNone (DItems [(KStr b, c203_info [a] (Some (Ok [qz 3])) (Some (Some (c203_est (Simple c203_reg) false))));
                          (KStr c, c203_info [a; b] (Some (Ok [qz 1; qz (-1)])) None)])
    = Ok [[1; 2; 0]; [4; 5; 0]; [0; 0; 1]]%Q /\
  (* a model for b *)
  c203_run DNone (DItems [(KStr b, c203_info [a] None (Some (Some (c203_est (Search c203_reg) false))))]) = Ok [[1; 2; 0]; [8; 13; 0]; [0; 1; 1]]%Q /\
  (* rejected: a regression model for c; a classifier without probabilities; too few coefficients; the cycle b -> a *)
  c203_run DNone (DItems [(KStr c, c203_info [a] None (Some (Some (c203_est (Simple c203_reg) true))))]) = Err RuntimeError /\
  c203_run DNone (DItems [(KStr c, c203_info [a] None (Some (Some (c203_est (Simple c203_cls) false))))]) = Err RuntimeError /\
  c203_run DNone (DItems [(KStr b, c203_info [a; c] (Some (Ok [qz 3])) None)]) = Err ValueError /\
  c203_run DNone (DItems [(KStr a, c203_info [b] (Some (Ok [qz 3])) None)]) = Err ValueError /\
  c203_run (DItems [(KStr c, Ok (true, [1; 1; 1]%Qc))]) DNone = Err RuntimeError.
Proof. cbv zeta. repeat split; vm_compute; reflexivity. Qed.
Example C204_example :
  c203_trained <> None /\
  train_call c203_trained (AlgoName "RCD") c203_frame 3 c203_X (Flat 3 c203_G) NoFlags DNone = (c203_trained, Err ValueError) /\
  train_call c203_trained AlgoNotText c203_frame 3 c203_X (Flat 3 c203_G) NoFlags DNone = (c203_trained, Err TypeError) /\
  train_call c203_trained AlgoNone c203_frame 3 c203_X (Flat 3 (fun _ _ => None)) NoFlags DNone = (c203_trained, Err ValueError) /\
  snd (train_call c203_trained (AlgoName "BottomUpParceLiNGAM") c203_frame 3 c203_X (Flat 3 (fun _ _ => None)) NoFlags DNone) = Ok tt.
Proof. repeat split; try (vm_compute; reflexivity). vm_compute. discriminate. Qed.
