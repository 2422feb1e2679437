(** * More proofs about the DirectLiNGAM model: adjacency matrix, prior knowledge
      construction, soft mode, object history, multi-group variant. *)
From Coq Require Import List Arith Lia Bool ZArith QArith Qcanon Permutation Relations Sorted.
From Verif Require Import Prelude Spec Lib SpecDirect ModelDirect ProofDirect.
Import ListNotations.
Open Scope nat_scope.

(** ** Adjacency matrix *)
Lemma predictors_of_In : forall pk t before p,
  In p (predictors_of pk t before) <->
  In p before /\ (forall m, pk = Some m -> p <> t /\ m t p <> Some 0%Qc).
Proof.
  intros pk t before p. destruct pk as [m|]; simpl.
  - rewrite filter_In, negb_true_iff, neqb_Some_false. unfold pk_diag0, fill_diagonal.
    destruct (t =? p) eqn:E.
    + apply Nat.eqb_eq in E. subst. split; [intros [_ N]; congruence|].
      intros [_ N]. destruct (N m eq_refl). congruence.
    + apply Nat.eqb_neq in E. split.
      * intros [H N]. split; [exact H|]. intros m' X. inversion X; subst. split; congruence.
      * intros [H N]. split; [exact H|]. apply (N m eq_refl).
  - split; [intro H; split; [exact H|discriminate]|tauto].
Qed.

Lemma adj_loop_notin : forall lasso pk rest before B i j, ~ In i rest ->
  adj_loop lasso pk before rest B i j = B i j.
Proof.
  induction rest as [|t rest IH]; intros before B i j H; [reflexivity|].
  simpl. rewrite IH; [|intro X; apply H; right; exact X].
  assert (i <> t) by (intro; subst; apply H; left; reflexivity).
  destruct before as [|b0 before]; [reflexivity|].
  unfold write_row. destruct (predictors_of pk t (b0 :: before)); [reflexivity|].
  destruct (i =? t) eqn:E; [apply Nat.eqb_eq in E; contradiction|reflexivity].
Qed.

Lemma adj_loop_split : forall lasso pk r1 before i r2 B j,
  NoDup (r1 ++ i :: r2) ->
  adj_loop lasso pk before (r1 ++ i :: r2) B i j =
  let preds := predictors_of pk i (before ++ r1) in
  if memb j preds then lasso preds i j else B i j.
Proof.
  induction r1 as [|t r1 IH]; intros before i r2 B j ND; simpl.
  - inversion ND as [|? ? Hi ND']; subst.
    rewrite adj_loop_notin by exact Hi. rewrite app_nil_r.
    destruct before as [|b0 before].
    + destruct pk; reflexivity.
    + unfold write_row. destruct (predictors_of pk i (b0 :: before)) as [|p ps]; [reflexivity|].
      rewrite Nat.eqb_refl. reflexivity.
  - inversion ND as [|? ? Ht ND']; subst.
    rewrite IH by exact ND'. rewrite <- app_assoc. simpl.
    destruct (memb j (predictors_of pk i (before ++ t :: r1))); [reflexivity|].
    assert (i <> t).
    { intro; subst. apply Ht. apply in_or_app. right. left. reflexivity. }
    destruct before as [|b0 before]; [reflexivity|].
    unfold write_row. destruct (predictors_of pk t (b0 :: before)); [reflexivity|].
    destruct (i =? t) eqn:E; [apply Nat.eqb_eq in E; contradiction|reflexivity].
Qed.

(** Row [i]: regression on exactly the earlier variables that are not excluded. *)
Lemma adjacency_row : forall lasso pk order l1 i l2 j,
  order = l1 ++ i :: l2 -> NoDup order ->
  estimate_adjacency_matrix lasso pk order i j =
  let preds := predictors_of pk i l1 in
  if memb j preds then lasso preds i j else Some 0%Qc.
Proof.
  intros lasso pk order l1 i l2 j -> ND. unfold estimate_adjacency_matrix.
  rewrite adj_loop_split by exact ND. reflexivity.
Qed.

Lemma adjacency_nonzero : forall lasso pk order i j, NoDup order ->
  estimate_adjacency_matrix lasso pk order i j <> Some 0%Qc ->
  precedes order j i /\ (forall m, pk = Some m -> m i j <> Some 0%Qc).
Proof.
  intros lasso pk order i j ND H.
  destruct (in_dec Nat.eq_dec i order) as [I|I].
  - apply in_split in I. destruct I as [l1 [l2 ->]].
    rewrite (adjacency_row lasso pk _ l1 i l2 j eq_refl ND) in H. simpl in H.
    destruct (memb j (predictors_of pk i l1)) eqn:E; [|congruence].
    apply memb_In in E. apply predictors_of_In in E. destruct E as [Hj Hm]. split.
    + apply precedes_app_cross; [exact Hj|left; reflexivity].
    + intros m Hm'. apply (Hm m Hm').
  - exfalso. apply H. unfold estimate_adjacency_matrix. apply adj_loop_notin. exact I.
Qed.

Lemma adjacency_topological : forall lasso pk n order, NoDup order ->
  topological (edge_of_num n (estimate_adjacency_matrix lasso pk order)) order.
Proof.
  intros lasso pk n order ND a b [_ [_ H]]. apply adjacency_nonzero in H; [tauto|exact ND].
Qed.

(** ** make_prior_knowledge *)
Lemma set_entries_at : forall v ps m i j,
  set_entries v ps m i j = if existsb (pair_eqb (j, i)) ps then v else m i j.
Proof.
  intros v ps. induction ps as [|p ps IH] using rev_ind; intros m i j; [reflexivity|].
  unfold set_entries in *. rewrite fold_left_app. simpl. rewrite existsb_app. simpl.
  unfold upd2. rewrite IH.
  change (pair_eqb (j, i) p) with ((j =? fst p) && (i =? snd p)).
  rewrite orb_false_r, (andb_comm (j =? fst p)).
  destruct ((i =? snd p) && (j =? fst p)); [rewrite orb_true_r|rewrite orb_false_r]; reflexivity.
Qed.
Lemma set_cols_at : forall vs m i j, set_cols vs m i j = if memb j vs then 0%Z else m i j.
Proof.
  intros vs. induction vs as [|v vs IH] using rev_ind; intros m i j; [reflexivity|].
  unfold set_cols in *. rewrite fold_left_app. simpl. unfold memb in *. rewrite existsb_app. simpl.
  rewrite IH. destruct (j =? v); simpl; rewrite ?orb_true_r, ?orb_false_r; reflexivity.
Qed.
Lemma set_rows_at : forall vs m i j, set_rows vs m i j = if memb i vs then 0%Z else m i j.
Proof.
  intros vs. induction vs as [|v vs IH] using rev_ind; intros m i j; [reflexivity|].
  unfold set_rows in *. rewrite fold_left_app. simpl. unfold memb in *. rewrite existsb_app. simpl.
  rewrite IH. destruct (i =? v); simpl; rewrite ?orb_true_r, ?orb_false_r; reflexivity.
Qed.
Lemma pair_eqb_In : forall p ps, existsb (pair_eqb p) ps = true <-> In p ps.
Proof.
  intros [a b] ps. rewrite existsb_exists. split.
  - intros [[c d] [H E]]. unfold pair_eqb in E. simpl in E. apply andb_true_iff in E.
    destruct E as [E1 E2]. apply Nat.eqb_eq in E1. apply Nat.eqb_eq in E2. subst. exact H.
  - intro H. exists (a, b). split; [exact H|]. unfold pair_eqb. simpl. rewrite !Nat.eqb_refl. reflexivity.
Qed.
Lemma pair_eqb_notIn : forall p ps, existsb (pair_eqb p) ps = false <-> ~ In p ps.
Proof. intros. rewrite <- pair_eqb_In. destruct (existsb (pair_eqb p) ps); split; congruence. Qed.

Lemma make_pk_at : forall n exo sink paths no_paths m i j,
  make_prior_knowledge n exo sink paths no_paths = Ok m ->
  m i j = if i =? j then (-1)%Z
          else if memb i exo then 0%Z
          else if memb j sink then 0%Z
          else if existsb (pair_eqb (j, i)) paths then 1%Z
          else if existsb (pair_eqb (j, i)) no_paths then 0%Z
          else (-1)%Z.
Proof.
  intros n exo sink paths no_paths m i j H. unfold make_prior_knowledge in H.
  match type of H with (if ?c then _ else _) = _ => destruct c; [|discriminate] end.
  inversion H; subst. unfold fill_diagonal. destruct (i =? j); [reflexivity|].
  rewrite set_rows_at. destruct (memb i exo); [reflexivity|].
  rewrite set_cols_at. destruct (memb j sink); [reflexivity|].
  rewrite !set_entries_at. reflexivity.
Qed.
Lemma make_pk_ok : forall n exo sink paths no_paths,
  (exists m, make_prior_knowledge n exo sink paths no_paths = Ok m) <->
  (forall v, In v exo \/ In v sink -> v < n) /\
  (forall p, In p paths \/ In p no_paths -> fst p < n /\ snd p < n).
Proof.
  intros. unfold make_prior_knowledge.
  destruct (forallb (fun p => (fst p <? n) && (snd p <? n)) (no_paths ++ paths)) eqn:E1;
  destruct (forallb (fun v => v <? n) (sink ++ exo)) eqn:E2; simpl.
  - rewrite forallb_forall in E1, E2. split; [intros _|eexists; reflexivity]. split.
    + intros v H. apply Nat.ltb_lt, E2, in_or_app. tauto.
    + intros p H. specialize (E1 p). rewrite andb_true_iff, !Nat.ltb_lt in E1. apply E1, in_or_app. tauto.
  - split; [intros [m H]; discriminate|]. intros [H _]. exfalso.
    assert (F : forallb (fun v => v <? n) (sink ++ exo) = true); [|congruence].
    apply forallb_forall. intros v Hv. apply Nat.ltb_lt, H. apply in_app_or in Hv. tauto.
  - split; [intros [m H]; discriminate|]. intros [_ H]. exfalso.
    assert (F : forallb (fun p => (fst p <? n) && (snd p <? n)) (no_paths ++ paths) = true); [|congruence].
    apply forallb_forall. intros p Hp. apply in_app_or in Hp.
    rewrite andb_true_iff, !Nat.ltb_lt. apply H. tauto.
  - split; [intros [m H]; discriminate|]. intros [_ H]. exfalso.
    assert (F : forallb (fun p => (fst p <? n) && (snd p <? n)) (no_paths ++ paths) = true); [|congruence].
    apply forallb_forall. intros p Hp. apply in_app_or in Hp.
    rewrite andb_true_iff, !Nat.ltb_lt. apply H. tauto.
Qed.

Lemma pk_of_Z_0 : forall m i j, m i j = 0%Z -> pk_of_raw (raw_of_Z m) i j = Some 0%Qc.
Proof. intros m i j H. unfold pk_of_raw, raw_of_Z. rewrite H. reflexivity. Qed.
Lemma pk_of_Z_1 : forall m i j, m i j = 1%Z -> pk_of_raw (raw_of_Z m) i j = Some 1%Qc.
Proof. intros m i j H. unfold pk_of_raw, raw_of_Z. rewrite H. reflexivity. Qed.
Lemma pk_of_Z_m1 : forall m i j, m i j = (-1)%Z -> pk_of_raw (raw_of_Z m) i j = None.
Proof. intros m i j H. unfold pk_of_raw, raw_of_Z. rewrite H. reflexivity. Qed.

Lemma exo_must_precede : forall n exo sink paths no_paths m v u,
  make_prior_knowledge n exo sink paths no_paths = Ok m ->
  In v exo -> ~ In u exo -> ~ In v sink -> ~ In (v, u) no_paths ->
  must_precede (pk_of_raw (raw_of_Z m)) v u.
Proof.
  intros n exo sink paths no_paths m v u H Hv Hu Hs Hn.
  assert (D : v <> u) by congruence.
  right. split.
  - apply pk_of_Z_0. rewrite (make_pk_at _ _ _ _ _ _ v u H).
    apply Nat.eqb_neq in D. rewrite D. apply memb_In in Hv. rewrite Hv. reflexivity.
  - assert (E := make_pk_at _ _ _ _ _ _ u v H).
    assert (D' : u =? v = false) by (apply Nat.eqb_neq; congruence). rewrite D' in E.
    apply memb_notIn in Hu. rewrite Hu in E. apply memb_notIn in Hs. rewrite Hs in E.
    apply pair_eqb_notIn in Hn. rewrite Hn in E.
    destruct (existsb (pair_eqb (v, u)) paths).
    + rewrite (pk_of_Z_1 _ _ _ E). discriminate.
    + rewrite (pk_of_Z_m1 _ _ _ E). discriminate.
Qed.
Lemma sink_must_precede : forall n exo sink paths no_paths m s u,
  make_prior_knowledge n exo sink paths no_paths = Ok m ->
  In s sink -> ~ In u sink -> ~ In s exo -> ~ In (u, s) no_paths ->
  must_precede (pk_of_raw (raw_of_Z m)) u s.
Proof.
  intros n exo sink paths no_paths m s u H Hs Hu He Hn.
  assert (D : u <> s) by congruence.
  right. split.
  - apply pk_of_Z_0. rewrite (make_pk_at _ _ _ _ _ _ u s H).
    apply Nat.eqb_neq in D. rewrite D. apply memb_In in Hs. rewrite Hs.
    destruct (memb u exo); reflexivity.
  - assert (E := make_pk_at _ _ _ _ _ _ s u H).
    assert (D' : s =? u = false) by (apply Nat.eqb_neq; congruence). rewrite D' in E.
    apply memb_notIn in Hu. rewrite Hu in E. apply memb_notIn in He. rewrite He in E.
    apply pair_eqb_notIn in Hn. rewrite Hn in E.
    destruct (existsb (pair_eqb (u, s)) paths).
    + rewrite (pk_of_Z_1 _ _ _ E). discriminate.
    + rewrite (pk_of_Z_m1 _ _ _ E). discriminate.
Qed.

(** ** direct_fit *)
Section DirectFit.
  Variable Col : Type.
  Variable residual : Col -> Col -> Col.
  Variable score : (nat -> Col) -> list nat -> list nat -> list nat -> nat -> num.
  Variable ms : measure.
  Variable lasso : list nat -> nat -> nat -> num.

  Lemma direct_fit_inv : forall n ok mode X K B,
    direct_fit residual score ms lasso n ok mode X = Ok (K, B) ->
    fit_order Col residual score (argsel_of ms) n ok mode X = Ok K /\
    B = estimate_adjacency_matrix lasso (pk_of_mode mode) K.
  Proof.
    intros n ok mode X K B H. unfold direct_fit in H.
    destruct (fit_order Col residual score (argsel_of ms) n ok mode X) as [K'|e];
      simpl in H; [|discriminate].
    inversion H; subst. split; reflexivity.
  Qed.
  Lemma direct_fit_perm : forall n ok mode X K B,
    direct_fit residual score ms lasso n ok mode X = Ok (K, B) -> is_order n K.
  Proof.
    intros n ok mode X K B H. apply direct_fit_inv in H. destruct H as [H _].
    eapply fit_order_perm; [apply argsel_of_ok|exact H].
  Qed.
  Lemma direct_fit_triangular : forall n ok mode X K B,
    direct_fit residual score ms lasso n ok mode X = Ok (K, B) ->
    forall i j, B i j <> Some 0%Qc -> precedes K j i.
  Proof.
    intros n ok mode X K B H i j Hij.
    assert (P := direct_fit_perm _ _ _ _ _ _ H).
    apply direct_fit_inv in H. destruct H as [_ ->].
    apply adjacency_nonzero in Hij; [tauto|eapply is_order_NoDup; exact P].
  Qed.
  Lemma direct_fit_acyclic : forall n ok mode X K B,
    direct_fit residual score ms lasso n ok mode X = Ok (K, B) -> acyclic (edge_of_num n B).
  Proof.
    intros n ok mode X K B H.
    apply (topological_acyclic _ K).
    - eapply is_order_NoDup, direct_fit_perm. exact H.
    - intros a b [_ [_ Hab]]. eapply direct_fit_triangular; eassumption.
  Qed.
  Lemma direct_fit_row : forall n ok mode X K B l1 i l2,
    direct_fit residual score ms lasso n ok mode X = Ok (K, B) -> K = l1 ++ i :: l2 ->
    exists preds,
      (forall p, In p preds <-> In p l1 /\ (forall m, pk_of_mode mode = Some m -> m i p <> Some 0%Qc)) /\
      forall j, B i j = if memb j preds then lasso preds i j else Some 0%Qc.
  Proof.
    intros n ok mode X K B l1 i l2 H E.
    assert (ND : NoDup K) by (eapply is_order_NoDup, direct_fit_perm; exact H).
    apply direct_fit_inv in H. destruct H as [_ ->].
    exists (predictors_of (pk_of_mode mode) i l1). split.
    - intro p. rewrite predictors_of_In. split; intros [H1 H2]; split; try exact H1;
        intros m Hm; [apply (H2 m Hm)|].
      split; [|apply (H2 m Hm)].
      intro; subst p. subst K. apply NoDup_remove_2 in ND. apply ND, in_or_app. left. exact H1.
    - intro j. rewrite (adjacency_row lasso (pk_of_mode mode) K l1 i l2 j E ND). reflexivity.
  Qed.
  Lemma direct_fit_pk_zero : forall n ok mode X K B pk,
    direct_fit residual score ms lasso n ok mode X = Ok (K, B) ->
    pk_of_mode mode = Some pk ->
    forall i j, pk i j = Some 0%Qc -> B i j = Some 0%Qc.
  Proof.
    intros n ok mode X K B pk H Hpk i j Hij.
    destruct (neqb (B i j) (Some 0%Qc)) eqn:E; [apply neqb_Some; exact E|].
    apply neqb_Some_false in E. exfalso.
    assert (ND : NoDup K) by (eapply is_order_NoDup, direct_fit_perm; exact H).
    apply direct_fit_inv in H. destruct H as [_ ->].
    apply adjacency_nonzero in E; [|exact ND]. destruct E as [_ E]. apply (E pk Hpk Hij).
  Qed.
  Lemma direct_fit_respects : forall n ok pk X K B,
    direct_fit residual score ms lasso n ok (Strong pk) X = Ok (K, B) -> respects n pk K.
  Proof.
    intros n ok pk X K B H. apply direct_fit_inv in H. destruct H as [H _].
    eapply fit_order_strong_respects; [apply argsel_of_ok|exact H].
  Qed.
  Lemma direct_fit_no_path : forall n ok pk X K B i j,
    direct_fit residual score ms lasso n ok (Strong pk) X = Ok (K, B) ->
    i < n -> j < n -> pk i j = Some 0%Qc -> pk j i <> Some 0%Qc ->
    ~ clos_trans nat (edge_of_num n B) j i.
  Proof.
    intros n ok pk X K B i j H Hi Hj H0 H1 C.
    assert (ND : NoDup K) by (eapply is_order_NoDup, direct_fit_perm; exact H).
    assert (P : precedes K i j).
    { apply (direct_fit_respects _ _ _ _ _ _ H); try assumption. right. auto. }
    assert (T : forall a b, clos_trans nat (edge_of_num n B) a b -> precedes K a b).
    { intros a b D. induction D as [a b [_ [_ D]]|a b c D1 I1 D2 I2].
      - eapply direct_fit_triangular; eassumption.
      - eapply precedes_trans; eassumption. }
    apply (precedes_asym K i j ND P). apply T. exact C.
  Qed.
  Lemma direct_fit_ok_iff : forall n ok mode X,
    (exists K, fit_order Col residual score (argsel_of ms) n ok mode X = Ok K) <->
    (exists KB, direct_fit residual score ms lasso n ok mode X = Ok KB).
  Proof.
    intros n ok mode X. unfold direct_fit.
    destruct (fit_order Col residual score (argsel_of ms) n ok mode X) as [K|e]; simpl; split;
      intros [x Hx]; try discriminate; eexists; reflexivity.
  Qed.
End DirectFit.

(** Satisfiable knowledge without one-way "no path" entries is accepted. *)
Lemma pk_entry_dec : forall (x y : num), {x = y} + {x <> y}.
Proof. decide equality. apply Qc_eq_dec. Qed.
Lemma satisfiable_two_way_orderable : forall n pk E,
  acyclic E -> satisfies_pk n pk E ->
  (forall i, i < n -> pk i i <> Some 1%Qc) ->
  (forall i j, i < n -> j < n -> pk i j = Some 0%Qc -> pk j i = Some 0%Qc \/ pk j i = Some 1%Qc) ->
  orderable n pk.
Proof.
  intros n pk E A S D Z.
  set (R := fun a b => a < n /\ b < n /\ pk b a = Some 1%Qc).
  assert (dec : forall a b, {R a b} + {~ R a b}).
  { intros a b. unfold R. destruct (lt_dec a n); [|right; tauto]. destruct (lt_dec b n); [|right; tauto].
    destruct (pk_entry_dec (pk b a) (Some 1%Qc)); [left|right]; tauto. }
  assert (AR : acyclic R).
  { intros v C.
    assert (G : forall a b, clos_trans nat R a b -> clos_trans nat E a b).
    { intros a b H. induction H as [a b [Ha [Hb H]]|a b c _ IH1 _ IH2].
      - destruct (Nat.eq_dec b a) as [->|N]; [exfalso; apply (D a Ha H)|].
        apply (S b a Hb Ha N). exact H.
      - eapply t_trans; eassumption. }
    apply (A v). apply G. exact C. }
  destruct (topo_exists R n dec AR) as [l [Hl HT]].
  exists l. split; [exact Hl|]. intros a b Ha Hb [H|[H N]].
  - apply HT; try assumption. unfold R. auto.
  - destruct (Z a b Ha Hb H) as [X|X]; [contradiction|].
    apply HT; try assumption. unfold R. auto.
Qed.

(** ** Soft mode *)
Definition entries01 (n : nat) (pk : mat num) : Prop :=
  forall i j, i < n -> j < n -> pk i j = None \/ pk i j = Some 0%Qc \/ pk i j = Some 1%Qc.

Lemma nsum_zero_inv : forall l,
  (forall x, In x l -> x = None \/ x = Some 0%Qc \/ x = Some 1%Qc) ->
  nsum l = Some 0%Qc -> forall x, In x l -> x = Some 0%Qc.
Proof.
  intros l.
  assert (NN : forall l q, (forall x, In x l -> x = None \/ x = Some 0%Qc \/ x = Some 1%Qc) ->
               nsum l = Some q -> (0 <= q)%Qc).
  { induction l0 as [|y l0 IH]; intros q H E; simpl in E.
    - inversion E. apply Qcle_refl.
    - destruct (H y (or_introl eq_refl)) as [->|[->| ->]]; simpl in E; [discriminate| |];
      destruct (nsum l0) as [r|] eqn:Er; try discriminate;
      specialize (IH r (fun x Hx => H x (or_intror Hx)) eq_refl);
      match type of E with Some ?a = Some _ => assert (E0 : a = q) by congruence end;
      rewrite <- E0; clear -IH; qclra. }
  induction l as [|y l IH]; intros H E x Hx; [contradiction|].
  simpl in E.
  assert (Hl : forall x, In x l -> x = None \/ x = Some 0%Qc \/ x = Some 1%Qc)
    by (intros z Hz; apply H; right; exact Hz).
  destruct (H y (or_introl eq_refl)) as [->|[->| ->]]; simpl in E; [discriminate| |];
    destruct (nsum l) as [r|] eqn:Er; try discriminate.
  - destruct Hx as [<-|Hx]; [reflexivity|]. apply IH; try assumption.
    assert (E0 : (0 + r)%Qc = 0%Qc) by congruence. f_equal. transitivity (0 + r)%Qc; [ring|exact E0].
  - exfalso. assert (R := NN l r Hl Er). assert (E0 : (1 + r)%Qc = 0%Qc) by congruence. clear -R E0. qclra.
Qed.
Lemma nsum_all_zero : forall l, (forall x, In x l -> x = Some 0%Qc) -> nsum l = Some 0%Qc.
Proof.
  induction l as [|y l IH]; intro H; [reflexivity|]. simpl.
  rewrite (H y (or_introl eq_refl)), IH by (intros; apply H; right; assumption).
  reflexivity.
Qed.
Lemma nansum_pos_inv : forall l, 
  (forall x, In x l -> x = None \/ x = Some 0%Qc) -> nansum l = 0%Qc.
Proof.
  induction l as [|y l IH]; intro H; [reflexivity|]. simpl.
  rewrite IH by (intros; apply H; right; assumption).
  destruct (H y (or_introl eq_refl)) as [->| ->]; simpl; ring.
Qed.

Lemma soft_candidates_nonempty : forall n pk U,
  entries01 n pk ->
  acyclic (fun a b => a < n /\ b < n /\ a <> b /\ pk b a = Some 1%Qc) ->
  (forall x, In x U -> x < n) -> U <> [] -> NoDup U ->
  fst (search_candidate (Soft pk) [] U) <> [].
Proof.
  intros n pk U H01 A HU NE ND. simpl.
  destruct (filter (fun j => row_sum_zero pk j (remove_nat j U)) U) as [|y l] eqn:E0; [|discriminate].
  set (R := fun a b => a < n /\ b < n /\ a <> b /\ pk b a = Some 1%Qc) in *.
  assert (decR : forall a b, {R a b} + {~ R a b}).
  { intros a b. unfold R. destruct (lt_dec a n); [|right; tauto]. destruct (lt_dec b n); [|right; tauto].
    destruct (Nat.eq_dec a b); [right; tauto|].
    destruct (pk_entry_dec (pk b a) (Some 1%Qc)); [left|right]; tauto. }
  assert (NR : forall j, In j U -> nsum (map (pk j) (remove_nat j U)) <> Some 0%Qc).
  { intros j Hj X. assert (I : In j (filter (fun j => row_sum_zero pk j (remove_nat j U)) U)).
    { apply filter_In. split; [exact Hj|]. unfold row_sum_zero. rewrite X. reflexivity. }
    rewrite E0 in I. contradiction. }
  (* candidates for a good source: variables with an outgoing 1-entry inside U *)
  set (S := filter (fun k => existsb (fun i => if decR k i then true else false) U) U).
  destruct S as [|s0 S'] eqn:ES.
  - (* no 1-entries at all inside U *)
    assert (N1 : forall i k, In i U -> In k U -> i <> k -> pk i k = None \/ pk i k = Some 0%Qc).
    { intros i k Hi Hk D. destruct (H01 i k (HU i Hi) (HU k Hk)) as [X|[X|X]]; auto.
      exfalso. assert (I : In k S).
      { unfold S. apply filter_In. split; [exact Hk|]. apply existsb_exists. exists i.
        split; [exact Hi|]. destruct (decR k i) as [_|N]; [reflexivity|].
        exfalso. apply N. unfold R. auto using HU. }
      rewrite ES in I. contradiction. }
    (* some column is not all zero *)
    destruct (filter (fun i => col_sum_zero pk i (remove_nat i U)) U) as [|c cs] eqn:EC.
    + (* U_end is empty *)
      destruct U as [|u U']; [congruence|]. intro X.
      assert (I : In u []); [|contradiction]. rewrite <- X. apply filter_In.
      split; [left; reflexivity|]. apply negb_true_iff, memb_notIn. intro I.
      apply in_app_or in I. destruct I as [I|I]; [|contradiction].
      apply filter_In in I. destruct I as [Hu Hp].
      rewrite nansum_pos_inv in Hp; [discriminate|].
      intros x Hx. apply in_map_iff in Hx. destruct Hx as [k [<- Hk]]. apply remove_nat_In in Hk.
      apply N1; [left; reflexivity|tauto|]. intro; subst; tauto.
    + intro X.
      (* every variable is in U_end, hence every column is zero *)
      assert (AllEnd : forall i, In i U -> col_sum_zero pk i (remove_nat i U) = true).
      { intros i Hi.
        destruct (memb i (filter (fun j => qltb 0 (nansum (map (pk j) (remove_nat j U)))) U
              ++ filter (fun i => col_sum_zero pk i (remove_nat i U)) U)) eqn:EM.
        - apply memb_In, in_app_or in EM. destruct EM as [EM|EM].
          + apply filter_In in EM. destruct EM as [_ EM].
            rewrite nansum_pos_inv in EM; [discriminate|].
            intros x Hx. apply in_map_iff in Hx. destruct Hx as [k [<- Hk]]. apply remove_nat_In in Hk.
            apply N1; [exact Hi|tauto|]. intro; subst; tauto.
          + apply filter_In in EM. tauto.
        - exfalso. assert (I : In i []); [|contradiction]. rewrite <- X. rewrite <- EC.
          apply filter_In. split; [exact Hi|]. rewrite EM. reflexivity. }
      (* then every off-diagonal entry is zero, contradicting NR *)
      destruct U as [|u U'] eqn:EU; [congruence|]. rewrite <- EU in *.
      assert (Hu : In u U) by (rewrite EU; left; reflexivity).
      apply (NR u Hu). apply nsum_all_zero. intros x Hx. apply in_map_iff in Hx.
      destruct Hx as [k [<- Hk]]. apply remove_nat_In in Hk. destruct Hk as [Hk Hd].
      assert (Z := AllEnd k Hk). unfold col_sum_zero in Z. apply neqb_Some in Z.
      apply (nsum_zero_inv _) with (x := pk u k) in Z; [exact Z| |].
      * intros y Hy. apply in_map_iff in Hy. destruct Hy as [w [<- Hw]]. apply remove_nat_In in Hw.
        apply H01; apply HU; tauto.
      * apply in_map_iff. exists u. split; [reflexivity|]. apply remove_nat_In. split; [exact Hu|congruence].
  - (* a minimal element of S *)
    destruct (acyclic_source R S decR A) as [k [Hk Hmin]]; [rewrite ES; discriminate|].
    assert (HkS := Hk). unfold S in Hk. apply filter_In in Hk. destruct Hk as [HkU Hout].
    apply existsb_exists in Hout. destruct Hout as [i [HiU Hi]].
    destruct (decR k i) as [Rki|]; [|discriminate].
    intro X.
    assert (I : In k []); [|contradiction]. rewrite <- X. apply filter_In. split; [exact HkU|].
    apply negb_true_iff, memb_notIn. intro I. apply in_app_or in I. destruct I as [I|I].
    + apply filter_In in I. destruct I as [_ I]. rewrite nansum_pos_inv in I; [discriminate|].
      intros x Hx. apply in_map_iff in Hx. destruct Hx as [w [<- Hw]]. apply remove_nat_In in Hw.
      destruct Hw as [Hw Hd].
      destruct (H01 k w (HU k HkU) (HU w Hw)) as [Y|[Y|Y]]; auto.
      exfalso. assert (Rwk : R w k) by (unfold R; auto using HU).
      apply (Hmin w); [|exact Rwk]. unfold S. apply filter_In. split; [exact Hw|].
      apply existsb_exists. exists k. split; [exact HkU|]. destruct (decR w k); [reflexivity|contradiction].
    + apply filter_In in I. destruct I as [_ I]. unfold col_sum_zero in I. apply neqb_Some in I.
      destruct Rki as [_ [Hi' [Dki P1]]].
      apply (nsum_zero_inv _) with (x := pk i k) in I.
      * rewrite P1 in I. inversion I.
      * intros y Hy. apply in_map_iff in Hy. destruct Hy as [w [<- Hw]]. apply remove_nat_In in Hw.
        apply H01; apply HU; tauto.
      * apply in_map_iff. exists i. split; [reflexivity|]. apply remove_nat_In. split; [exact HiU|congruence].
Qed.

Lemma soft_not_stuck : forall n pk, entries01 n pk ->
  acyclic (fun a b => a < n /\ b < n /\ a <> b /\ pk b a = Some 1%Qc) ->
  forall s U, (forall x, In x U -> x < n) -> NoDup U -> length U = s -> ~ stuck (Soft pk) s [] U.
Proof.
  intros n pk H01 A. induction s as [|s IH]; intros U HU ND L H; [inversion H|].
  inversion H as [s' po' U' He|s' po' U' m Hm R]; subst.
  - revert He. apply (soft_candidates_nonempty n); try assumption. destruct U; [discriminate|congruence].
  - apply candidate_incl in Hm. simpl in R. revert R. apply IH.
    + intros x Hx. apply remove_nat_In in Hx. apply HU. tauto.
    + apply remove_nat_NoDup. exact ND.
    + apply remove_nat_length in Hm; [lia|exact ND].
Qed.
Lemma fit_order_soft_ok : forall Col residual score argsel n pk X,
  argsel_ok argsel -> entries01 n pk ->
  acyclic (fun a b => a < n /\ b < n /\ a <> b /\ pk b a = Some 1%Qc) ->
  exists K, fit_order Col residual score argsel n true (Soft pk) X = Ok K.
Proof.
  intros Col residual score argsel n pk X AG H01 A. simpl.
  destruct (fit_loop_run Col residual score argsel AG n (Soft pk) [] X (seq 0 n) [])
    as [[K [E R]]|[E R]]; [exists K; exact E|].
  exfalso. revert R. apply (soft_not_stuck n); try assumption.
  - intros x Hx. apply in_seq in Hx. lia.
  - apply seq_NoDup.
  - apply seq_length.
Qed.

(** ** Histories *)
Lemma fit_loop_st_snd : forall Col residual score argsel steps mode po X U K,
  snd (@fit_loop_st Col residual score argsel steps mode po X U K) =
  fit_loop Col residual score argsel steps mode po X U K.
Proof.
  induction steps as [|s IH]; intros mode po X U K; [reflexivity|]. simpl.
  destruct (search_causal_order Col score argsel mode po X U) as [m|e]; simpl; [|reflexivity].
  apply IH.
Qed.
Lemma search_candidate_po_irrelevant : forall mode po po' U,
  (forall pk, mode <> Strong pk) -> search_candidate mode po U = search_candidate mode po' U.
Proof. intros [|pk|pk] po po' U H; try reflexivity. exfalso. apply (H pk). reflexivity. Qed.
Lemma fit_loop_po_irrelevant : forall Col residual score argsel mode,
  (forall pk, mode <> Strong pk) ->
  forall steps po po' X U K,
  fit_loop Col residual score argsel steps mode po X U K =
  fit_loop Col residual score argsel steps mode po' X U K.
Proof.
  intros Col residual score argsel mode H. induction steps as [|s IH]; intros po po' X U K; [reflexivity|].
  simpl. unfold search_causal_order. rewrite (search_candidate_po_irrelevant mode po po' U H).
  destruct (search_candidate mode po' U) as [Uc Vj].
  match goal with |- bind ?e _ = bind ?e _ => destruct e as [m|e']; [|reflexivity] end. simpl.
  apply IH.
Qed.

Lemma direct_fit_obj_spec : forall Col residual score ms lasso n ok X (o : direct_obj),
  match @direct_fit Col residual score ms lasso n ok (d_mode o) X with
  | Err e => snd (direct_fit_obj residual score ms lasso n ok X o) = Some e /\
             d_order (fst (direct_fit_obj residual score ms lasso n ok X o)) = d_order o /\
             d_adj (fst (direct_fit_obj residual score ms lasso n ok X o)) = d_adj o
  | Ok (K, B) => snd (direct_fit_obj residual score ms lasso n ok X o) = None /\
             d_order (fst (direct_fit_obj residual score ms lasso n ok X o)) = Some K /\
             d_adj (fst (direct_fit_obj residual score ms lasso n ok X o)) = Some B
  end /\ d_mode (fst (direct_fit_obj residual score ms lasso n ok X o)) = d_mode o.
Proof.
  intros Col residual score ms lasso n ok X [mode po0 ord0 adj0]. unfold direct_fit, direct_fit_obj, fit_order.
  simpl d_mode. simpl d_po.
  destruct mode as [|pk|pk].
  - simpl negb. cbv iota.
    rewrite (fit_loop_po_irrelevant Col residual score (argsel_of ms) NoPK ltac:(discriminate) n [] po0).
    rewrite <- fit_loop_st_snd.
    destruct (fit_loop_st residual score (argsel_of ms) n NoPK po0 X (seq 0 n) []) as [po' [K|e]];
      simpl; auto.
  - destruct ok; simpl; [|auto].
    destruct (extract_partial_orders n pk) as [po|e]; simpl; [|auto].
    rewrite <- fit_loop_st_snd.
    destruct (fit_loop_st residual score (argsel_of ms) n (Strong pk) po X (seq 0 n) []) as [po' [K|e]];
      simpl; auto.
  - destruct ok; simpl; [|auto].
    rewrite (fit_loop_po_irrelevant Col residual score (argsel_of ms) (Soft pk) ltac:(discriminate) n [] po0).
    rewrite <- fit_loop_st_snd.
    destruct (fit_loop_st residual score (argsel_of ms) n (Soft pk) po0 X (seq 0 n) []) as [po' [K|e]];
      simpl; auto.
Qed.

(** ** Multi-group *)
Lemma mg_loop_run : forall Col residual gM steps mode po ds U K,
  (exists K', @mg_loop Col residual gM steps mode po ds U K = Ok K' /\ run mode steps po U K K') \/
  (@mg_loop Col residual gM steps mode po ds U K = Err ValueError /\ stuck mode steps po U).
Proof.
  induction steps as [|s IH]; intros mode po ds U K; simpl.
  - left. exists K. split; [reflexivity|constructor].
  - destruct (search_candidate mode po U) as [Uc Vj] eqn:EC.
    assert (F : fst (search_candidate mode po U) = Uc) by (rewrite EC; reflexivity).
    assert (G : forall m, In m Uc ->
      (exists K', mg_loop residual gM s mode (po_step mode m po)
         (map (fun d => (fst d, regress_out Col residual (snd d) U m)) ds) (remove_nat m U) (K ++ [m]) = Ok K'
         /\ run mode (S s) po U K K') \/
      (mg_loop residual gM s mode (po_step mode m po)
         (map (fun d => (fst d, regress_out Col residual (snd d) U m)) ds) (remove_nat m U) (K ++ [m]) = Err ValueError
         /\ stuck mode (S s) po U)).
    { intros m Hm. rewrite <- F in Hm.
      destruct (IH mode (po_step mode m po)
         (map (fun d => (fst d, regress_out Col residual (snd d) U m)) ds) (remove_nat m U) (K ++ [m]))
        as [[K' [E R]]|[E R]].
      - left. exists K'. split; [exact E|]. econstructor; eassumption.
      - right. split; [exact E|]. eapply stuck_later; eassumption. }
    destruct Uc as [|x [|y r]].
    + simpl. right. split; [reflexivity|]. apply stuck_now. exact F.
    + simpl. apply G. left. reflexivity.
    + destruct (np_argmax (map (mg_score gM ds U (x :: y :: r) Vj) (x :: y :: r))) as [k|] eqn:E.
      * apply np_argmax_bound in E. rewrite map_length in E.
        destruct (nth_error (x :: y :: r) k) as [m|] eqn:N.
        -- simpl bind. apply G. eapply nth_error_In. exact N.
        -- apply nth_error_None in N. lia.
      * simpl in E. discriminate.
Qed.
Lemma mg_fit_order_perm : forall Col residual gM n ok mode ds K,
  @mg_fit_order Col residual gM n ok mode ds = Ok K -> is_order n K.
Proof.
  intros Col residual gM n ok mode ds K H. unfold mg_fit_order in H.
  assert (G : forall po, mg_loop residual gM n mode po ds (seq 0 n) [] = Ok K -> is_order n K).
  { intros po E. destruct (mg_loop_run Col residual gM n mode po ds (seq 0 n) [])
      as [[K' [E' R]]|[E' R]]; rewrite E in E'; [|discriminate].
    inversion E'; subst. eapply run_from_seq_is_order. exact R. }
  destruct mode as [|pk|pk].
  - eapply G. exact H.
  - destruct ok; [|discriminate].
    destruct (extract_partial_orders n pk) as [po|e]; simpl in H; [|discriminate]. eapply G. exact H.
  - destruct ok; [|discriminate]. eapply G. exact H.
Qed.
Lemma mg_fit_order_respects : forall Col residual gM n ok pk ds K,
  @mg_fit_order Col residual gM n ok (Strong pk) ds = Ok K -> respects n pk K.
Proof.
  intros Col residual gM n ok pk ds K H a b Ha Hb MP. unfold mg_fit_order in H. destruct ok; [|discriminate].
  destruct (extract_partial_orders n pk) as [po|e] eqn:Ee; simpl in H; [|discriminate].
  destruct (mg_loop_run Col residual gM n (Strong pk) po ds (seq 0 n) [])
    as [[K' [E' R]]|[E' R]]; rewrite H in E'; [|discriminate].
  inversion E'; subst K'.
  eapply run_strong_respects; try exact R.
  - apply seq_NoDup.
  - apply seq_length.
  - apply (extract_ok n pk po Ee). auto.
  - apply in_seq. lia.
  - apply in_seq. lia.
Qed.

Lemma nadd_comm : forall x y, nadd x y = nadd y x.
Proof. intros [a|] [b|]; simpl; try reflexivity. f_equal. ring. Qed.
Lemma nadd_assoc : forall x y z, nadd x (nadd y z) = nadd (nadd x y) z.
Proof. intros [a|] [b|] [c|]; simpl; try reflexivity. f_equal. ring. Qed.
Lemma fold_nadd_perm : forall A (f : A -> num) l1 l2, Permutation l1 l2 ->
  forall s, fold_left (fun a d => nadd a (f d)) l1 s = fold_left (fun a d => nadd a (f d)) l2 s.
Proof.
  intros A f l1 l2 P. induction P as [|x l1 l2 P IH|x y l|l1 l2 l3 P1 IH1 P2 IH2]; intro s; simpl.
  - reflexivity.
  - apply IH.
  - f_equal. rewrite <- !nadd_assoc. f_equal. apply nadd_comm.
  - rewrite IH1. apply IH2.
Qed.
Lemma mg_score_perm : forall Col gM ds1 ds2 U Uc Vj i, Permutation ds1 ds2 ->
  @mg_score Col gM ds1 U Uc Vj i = mg_score gM ds2 U Uc Vj i.
Proof.
  intros Col gM ds1 ds2 U Uc Vj i P. unfold mg_score. f_equal.
  replace (qsum (map (fun d => qn (fst d)) ds2)) with (qsum (map (fun d => qn (fst d)) ds1)).
  - apply (fold_nadd_perm _ (fun d => nmul (gM (snd d) U Uc Vj i)
        (Some (qn (fst d) / qsum (map (fun d => qn (fst d)) ds1))%Qc))). exact P.
  - apply (sumf_perm _ (fun d : nat * (nat -> Col) => qn (fst d))). exact P.
Qed.
Lemma mg_loop_perm : forall Col residual gM steps mode po ds1 ds2 U K, Permutation ds1 ds2 ->
  @mg_loop Col residual gM steps mode po ds1 U K = mg_loop residual gM steps mode po ds2 U K.
Proof.
  induction steps as [|s IH]; intros mode po ds1 ds2 U K P; [reflexivity|]. simpl.
  destruct (search_candidate mode po U) as [Uc Vj].
  replace (map (mg_score gM ds1 U Uc Vj) Uc) with (map (mg_score gM ds2 U Uc Vj) Uc).
  - match goal with |- bind ?e _ = bind ?e _ => destruct e as [m|e']; [|reflexivity] end. simpl.
    apply IH. apply Permutation_map. exact P.
  - apply map_ext. intro i. symmetry. apply mg_score_perm. exact P.
Qed.
Lemma mg_fit_order_perm_groups : forall Col residual gM n ok mode ds1 ds2, Permutation ds1 ds2 ->
  @mg_fit_order Col residual gM n ok mode ds1 = mg_fit_order residual gM n ok mode ds2.
Proof.
  intros Col residual gM n ok mode ds1 ds2 P. unfold mg_fit_order.
  destruct mode as [|pk|pk].
  - apply mg_loop_perm. exact P.
  - destruct ok; [|reflexivity]. destruct (extract_partial_orders n pk); simpl; [|reflexivity].
    apply mg_loop_perm. exact P.
  - destruct ok; [|reflexivity]. apply mg_loop_perm. exact P.
Qed.

(** ** Exogenous / sink queries *)
Lemma am_abs0_nonneg : forall B i j, (0 <= am_abs0 B i j)%Qc.
Proof.
  intros. unfold am_abs0. destruct (i =? j); [apply Qcle_refl|apply qabs_nonneg].
Qed.
Lemma get_exo_variables_In : forall n B i,
  In i (get_exo_variables n B) <-> i < n /\ forall k, k < n -> k <> i -> B i k = 0%Qc.
Proof.
  intros n B i. unfold get_exo_variables. rewrite filter_In, in_seq, qeqb_eq. split.
  - intros [Hi E]. split; [lia|]. intros k Hk D.
    assert (Z := sumf_nonneg_zero _ _ _ (fun x _ => am_abs0_nonneg B i x) E k).
    rewrite in_seq in Z. specialize (Z ltac:(lia)). unfold am_abs0 in Z.
    destruct (i =? k) eqn:Ek; [apply Nat.eqb_eq in Ek; congruence|]. apply qabs_0. exact Z.
  - intros [Hi H]. split; [lia|]. apply sumn_zero. intros k Hk. unfold am_abs0.
    destruct (i =? k) eqn:Ek; [reflexivity|]. apply Nat.eqb_neq in Ek. apply qabs_0. apply H; congruence.
Qed.
Lemma get_sink_variables_In : forall n B i,
  In i (get_sink_variables n B) <-> i < n /\ forall k, k < n -> k <> i -> B k i = 0%Qc.
Proof.
  intros n B i. unfold get_sink_variables. rewrite filter_In, in_seq, qeqb_eq. split.
  - intros [Hi E]. split; [lia|]. intros k Hk D.
    assert (Z := sumf_nonneg_zero _ _ _ (fun x _ => am_abs0_nonneg B x i) E k).
    rewrite in_seq in Z. specialize (Z ltac:(lia)). unfold am_abs0 in Z.
    destruct (k =? i) eqn:Ek; [apply Nat.eqb_eq in Ek; congruence|]. apply qabs_0. exact Z.
  - intros [Hi H]. split; [lia|]. apply sumn_zero. intros k Hk. unfold am_abs0.
    destruct (k =? i) eqn:Ek; [reflexivity|]. apply Nat.eqb_neq in Ek. apply qabs_0. apply H; congruence.
Qed.
Lemma seq_sorted : forall n s, StronglySorted lt (seq s n).
Proof.
  induction n as [|n IH]; intro s; simpl; constructor.
  - apply IH.
  - apply Forall_forall. intros x Hx. apply in_seq in Hx. lia.
Qed.
Lemma StronglySorted_filter : forall A (R : A -> A -> Prop) f l,
  StronglySorted R l -> StronglySorted R (filter f l).
Proof.
  intros A R f l H. induction H as [|a l H IH F]; simpl; [constructor|].
  destruct (f a); [|exact IH]. constructor; [exact IH|].
  rewrite Forall_forall in *. intros x Hx. apply filter_In in Hx. apply F. tauto.
Qed.
Lemma get_exo_sorted : forall n B, StronglySorted lt (get_exo_variables n B).
Proof. intros. apply StronglySorted_filter, seq_sorted. Qed.
Lemma get_sink_sorted : forall n B, StronglySorted lt (get_sink_variables n B).
Proof. intros. apply StronglySorted_filter, seq_sorted. Qed.

(** ** Error independence p-values *)
Lemma combinations2_In : forall n i j, In (i, j) (combinations2 n) <-> i < j /\ j < n.
Proof.
  intros. unfold combinations2. rewrite filter_In, in_prod_iff, !in_seq. simpl.
  rewrite Nat.ltb_lt. lia.
Qed.
Lemma p_values_fold : forall (pval : nat -> nat -> num) l m i j,
  (forall p, In p l -> fst p < snd p) ->
  fold_left (fun m p => upd2 (upd2 m (fst p) (snd p) (pval (fst p) (snd p)))
                             (snd p) (fst p) (pval (fst p) (snd p))) l m i j =
  if existsb (pair_eqb (i, j)) l then pval i j
  else if existsb (pair_eqb (j, i)) l then pval j i
  else m i j.
Proof.
  intros pval l. induction l as [|p l IH] using rev_ind; intros m i j H; [reflexivity|].
  rewrite fold_left_app. simpl. rewrite !existsb_app. simpl. rewrite !orb_false_r.
  unfold upd2 at 1 2.
  rewrite IH by (intros q Hq; apply H, in_or_app; left; exact Hq).
  assert (Hp := H p ltac:(apply in_or_app; right; left; reflexivity)).
  destruct p as [a b]. simpl in Hp.
  change (pair_eqb (i, j) (a, b)) with ((i =? a) && (j =? b)).
  change (pair_eqb (j, i) (a, b)) with ((j =? a) && (i =? b)). cbn [fst snd].
  assert (NB : forall x y, y <= x -> existsb (pair_eqb (x, y)) l = false).
  { intros x y Hxy. apply pair_eqb_notIn. intro I. specialize (H (x, y)). simpl in H.
    assert (x < y) by (apply H, in_or_app; left; exact I). lia. }
  destruct (Nat.eqb_spec i b) as [->|Nib]; destruct (Nat.eqb_spec j a) as [->|Nja]; simpl.
  - rewrite (NB b a) by lia. simpl.
    destruct (Nat.eqb_spec b a) as [->|]; simpl; [lia|].
    rewrite orb_true_r. reflexivity.
  - destruct (Nat.eqb_spec b a) as [->|]; simpl; [lia|]. rewrite !orb_false_r. reflexivity.
  - destruct (Nat.eqb_spec i a) as [->|]; simpl;
      [destruct (Nat.eqb_spec a b) as [->|]; simpl; [lia|]|];
      rewrite !orb_false_r; reflexivity.
  - destruct (Nat.eqb_spec i a) as [->|]; destruct (Nat.eqb_spec j b) as [->|]; simpl;
      rewrite ?orb_true_r, ?orb_false_r; reflexivity.
Qed.
Lemma p_values_spec : forall pval n i j, i < n -> j < n ->
  error_independence_p_values pval n i j =
  if i <? j then pval i j else if j <? i then pval j i else Some 0%Qc.
Proof.
  intros pval n i j Hi Hj. unfold error_independence_p_values.
  rewrite p_values_fold by (intros [a b] Hp; apply combinations2_In in Hp; simpl; lia).
  destruct (existsb (pair_eqb (i, j)) (combinations2 n)) eqn:E1.
  - apply pair_eqb_In, combinations2_In in E1. destruct (Nat.ltb_spec i j); [reflexivity|lia].
  - apply pair_eqb_notIn in E1. rewrite combinations2_In in E1.
    destruct (Nat.ltb_spec i j); [lia|].
    destruct (existsb (pair_eqb (j, i)) (combinations2 n)) eqn:E2.
    + apply pair_eqb_In, combinations2_In in E2. destruct (Nat.ltb_spec j i); [reflexivity|lia].
    + apply pair_eqb_notIn in E2. rewrite combinations2_In in E2.
      destruct (Nat.ltb_spec j i); [lia|]. reflexivity.
Qed.
