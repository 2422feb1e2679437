(** * C223, C224: the configurations OutOfSampleCausalTuning accepts; its answers over time *)
From Coq Require Import List Arith Lia Bool ZArith QArith Qcanon String.
From Verif Require Import Prelude ModelOctConf.
Import ListNotations.
Open Scope nat_scope.

(** The documented types of the four keys. *)
Definition well_typed (kv : string * obj) : Prop :=
  (fst kv = "all_others"%string /\ o_bool (snd kv) <> None) \/ (fst kv = "model"%string /\ o_callable (snd kv) = true) \/
  (fst kv = "init_kwargs"%string /\ o_dict (snd kv) = true) \/ (fst kv = "fit_kwargs"%string /\ o_dict (snd kv) = true).
Definition known_key (k : string) : Prop := In k ["all_others"; "model"; "init_kwargs"; "fit_kwargs"]%string.
Definition usable (e : entry) : Prop := exists items, e = IsDict items /\ forall kv, In kv items -> well_typed kv.

Ltac keys k := destruct (String.eqb_spec k "all_others") as [->|?]; [|destruct (String.eqb_spec k "model") as [->|?]; [|destruct (String.eqb_spec k "init_kwargs") as [->|?]; [|destruct (String.eqb_spec k "fit_kwargs") as [->|?]]]].
Lemma item_cases : forall c kv, (well_typed kv /\ exists c', parse_item c kv = Ok c') \/
  (~ well_typed kv /\ ((known_key (fst kv) /\ parse_item c kv = Err TypeError) \/ (~ known_key (fst kv) /\ parse_item c kv = Err ValueError))).
Proof.
  intros c [k v]. unfold parse_item, well_typed, known_key. cbn [fst snd]. keys k.
  - destruct (o_bool v) as [b|] eqn:E; [left; split; [left; split; [reflexivity|discriminate]|eexists; reflexivity]|right]. split; [intros [[_ H]|[[H _]|[[H _]|[H _]]]]; congruence|left; split; [cbn; tauto|reflexivity]].
  - destruct (o_callable v) eqn:E; [left; split; [right; left; split; reflexivity|eexists; reflexivity]|right]. split; [intros [[H _]|[[_ H]|[[H _]|[H _]]]]; congruence|left; split; [cbn; tauto|reflexivity]].
  - destruct (o_dict v) eqn:E; [left; split; [right; right; left; split; reflexivity|eexists; reflexivity]|right]. split; [intros [[H _]|[[H _]|[[_ H]|[H _]]]]; congruence|left; split; [cbn; tauto|reflexivity]].
  - destruct (o_dict v) eqn:E; [left; split; [right; right; right; split; reflexivity|eexists; reflexivity]|right]. split; [intros [[H _]|[[H _]|[[H _]|[_ H]]]]; congruence|left; split; [cbn; tauto|reflexivity]].
  - right. split; [intros [[H _]|[[H _]|[[H _]|[H _]]]]; congruence|right; split; [|reflexivity]]. intros [H|[H|[H|[H|[]]]]]; congruence.
Qed.
(** The first item that is not as documented decides. *)
Definition first_fault (items : list (string * obj)) (e : exn) : Prop := exists pre kv post, items = pre ++ kv :: post /\ (forall x, In x pre -> well_typed x) /\ ~ well_typed kv /\
  ((known_key (fst kv) /\ e = TypeError) \/ (~ known_key (fst kv) /\ e = ValueError)).
Lemma items_cases : forall items c, ((forall kv, In kv items -> well_typed kv) /\ exists c', parse_items c items = Ok c') \/ (exists e, parse_items c items = Err e /\ first_fault items e).
Proof.
  induction items as [|kv items IH]; intro c; [left; split; [intros ? []|eexists; reflexivity]|]. cbn [parse_items]. destruct (item_cases c kv) as [[W [c' ->]]|[W F]].
  - cbn [bind]. destruct (IH c') as [[H R]|(e & E & pre & x & post & -> & H1 & H2)].
    + left. split; [intros y [<-|Hy]; [exact W|apply H; exact Hy]|exact R].
    + right. exists e. split; [exact E|]. exists (kv :: pre), x, post. split; [reflexivity|]. split; [intros y [<-|Hy]; [exact W|apply H1; exact Hy]|exact H2].
  - right. destruct F as [[K ->]|[K ->]]; cbn [bind]; eexists; (split; [reflexivity|]); exists [], kv, items; (split; [reflexivity|]); (split; [intros ? []|]); (split; [exact W|]); [left|right]; split; trivial.
Qed.
Lemma fault_not_typed : forall items e, first_fault items e -> ~ (forall kv, In kv items -> well_typed kv).
Proof. intros items e (pre & kv & post & -> & _ & W & _) H. apply W, H. apply in_or_app. right. left. reflexivity. Qed.
Lemma config_cases : forall e, (usable e /\ exists c, check_config e = Ok c) \/ (~ usable e /\ exists x, check_config e = Err x /\ ((e = NotDict /\ x = TypeError) \/ exists items, e = IsDict items /\ first_fault items x)).
Proof.
  intros [items|]; cbn [check_config].
  - destruct (items_cases items defaults) as [[H [c ->]]|(x & -> & F)]; cbn [bind].
    + left. split; [exists items; split; [reflexivity|exact H]|]. unfold has_model. rewrite andb_false_r. destruct (c_all c); eexists; reflexivity.
    + right. split; [intros (i & E & H); injection E as <-; exact (fault_not_typed _ _ F H)|]. exists x. split; [reflexivity|right]. exists items. split; [reflexivity|exact F].
  - right. split; [intros (i & E & _); discriminate|]. exists TypeError. split; [reflexivity|left; split; reflexivity].
Qed.
Lemma each_cases : forall l, ((forall e, In e l -> usable e) /\ exists r, check_each l = Ok r /\ Forall2 (fun e c => check_config e = Ok c) l r) \/
  (exists x pre e post, check_each l = Err x /\ l = pre ++ e :: post /\ (forall y, In y pre -> usable y) /\ ~ usable e /\ ((e = NotDict /\ x = TypeError) \/ exists items, e = IsDict items /\ first_fault items x)).
Proof.
  induction l as [|e l IH]; [left; split; [intros ? []|exists []; split; [reflexivity|constructor]]|]. cbn [check_each]. destruct (config_cases e) as [[U [c EC]]|(U & x & EX & F)].
  - rewrite EC. cbn [bind]. destruct IH as [[H (r & -> & R)]|(x & pre & y & post & -> & -> & H1 & H2 & H3)]; cbn [bind].
    + left. split; [intros z [<-|Hz]; [exact U|apply H; exact Hz]|]. exists (c :: r). split; [reflexivity|constructor; assumption].
    + right. exists x, (e :: pre), y, post. split; [reflexivity|]. split; [reflexivity|]. split; [intros z [<-|Hz]; [exact U|apply H1; exact Hz]|]. split; assumption.
  - right. exists x, [], e, l. rewrite EX. split; [reflexivity|]. split; [reflexivity|]. split; [intros ? []|]. split; assumption.
Qed.

(** ** C223 *)
(** Accepted: exactly a non-empty list of dicts with the documented keys and types (a model is not required). *)
Theorem C223_accepted : forall cs, (exists r, check_configs cs = Ok r) <-> exists l, cs = IsList l /\ l <> [] /\ forall e, In e l -> usable e.
Proof.
  intros [[|e l]|]; cbn [check_configs].
  - split; [intros [r H]; discriminate|intros (l & E & H & _); injection E as <-; congruence].
  - destruct (each_cases (e :: l)) as [[H (r & E & _)]|(x & pre & y & post & E & EL & _ & U & _)].
    + split; [intros _; exists (e :: l); split; [reflexivity|split; [discriminate|exact H]]|intros _; exists r; exact E].
    + split; [intros [r H]; congruence|]. intros (l' & EQ & _ & H). injection EQ as <-. exfalso. apply U, H. rewrite EL. apply in_or_app. right. left. reflexivity.
  - split; [intros [r H]; discriminate|intros (l & E & _); discriminate].
Qed.
Print Assumptions C223_accepted.
(** Rejected: the exception belongs to the first fault in reading order. *)
Theorem C223_exceptions : forall cs x, check_configs cs = Err x <->
  (cs = NotList /\ x = TypeError) \/ (cs = IsList [] /\ x = ValueError) \/
  (exists pre e post, cs = IsList (pre ++ e :: post) /\ (forall y, In y pre -> usable y) /\ ((e = NotDict /\ x = TypeError) \/ exists items, e = IsDict items /\ first_fault items x)).
Proof.
  assert (D : forall cs x, check_configs cs = Err x ->
    (cs = NotList /\ x = TypeError) \/ (cs = IsList [] /\ x = ValueError) \/
    (exists pre e post, cs = IsList (pre ++ e :: post) /\ (forall y, In y pre -> usable y) /\ ((e = NotDict /\ x = TypeError) \/ exists items, e = IsDict items /\ first_fault items x))).
  { intros [[|e l]|] x H; cbn [check_configs] in H; [right; left; split; congruence| |left; split; congruence]. right. right.
    destruct (each_cases (e :: l)) as [[_ (r & E & _)]|(x' & pre & y & post & E & -> & H1 & _ & H3)]; [congruence|]. rewrite E in H. injection H as <-. exists pre, y, post. repeat split; assumption. }
  assert (FU : forall items a b, first_fault items a -> first_fault items b -> a = b).
  { induction items as [|k items IH]; intros a b (p & kv & q & E & P & W & F) (p' & kv' & q' & E' & P' & W' & F'); [destruct p; discriminate|].
    destruct p as [|z p]; destruct p' as [|z' p']; cbn in E, E'; injection E as -> E; injection E' as -> E'.
    - destruct F as [[K ->]|[K ->]]; destruct F' as [[K' ->]|[K' ->]]; trivial; contradiction.
    - exfalso. apply W, P'. left. reflexivity.
    - exfalso. apply W', P. left. reflexivity.
    - apply (IH a b); [exists p, kv, q; split; [exact E|split; [intros y Hy; apply P; right; exact Hy|split; assumption]]|exists p', kv', q'; split; [exact E'|split; [intros y Hy; apply P'; right; exact Hy|split; assumption]]]. }
  intros cs x. split; [apply D|]. intros [[-> ->]|[[-> ->]|(pre & e & post & -> & HP & HE)]]; [reflexivity|reflexivity|].
  assert (NU : ~ usable e) by (intros (it & E & W); destruct HE as [[-> _]|(items & -> & F)]; [discriminate|injection E as <-; exact (fault_not_typed _ _ F W)]).
  destruct (check_configs (IsList (pre ++ e :: post))) as [r|x'] eqn:EC.
  { exfalso. destruct (proj1 (C223_accepted _) (ex_intro _ r EC)) as (l & EL & _ & H). injection EL as <-. apply NU, H. apply in_or_app. right. left. reflexivity. }
  f_equal. destruct (D _ _ EC) as [[H _]|[[H _]|(pre' & e' & post' & EQ & HP' & HE')]]; [discriminate|destruct pre; discriminate|]. injection EQ as EQ.
  assert (NU' : ~ usable e') by (intros (it & E & W); destruct HE' as [[-> _]|(items & -> & F)]; [discriminate|injection E as <-; exact (fault_not_typed _ _ F W)]).
  clear EC D. revert pre' EQ HP'. induction pre as [|a pre IH]; intros [|b pre'] EQ HP'; cbn in EQ; injection EQ as -> EQ.
  - destruct HE as [[-> ->]|(items & -> & F)]; destruct HE' as [[E ->]|(items' & E & F')]; try discriminate; [reflexivity|]. injection E as <-. apply (FU items); assumption.
  - exfalso. apply NU, HP'. left. reflexivity.
  - exfalso. apply NU', HP. left. reflexivity.
  - apply (IH (fun y Hy => HP y (or_intror Hy)) pre' EQ (fun y Hy => HP' y (or_intror Hy))).
Qed.
Print Assumptions C223_exceptions.

Lemma parse_values : forall items c c', NoDup (map fst items) -> parse_items c items = Ok c' ->
  (forall v, In ("all_others"%string, v) items -> o_bool v = Some (c_all c')) /\ (~ In "all_others"%string (map fst items) -> c_all c' = c_all c) /\
  (forall v, In ("model"%string, v) items -> c_model c' = Some v) /\ (~ In "model"%string (map fst items) -> c_model c' = c_model c) /\
  (forall v, In ("init_kwargs"%string, v) items -> c_init c' = Some v) /\ (~ In "init_kwargs"%string (map fst items) -> c_init c' = c_init c) /\
  (forall v, In ("fit_kwargs"%string, v) items -> c_fit c' = Some v) /\ (~ In "fit_kwargs"%string (map fst items) -> c_fit c' = c_fit c).
Proof.
  induction items as [|[k v] items IH]; intros c c' ND E; [injection E as <-; repeat split; intros; try reflexivity; contradiction|].
  cbn [parse_items] in E. destruct (parse_item c (k, v)) as [c1|] eqn:E1; [|discriminate]. cbn [bind] in E. cbn [map fst] in ND. inversion ND as [|? ? NI ND']; subst.
  destruct (IH c1 c' ND' E) as (A1 & A2 & A3 & A4 & A5 & A6 & A7 & A8). clear IH E.
  unfold parse_item in E1. keys k;
    [destruct (o_bool v) as [b|] eqn:EB; [|discriminate]|destruct (o_callable v); [|discriminate]|destruct (o_dict v); [|discriminate]|destruct (o_dict v); [|discriminate]|discriminate];
    injection E1 as <-; cbn [c_all c_model c_init c_fit] in *; cbn [map fst In];
    (repeat split; [..]); intros;
    repeat match goal with H : _ \/ _ |- _ => destruct H as [H|H] end; try (match goal with H : (_, _) = (_, _) |- _ => injection H as ? ?; subst end); try congruence;
    try (rewrite A2 by tauto; assumption); try (rewrite A4 by tauto; reflexivity); try (rewrite A6 by tauto; reflexivity); try (rewrite A8 by tauto; reflexivity);
    try (apply A1; assumption); try (apply A3; assumption); try (apply A5; assumption); try (apply A7; assumption); try (apply A2; tauto); try (apply A4; tauto); try (apply A6; tauto); try (apply A8; tauto);
    try (exfalso; tauto);
    match goal with H : (_, _) = (_, _) |- _ => injection H as <- end; first [rewrite A2 by exact NI; exact EB|apply A4; exact NI|apply A6; exact NI|apply A8; exact NI].
Qed.
(** The values are the given ones (None: not given); with all_others=True, model and keyword arguments are ignored. *)
Theorem C223_values : forall items c, NoDup (map fst items) -> check_config (IsDict items) = Ok c ->
  (c_all c = true <-> exists v, In ("all_others"%string, v) items /\ o_bool v = Some true) /\
  (c_all c = true -> c_model c = None /\ c_init c = None /\ c_fit c = None) /\
  (c_all c = false -> forall v, (c_model c = Some v <-> In ("model"%string, v) items) /\ (c_init c = Some v <-> In ("init_kwargs"%string, v) items) /\ (c_fit c = Some v <-> In ("fit_kwargs"%string, v) items)).
Proof.
  intros items c ND E. cbn [check_config] in E. destruct (parse_items defaults items) as [c0|] eqn:EP; [|discriminate]. cbn [bind] in E. unfold has_model in E. rewrite andb_false_r in E.
  destruct (parse_values items defaults c0 ND EP) as (A1 & A2 & A3 & A4 & A5 & A6 & A7 & A8). cbn [defaults c_all c_model c_init c_fit] in *.
  assert (DEC : forall k, In k (map fst items) \/ ~ In k (map fst items)) by (intro k; destruct (in_dec string_dec k (map fst items)); tauto).
  assert (GET : forall k, In k (map fst items) -> exists v, In (k, v) items) by (intros k H; apply in_map_iff in H; destruct H as ([k' v] & <- & H); exists v; exact H).
  assert (ALL : c_all c = c_all c0) by (destruct (c_all c0) eqn:Q; injection E as <-; [reflexivity|exact Q]).
  split; [|split].
  - rewrite ALL. split.
    + intro H. destruct (DEC "all_others"%string) as [K|K]; [|rewrite (A2 K) in H; discriminate]. destruct (GET _ K) as [v Hv]. exists v. split; [exact Hv|]. rewrite (A1 v Hv), H. reflexivity.
    + intros (v & Hv & B). rewrite (A1 v Hv) in B. injection B as B. exact B.
  - intro H. rewrite ALL in H. rewrite H in E. injection E as <-. repeat split.
  - intro H. rewrite ALL in H. rewrite H in E. injection E as <-.
    assert (G : forall k (f : option obj) w, (forall v, In (k, v) items -> f = Some v) -> (~ In k (map fst items) -> f = None) -> (f = Some w <-> In (k, w) items)).
    { intros k f w H1 H2. split; [|apply H1]. intro F. destruct (DEC k) as [K|K]; [|rewrite (H2 K) in F; discriminate]. destruct (GET _ K) as [v Hv]. rewrite (H1 v Hv) in F. injection F as <-. exact Hv. }
    intro v. split; [apply G; assumption|]. split; apply G; assumption.
Qed.
Print Assumptions C223_values.

Lemma same_length : forall {A B} (P : A -> B -> Prop) l m, Forall2 P l m -> List.length l = List.length m.
Proof. intros A B P l m F. induction F; [reflexivity|cbn; congruence]. Qed.
Section Fit.
  Variables (data score : Type) (evaluate : nat -> data -> config -> option obj -> result score) (best : data -> list score -> result nat)
    (data_ok : data -> result unit) (others : result unit).
  Notation TUNE := (tune data score evaluate best data_ok others).
  Lemma run_prefix : forall d cs k l, run_all data score evaluate k d cs = (l, Ok tt) -> List.length l = List.length cs /\
    forall i, i < List.length cs -> exists s, nth_error l i = Some s /\ run_config data score evaluate (k + i) d (nth i cs defaults) = Ok s.
  Proof.
    intros d. induction cs as [|c cs IH]; intros k l E; cbn [run_all] in E; [injection E as <-; split; [reflexivity|intros i Hi; cbn in Hi; lia]|].
    destruct (run_config data score evaluate k d c) as [s|e] eqn:EC; [|discriminate]. destruct (run_all data score evaluate (S k) d cs) as [l1 r] eqn:E1. injection E as <- ->. destruct (IH (S k) l1 E1) as [HL H].
    split; [cbn; rewrite HL; reflexivity|]. intros [|i] Hi; [exists s; split; [reflexivity|rewrite Nat.add_0_r; exact EC]|]. cbn in Hi. destruct (H i ltac:(lia)) as (t & Ht & R). exists t. split; [exact Ht|]. cbn [nth]. rewrite <- R. f_equal. lia.
  Qed.
  Lemma run_stops : forall d pre c post k, c_all c = false -> c_model c = None ->
    (forall i, i < List.length pre -> exists s, run_config data score evaluate (k + i) d (nth i pre defaults) = Ok s) ->
    exists l, run_all data score evaluate k d (pre ++ c :: post) = (l, Err TypeError) /\ List.length l = List.length pre.
  Proof.
    intros d. induction pre as [|p pre IH]; intros c post k HA HM H; cbn [app run_all].
    - unfold run_config. rewrite HA, HM. exists []. split; reflexivity.
    - destruct (H 0 ltac:(cbn; lia)) as [s Hs]. rewrite Nat.add_0_r in Hs. cbn [nth] in Hs. rewrite Hs.
      destruct (IH c post (S k) HA HM) as (l & -> & L); [intros i Hi; destruct (H (S i) ltac:(cbn; lia)) as [t Ht]; exists t; cbn [nth] in Ht; rewrite <- Ht; f_equal; lia|]. exists (s :: l). split; [reflexivity|cbn; rewrite L; reflexivity].
  Qed.
  (** Data, parameters or configurations that are rejected: nothing is evaluated and the object stays as it was. *)
  Theorem C223_rejected_first : forall st d cs e, data_ok d = Err e \/ (data_ok d = Ok tt /\ check_configs cs = Err e) -> TUNE st d cs = (st, [], Err e).
  Proof. intros st d cs e [H|[H1 H2]]; unfold tune; [rewrite H|rewrite H1; cbn [bind]; rewrite H2]; reflexivity. Qed.
  (** A configuration without a model (and without all_others=True) is not rejected: the configurations before it are evaluated, then TypeError
      (None is called), not the ValueError the check promises. *)
  Theorem C223_missing_model_refuted : forall st d pre items post cpre, data_ok d = Ok tt -> others = Ok tt -> NoDup (map fst items) ->
    (forall kv, In kv items -> well_typed kv) -> ~ In "model"%string (map fst items) -> (forall v, In ("all_others"%string, v) items -> o_bool v = Some false) ->
    (forall e, In e post -> usable e) -> Forall2 (fun e c => check_config e = Ok c) pre cpre ->
    (forall i, i < List.length cpre -> exists s, run_config data score evaluate i d (nth i cpre defaults) = Ok s) ->
    exists scores, TUNE st d (IsList (pre ++ IsDict items :: post)) = (st, scores, Err TypeError) /\ List.length scores = List.length pre.
  Proof.
    intros st d pre items post cpre HD HO ND HW HM HA HP FP HR.
    destruct (config_cases (IsDict items)) as [[_ [c EC]]|(U & _)]; [|exfalso; apply U; exists items; split; [reflexivity|exact HW]].
    destruct (C223_values items c ND EC) as (V1 & _ & V3).
    assert (CA : c_all c = false). { destruct (c_all c) eqn:Q; [|reflexivity]. destruct (proj1 V1 eq_refl) as (v & Hv & B). rewrite (HA v Hv) in B. discriminate. }
    assert (CM : c_model c = None). { destruct (c_model c) as [m|] eqn:Q; [|reflexivity]. exfalso. apply HM. apply in_map_iff. exists ("model"%string, m). split; [reflexivity|]. apply (proj1 (V3 CA m)). reflexivity. }
    assert (EP : exists cpost, check_each (pre ++ IsDict items :: post) = Ok (cpre ++ c :: cpost)).
    { clear HR. induction FP as [|e c0 pre cpre E0 FP IH]; cbn [app check_each].
      - rewrite EC. cbn [bind]. destruct (each_cases post) as [[_ (r & -> & _)]|(x & p & y & q & _ & -> & _ & U & _)]; [exists r; reflexivity|]. exfalso. apply U, HP. apply in_or_app. right. left. reflexivity.
      - rewrite E0. cbn [bind]. destruct IH as [cpost ->]. exists cpost. reflexivity. }
    destruct EP as [cpost EP]. destruct (run_stops d cpre c cpost 0 CA CM HR) as (l & ER & L). exists l. split; [|rewrite L; symmetry; exact (same_length _ _ _ FP)].
    unfold tune. rewrite HD. cbn [bind]. replace (check_configs (IsList (pre ++ IsDict items :: post))) with (check_each (pre ++ IsDict items :: post)) by (destruct pre; reflexivity). rewrite EP, HO. cbn [bind]. rewrite ER. reflexivity.
  Qed.

  (** ** C224 *)
  (** After a successful fit both answers belong to this call: one score per configuration, and the index chosen from them. *)
  Theorem C224_successful_fit : forall st st' d l sc, TUNE st d (IsList l) = (st', sc, Ok tt) ->
    all_scores score st' = Ok sc /\ List.length sc = List.length l /\ exists b, best_index score st' = Ok b /\ best d sc = Ok b.
  Proof.
    intros st st' d l sc E. unfold tune in E. destruct (data_ok d); [|discriminate]. cbn [bind] in E. destruct (check_configs (IsList l)) as [cs|] eqn:EC; [|discriminate]. cbn [bind] in E. destruct others; [|discriminate]. cbn [bind] in E.
    destruct (run_all data score evaluate 0 d cs) as [s [[]|e]] eqn:ER; [|discriminate]. destruct (best d s) as [b|e] eqn:EB; [|discriminate]. injection E as <- <-.
    split; [reflexivity|]. split; [|exists b; split; [reflexivity|exact EB]]. destruct (run_prefix d cs 0 s ER) as [L _]. rewrite L.
    destruct l as [|e l]; [discriminate|]. cbn [check_configs] in EC. destruct (each_cases (e :: l)) as [[_ (r & E1 & F)]|(x & ? & ? & ? & E1 & _)]; [|congruence]. rewrite E1 in EC. injection EC as <-. symmetry. exact (same_length _ _ _ F).
  Qed.
  (** A fit that fails leaves the answers of the last successful fit; an object that never was fitted raises. *)
  Theorem C224_failed_fit : forall st st' d cs sc e, TUNE st d cs = (st', sc, Err e) -> st' = st.
  Proof.
    intros st st' d cs sc e E. unfold tune in E. destruct (let* _ := data_ok d in _) as [l|x]; [|congruence]. destruct (run_all data score evaluate 0 d l) as [s [u|x]]; [|congruence]. destruct (best d s) as [b|x]; congruence.
  Qed.
  Theorem C224_not_fitted : forall calls st, fold_left (fun st call => fst (fst (TUNE st (fst call) (snd call)))) calls None = st -> (forall call st, In call calls -> exists s sc e, TUNE st (fst call) (snd call) = (s, sc, Err e)) ->
    best_index score st = Err ValueError /\ all_scores score st = Err ValueError.
  Proof.
    intros calls st E H. assert (st = None) as -> ; [|split; reflexivity]. subst st. revert H. induction calls as [|c calls IH] using rev_ind; intro H; [reflexivity|]. rewrite fold_left_app. cbn [fold_left].
    rewrite IH by (intros x s Hx; apply H; apply in_or_app; left; exact Hx). destruct (H c None ltac:(apply in_or_app; right; left; reflexivity)) as (s & sc & e & Q). rewrite Q. cbn [fst]. exact (C224_failed_fit _ _ _ _ _ _ Q).
  Qed.
End Fit.
Print Assumptions C223_rejected_first.
Print Assumptions C223_missing_model_refuted.
Print Assumptions C224_successful_fit.
Print Assumptions C224_failed_fit.
Print Assumptions C224_not_fitted.

(** ** Examples: configurations are worth 3, 5, ... in turn; the best is the last one *)
Definition a_model : obj := {| o_id := 1; o_bool := None; o_callable := true; o_dict := false |}.
Definition a_dict : obj := {| o_id := 2; o_bool := None; o_callable := false; o_dict := true |}.
Definition a_bool (b : bool) : obj := {| o_id := 3; o_bool := Some b; o_callable := false; o_dict := false |}.
Definition good : entry := IsDict [("model", a_model); ("init_kwargs", a_dict)]%string.
Definition no_model : entry := IsDict [("fit_kwargs", a_dict)]%string.
Definition ex_tune := tune unit nat (fun k _ _ _ => Ok (3 + 2 * k)) (fun _ l => Ok (List.length l - 1)) (fun _ => Ok tt) (Ok tt).
(** The index kept after a failed fit need not even be one of the new list. *)
Theorem C224_old_index_refuted : exists st1 cs1 cs2 st2 sc e b, ex_tune None tt (IsList cs1) = (st1, [3; 5; 7], Ok tt) /\ ex_tune st1 tt (IsList cs2) = (st2, sc, Err e) /\
  best_index nat st2 = Ok b /\ List.length cs2 <= b.
Proof. exists (Some (2, [3; 5; 7])), [good; good; good], [good; no_model], (Some (2, [3; 5; 7])), [3], TypeError, 2. repeat split; cbn; lia. Qed.
Print Assumptions C224_old_index_refuted.
Example C223_example : usable good /\ usable no_model /\ check_configs (IsList [good; IsDict [("all_others", a_bool true); ("model", a_model)]%string]) =
    Ok [{| c_all := false; c_model := Some a_model; c_init := Some a_dict; c_fit := None |}; {| c_all := true; c_model := None; c_init := None; c_fit := None |}] /\
  check_configs (IsList [good; IsDict [("model", a_model); ("modle", a_model)]%string]) = Err ValueError /\ check_configs (IsList [good; IsDict [("model", a_dict); ("modle", a_model)]%string]) = Err TypeError /\
  first_fault [("model", a_model); ("modle", a_model)]%string ValueError /\ ~ known_key "modle".
Proof.
  assert (K : ~ known_key "modle") by (intros [H|[H|[H|[H|[]]]]]; discriminate).
  split; [exists [("model", a_model); ("init_kwargs", a_dict)]%string; split; [reflexivity|]; intros kv [<-|[<-|[]]]; [right; left|right; right; left]; split; reflexivity|].
  split; [exists [("fit_kwargs", a_dict)]%string; split; [reflexivity|]; intros kv [<-|[]]; right; right; right; split; reflexivity|].
  split; [reflexivity|]. split; [reflexivity|]. split; [reflexivity|]. split; [|exact K].
  exists [("model", a_model)]%string, ("modle"%string, a_model), []. split; [reflexivity|]. split; [intros x [<-|[]]; right; left; split; reflexivity|]. split; [|right; split; [exact K|reflexivity]].
  intros [[H _]|[[H _]|[[H _]|[H _]]]]; discriminate.
Qed.
Example C223_example_missing : ex_tune None tt (IsList [good; no_model; good]) = (None, [3], Err TypeError) /\ NoDup (map fst [("fit_kwargs", a_dict)]%string) /\
  Forall2 (fun e c => check_config e = Ok c) [good] [{| c_all := false; c_model := Some a_model; c_init := Some a_dict; c_fit := None |}].
Proof. split; [reflexivity|]. split; [repeat constructor; intros []|repeat constructor]. Qed.
Example C224_example : (let '(st, _, _) := ex_tune None tt (IsList [good; good]) in best_index nat st) = Ok 1 /\ ex_tune (Some (1, [3; 5])) tt NotList = (Some (1, [3; 5]), [], Err TypeError) /\
  fold_left (fun st call => fst (fst (ex_tune st (fst call) (snd call)))) [(tt, NotList); (tt, IsList [])] None = None.
Proof. repeat split. Qed.
