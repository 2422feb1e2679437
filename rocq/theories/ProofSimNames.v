(** * The simulation by names is the simulation by positions when the names are distinct. *)
From Coq Require Import List Arith Lia Bool ZArith QArith Qcanon String Decimal DecimalString DecimalNat.
From Verif Require Import Prelude Spec Lib ModelOrder ProofOrder ModelSim SpecSim ProofSim ModelSimNames.
Import ListNotations.
Open Scope nat_scope.

Local Notation nm names v := (nth v names EmptyString).

Lemma known_In x names : known x names = true <-> In x names.
Proof.
  unfold known. rewrite existsb_exists. split.
  - intros [y [H E]]. apply String.eqb_eq in E. subst y. exact H.
  - intro H. exists x. split; [exact H|apply String.eqb_refl].
Qed.
Lemma index_lt x names : index_of x names < List.length names <-> In x names.
Proof.
  induction names as [|y r IH]; cbn [index_of List.length In]; [lia|].
  destruct (String.eqb y x) eqn:E.
  - apply String.eqb_eq in E. subst y. split; [intro; left; reflexivity|lia].
  - assert (y <> x) by (intro; subst; rewrite String.eqb_refl in E; discriminate).
    rewrite <- Nat.succ_lt_mono, IH. tauto.
Qed.
Lemma index_le x names : index_of x names <= List.length names.
Proof. induction names as [|y r IH]; cbn; [lia|]. destruct (String.eqb y x); lia. Qed.
Lemma nth_index x names : In x names -> nm names (index_of x names) = x.
Proof.
  induction names as [|y r IH]; cbn [index_of In]; [tauto|].
  destruct (String.eqb y x) eqn:E; [intros _; apply String.eqb_eq in E; exact E|].
  intros [->|H]; [rewrite String.eqb_refl in E; discriminate|]. cbn [nth]. apply IH. exact H.
Qed.
Lemma index_nth names v : NoDup names -> v < List.length names -> index_of (nm names v) names = v.
Proof.
  intros ND Hv. apply (proj1 (NoDup_nth names EmptyString) ND); [|exact Hv|].
  - apply index_lt. apply nth_In. exact Hv.
  - apply nth_index. apply nth_In. exact Hv.
Qed.
Lemma known_index x names : known x names = (index_of x names <? List.length names).
Proof.
  destruct (known x names) eqn:E; symmetry.
  - apply Nat.ltb_lt. apply index_lt. apply known_In. exact E.
  - apply Nat.ltb_ge. destruct (Nat.le_gt_cases (List.length names) (index_of x names)) as [H|H]; [exact H|].
    apply index_lt in H. apply known_In in H. congruence.
Qed.
Lemma positions_nth names v : NoDup names -> v < List.length names -> positions names (nm names v) = [v].
Proof.
  intros ND Hv. unfold positions.
  assert (forall l, NoDup l -> (forall q, In q l -> q < List.length names) ->
    filter (fun q => String.eqb (nm names q) (nm names v)) l = if memb v l then [v] else []) as G.
  { induction l as [|q l IH]; intros N1 N2; [reflexivity|]. apply NoDup_cons_iff in N1. destruct N1 as [N0 N1].
    cbn [filter memb existsb]. rewrite IH by (try assumption; intros; apply N2; right; assumption).
    destruct (String.eqb (nm names q) (nm names v)) eqn:E.
    - apply String.eqb_eq in E. assert (q = v) as -> by (apply (proj1 (NoDup_nth names EmptyString) ND); [apply N2; left; reflexivity|exact Hv|exact E]).
      unfold memb. cbn [existsb]. rewrite Nat.eqb_refl. cbn [orb].
      destruct (existsb (Nat.eqb v) l) eqn:M; [|reflexivity]. exfalso. apply N0. apply memb_In. exact M.
    - destruct (Nat.eqb_spec v q) as [->|D]; [rewrite String.eqb_refl in E; discriminate|].
      reflexivity. }
  rewrite G; [|apply seq_NoDup|intros q Hq; apply in_seq in Hq; lia].
  assert (memb v (seq 0 (List.length names)) = true) as -> by (apply memb_In; apply in_seq; lia). reflexivity.
Qed.

Definition agree (n : nat) (r r' : result (nat -> option column)) : Prop :=
  match r, r' with
  | Ok s, Ok s' => forall q, q < n -> s q = s' q
  | Err e, Err e' => e = e'
  | _, _ => False
  end.

Section Refine.
Variables (fit : string -> list (list Qc) -> column -> predictor) (s : simulator).
Variables (changes : list (string * nchange)) (exog : list (string * (bool * column))) (shuffle : option (list nat)).
Let names := si_names s.
Let n := im_n (si_im s).
Hypothesis ND : NoDup names.
Hypothesis LN : List.length names = n.
Hypothesis HD : forall v, v < n -> im_discrete (si_im s) v = known (nm names v) (si_discrete s).
Hypothesis HW : forall x c m, In (x, c) changes -> nc_model c = Some m -> md_width m = List.length (nc_parents c).

Definition exog_at (kv : string * (bool * column)) : nat * (bool * column) := (index_of (fst kv) names, snd kv).
Let pchanges := map (change_at names) changes.
Let pexog := map exog_at exog.
Let pfit := fun v => fit (nm names v).
Let tr := train pfit (si_im s).


Lemma forallb_map_eq {A B} (f : B -> bool) (g : A -> B) l : forallb f (map g l) = forallb (fun x => f (g x)) l.
Proof. induction l as [|x l IH]; cbn; [reflexivity|]. rewrite IH. reflexivity. Qed.
Lemma forallb_ext_in {A} (f g : A -> bool) l : (forall x, In x l -> f x = g x) -> forallb f l = forallb g l.
Proof.
  induction l as [|x l IH]; intro E; [reflexivity|]. cbn. rewrite (E x (or_introl eq_refl)), IH; [reflexivity|].
  intros; apply E; right; assumption.
Qed.

Lemma known_ltb x : known x names = (index_of x names <? n).
Proof using LN. rewrite known_index, LN. reflexivity. Qed.

Lemma checks_exog : ncheck_exog s exog = check_exog (si_im s) pexog.
Proof using ND LN HD.
  unfold ncheck_exog, check_exog, pexog. rewrite forallb_map_eq. apply forallb_ext_in. intros [x [b e]] _.
  unfold exog_at. cbn [fst snd]. fold names n. rewrite known_ltb. destruct (index_of x names <? n) eqn:E; [|reflexivity].
  assert (In x names) as I by (apply index_lt; rewrite LN; apply Nat.ltb_lt; exact E).
  rewrite HD by (apply Nat.ltb_lt; exact E). rewrite (nth_index x names I). reflexivity.
Qed.
Lemma checks_changes : ncheck_changes s changes = check_changes (si_im s) pchanges.
Proof using ND LN.
  unfold ncheck_changes, check_changes, pchanges. rewrite forallb_map_eq. apply forallb_ext_in. intros [x c] _.
  unfold change_at. cbn [fst snd ch_parents ch_model]. fold names n. rewrite known_ltb, forallb_map_eq.
  f_equal; [f_equal; apply forallb_ext_in; intros y _; apply known_ltb|].
  destruct (nc_parents c), (nc_model c); reflexivity.
Qed.

Lemma lookup_at {A B} (f : string * A -> nat * B) (d : list (string * A)) v :
  (forall kv, fst (f kv) = index_of (fst kv) names) -> v < n -> (forall kv, In kv d -> In (fst kv) names) ->
  lookup v (map f d) = match find (fun kv => String.eqb (fst kv) (nm names v)) d with None => None | Some kv => Some (snd (f kv)) end.
Proof using ND LN.
  intros F Hv. induction d as [|kv d IH]; intro K; [reflexivity|].
  cbn [map]. rewrite lookup_cons, F. cbn [find].
  assert (I : In (fst kv) names) by (apply K; left; reflexivity).
  destruct (String.eqb (fst kv) (nm names v)) eqn:E.
  - apply String.eqb_eq in E. rewrite E, index_nth by (try assumption; lia). rewrite Nat.eqb_refl. reflexivity.
  - destruct (Nat.eqb_spec (index_of (fst kv) names) v) as [<-|D].
    + rewrite nth_index in E by exact I. rewrite String.eqb_refl in E. discriminate.
    + apply IH. intros; apply K; right; assumption.
Qed.

Lemma map_names P : (forall q, In q P -> q < n) -> map (fun x => index_of x names) (map (fun v => nm names v) P) = P.
Proof using ND LN.
  intro H. rewrite map_map. rewrite <- (map_id P) at 2. apply map_ext_in. intros q Hq. apply index_nth; [exact ND|]. rewrite LN. apply H. exact Hq.
Qed.
Lemma data_at v : v < n -> get_data s (nm names v) = im_data (si_im s) v.
Proof using ND LN. intro Hv. unfold get_data. fold names. rewrite index_nth by (try assumption; lia). reflexivity. Qed.
Lemma parents_at v : v < n -> get_parent_names s (nm names v) = map (fun j => nm names j) (parents_of n (im_graph (si_im s)) v).
Proof using ND LN. intro Hv. unfold get_parent_names. fold names n. rewrite index_nth by (try assumption; lia). reflexivity. Qed.
Lemma datas_at P : (forall q, In q P -> q < n) -> map (get_data s) (map (fun j => nm names j) P) = map (im_data (si_im s)) P.
Proof using ND LN. intro H. rewrite map_map. apply map_ext_in. intros q Hq. apply data_at. apply H. exact Hq. Qed.
Lemma train_at v : v < n ->
  option_map md_predict (fst (ntrain fit s (nm names v))) = tr_model (tr v) /\
  snd (ntrain fit s (nm names v)) = tr_resid (tr v) /\
  (forall m, fst (ntrain fit s (nm names v)) = Some m -> md_width m = List.length (parents_of n (im_graph (si_im s)) v)).
Proof using ND LN HD.
  intro Hv. unfold ntrain, tr, train, pfit. rewrite parents_at by exact Hv. fold n.
  assert (PL : forall q, In q (parents_of n (im_graph (si_im s)) v) -> q < n) by (intros q Hq; apply parents_of_In in Hq; tauto).
  rewrite datas_at by exact PL. rewrite data_at by exact Hv. rewrite HD by exact Hv.
  destruct (parents_of n (im_graph (si_im s)) v) as [|j P]; cbn [map]; [repeat split; intros m E; discriminate E|].
  cbn [fst snd option_map tr_model tr_resid md_predict]. split; [reflexivity|]. split; [reflexivity|].
  intros m E. injection E as <-. cbn [md_width List.length]. rewrite map_length. reflexivity.
Qed.
Lemma select_at sim P : (forall q, In q P -> q < n) -> select names sim (map (fun j => nm names j) P) = map sim P.
Proof using ND LN.
  unfold select. induction P as [|q P IH]; intro H; [reflexivity|]. cbn [map flat_map].
  rewrite positions_nth by (try assumption; rewrite LN; apply H; left; reflexivity). cbn [map app].
  rewrite IH; [reflexivity|]. intros; apply H; right; assumption.
Qed.
Lemma all_some_length {A} (l : list (option A)) r : all_some l = Some r -> List.length r = List.length l.
Proof.
  revert r. induction l as [|x l IH]; intros r E; [injection E as <-; reflexivity|]. cbn in E.
  destruct x; [|discriminate]. fold (all_some l) in E. destruct (all_some l) as [b|] eqn:F; [|discriminate].
  injection E as <-. cbn. rewrite (IH b eq_refl). reflexivity.
Qed.
Lemma set_at sim sim' v c : v < n -> (forall q, q < n -> sim q = sim' q) ->
  forall q, q < n -> set_columns names sim (nm names v) c q = upd sim' v c q.
Proof using ND LN.
  intros Hv E q Hq. unfold set_columns, upd. destruct (String.eqb (nm names q) (nm names v)) eqn:F.
  - apply String.eqb_eq in F. assert (q = v) as -> by (apply (proj1 (NoDup_nth names EmptyString) ND); try lia; exact F).
    rewrite Nat.eqb_refl. reflexivity.
  - destruct (Nat.eqb_spec q v) as [->|D]; [rewrite String.eqb_refl in F; discriminate|]. apply E; exact Hq.
Qed.

Hypothesis CC : ncheck_changes s changes = true.
Hypothesis CE : ncheck_exog s exog = true.

Lemma step_at sim sim' v : v < n -> (forall q, q < n -> sim q = sim' q) ->
  agree n (nsim_step fit s changes exog shuffle sim (nm names v)) (sim_step (si_im s) tr pchanges pexog shuffle sim' v).
Proof using ND LN HD HW CC CE.
  intros Hv ES. unfold nsim_step, sim_step.
  assert (KC : forall kv, In kv changes -> In (fst kv) names /\ forall q, In q (nc_parents (snd kv)) -> In q names).
  { intros kv I. unfold ncheck_changes in CC. rewrite forallb_forall in CC. specialize (CC kv I). rewrite !andb_true_iff in CC.
    destruct CC as [[C1 C2] _]. split; [apply known_In; exact C1|]. intros q Hq. rewrite forallb_forall in C2. apply known_In. apply C2. exact Hq. }
  assert (KE : forall kv, In kv exog -> In (fst kv) names).
  { intros kv I. unfold ncheck_exog in CE. rewrite forallb_forall in CE. specialize (CE kv I). rewrite !andb_true_iff in CE.
    apply known_In. apply CE. }
  unfold pchanges, pexog.
  rewrite (lookup_at (change_at names) changes v) by (try assumption; try reflexivity; intros kv I; apply KC; exact I).
  rewrite (lookup_at exog_at exog v) by (try assumption; reflexivity).
  unfold nlookup.
  destruct (train_at v Hv) as [T1 [T2 T3]].
  assert (EE : match option_map snd (find (fun kv => String.eqb (fst kv) (nm names v)) exog) with
               | None => Ok (snd (ntrain fit s (nm names v))) | Some (true, e) => Ok (Some e) | Some (false, _) => Err AttributeError end
             = match match find (fun kv => String.eqb (fst kv) (nm names v)) exog with None => None | Some kv => Some (snd (exog_at kv)) end with
               | None => Ok (tr_resid (tr v)) | Some (true, e) => Ok (Some e) | Some (false, _) => Err AttributeError end).
  { destruct (find (fun kv => String.eqb (fst kv) (nm names v)) exog) as [[x [b e]]|]; cbn [option_map snd exog_at]; [reflexivity|].
    rewrite T2. reflexivity. }
  rewrite EE. clear EE.
  destruct (match match find (fun kv => String.eqb (fst kv) (nm names v)) exog with None => None | Some kv => Some (snd (exog_at kv)) end with
               | None => Ok (tr_resid (tr v)) | Some (true, e) => Ok (Some e) | Some (false, _) => Err AttributeError end) as [error|ex]; cbn [bind]; [|reflexivity].
  rewrite data_at by exact Hv. rewrite HD by exact Hv. fold n.
  set (err := match shuffle, error with Some idx, Some e => Some (map (fun k => nth k e 0%Qc) idx) | _, _ => error end).
  (* parents and model by position *)
  set (fc := find (fun kv => String.eqb (fst kv) (nm names v)) changes).
  assert (exists P md, (forall q, In q P -> q < n) /\
    match option_map snd fc with Some c => nc_parents c | None => get_parent_names s (nm names v) end = map (fun j => nm names j) P /\
    match match fc with None => None | Some kv => Some (snd (change_at names kv)) end with Some c => ch_parents c | None => parents_of n (im_graph (si_im s)) v end = P /\
    match option_map snd fc with None => fst (ntrain fit s (nm names v)) | Some c => nc_model c end = md /\
    match match fc with None => None | Some kv => Some (snd (change_at names kv)) end with None => tr_model (tr v) | Some c => ch_model c end = option_map md_predict md /\
    (forall m, md = Some m -> md_width m = List.length P)) as (P & md & HP & -> & -> & -> & -> & HM).
  { destruct fc as [[x c]|] eqn:F; cbn [option_map snd change_at ch_parents ch_model].
    - assert (I : In (x, c) changes) by (apply find_some in F; tauto). destruct (KC _ I) as [K1 K2]. cbn [fst snd] in K1, K2.
      exists (map (fun y => index_of y names) (nc_parents c)), (nc_model c).
      split; [intros q Hq; apply in_map_iff in Hq; destruct Hq as [y [<- Hy]]; rewrite <- LN; apply index_lt; apply K2; exact Hy|].
      split; [rewrite map_map; rewrite <- (map_id (nc_parents c)) at 1; apply map_ext_in; intros y Hy; symmetry; apply nth_index; apply K2; exact Hy|].
      split; [reflexivity|]. split; [reflexivity|]. split; [reflexivity|].
      intros m Em. rewrite map_length. apply (HW x c m I Em).
    - exists (parents_of n (im_graph (si_im s)) v), (fst (ntrain fit s (nm names v))).
      split; [intros q Hq; apply parents_of_In in Hq; tauto|].
      split; [apply parents_at; exact Hv|]. split; [reflexivity|]. split; [reflexivity|]. split; [symmetry; exact T1|]. exact T3. }
  fold names. rewrite select_at by exact HP.
  assert (map sim P = map sim' P) as -> by (apply map_ext_in; intros q Hq; apply ES; apply HP; exact Hq).
  destruct P as [|j P]; cbn [map]; [cbn [agree]; apply set_at; assumption|].
  destruct md as [m|]; cbn [option_map]; [|reflexivity].
  change (sim' j :: map sim' P) with (map sim' (j :: P)).
  destruct (all_some (map sim' (j :: P))) as [cols|] eqn:EA; [|reflexivity].
  rewrite (all_some_length _ _ EA), map_length, (HM m eq_refl), Nat.eqb_refl. cbn [negb].
  destruct (known (nm names v) (si_discrete s)); [cbn [agree]; apply set_at; assumption|].
  destruct err as [e|]; [cbn [agree]; apply set_at; assumption|reflexivity].
Qed.
Lemma loop_at order : (forall v, In v order -> v < n) -> forall sim sim', (forall q, q < n -> sim q = sim' q) ->
  agree n (nsim_loop fit s changes exog shuffle (map (fun v => nm names v) order) sim) (sim_loop (si_im s) tr pchanges pexog shuffle order sim').
Proof using ND LN HD HW CC CE.
  induction order as [|v r IH]; intros HO sim sim' ES; [cbn; exact ES|].
  cbn [map nsim_loop sim_loop].
  pose proof (step_at sim sim' v (HO v (or_introl eq_refl)) ES) as A. unfold agree in A.
  destruct (nsim_step _ _ _ _ _ _ _) as [s1|e1], (sim_step _ _ _ _ _ _ _) as [s2|e2]; try contradiction; cbn [bind]; [|exact A].
  apply IH; [intros; apply HO; right; assumption|exact A].
Qed.
End Refine.

Theorem nrun_agrees fit s changes exog shuffle :
  NoDup (si_names s) -> List.length (si_names s) = im_n (si_im s) ->
  (forall v, v < im_n (si_im s) -> im_discrete (si_im s) v = known (nm (si_names s) v) (si_discrete s)) ->
  (forall x c m, In (x, c) changes -> nc_model c = Some m -> md_width m = List.length (nc_parents c)) ->
  agree (im_n (si_im s)) (nrun fit s changes exog shuffle)
    (run (fun v => fit (nm (si_names s) v)) (Some (si_im s)) (map (change_at (si_names s)) changes)
       (map (fun kv => (index_of (fst kv) (si_names s), snd kv)) exog) shuffle).
Proof.
  intros ND LN HD HW. unfold nrun, run. 
  rewrite (checks_exog s exog ND LN HD), (checks_changes s changes ND LN). unfold exog_at.
  destruct (check_exog (si_im s) _) eqn:CE; cbn [negb]; [|reflexivity].
  destruct (check_changes (si_im s) _) eqn:CC; cbn [negb]; [|reflexivity].
  unfold nget_causal_order, simulate.
  destruct (get_causal_order (si_im s) _) as [o|e] eqn:GO; cbn [bind]; [|reflexivity].
  apply loop_at; try assumption.
  - rewrite (checks_changes s changes ND LN). exact CC.
  - rewrite (checks_exog s exog ND LN HD). exact CE.
  - intros v Hv. unfold get_causal_order in GO. destruct (ica_search _ _) as [o'|] eqn:E; [|discriminate]. injection GO as ->.
    destruct (ica_search_exact (im_n (si_im s)) (fun i j => Some (changed_graph (im_graph (si_im s)) (map (change_at (si_names s)) changes) i j))) as [H _].
    destruct (H o E) as [H1 _]. eapply Permutation.Permutation_in in Hv; [|exact H1]. apply in_seq in Hv. lia.
  - reflexivity.
Qed.
