(** * Proofs about the causal-based simulator. *)
From Coq Require Import List Arith Lia Bool ZArith QArith Qcanon Permutation Relations.
From Verif Require Import Prelude Spec Lib ModelOrder ProofOrder ModelSim SpecSim.
Import ListNotations.
Open Scope nat_scope.

(** ** Vectors *)
Lemma predict_length : forall N m cols, length (predict N m cols) = N.
Proof. intros. unfold predict. rewrite map_length, seq_length. reflexivity. Qed.
Lemma vadd_length : forall a b, length a = length b -> length (vadd a b) = length a.
Proof. intros a b H. unfold vadd. rewrite map_length, combine_length, H. apply Nat.min_id. Qed.
Lemma vsub_length : forall a b, length a = length b -> length (vsub a b) = length a.
Proof. intros a b H. unfold vsub. rewrite map_length, combine_length, H. apply Nat.min_id. Qed.
Lemma vadd_vsub : forall y p, length y = length p -> vadd p (vsub y p) = y.
Proof.
  induction y as [|a y IH]; intros [|b p] H; cbn in H; try discriminate; [reflexivity|].
  unfold vadd, vsub. cbn [combine map fst snd]. f_equal; [ring|]. apply IH. lia.
Qed.
Lemma all_some_map : forall (A B : Type) (f : A -> option B) g l, (forall x, In x l -> f x = Some (g x)) -> all_some (map f l) = Some (map g l).
Proof.
  intros A B f g l. induction l as [|x l IH]; intro H; [reflexivity|]. cbn [map all_some fold_right].
  fold (all_some (map f l)). rewrite IH by (intros; apply H; right; assumption). rewrite (H x) by (left; reflexivity). reflexivity.
Qed.

(** ** The changed graph *)
Lemma lookup_cons : forall A k (kv : nat * A) d, lookup k (kv :: d) = if fst kv =? k then Some (snd kv) else lookup k d.
Proof. intros. unfold lookup. cbn [find]. destruct (fst kv =? k); reflexivity. Qed.
Lemma lookup_None : forall A k (d : list (nat * A)), ~ In k (map fst d) -> lookup k d = None.
Proof.
  intros A k d. induction d as [|kv d IH]; intro H; [reflexivity|]. rewrite lookup_cons. cbn [map] in H.
  destruct (Nat.eqb_spec (fst kv) k); [exfalso; apply H; left; assumption|]. apply IH. intro. apply H. right. assumption.
Qed.
Lemma lookup_In : forall A k (d : list (nat * A)) x, lookup k d = Some x -> In (k, x) d.
Proof.
  intros A k d x. induction d as [|kv d IH]; intro H; [discriminate|]. rewrite lookup_cons in H.
  destruct (Nat.eqb_spec (fst kv) k) as [E|]; [|right; apply IH; exact H]. injection H as <-. subst k. left. destruct kv; reflexivity.
Qed.
Lemma changed_graph_spec : forall changes G i j, NoDup (map fst changes) ->
  changed_graph G changes i j =
  match lookup i changes with Some c => if memb j (ch_parents c) then 1%Qc else 0%Qc | None => G i j end.
Proof.
  induction changes as [|kv d IH]; intros G i j H; [reflexivity|]. cbn [map] in H. apply NoDup_cons_iff in H. destruct H as [H1 H2].
  unfold changed_graph. cbn [fold_left]. fold (changed_graph (fun i0 j0 => if i0 =? fst kv then if memb j0 (ch_parents (snd kv)) then 1%Qc else 0%Qc else G i0 j0) d).
  rewrite IH by exact H2. rewrite lookup_cons. destruct (Nat.eqb_spec (fst kv) i) as [E|E].
  - subst i. rewrite lookup_None by exact H1. rewrite Nat.eqb_refl. reflexivity.
  - destruct (Nat.eqb_spec i (fst kv)); [congruence|]. reflexivity.
Qed.

Lemma near_zero_0 : forall q, near_zero q = false -> q <> 0%Qc.
Proof. intros q H E. subst q. vm_compute in H. discriminate. Qed.
Lemma parents_of_In : forall n G v j, In j (parents_of n G v) <-> j < n /\ near_zero (G v j) = false.
Proof.
  intros. unfold parents_of. rewrite filter_In, in_seq, negb_true_iff. split; intros [H1 H2]; (split; [lia|exact H2]).
Qed.

Lemma memb_true : forall x l, memb x l = true <-> In x l.
Proof. intros. apply memb_In. Qed.

Lemma new_edge_graph : forall im changes u v, NoDup (map fst changes) ->
  (edge_of_num (im_n im) (fun i j => Some (changed_graph (im_graph im) changes i j)) u v <-> new_edge im changes u v).
Proof.
  intros im changes u v ND. unfold edge_of_num, new_edge. rewrite changed_graph_spec by exact ND.
  destruct (lookup v changes) as [c|].
  - destruct (memb u (ch_parents c)) eqn:M.
    + apply memb_In in M. split; [intros (H1 & H2 & _); tauto|]. intros (H1 & H2 & _). split; [assumption|]. split; [assumption|]. discriminate.
    + split; [intros (H1 & H2 & H); exfalso; apply H; reflexivity|]. intros (H1 & H2 & H). apply memb_In in H. congruence.
  - split; intros (H1 & H2 & H); (split; [assumption|]); (split; [assumption|]); congruence.
Qed.
Lemma parent_edge : forall im changes u v, v < im_n im -> (forall c, lookup v changes = Some c -> forall q, In q (ch_parents c) -> q < im_n im) ->
  In u (new_parents im changes v) -> new_edge im changes u v.
Proof.
  intros im changes u v Hv HC H. unfold new_parents in H. unfold new_edge. destruct (lookup v changes) as [c|].
  - split; [eapply HC; [reflexivity|exact H]|]. split; assumption.
  - apply parents_of_In in H. destruct H as [H1 H2]. split; [assumption|]. split; [assumption|]. apply near_zero_0. exact H2.
Qed.
Lemma check_changes_spec : forall im changes, check_changes im changes = true ->
  (forall v c, lookup v changes = Some c -> v < im_n im /\ (forall q, In q (ch_parents c) -> q < im_n im) /\ (ch_parents c <> [] -> ch_model c <> None)).
Proof.
  intros im changes H v c L. apply lookup_In in L. unfold check_changes in H. rewrite forallb_forall in H. specialize (H _ L). cbn [fst snd] in H.
  apply andb_true_iff in H. destruct H as [H H3]. apply andb_true_iff in H. destruct H as [H1 H2]. apply Nat.ltb_lt in H1.
  rewrite forallb_forall in H2. split; [exact H1|]. split; [intros q Hq; apply Nat.ltb_lt; apply H2; exact Hq|].
  intro N. destruct (ch_parents c); [congruence|]. destruct (ch_model c); [discriminate|discriminate].
Qed.
Lemma check_exog_spec : forall im exog, check_exog im exog = true ->
  forall v b e, lookup v exog = Some (b, e) -> im_discrete im v = false /\ length e = im_N im.
Proof.
  intros im exog H v b e L. apply lookup_In in L. unfold check_exog in H. rewrite forallb_forall in H. specialize (H _ L). cbn [fst snd] in H.
  apply andb_true_iff in H. destruct H as [H H3]. apply andb_true_iff in H. destruct H as [_ H2]. apply negb_true_iff in H2. apply Nat.eqb_eq in H3. tauto.
Qed.

Lemma equation_ext : forall N ps m d dat e s s' v, s v = s' v -> (forall q, In q ps -> s q = s' q) ->
  equation N ps m d dat e s v -> equation N ps m d dat e s' v.
Proof.
  intros N ps m d dat e s s' v Hv Hp H. assert (E : map s ps = map s' ps) by (apply map_ext_in; exact Hp).
  unfold equation in *. destruct ps as [|q ps]; [rewrite <- Hv; exact H|]. rewrite <- Hv, <- E. exact H.
Qed.

Lemma train_model : forall fit im v, tr_model (train fit im v) = None -> parents_of (im_n im) (im_graph im) v = [].
Proof. intros fit im v H. unfold train in H. destruct (parents_of (im_n im) (im_graph im) v); [reflexivity|discriminate]. Qed.
Lemma train_resid : forall fit im v, im_discrete im v = false -> length (im_data im v) = im_N im ->
  exists e, tr_resid (train fit im v) = Some e /\ length e = im_N im.
Proof.
  intros fit im v H HL. unfold train. destruct (parents_of (im_n im) (im_graph im) v) as [|q ps]; cbn [tr_resid]; [eexists; split; [reflexivity|exact HL]|].
  rewrite H. eexists; split; [reflexivity|]. rewrite vsub_length; rewrite ?predict_length; assumption.
Qed.
Lemma new_error_some : forall fit im exog shuffle v, good_exog im exog -> good_shuffle im shuffle -> im_discrete im v = false ->
  length (im_data im v) = im_N im ->
  exists e, new_error (train fit im) exog shuffle v = Some e /\ length e = im_N im.
Proof.
  intros fit im exog shuffle v GE GS H HL. unfold new_error.
  assert (A : exists e, match lookup v exog with Some be => Some (snd be) | None => tr_resid (train fit im v) end = Some e /\ length e = im_N im).
  { destruct (lookup v exog) as [[b e]|] eqn:E; [|apply train_resid; assumption].
    destruct (check_exog_spec _ _ (ge_check _ _ GE) _ _ _ E) as [_ L]. exists e. split; [reflexivity|exact L]. }
  destruct A as [e [E L]]. rewrite E. destruct shuffle as [idx|]; cbn [option_map]; [|exists e; split; [reflexivity|exact L]].
  eexists. split; [reflexivity|]. rewrite map_length. cbn in GS. apply Permutation_length in GS. rewrite seq_length in GS. exact GS.
Qed.

Lemma sim_step_ok : forall fit im changes exog shuffle sim v,
  good_changes im changes -> good_exog im exog -> good_shuffle im shuffle -> v < im_n im -> length (im_data im v) = im_N im ->
  (forall q, In q (new_parents im changes v) -> q <> v /\ exists c, sim q = Some c) ->
  exists c, length c = im_N im /\ sim_step im (train fit im) changes exog shuffle sim v = Ok (upd sim v (Some c)) /\
    forall s, s v = c -> (forall q, In q (new_parents im changes v) -> sim q = Some (s q)) ->
      solution im (train fit im) changes exog shuffle s v.
Proof.
  intros fit im changes exog shuffle sim v GC GE GS Hv HD HP.
  pose (s0 := fun q => match sim q with Some c => c | None => [] end).
  assert (S0 : all_some (map sim (new_parents im changes v)) = Some (map s0 (new_parents im changes v))).
  { apply all_some_map. intros q Hq. destruct (HP q Hq) as [_ [c E]]. unfold s0. rewrite E. reflexivity. }
  unfold sim_step. fold (new_parents im changes v). fold (new_model (train fit im) changes v).
  assert (EE : exists err, (match lookup v exog with
                 | Some (true, e) => Ok (Some e) | Some (false, _) => Err AttributeError
                 | None => Ok (tr_resid (train fit im v)) end) = Ok err /\
       match shuffle, err with Some idx, Some e => Some (map (fun k => nth k e 0%Qc) idx) | _, _ => err end = new_error (train fit im) exog shuffle v).
  { unfold new_error. destruct (lookup v exog) as [[b e]|] eqn:E.
    - rewrite (ge_array _ _ GE _ _ _ E). eexists. split; [reflexivity|]. destruct shuffle; reflexivity.
    - eexists. split; [reflexivity|]. destruct shuffle; [destruct (tr_resid (train fit im v))|]; reflexivity. }
  destruct EE as [err [E1 E2]]. rewrite E1. cbn [bind]. rewrite E2.
  set (ne := new_error (train fit im) exog shuffle v) in *.
  assert (NM : new_parents im changes v <> [] -> exists m, new_model (train fit im) changes v = Some m).
  { intro N. unfold new_parents, new_model in *. destruct (lookup v changes) as [c|] eqn:Ec.
    - destruct (check_changes_spec _ _ (gc_check _ _ GC) _ _ Ec) as [_ [_ M]]. specialize (M N). destruct (ch_model c) as [m|]; [exists m; reflexivity|congruence].
    - destruct (tr_model (train fit im v)) as [m|] eqn:M; [exists m; reflexivity|]. apply train_model in M. congruence. }
  unfold solution, equation. fold ne.
  destruct (new_parents im changes v) as [|q ps] eqn:EP.
  - destruct (im_discrete im v) eqn:D.
    + exists (im_data im v). split; [exact HD|]. split; [reflexivity|]. intros s Hs _. exact Hs.
    + destruct (new_error_some fit im exog shuffle v GE GS D HD) as [e [Ee Le]]. fold ne in Ee. exists e. split; [exact Le|]. rewrite Ee. split; [reflexivity|].
      intros s Hs _. rewrite Hs. reflexivity.
  - destruct (NM ltac:(discriminate)) as [m M]. rewrite M, S0.
    assert (MS : forall s, (forall q0, In q0 (q :: ps) -> sim q0 = Some (s q0)) -> map s0 (q :: ps) = map s (q :: ps)).
    { intros s H. apply map_ext_in. intros q0 Hq. unfold s0. rewrite (H q0 Hq). reflexivity. }
    destruct (im_discrete im v) eqn:D.
    + eexists. split; [apply predict_length|]. split; [reflexivity|]. intros s Hs Hq. exists m. split; [reflexivity|]. rewrite Hs, (MS s Hq). reflexivity.
    + destruct (new_error_some fit im exog shuffle v GE GS D HD) as [e [Ee Le]]. fold ne in Ee. rewrite Ee.
      eexists. split; [|split; [reflexivity|]].
      * rewrite vadd_length; rewrite predict_length; congruence.
      * intros s Hs Hq. exists m. split; [reflexivity|]. exists e. split; [reflexivity|]. rewrite Hs, (MS s Hq). reflexivity.
Qed.

Lemma precedes_prefix : forall P Q x q, NoDup (P ++ x :: Q) -> precedes (P ++ x :: Q) q x -> In q P.
Proof.
  intros P Q x q ND H. apply NoDup_remove in ND. destruct ND as [_ N]. apply precedes_app_inv in H. destruct H as [H|[[H _]|H]].
  - exfalso. apply N. apply in_or_app. left. apply precedes_In in H. tauto.
  - exact H.
  - exfalso. apply N. apply in_or_app. right. destruct H as (l1 & l2 & l3 & E). destruct l1 as [|y l1]; injection E as E1 E2.
    + rewrite E2. apply in_or_app. right. left. reflexivity.
    + rewrite E2. apply in_or_app. right. right. apply in_or_app. right. left. reflexivity.
Qed.
Lemma sim_loop_ok : forall fit im changes exog shuffle, good_changes im changes -> good_exog im exog -> good_shuffle im shuffle ->
  (forall v, v < im_n im -> length (im_data im v) = im_N im) ->
  forall Q P sim s, NoDup (P ++ Q) -> (forall v, In v (P ++ Q) -> v < im_n im) ->
  (forall u v, In v Q -> In u (new_parents im changes v) -> precedes (P ++ Q) u v) ->
  (forall v, In v P -> sim v = Some (s v) /\ length (s v) = im_N im /\ solution im (train fit im) changes exog shuffle s v /\
     (forall q, In q (new_parents im changes v) -> In q P)) ->
  exists sim' s', sim_loop im (train fit im) changes exog shuffle Q sim = Ok sim' /\
    forall v, In v (P ++ Q) -> sim' v = Some (s' v) /\ length (s' v) = im_N im /\ solution im (train fit im) changes exog shuffle s' v.
Proof.
  intros fit im changes exog shuffle GC GE GS HD. induction Q as [|x Q IH]; intros P sim s ND Hb HT HI; cbn [sim_loop].
  - exists sim, s. split; [reflexivity|]. intros v Hv. rewrite app_nil_r in Hv. destruct (HI v Hv) as (H1 & H2 & H3 & _). tauto.
  - assert (Hx : ~ In x P) by (intro H; apply NoDup_remove_2 in ND; apply ND; apply in_or_app; left; exact H).
    assert (PX : forall q, In q (new_parents im changes x) -> In q P).
    { intros q Hq. apply (precedes_prefix P Q x q ND). apply HT; [left; reflexivity|exact Hq]. }
    destruct (sim_step_ok fit im changes exog shuffle sim x GC GE GS) as (c & Lc & Es & Hs).
    { apply Hb. apply in_or_app. right. left. reflexivity. }
    { apply HD. apply Hb. apply in_or_app. right. left. reflexivity. }
    { intros q Hq. specialize (PX q Hq). split; [intro E; subst q; contradiction|]. destruct (HI q PX) as [E _]. eauto. }
    rewrite Es. cbn [bind].
    pose (s' := upd s x c).
    assert (SP : forall q, In q P -> s' q = s q).
    { intros q Hq. unfold s', upd. destruct (Nat.eqb_spec q x); [subst q; contradiction|reflexivity]. }
    destruct (IH (P ++ [x]) (upd sim x (Some c)) s') as (sim' & s'' & E & H).
    + rewrite <- app_assoc. exact ND.
    + rewrite <- app_assoc. exact Hb.
    + rewrite <- app_assoc. intros u v Hv Hu. apply HT; [right; exact Hv|exact Hu].
    + intros v Hv. apply in_app_or in Hv. destruct Hv as [Hv|[Hv|[]]].
      * destruct (HI v Hv) as (H1 & H2 & H3 & H4). rewrite (SP v Hv). unfold upd.
        destruct (Nat.eqb_spec v x); [subst v; contradiction|]. split; [exact H1|]. split; [exact H2|]. split.
        -- eapply equation_ext; [| |exact H3]; [symmetry; apply SP; exact Hv|]. intros q Hq. symmetry. apply SP. apply H4. exact Hq.
        -- intros q Hq. apply in_or_app. left. apply H4. exact Hq.
      * subst v. assert (E1 : s' x = c) by (unfold s', upd; rewrite Nat.eqb_refl; reflexivity). rewrite E1.
        split; [unfold upd; rewrite Nat.eqb_refl; reflexivity|]. split; [exact Lc|]. split.
        -- apply Hs; [exact E1|]. intros q Hq. rewrite (SP q (PX q Hq)). apply HI. apply PX. exact Hq.
        -- intros q Hq. apply in_or_app. left. apply PX. exact Hq.
    + exists sim', s''. rewrite <- app_assoc in H. split; [exact E|exact H].
Qed.

Lemma simulate_ok : forall fit im changes exog shuffle, good_changes im changes -> good_exog im exog -> good_shuffle im shuffle ->
  (forall v, v < im_n im -> length (im_data im v) = im_N im) -> acyclic (new_edge im changes) ->
  exists sim s, simulate im (train fit im) changes exog shuffle = Ok sim /\
    forall v, v < im_n im -> sim v = Some (s v) /\ length (s v) = im_N im /\ solution im (train fit im) changes exog shuffle s v.
Proof.
  intros fit im changes exog shuffle GC GE GS HD HA. unfold simulate, get_causal_order.
  set (M := fun i j => Some (changed_graph (im_graph im) changes i j)).
  destruct (ica_search_exact (im_n im) M) as [H1 [_ H2]].
  destruct H2 as [K EK].
  { eapply acyclic_sub; [|exact HA]. intros a b H. apply (new_edge_graph im changes a b (gc_nodup _ _ GC)). exact H. }
  rewrite EK. cbn [bind]. destruct (H1 K EK) as [O T].
  assert (HK : forall v, In v K <-> v < im_n im).
  { intro v. split; intro H; [apply (Permutation_in _ O) in H; apply in_seq in H; lia|eapply Permutation_in; [symmetry; exact O|apply in_seq; lia]]. }
  destruct (sim_loop_ok fit im changes exog shuffle GC GE GS HD K [] (fun _ => None) (fun _ => [])) as (sim & s & E & H).
  - cbn. eapply Permutation_NoDup; [symmetry; exact O|apply seq_NoDup].
  - cbn. intros v Hv. apply HK. exact Hv.
  - cbn. intros u v Hv Hu. assert (NE : new_edge im changes u v).
    { apply parent_edge; [apply HK; exact Hv| |exact Hu]. intros c Ec. apply (check_changes_spec _ _ (gc_check _ _ GC) _ _ Ec). }
    apply T. apply (new_edge_graph im changes u v (gc_nodup _ _ GC)). exact NE.
  - intros v [].
  - exists sim, s. split; [exact E|]. intros v Hv. apply H. cbn. apply HK. exact Hv.
Qed.
Lemma simulate_cyclic : forall fit im changes exog shuffle, NoDup (map fst changes) ->
  ~ acyclic (new_edge im changes) -> simulate im (train fit im) changes exog shuffle = Err ValueError.
Proof.
  intros fit im changes exog shuffle ND HA. unfold simulate, get_causal_order.
  set (M := fun i j => Some (changed_graph (im_graph im) changes i j)).
  destruct (ica_search (im_n im) M) as [K|] eqn:E; [|reflexivity]. exfalso. apply HA.
  destruct (ica_search_exact (im_n im) M) as [_ [H _]]. eapply acyclic_sub; [|apply H; exists K; exact E].
  intros a b Hab. apply (new_edge_graph im changes a b ND). exact Hab.
Qed.

(** ** Solutions are determined by their equations *)
Lemma equation_det : forall N ps m d dat e s1 s2 v, (forall q, In q ps -> s1 q = s2 q) ->
  equation N ps m d dat e s1 v -> equation N ps m d dat e s2 v -> s1 v = s2 v.
Proof.
  intros N ps m d dat e s1 s2 v Hp H1 H2. assert (E : map s1 ps = map s2 ps) by (apply map_ext_in; exact Hp).
  unfold equation in *. destruct ps as [|q ps].
  - destruct d; [congruence|]. rewrite H1 in H2. injection H2 as H2. exact H2.
  - destruct H1 as (m1 & M1 & H1). destruct H2 as (m2 & M2 & H2). rewrite M1 in M2. injection M2 as <-.
    destruct d; [rewrite H1, H2, E; reflexivity|]. destruct H1 as (e1 & E1 & H1). destruct H2 as (e2 & E2 & H2).
    rewrite E1 in E2. injection E2 as <-. rewrite H1, H2, E. reflexivity.
Qed.
Lemma solutions_agree : forall im tr changes exog shuffle changes' exog' shuffle' s s' (A : nat -> Prop),
  acyclic (new_edge im changes) ->
  (forall v, A v -> v < im_n im) ->
  (forall v u, A v -> In u (new_parents im changes v) -> A u /\ new_edge im changes u v) ->
  (forall v, A v -> solution im tr changes exog shuffle s v) ->
  (forall v, A v -> solution im tr changes' exog' shuffle' s' v) ->
  (forall v, A v -> new_parents im changes v = new_parents im changes' v /\ new_model tr changes v = new_model tr changes' v /\
      new_error tr exog shuffle v = new_error tr exog' shuffle' v) ->
  forall v, A v -> s v = s' v.
Proof.
  intros im tr changes exog shuffle changes' exog' shuffle' s s' A HA Hb Hp H1 H2 HE.
  assert (D : forall a b, {new_edge im changes a b} + {~ new_edge im changes a b}).
  { intros a b. unfold new_edge. destruct (lt_dec a (im_n im)); [|right; tauto]. destruct (lt_dec b (im_n im)); [|right; tauto].
    destruct (lookup b changes) as [c|].
    - destruct (in_dec Nat.eq_dec a (ch_parents c)); [left|right]; tauto.
    - destruct (Qc_eq_dec (im_graph im b a) 0%Qc); [right|left]; tauto. }
  destruct (topo_exists (new_edge im changes) (im_n im) D HA) as [K [O T]].
  assert (ND : NoDup K) by (eapply Permutation_NoDup; [symmetry; exact O|apply seq_NoDup]).
  assert (HK : forall v, v < im_n im -> In v K).
  { intros v H. eapply Permutation_in; [symmetry; exact O|apply in_seq; lia]. }
  assert (G : forall Q P, K = P ++ Q -> forall v, In v P -> A v -> s v = s' v).
  { intros Q P. revert Q. induction P as [|x P IH] using rev_ind; intros Q E v Hv Av; [destruct Hv|].
    rewrite <- app_assoc in E. cbn [app] in E. apply in_app_or in Hv. destruct Hv as [Hv|[Hv|[]]]; [eapply IH; eassumption|]. subst v.
    destruct (HE x Av) as (E1 & E2 & E3). pose proof (H1 x Av) as S1. pose proof (H2 x Av) as S2. unfold solution in S1, S2.
    rewrite <- E1, <- E2, <- E3 in S2. eapply equation_det; [|exact S1|exact S2].
    intros q Hq. destruct (Hp x q Av Hq) as [Aq Eq]. eapply (IH (x :: Q) E q); [|exact Aq].
    apply (precedes_prefix P Q x q); [rewrite <- E; exact ND|]. rewrite <- E. apply T; [apply Hb; exact Aq|apply Hb; exact Av|exact Eq]. }
  intros v Av. eapply (G [] K); [rewrite app_nil_r; reflexivity|apply HK; apply Hb; exact Av|exact Av].
Qed.

(** The training data solve the equations of the unchanged simulator. *)
Lemma data_solution : forall fit im v, (forall v, v < im_n im -> length (im_data im v) = im_N im) -> v < im_n im ->
  im_discrete im v = false \/ parents_of (im_n im) (im_graph im) v = [] ->
  solution im (train fit im) [] [] None (im_data im) v.
Proof.
  intros fit im v HD Hv H. unfold solution, equation, new_parents, new_model, new_error. cbn [lookup find option_map].
  unfold train. destruct (parents_of (im_n im) (im_graph im) v) as [|q ps]; cbn [tr_resid tr_model].
  - destruct (im_discrete im v); reflexivity.
  - destruct H as [H|H]; [|discriminate]. rewrite H. eexists. split; [reflexivity|]. eexists. split; [reflexivity|].
    symmetry. apply vadd_vsub. rewrite predict_length. apply HD. exact Hv.
Qed.

Lemma run_ok : forall fit im changes exog shuffle, good_changes im changes -> good_exog im exog -> good_shuffle im shuffle ->
  (forall v, v < im_n im -> length (im_data im v) = im_N im) -> acyclic (new_edge im changes) ->
  exists sim s, run fit (Some im) changes exog shuffle = Ok sim /\
    forall v, v < im_n im -> sim v = Some (s v) /\ length (s v) = im_N im /\ solution im (train fit im) changes exog shuffle s v.
Proof.
  intros fit im changes exog shuffle GC GE GS HD HA. unfold run. rewrite (ge_check _ _ GE), (gc_check _ _ GC). cbn [negb].
  apply simulate_ok; assumption.
Qed.
Lemma no_changes : forall im, good_changes im [].
Proof. intro im. split; [constructor|reflexivity]. Qed.
Lemma no_exog : forall im, good_exog im [].
Proof. intro im. split; [constructor|reflexivity|intros v b e H; discriminate]. Qed.

Lemma replay : forall fit im, (forall v, v < im_n im -> length (im_data im v) = im_N im) ->
  acyclic (new_edge im []) -> (forall v, v < im_n im -> im_discrete im v = false) ->
  exists sim, run fit (Some im) [] [] None = Ok sim /\ forall v, v < im_n im -> sim v = Some (im_data im v).
Proof.
  intros fit im HD HA Hc. destruct (run_ok fit im [] [] None (no_changes im) (no_exog im) Logic.I HD HA) as (sim & s & E & H).
  exists sim. split; [exact E|]. intros v Hv. destruct (H v Hv) as [E1 _]. rewrite E1. f_equal.
  apply (solutions_agree im (train fit im) [] [] None [] [] None s (im_data im) (fun v => v < im_n im) HA); try (intros; assumption).
  - intros w u Hw Hu. assert (NE : new_edge im [] u w) by (apply parent_edge; [exact Hw|intros c Ec; discriminate|exact Hu]).
    split; [destruct NE; assumption|exact NE].
  - intros w Hw. apply H. exact Hw.
  - intros w Hw. apply data_solution; [exact HD|exact Hw|left; apply Hc; exact Hw].
  - intros w Hw. repeat split.
Qed.

Lemma plain_impl_ok : forall N n X G d im, plain_impl N n X G d = Ok im ->
  im_n im = n /\ im_N im = N /\ im_graph im = G /\ im_discrete im = d /\
  (forall v, im_data im v = map (fun r => X r v) (seq 0 N)) /\
  (forall v, v < im_n im -> length (im_data im v) = im_N im) /\ acyclic (new_edge im []).
Proof.
  intros N n X G d im H. unfold plain_impl in H. destruct (ica_search n (fun i j => Some (G i j))) as [K|] eqn:E; [|discriminate].
  injection H as <-. cbn. repeat split.
  - intros v Hv. rewrite map_length, seq_length. reflexivity.
  - destruct (ica_search_exact n (fun i j => Some (G i j))) as [_ [H _]]. eapply acyclic_sub; [|apply H; exists K; exact E].
    intros a b (Ha & Hb & Hab). cbn in *. split; [exact Hb|]. split; [exact Ha|]. congruence.
Qed.
Lemma ts_column_spec : forall L N p X v l, v < p -> l <= L ->
  ts_column L N p X (l * p + v) = map (fun r => X (L - l + r) v) (seq 0 (N - L)).
Proof.
  intros L N p X v l Hv Hl. unfold ts_column, py_slice.
  assert (E1 : (l * p + v) mod p = v) by (rewrite Nat.add_comm, Nat.mod_add by lia; apply Nat.mod_small; exact Hv).
  assert (E2 : (l * p + v) / p = l) by (rewrite Nat.add_comm, Nat.div_add by lia; rewrite Nat.div_small by exact Hv; reflexivity).
  rewrite E1, E2. f_equal. f_equal. destruct (Nat.eqb_spec l 0); lia.
Qed.
Lemma ts_impl_ok : forall N p L X B d im, ts_impl N p L X B d = Ok im ->
  im_n im = p * (L + 1) /\ im_N im = N - L /\ im_graph im = ts_graph p B /\ (forall i, im_discrete im i = d (i mod p)) /\
  im_data im = ts_column L N p X /\
  (forall v, v < im_n im -> length (im_data im v) = im_N im) /\ acyclic (new_edge im []).
Proof.
  intros N p L X B d im H. unfold ts_impl in H. destruct (ica_search (p * (L + 1)) (fun i j => Some (ts_graph p B i j))) as [K|] eqn:E; [|discriminate].
  injection H as <-. cbn [im_n im_N im_graph im_discrete im_data]. repeat split.
  - intros v Hv. assert (Hp : p <> 0) by (intro; subst p; cbn in Hv; lia).
    rewrite (Nat.div_mod v p Hp). rewrite (Nat.mul_comm p (v / p)). rewrite ts_column_spec.
    + rewrite map_length, seq_length. reflexivity.
    + apply Nat.mod_upper_bound. exact Hp.
    + assert (v / p < L + 1) by (apply Nat.div_lt_upper_bound; assumption). lia.
  - destruct (ica_search_exact (p * (L + 1)) (fun i j => Some (ts_graph p B i j))) as [_ [H _]]. eapply acyclic_sub; [|apply H; exists K; exact E].
    intros a b (Ha & Hb & Hab). cbn [im_n im_graph lookup find option_map] in *. split; [exact Hb|]. split; [exact Ha|]. congruence.
Qed.

(** Changing one variable *)
Lemma locality : forall fit im changes exog changes' exog' shuffle x sim sim',
  good_changes im changes -> good_exog im exog -> good_changes im changes' -> good_exog im exog' -> good_shuffle im shuffle ->
  (forall v, v < im_n im -> length (im_data im v) = im_N im) ->
  (forall v, v <> x -> lookup v changes = lookup v changes' /\ lookup v exog = lookup v exog') ->
  run fit (Some im) changes exog shuffle = Ok sim -> run fit (Some im) changes' exog' shuffle = Ok sim' ->
  forall v, v < im_n im -> v <> x -> ~ clos_trans nat (new_edge im changes) x v -> sim v = sim' v.
Proof.
  intros fit im changes exog changes' exog' shuffle x sim sim' GC GE GC' GE' GS HD HX R R' v Hv Nv Hd.
  assert (AC : forall c e y, good_changes im c -> good_exog im e -> run fit (Some im) c e shuffle = Ok y -> acyclic (new_edge im c)).
  { intros c e y Gc Ge Ry. unfold run in Ry. rewrite (ge_check _ _ Ge), (gc_check _ _ Gc) in Ry. cbn [negb] in Ry.
    unfold simulate, get_causal_order in Ry.
    destruct (ica_search (im_n im) (fun i j => Some (changed_graph (im_graph im) c i j))) as [K|] eqn:E; [|discriminate].
    destruct (ica_search_exact (im_n im) (fun i j => Some (changed_graph (im_graph im) c i j))) as [_ [H _]].
    eapply acyclic_sub; [|apply H; exists K; exact E]. intros a b Hab. apply (new_edge_graph im c a b (gc_nodup _ _ Gc)). exact Hab. }
  pose proof (AC _ _ _ GC GE R) as A1. pose proof (AC _ _ _ GC' GE' R') as A2.
  destruct (run_ok fit im changes exog shuffle GC GE GS HD A1) as (y & s & E & H). rewrite R in E. injection E as <-.
  destruct (run_ok fit im changes' exog' shuffle GC' GE' GS HD A2) as (y & s' & E & H'). rewrite R' in E. injection E as <-.
  destruct (H v Hv) as [-> _]. destruct (H' v Hv) as [-> _]. f_equal.
  apply (solutions_agree im (train fit im) changes exog shuffle changes' exog' shuffle s s'
    (fun v => v < im_n im /\ v <> x /\ ~ clos_trans nat (new_edge im changes) x v) A1).
  - intros w (Hw & _). exact Hw.
  - intros w u (Hw & Nw & Dw) Hu. assert (NE : new_edge im changes u w).
    { apply parent_edge; [exact Hw| |exact Hu]. intros c Ec. apply (check_changes_spec _ _ (gc_check _ _ GC) _ _ Ec). }
    split; [|exact NE]. split; [destruct NE; assumption|]. split.
    + intro Z. subst u. apply Dw. apply t_step. exact NE.
    + intro Z. apply Dw. eapply t_trans; [exact Z|apply t_step; exact NE].
  - intros w (Hw & _). apply H. exact Hw.
  - intros w (Hw & _). apply H'. exact Hw.
  - intros w (Hw & Nw & _). destruct (HX w Nw) as [E1 E2]. unfold new_parents, new_model, new_error. rewrite E1, E2. repeat split.
  - repeat split; assumption.
Qed.

(** ** Shuffling *)
Definition rowwise (m : predictor) : Prop := exists f, forall R r, r < length R -> m R r = f (nth r R []).
Lemma rows_length : forall N cols, length (rows N cols) = N.
Proof. intros. unfold rows. rewrite map_length, seq_length. reflexivity. Qed.
Lemma rows_nth : forall N cols r, r < N -> nth r (rows N cols) [] = map (fun c : column => nth r c 0%Qc) cols.
Proof.
  intros N cols r H. unfold rows. rewrite nth_indep with (d' := map (fun c : column => nth 0 c 0%Qc) cols) by (rewrite map_length, seq_length; exact H).
  rewrite (map_nth (fun r0 => map (fun c : column => nth r0 c 0%Qc) cols) (seq 0 N) 0 r). rewrite seq_nth by exact H. reflexivity.
Qed.
Definition permute (idx : list nat) (c : column) : column := map (fun k => nth k c 0%Qc) idx.
Lemma permute_nth : forall idx c r, r < length idx -> nth r (permute idx c) 0%Qc = nth (nth r idx 0) c 0%Qc.
Proof.
  intros idx c r H. unfold permute. rewrite nth_indep with (d' := nth 0 c 0%Qc) by (rewrite map_length; exact H).
  rewrite (map_nth (fun k => nth k c 0%Qc) idx 0 r). reflexivity.
Qed.
Lemma predict_permute : forall N m idx cols, rowwise m -> Permutation idx (seq 0 N) ->
  predict N m (map (permute idx) cols) = permute idx (predict N m cols).
Proof.
  intros N m idx cols [f Hf] P.
  assert (L : length idx = N) by (apply Permutation_length in P; rewrite seq_length in P; exact P).
  assert (B : forall r, r < N -> nth r idx 0 < N).
  { intros r H. assert (I : In (nth r idx 0) idx) by (apply nth_In; lia). apply (Permutation_in _ P) in I. apply in_seq in I. lia. }
  assert (PN : forall cs r, r < N -> nth r (predict N m cs) 0%Qc = f (map (fun c : column => nth r c 0%Qc) cs)).
  { intros cs r H. unfold predict. rewrite nth_indep with (d' := m (rows N cs) 0) by (rewrite map_length, seq_length; exact H).
    rewrite (map_nth (m (rows N cs)) (seq 0 N) 0 r). rewrite seq_nth by exact H. cbn [Nat.add]. rewrite Hf by (rewrite rows_length; exact H).
    rewrite rows_nth by exact H. reflexivity. }
  apply (nth_ext _ _ 0%Qc 0%Qc); [unfold permute; rewrite predict_length, map_length; lia|].
  intros r Hr. rewrite predict_length in Hr. rewrite PN by exact Hr. rewrite permute_nth by lia. rewrite PN by (apply B; exact Hr).
  f_equal. rewrite map_map. apply map_ext. intro c. apply permute_nth. lia.
Qed.
Lemma vsub_nth : forall a b r, length a = length b -> nth r (vsub a b) 0%Qc = (nth r a 0 - nth r b 0)%Qc.
Proof.
  induction a as [|x a IH]; intros [|y b] r H; cbn in H; try discriminate; [destruct r; cbn; ring|].
  destruct r; [reflexivity|]. unfold vsub. cbn [combine map nth]. apply IH. lia.
Qed.
Lemma permute_vsub : forall idx a b, length a = length b -> permute idx (vsub a b) = vsub (permute idx a) (permute idx b).
Proof.
  intros idx a b H. induction idx as [|k idx IH]; [reflexivity|]. unfold permute in *. cbn [map]. rewrite IH.
  rewrite vsub_nth by exact H. reflexivity.
Qed.
Lemma shuffle_permutes : forall fit im idx, (forall v, v < im_n im -> length (im_data im v) = im_N im) ->
  acyclic (new_edge im []) -> (forall v, v < im_n im -> im_discrete im v = false) ->
  (forall v R y, rowwise (fit v R y)) -> Permutation idx (seq 0 (im_N im)) ->
  exists sim, run fit (Some im) [] [] (Some idx) = Ok sim /\ forall v, v < im_n im -> sim v = Some (permute idx (im_data im v)).
Proof.
  intros fit im idx HD HA Hc HF HP. destruct (run_ok fit im [] [] (Some idx) (no_changes im) (no_exog im) HP HD HA) as (sim & s & E & H).
  exists sim. split; [exact E|]. intros v Hv. destruct (H v Hv) as [E1 _]. rewrite E1. f_equal.
  apply (solutions_agree im (train fit im) [] [] (Some idx) [] [] (Some idx) s (fun v => permute idx (im_data im v)) (fun v => v < im_n im) HA); try (intros; assumption).
  - intros w u Hw Hu. assert (NE : new_edge im [] u w) by (apply parent_edge; [exact Hw|intros c Ec; discriminate|exact Hu]).
    split; [destruct NE; assumption|exact NE].
  - intros w Hw. apply H. exact Hw.
  - intros w Hw. unfold solution, equation, new_parents, new_model, new_error. cbn [lookup find option_map].
    unfold train. destruct (parents_of (im_n im) (im_graph im) w) as [|q ps]; cbn [tr_resid tr_model option_map]; rewrite (Hc w Hw).
    + reflexivity.
    + eexists. split; [reflexivity|]. eexists. split; [reflexivity|]. fold (permute idx (vsub (im_data im w) (predict (im_N im) (fit w (rows (im_N im) (map (im_data im) (q :: ps))) (im_data im w)) (map (im_data im) (q :: ps))))).
      rewrite permute_vsub by (rewrite predict_length; apply HD; exact Hw).
      rewrite <- (map_map (im_data im) (permute idx)). rewrite predict_permute by (assumption || apply HF).
      symmetry. apply vadd_vsub. unfold permute. rewrite !map_length. reflexivity.
  - intros w Hw. repeat split.
Qed.
