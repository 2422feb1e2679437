(** * Property theorems: drawings (make_dot C126-C127, make_dot_highlight C128) and printing (C129)

    Vocabulary: SpecDraw.v, SpecPaths.v ([thr_edge]). *)
From Coq Require Import List Arith Bool ZArith QArith Qcanon Lia Relations Sorted Ascii String.
From Verif Require Import Prelude Spec SpecPaths SpecDraw Lib LibMat ModelRoot ProofRoot ModelDraw ProofDraw.
From Verif Require ProofTotal ProofBootstrap ProofDirect ProofExper ProofTools.
Import ListNotations.
Open Scope nat_scope.

(** The statements of one kind in a drawing, in order. *)
Definition nodes_in (l : list stmt) := filter (fun s => match s with SNode _ _ _ => true | _ => false end) l.
Definition edges_in (l : list stmt) := filter (fun s => match s with SEdge _ _ _ _ _ => true | _ => false end) l.
Definition unknown_in (l : list stmt) := filter (fun s => match s with SUnknown _ _ => true | _ => false end) l.
Definition pred_edges_in (l : list stmt) := filter (fun s => match s with SPredEdge _ _ _ => true | _ => false end) l.
(** The name of node [i]: its label, or x0, x1, ... *)
Definition node_names (labels : option (list string)) (r : nat) : list string :=
  match labels with Some l => l | None => map default_name (seq 0 r) end.
Definition name (labels : option (list string)) (r i : nat) : string := nth i (node_names labels r) EmptyString.

(** ** Shape of a drawing *)
Section Shape.
  Variable asp : nat -> (nat -> nat -> bool) -> nat -> nat -> list (list nat).
  Variable cyc : nat -> (nat -> nat -> bool) -> list (list nat).
  Lemma make_dot_inv : forall r c A labels limit pred target path color detect ignore out,
    make_dot asp cyc r c A labels limit pred target path color detect ignore = Ok out ->
    let names := node_names labels r in
    let G := fun a b => drawn A limit b a in
    exists ends pe pn ns es ps us,
      0 < r /\ 0 < c /\ (ignore = true \/ r = c) /\ match labels with Some l => length l = c | None => True end /\
      check_path r path color = Ok ends /\ (r = c \/ (ends = None /\ detect = false)) /\
      path_edges asp r G ends = Ok pe /\ mapM (get_name names) (uniq (map fst pe ++ map snd pe)) = Ok pn /\
      node_stmts names pn ends = Ok ns /\
      edge_stmts r c A limit names pe (if detect then flat_map cycle_pairs (cyc r G) else []) = Ok es /\
      pred_stmts names limit target pred = Ok ps /\ unknown_stmts r c A names = Ok us /\ out = ns ++ es ++ ps ++ us.
  Proof.
    intros r c A labels limit pred target path color detect ignore out H names G. unfold make_dot in H.
    destruct (Nat.eqb_spec r 0); [discriminate|]. destruct (Nat.eqb_spec c 0); [discriminate|]. cbn [orb] in H.
    destruct (negb ignore && negb (r =? c)) eqn:E1; [discriminate|].
    destruct (match labels with Some l => negb (c =? length l) | None => false end) eqn:E2; [discriminate|].
    match type of H with (if ?b then _ else _) = _ => destruct b; [discriminate|] end.
    destruct (check_path r path color) as [ends|] eqn:E4; [|discriminate]. cbn [bind] in H.
    match type of H with (if ?b then _ else _) = _ => destruct b eqn:E5; [discriminate|] end.
    fold G in H. destruct (path_edges asp r G ends) as [pe|] eqn:E6; [|discriminate]. cbn [bind] in H.
    assert (N : match labels with Some ((_ :: _) as l) => l | _ => map default_name (seq 0 r) end = names).
    { unfold names, node_names. destruct labels as [[|x l]|]; try reflexivity. destruct c; [lia|discriminate]. }
    rewrite N in H. clear N.
    destruct (mapM (get_name names) (uniq (map fst pe ++ map snd pe))) as [pn|] eqn:E7; [|discriminate]. cbn [bind] in H.
    destruct (node_stmts names pn ends) as [ns|] eqn:E8; [|discriminate]. cbn [bind] in H.
    match type of H with (bind ?x _) = _ => destruct x as [es|] eqn:E9; [|discriminate] end. cbn [bind] in H.
    destruct (pred_stmts names limit target pred) as [ps|] eqn:E10; [|discriminate]. cbn [bind] in H.
    destruct (unknown_stmts r c A names) as [us|] eqn:E11; [|discriminate]. cbn [bind] in H. injection H as <-.
    exists ends, pe, pn, ns, es, ps, us. split; [lia|]. split; [lia|]. split.
    { destruct ignore; [auto|]. cbn in E1. destruct (Nat.eqb_spec r c); [auto|discriminate]. }
    split. { destruct labels as [l|]; [|exact I]. destruct (Nat.eqb_spec c (length l)); [congruence|discriminate]. }
    split; [reflexivity|]. split.
    { destruct (Nat.eqb_spec r c); [auto|]. right. destruct ends; [discriminate|]. destruct detect; [discriminate|]. auto. }
    repeat (split; [first [assumption|reflexivity]|]). reflexivity.
  Qed.
  Lemma node_stmts_shape : forall names pn ends ns, node_stmts names pn ends = Ok ns ->
    nodes_in ns = ns /\ edges_in ns = [] /\ unknown_in ns = [] /\ pred_edges_in ns = [].
  Proof.
    intros names pn ends ns H. unfold node_stmts in H. apply mapM_ok in H. induction H as [|x y l l' E F IH]; [repeat split|].
    destruct IH as (H1 & H2 & H3 & H4). assert (Y : exists a b, y = SNode x a b).
    { destruct ends as [[s t]|]; [|injection E as <-; eauto]. destruct (get_name names s); [|discriminate]. destruct (get_name names t); [|discriminate]. injection E as <-. eauto. }
    destruct Y as (a & b & ->). cbn. repeat split; try assumption. f_equal. exact H1.
  Qed.
  Lemma edge_stmts_shape : forall r c A limit names pe ce es, edge_stmts r c A limit names pe ce = Ok es ->
    nodes_in es = [] /\ edges_in es = es /\ unknown_in es = [] /\ pred_edges_in es = [].
  Proof.
    intros r c A limit names pe ce es H. unfold edge_stmts in H. apply mapM_ok in H. induction H as [|[i j] y l l' E F IH]; [repeat split|].
    destruct IH as (H1 & H2 & H3 & H4). destruct (get_name names j); [|discriminate]. destruct (get_name names i); [|discriminate]. cbn [bind] in E. injection E as <-.
    cbn. repeat split; try assumption. f_equal. exact H2.
  Qed.
  Lemma pred_stmts_shape : forall names limit target pred ps, pred_stmts names limit target pred = Ok ps ->
    nodes_in ps = [] /\ edges_in ps = [] /\ unknown_in ps = [].
  Proof.
    intros names limit target pred ps H. unfold pred_stmts in H. destruct pred as [[idx k]|]; [|injection H as <-; repeat split].
    match type of H with bind ?x _ = _ => destruct x as [es|] eqn:E; [|discriminate] end. cbn [bind] in H. injection H as <-.
    assert (D : exists l : list (nat * num), mapM (fun e => let* f := get_name names (fst e) in Ok (SPredEdge f target (snd e))) l = Ok es) by (destruct k; eexists; exact E).
    destruct D as (l & D). apply mapM_ok in D. clear E. induction D as [|x y l l' E F IH]; [repeat split|].
    destruct IH as (H1 & H2 & H3). destruct (get_name names (fst x)); [|discriminate]. injection E as <-. cbn in *. repeat split; assumption.
  Qed.
  Lemma unknown_stmts_shape : forall r c A names us, unknown_stmts r c A names = Ok us ->
    nodes_in us = [] /\ edges_in us = [] /\ pred_edges_in us = [] /\
    exists es, mapM (fun e => let* f := get_name names (snd e) in let* t := get_name names (fst e) in Ok (SUnknown f t)) (unknown_positions r c A) = Ok es /\ unknown_in us = es.
  Proof.
    intros r c A names us H. unfold unknown_stmts in H. destruct (mapM (get_name names) _) as [same|]; [|discriminate]. cbn [bind] in H.
    destruct (mapM _ (unknown_positions r c A)) as [es|] eqn:E; [|discriminate]. cbn [bind] in H. injection H as <-.
    assert (Q : nodes_in es = [] /\ edges_in es = [] /\ pred_edges_in es = [] /\ unknown_in es = es).
    { apply mapM_ok in E. induction E as [|x y l l' E F IH]; [repeat split|]. destruct IH as (H1 & H2 & H3 & H4).
      destruct (get_name names (snd x)); [|discriminate]. destruct (get_name names (fst x)); [|discriminate]. injection E as <-. cbn.
      repeat split; try assumption. f_equal. exact H4. }
    destruct Q as (Q1 & Q2 & Q3 & Q4). cbn. repeat split; try assumption. exists es. split; [reflexivity|exact Q4].
  Qed.
End Shape.
Lemma thr_bgraph : forall n A limit a b, bgraph n (fun a b => drawn A limit b a) a b <-> thr_edge n A limit a b.
Proof. intros n A limit a b. unfold bgraph, thr_edge, drawn. rewrite qltb_lt. reflexivity. Qed.
Lemma clos_iff : forall E F : graph, (forall a b, E a b -> F a b) -> forall a b, clos_refl_trans nat E a b -> clos_refl_trans nat F a b.
Proof. intros E F H a b C. induction C; [apply rt_step; auto|apply rt_refl|eapply rt_trans; eassumption]. Qed.
Lemma on_cycle_iff : forall E F a b, (forall a b, E a b <-> F a b) -> (on_cycle E a b <-> on_cycle F a b).
Proof.
  intros E F a b H. unfold on_cycle. rewrite H. split; intros [H1 H2]; (split; [exact H1|]); (eapply clos_iff; [|exact H2]); intros x y; apply H.
Qed.
Lemma check_path_inv : forall n path color ends, check_path n path color = Ok ends ->
  (path = NoPath /\ ends = None) \/
  exists a b rest, path = PathTuple (a :: b :: rest) /\ ends = Some (Z.to_nat a, Z.to_nat b) /\ (0 <= a <= Z.of_nat n)%Z /\ (0 <= b <= Z.of_nat n)%Z.
Proof.
  intros n path color ends H. destruct path as [| |[|a [|b rest]]]; cbn in H; try discriminate; [injection H as <-; auto|].
  destruct color; [|discriminate]. cbn [negb] in H. right. exists a, b, rest. split; [reflexivity|].
  destruct (Z.leb_spec 0 a), (Z.leb_spec a (Z.of_nat n)), (Z.leb_spec 0 b), (Z.leb_spec b (Z.of_nat n)); cbn in H; try discriminate.
  injection H as <-. split; [reflexivity|lia].
Qed.

(** ** C126 *)
Theorem C126_edges : forall asp cyc r c A labels limit pred target path color detect ignore out,
  lists_simple_paths asp -> lists_simple_cycles cyc -> (0 <= limit)%Qc ->
  make_dot asp cyc r c A labels limit pred target path color detect ignore = Ok out ->
  exists ps, StronglySorted row_major ps /\
    (forall i j, In (i, j) ps <-> i < r /\ j < c /\ exists q, A i j = Some q /\ (limit < qabs q)%Qc) /\
    Forall2 (fun e s => exists p cy,
      s = SEdge (name labels r (snd e)) (name labels r (fst e)) (nan_to_num (A (fst e) (snd e))) p cy /\
      (p = true <-> exists a b rest q, path = PathTuple (a :: b :: rest) /\
         dpath (thr_edge r A limit) (Z.to_nat a) (Z.to_nat b) q /\ takes q (snd e) (fst e)) /\
      (cy = true <-> detect = true /\ on_cycle (thr_edge r A limit) (snd e) (fst e))) ps (edges_in out).
Proof.
  intros asp cyc r c A labels limit pred target path color detect ignore out HP HC HL H. apply make_dot_inv in H. cbn zeta in H.
  destruct H as (ends & pe & pn & ns & es & ps & us & Hr & Hc & HI & HLb & HK & HS & HPE & HPN & HN & HE & HPr & HU & ->).
  exists (filter (fun e => drawn A limit (fst e) (snd e)) (positions r c)). split; [apply SS_filter, positions_sorted|]. split.
  { intros i j. rewrite filter_In, positions_In. cbn [fst snd]. unfold drawn. rewrite qltb_lt. split.
    - intros ((Hi & Hj) & X). split; [exact Hi|]. split; [exact Hj|]. destruct (A i j) as [q|]; [exists q; auto|]. exfalso.
      cbn in X. apply (Qclt_not_le _ _ X). exact HL.
    - intros (Hi & Hj & q & E & X). rewrite E. auto. }
  destruct (node_stmts_shape _ _ _ _ HN) as (_ & S1 & _). destruct (edge_stmts_shape _ _ _ _ _ _ _ _ HE) as (_ & S2 & _).
  destruct (pred_stmts_shape _ _ _ _ _ HPr) as (_ & S3 & _). destruct (unknown_stmts_shape _ _ _ _ _ HU) as (_ & S4 & _).
  unfold edges_in in *. rewrite !filter_app, S1, S2, S3, S4, !app_nil_r. cbn [app]. clear S1 S2 S3 S4 HN HPr HU.
  unfold edge_stmts in HE. apply mapM_ok in HE. revert HE. apply Forall2_impl. intros [i j] s E. cbn [fst snd].
  destruct (get_name (node_names labels r) j) as [f|] eqn:Ef; [|discriminate]. destruct (get_name (node_names labels r) i) as [t|] eqn:Et; [|discriminate].
  cbn [bind] in E. injection E as <-. apply get_name_ok in Ef, Et. destruct Ef as [_ ->], Et as [_ ->].
  do 2 eexists. split; [reflexivity|]. rewrite !edge_mem_iff. split.
  - destruct (check_path_inv _ _ _ _ HK) as [[-> ->]|(a & b & rest & -> & -> & _)].
    + cbn in HPE. injection HPE as <-. split; [intros []|]. intros (a & b & rest & q & D & _). discriminate.
    + cbn [path_edges] in HPE. destruct (Nat.ltb_spec (Z.to_nat a) r) as [La|]; [|discriminate]. destruct (Nat.ltb_spec (Z.to_nat b) r) as [Lb|]; [|discriminate].
      cbn [andb] in HPE. injection HPE as <-. rewrite (on_path_listed asp r _ _ _ j i HP La Lb). split.
      * intros (q & D & T). exists a, b, rest, q. split; [reflexivity|]. split; [|exact T]. eapply ProofTotal.dpath_iff; [|exact D]. intros; symmetry; apply thr_bgraph.
      * intros (a' & b' & rest' & q & [= <- <- <-] & D & T). exists q. split; [|exact T]. eapply ProofTotal.dpath_iff; [|exact D]. intros; apply thr_bgraph.
  - destruct detect; [|split; [intros []|intros [D _]; discriminate]]. rewrite (on_cycle_listed cyc r _ j i HC).
    rewrite (on_cycle_iff _ _ j i (thr_bgraph r A limit)). tauto.
Qed.
Print Assumptions C126_edges.
(** Unknown pairs: one double-headed arrow per NaN on or below the diagonal. *)
Theorem C126_unknown_partial : forall asp cyc r c A labels limit pred target path color detect ignore out,
  make_dot asp cyc r c A labels limit pred target path color detect ignore = Ok out ->
  exists ps, StronglySorted row_major ps /\
    (forall i j, In (i, j) ps <-> j <= i /\ i < r /\ j < c /\ A i j = None) /\
    unknown_in out = map (fun e => SUnknown (name labels r (snd e)) (name labels r (fst e))) ps.
Proof.
  intros asp cyc r c A labels limit pred target path color detect ignore out H. apply make_dot_inv in H. cbn zeta in H.
  destruct H as (ends & pe & pn & ns & es & ps & us & Hr & Hc & HI & HLb & HK & HS & HPE & HPN & HN & HE & HPr & HU & ->).
  exists (unknown_positions r c A). split; [apply SS_filter, positions_sorted|]. split.
  { intros i j. unfold unknown_positions. rewrite filter_In, positions_In. cbn [fst snd]. rewrite andb_true_iff, Nat.leb_le.
    destruct (A i j); split; intros; intuition (try discriminate; try congruence). }
  destruct (node_stmts_shape _ _ _ _ HN) as (_ & _ & S1 & _). destruct (edge_stmts_shape _ _ _ _ _ _ _ _ HE) as (_ & _ & S2 & _).
  destruct (pred_stmts_shape _ _ _ _ _ HPr) as (_ & _ & S3). destruct (unknown_stmts_shape _ _ _ _ _ HU) as (_ & _ & _ & u & S4 & S5).
  unfold unknown_in in *. rewrite !filter_app, S1, S2, S3, S5. cbn [app]. apply mapM_ok in S4. clear - S4.
  induction S4 as [|[i j] y l l' E F IH]; [reflexivity|]. cbn [map fst snd]. f_equal; [|exact IH]. cbn [fst snd] in E.
  destruct (get_name (node_names labels r) j) as [f|] eqn:Ef; [|discriminate]. destruct (get_name (node_names labels r) i) as [t|] eqn:Et; [|discriminate].
  cbn [bind] in E. injection E as <-. apply get_name_ok in Ef, Et. destruct Ef as [_ ->], Et as [_ ->]. reflexivity.
Qed.
Print Assumptions C126_unknown_partial.
(** So an unknown entry of the upper triangle alone is not drawn. *)
Definition no_paths : nat -> (nat -> nat -> bool) -> nat -> nat -> list (list nat) := fun _ _ _ _ => [].
Definition no_cycles : nat -> (nat -> nat -> bool) -> list (list nat) := fun _ _ => [].
Definition sq (l : list (list num)) : mat num := fun i j => nth j (nth i l []) (Some 0%Qc).
Theorem C126_unknown_refuted :
  exists A out, A 0 1 = None /\ make_dot no_paths no_cycles 2 2 A None 0 None ""%string NoPath true false false = Ok out /\
    unknown_in out = [] /\ edges_in out = [].
Proof. exists (sq [[Some 0%Qc; None]]). eexists. split; [reflexivity|]. split; [vm_compute; reflexivity|]. split; reflexivity. Qed.
Print Assumptions C126_unknown_refuted.
(** Nodes: every name once and in order; marked when on the path, double border for its ends. *)
Theorem C126_nodes : forall asp cyc r c A labels limit pred target path color detect ignore out,
  lists_simple_paths asp -> NoDup (node_names labels r) ->
  make_dot asp cyc r c A labels limit pred target path color detect ignore = Ok out ->
  Forall2 (fun i s => exists m e, s = SNode (name labels r i) m e /\
      (m = true <-> exists a b rest q, path = PathTuple (a :: b :: rest) /\ 2 <= length q /\ dpath (thr_edge r A limit) (Z.to_nat a) (Z.to_nat b) q /\ In i q) /\
      (e = true <-> exists a b rest, path = PathTuple (a :: b :: rest) /\ (i = Z.to_nat a \/ i = Z.to_nat b)))
    (seq 0 (length (node_names labels r))) (nodes_in out).
Proof.
  intros asp cyc r c A labels limit pred target path color detect ignore out HP ND H. apply make_dot_inv in H. cbn zeta in H.
  destruct H as (ends & pe & pn & ns & es & ps & us & Hr & Hc & HI & HLb & HK & HS & HPE & HPN & HN & HE & HPr & HU & ->).
  destruct (node_stmts_shape _ _ _ _ HN) as (S1 & _). destruct (edge_stmts_shape _ _ _ _ _ _ _ _ HE) as (S2 & _).
  destruct (pred_stmts_shape _ _ _ _ _ HPr) as (S3 & _). destruct (unknown_stmts_shape _ _ _ _ _ HU) as (S4 & _).
  unfold nodes_in in *. rewrite !filter_app, S1, S2, S3, S4, !app_nil_r. clear S1 S2 S3 S4 HE HPr HU.
  unfold node_stmts in HN. apply mapM_ok in HN. unfold name. set (names := node_names labels r) in *.
  (* replace the names by their positions *)
  assert (IX : forall l' (P : string -> stmt -> Prop), Forall2 P names l' ->
            Forall2 (fun i s => i < length names /\ P (nth i names EmptyString) s) (seq 0 (length names)) l').
  { intros l' P F. assert (Q : forall k pre, names = pre ++ k -> forall l2, Forall2 P k l2 ->
        Forall2 (fun i s => i < length names /\ P (nth i names EmptyString) s) (seq (length pre) (length k)) l2).
    { induction k as [|x k IH]; intros pre E l2 F2; inversion F2 as [|? y ? l3 P1 P2]; subst; [constructor|]. cbn [length seq]. constructor.
      - rewrite E, app_length. cbn [length]. split; [lia|]. rewrite app_nth2, Nat.sub_diag by lia. exact P1.
      - specialize (IH (pre ++ [x])). rewrite app_length in IH. cbn [length] in IH. rewrite Nat.add_1_r in IH. apply IH; [rewrite <- app_assoc; exact E|exact P2]. }
    exact (Q names [] eq_refl l' F). }
  apply IX in HN. clear IX. revert HN. apply Forall2_impl. intros i s [Hi E].
  destruct (check_path_inv _ _ _ _ HK) as [[-> ->]|(a & b & rest & -> & -> & Ha & Hb)].
  - injection E as <-. exists false, false. split; [reflexivity|]. split; (split; [discriminate|]); [intros (a & b & rest & q & D & _)|intros (a & b & rest & D & _)]; discriminate.
  - destruct (get_name names (Z.to_nat a)) as [na|] eqn:Ea; [|discriminate]. destruct (get_name names (Z.to_nat b)) as [nb|] eqn:Eb; [|discriminate].
    cbn [bind] in E. injection E as <-. do 2 eexists. split; [reflexivity|]. apply get_name_ok in Ea, Eb. destruct Ea as [La ->], Eb as [Lb ->].
    assert (IJ : forall k, k < length names -> (nth i names EmptyString = nth k names EmptyString <-> i = k)).
    { intros k Hk. split; [|intros ->; reflexivity]. intro Q. apply (proj1 (NoDup_nth names EmptyString) ND i k Hi Hk Q). }
    split.
    + cbn [path_edges] in HPE. destruct (Nat.ltb_spec (Z.to_nat a) r) as [La'|]; [|discriminate]. destruct (Nat.ltb_spec (Z.to_nat b) r) as [Lb'|]; [|discriminate].
      cbn [andb] in HPE. injection HPE as <-. rewrite str_mem_iff. apply mapM_ok in HPN.
      assert (PN : In (nth i names EmptyString) pn <-> In i (uniq (map fst (flat_map path_pairs (asp r (fun a b => drawn A limit b a) (Z.to_nat a) (Z.to_nat b))) ++
                    map snd (flat_map path_pairs (asp r (fun a b => drawn A limit b a) (Z.to_nat a) (Z.to_nat b)))))).
      { clear - HPN IJ. induction HPN as [|x y l l' E F IH]; [reflexivity|]. apply get_name_ok in E. destruct E as [Hx ->]. cbn [In]. rewrite IH.
        specialize (IJ x Hx). split; (intros [Q|Q]; [left|right; exact Q]); symmetry in Q |- *; apply IJ; exact Q. }
      rewrite PN, uniq_In, in_app_iff, !in_map_iff. split.
      * intro Q. assert (T : exists u v, In (u, v) (flat_map path_pairs (asp r (fun a b => drawn A limit b a) (Z.to_nat a) (Z.to_nat b))) /\ (i = u \/ i = v)).
        { destruct Q as [([u v] & E & I)|([u v] & E & I)]; cbn in E; exists u, v; (split; [exact I|auto]). }
        destruct T as (u & v & I & D). apply (on_path_listed asp r _ _ _ u v HP La' Lb') in I. destruct I as (q & P & T).
        exists a, b, rest, q. split; [reflexivity|]. assert (L2 : 2 <= length q) by (destruct T as (l1 & l2 & ->); rewrite app_length; cbn; lia). split; [exact L2|].
        split; [eapply ProofTotal.dpath_iff; [|exact P]; intros; symmetry; apply thr_bgraph|]. apply takes_In; [exact L2|]. destruct D as [-> | ->]; [exists v|exists u]; auto.
      * intros (a' & b' & rest' & q & [= <- <- <-] & L2 & P & I). apply takes_In in I; [|exact L2]. destruct I as (y & [T|T]); [left|right].
        -- exists (i, y). split; [reflexivity|]. apply on_path_listed; try assumption. exists q. split; [|exact T]. eapply ProofTotal.dpath_iff; [|exact P]. intros; apply thr_bgraph.
        -- exists (y, i). split; [reflexivity|]. apply on_path_listed; try assumption. exists q. split; [|exact T]. eapply ProofTotal.dpath_iff; [|exact P]. intros; apply thr_bgraph.
    + rewrite orb_true_iff, !String.eqb_eq, (IJ _ La), (IJ _ Lb). split; [intro D; exists a, b, rest; auto|]. intros (a' & b' & rest' & [= <- <- <-] & D). exact D.
Qed.
Print Assumptions C126_nodes.
Lemma default_names_NoDup : forall r, NoDup (node_names None r).
Proof. intro r. cbn. apply FinFun.Injective_map_NoDup; [intros i j; apply default_name_inj|apply seq_NoDup]. Qed.
(** Prediction edges: to the target from every listed feature; coefficients up to the limit are left out. *)
Theorem C126_prediction : forall asp cyc r c A labels limit idx k target path color detect ignore out,
  make_dot asp cyc r c A labels limit (Some (idx, k)) target path color detect ignore = Ok out ->
  exists es, pred_edges_in out = map (fun e => SPredEdge (name labels r (fst e)) target (snd e)) es /\
    match k with
    | PCoefs l => length idx = length l /\ es = filter (fun e => match snd e with Some q => qltb limit (qabs q) | None => false end) (combine idx l)
    | PImportance l => length idx = length l /\ es = combine idx l
    | PIndices => es = map (fun i => (i, None)) idx
    end.
Proof.
  intros asp cyc r c A labels limit idx k target path color detect ignore out H. pose proof H as H0. apply make_dot_inv in H. cbn zeta in H.
  destruct H as (ends & pe & pn & ns & es & ps & us & Hr & Hc & HI & HLb & HK & HS & HPE & HPN & HN & HE & HPr & HU & ->).
  assert (LEN : match k with PCoefs l | PImportance l => length idx = length l | _ => True end).
  { unfold make_dot in H0. destruct ((r =? 0) || (c =? 0)); [discriminate|]. destruct (negb ignore && _); [discriminate|]. destruct (match labels with Some _ => _ | None => _ end); [discriminate|].
    destruct k as [l|l|]; [| |exact I]; (destruct (Nat.eqb_spec (length idx) (length l)); [assumption|discriminate]). }
  destruct (node_stmts_shape _ _ _ _ HN) as (_ & _ & _ & S1). destruct (edge_stmts_shape _ _ _ _ _ _ _ _ HE) as (_ & _ & _ & S2).
  destruct (unknown_stmts_shape _ _ _ _ _ HU) as (_ & _ & S4 & _).
  unfold pred_edges_in in *. rewrite !filter_app, S1, S2, S4, !app_nil_r. cbn [app]. clear - HPr LEN. cbn [pred_stmts] in HPr.
  set (D := fun l : list (nat * num) => mapM (fun e => let* f := get_name (node_names labels r) (fst e) in Ok (SPredEdge f target (snd e))) l) in HPr.
  assert (DS : forall l out, D l = Ok out -> filter (fun s => match s with SPredEdge _ _ _ => true | _ => false end) out = map (fun e => SPredEdge (name labels r (fst e)) target (snd e)) l).
  { intros l out Q. unfold D in Q. apply mapM_ok in Q. induction Q as [|x y l l' E F IH]; [reflexivity|].
    destruct (get_name (node_names labels r) (fst x)) as [f|] eqn:Ef; [|discriminate]. injection E as <-. apply get_name_ok in Ef. destruct Ef as [_ ->].
    cbn [filter map]. f_equal. exact IH. }
  destruct k as [l|l|]; match type of HPr with bind ?x _ = _ => destruct x as [es|] eqn:E; [|discriminate] end; cbn [bind] in HPr; injection HPr as <-;
    cbn [filter]; eexists; (split; [apply (DS _ _ E)|]); auto.
Qed.
Print Assumptions C126_prediction.

(** ** C127: which calls succeed *)
(** Square matrix, labels of the right length, nodes within range: the drawing is made. *)
Theorem C127_valid_arguments_partial : forall asp cyc n A labels limit pred target path detect ignore,
  lists_simple_paths asp -> 0 < n ->
  match labels with Some l => length l = n | None => True end ->
  match pred with
  | Some (idx, k) => Forall (fun i => i < n) idx /\ match k with PCoefs l | PImportance l => length l = length idx | PIndices => True end
  | None => True end ->
  match path with NoPath => True | PathTuple (a :: b :: _) => (0 <= a < Z.of_nat n)%Z /\ (0 <= b < Z.of_nat n)%Z | _ => False end ->
  exists out, make_dot asp cyc n n A labels limit pred target path true detect ignore = Ok out.
Proof.
  intros asp cyc n A labels limit pred target path detect ignore HP Hn HL HD HPa. unfold make_dot.
  destruct (Nat.eqb_spec n 0); [lia|]. cbn [orb]. rewrite Nat.eqb_refl. cbn [negb]. rewrite andb_false_r.
  replace (match labels with Some l => negb (n =? length l) | None => false end) with false by (destruct labels as [l|]; [rewrite HL, Nat.eqb_refl|]; reflexivity).
  match goal with |- context [if ?b then Err ValueError else bind _ _] => replace b with false end.
  2: { destruct pred as [[idx [l|l|]]|]; try reflexivity; destruct HD as [_ ->]; rewrite Nat.eqb_refl; reflexivity. }
  set (names := match labels with Some ((_ :: _) as l) => l | _ => map default_name (seq 0 n) end).
  assert (LN : length names = n).
  { unfold names. destruct labels as [[|x l]|]; [cbn in HL; lia|exact HL|]; rewrite map_length, seq_length; reflexivity. }
  assert (GN : forall i, i < n -> exists s, get_name names i = Ok s) by (intros i Hi; exists (nth i names EmptyString); apply get_name_ok; split; [lia|reflexivity]).
  assert (EN : exists ends, check_path n path true = Ok ends /\ match ends with Some (s, t) => s < n /\ t < n | None => True end).
  { destruct path as [| |[|a [|b rest]]]; cbn; try contradiction; [exists None; auto|]. destruct HPa as [Ha Hb].
    destruct (Z.leb_spec 0 a), (Z.leb_spec a (Z.of_nat n)), (Z.leb_spec 0 b), (Z.leb_spec b (Z.of_nat n)); try lia. cbn. eexists. split; [reflexivity|]. split; lia. }
  destruct EN as (ends & -> & HE). cbn [bind]. rewrite andb_false_r. set (G := fun a b => drawn A limit b a).
  assert (PE : exists pe, path_edges asp n G ends = Ok pe /\ forall u v, In (u, v) pe -> u < n /\ v < n).
  { destruct ends as [[s t]|]; cbn [path_edges]; [|exists []; split; [reflexivity|intros u v []]]. destruct HE as [Hs Ht].
    rewrite (proj2 (Nat.ltb_lt _ _) Hs), (proj2 (Nat.ltb_lt _ _) Ht). cbn. eexists. split; [reflexivity|]. intros u v I.
    apply (on_path_listed asp n G s t u v HP Hs Ht) in I. destruct I as (p & [[_ [_ [_ W]]] _] & T). apply (takes_walk _ _ _ _ W) in T. unfold bgraph in T. tauto. }
  destruct PE as (pe & -> & HB). cbn [bind]. destruct (mapM_total (get_name names) (uniq (map fst pe ++ map snd pe))) as [pn ->].
  { intros x I. apply GN. apply (proj1 (uniq_In _ _)) in I. apply in_app_iff in I. rewrite !in_map_iff in I. destruct I as [([u v] & <- & I)|([u v] & <- & I)]; apply HB in I; cbn; lia. }
  cbn [bind]. destruct (mapM_total (fun nm => match ends with None => Ok (SNode nm false false) | Some (s, t) => let* a := get_name names s in let* b := get_name names t in
                       Ok (SNode nm (str_mem nm pn) (String.eqb nm a || String.eqb nm b)) end) names) as [ns EN].
  { intros x _. destruct ends as [[s t]|]; [|eexists; reflexivity]. destruct HE as [Hs Ht]. destruct (GN s Hs) as [sa ->], (GN t Ht) as [sb ->]. eexists. reflexivity. }
  unfold node_stmts. rewrite EN. cbn [bind]. unfold edge_stmts.
  match goal with |- context [bind (mapM ?f ?l) _] => destruct (mapM_total f l) as [es ->] end.
  { intros [i j] I. apply filter_In in I. destruct I as [I _]. apply positions_In in I. destruct I as [Hi Hj]. destruct (GN j Hj) as [sa ->], (GN i Hi) as [sb ->]. eexists. reflexivity. }
  cbn [bind]. assert (PS : exists ps, pred_stmts names limit target pred = Ok ps).
  { destruct pred as [[idx k]|]; [|eexists; reflexivity]. destruct HD as [HF HK]. rewrite Forall_forall in HF. cbn [pred_stmts].
    assert (Q : forall l : list (nat * num), (forall x, In x l -> fst x < n) -> exists ys, mapM (fun e => let* f := get_name names (fst e) in Ok (SPredEdge f target (snd e))) l = Ok ys).
    { intros l HX. apply mapM_total. intros x I. destruct (GN (fst x) (HX x I)) as [sa ->]. eexists. reflexivity. }
    assert (QC : forall (l : list num) x, In x (combine idx l) -> fst x < n) by (intros l [x y] I; apply HF; apply in_combine_l in I; exact I).
    destruct k as [l|l|].
    - destruct (Q (filter (fun e => match snd e with Some q => qltb limit (qabs q) | None => false end) (combine idx l))) as [ys ->]; [|eexists; reflexivity].
      intros x I. apply filter_In in I. apply (QC l). apply I.
    - destruct (Q (combine idx l)) as [ys ->]; [apply QC|eexists; reflexivity].
    - destruct (Q (map (fun i => (i, None)) idx)) as [ys ->]; [|eexists; reflexivity]. intros x I. apply in_map_iff in I. destruct I as (i & <- & I). apply HF. exact I. }
  destruct PS as [ps ->]. cbn [bind]. unfold unknown_stmts.
  assert (UB : forall i j, In (i, j) (unknown_positions n n A) -> i < n /\ j < n) by (intros i j I; apply filter_In in I; destruct I as [I _]; apply positions_In in I; exact I).
  destruct (mapM_total (get_name names) (uniq (map fst (unknown_positions n n A) ++ map snd (unknown_positions n n A)))) as [same ->].
  { intros x I. apply GN. apply (proj1 (uniq_In _ _)) in I. apply in_app_iff in I. rewrite !in_map_iff in I. destruct I as [([u v] & <- & I)|([u v] & <- & I)]; apply UB in I; cbn; lia. }
  cbn [bind]. match goal with |- context [bind (mapM ?f ?l) _] => destruct (mapM_total f l) as [us ->] end.
  { intros [i j] I. apply UB in I. cbn [fst snd]. destruct (GN j) as [sa ->]; [tauto|]. destruct (GN i) as [sb ->]; [tauto|]. eexists. reflexivity. }
  cbn [bind]. eexists. reflexivity.
Qed.
Print Assumptions C127_valid_arguments_partial.
(** Invalid arguments that are reported as documented. *)
Theorem C127_argument_errors : forall asp cyc r c A labels limit pred target path color detect ignore,
  (r <> c /\ ignore = false) \/ (exists l, labels = Some l /\ length l <> c) -> 
  make_dot asp cyc r c A labels limit pred target path color detect ignore = Err ValueError.
Proof.
  intros asp cyc r c A labels limit pred target path color detect ignore H. unfold make_dot. destruct ((r =? 0) || (c =? 0)); [reflexivity|].
  destruct H as [[N ->]|(l & -> & N)].
  - destruct (Nat.eqb_spec r c); [congruence|]. reflexivity.
  - destruct (negb ignore && negb (r =? c)); [reflexivity|]. destruct (Nat.eqb_spec c (length l)); [congruence|]. reflexivity.
Qed.
Print Assumptions C127_argument_errors.
(** The end of the range is accepted by the argument check (max_val is included) and networkx fails. *)
Theorem C127_path_range_refuted : forall asp cyc n A limit b, 0 < n -> (0 <= b <= Z.of_nat n)%Z ->
  check_path n (PathTuple [Z.of_nat n; b]) true = Ok (Some (n, Z.to_nat b)) /\
  make_dot asp cyc n n A None limit None ""%string (PathTuple [Z.of_nat n; b]) true false false = Err RuntimeError.
Proof.
  intros asp cyc n A limit b Hn Hb.
  assert (E : check_path n (PathTuple [Z.of_nat n; b]) true = Ok (Some (n, Z.to_nat b))).
  { cbn [check_path negb]. destruct (Z.leb_spec 0 (Z.of_nat n)), (Z.leb_spec (Z.of_nat n) (Z.of_nat n)), (Z.leb_spec 0 b), (Z.leb_spec b (Z.of_nat n)); try lia.
    cbn [andb]. rewrite Nat2Z.id. reflexivity. }
  split; [exact E|]. unfold make_dot. destruct (Nat.eqb_spec n 0); [lia|]. rewrite Nat.eqb_refl. cbn [orb negb andb]. rewrite E. cbn [bind andb path_edges].
  rewrite Nat.ltb_irrefl. reflexivity.
Qed.
Print Assumptions C127_path_range_refuted.
(** ignore_shape: a wide matrix (lagged effects) without labels has too few node names. *)
Theorem C127_wide_matrix_refuted : forall asp cyc r c A limit q i j, 0 < r -> i < r -> r <= j -> j < c ->
  A i j = Some q -> (limit < qabs q)%Qc ->
  make_dot asp cyc r c A None limit None ""%string NoPath true false true = Err IndexError.
Proof.
  intros asp cyc r c A limit q i j Hr Hi Hj Hc HA HL. unfold make_dot. destruct (Nat.eqb_spec r 0); [lia|]. destruct (Nat.eqb_spec c 0); [lia|].
  cbn [orb negb andb check_path bind path_edges flat_map map app uniq mapM]. unfold node_stmts.
  destruct (mapM_total (fun nm => Ok (SNode nm false false)) (map default_name (seq 0 r))) as [ns ->]; [intros; eexists; reflexivity|]. cbn [bind].
  unfold edge_stmts. match goal with |- context [bind (mapM ?f ?l) _] => rewrite (mapM_exists_err f l IndexError) end; [reflexivity| |].
  - exists (i, j). split.
    + apply filter_In. split; [apply positions_In; auto|]. cbn [fst snd]. unfold drawn. rewrite HA. apply qltb_lt. exact HL.
    + exists IndexError. replace (get_name (map default_name (seq 0 r)) j) with (@Err string IndexError); [reflexivity|].
      symmetry. apply get_name_err. rewrite map_length, seq_length. auto.
  - intros [i' j'] e' _ E. destruct (get_name (map default_name (seq 0 r)) j') as [f|e] eqn:E1; [|cbn in E; injection E as <-; apply get_name_err in E1; apply E1].
    cbn [bind] in E. destruct (get_name (map default_name (seq 0 r)) i') as [t|e] eqn:E2; [discriminate|]. cbn in E. injection E as <-. apply get_name_err in E2. apply E2.
Qed.
Print Assumptions C127_wide_matrix_refuted.
(** Documented: "directions with absolute values of coefficients less than lower_limit are excluded";
    a coefficient equal to the limit is excluded too. *)
Theorem C127_limit_refuted :
  exists A out, A 1 0 = Some (qf 1 100) /\
    make_dot no_paths no_cycles 2 2 A None (qf 1 100) None ""%string NoPath true false false = Ok out /\ edges_in out = [].
Proof. exists (sq [[]; [Some (qf 1 100)]]). eexists. split; [reflexivity|]. split; [vm_compute; reflexivity|reflexivity]. Qed.
Print Assumptions C127_limit_refuted.
(** x0 -> x1 -> x2, x0 -> x3, unknown pair (x1, x3), path x0 .. x2 highlighted. *)
Definition ex_dot : mat num := sq [[]; [Some 1%Qc]; [Some 0%Qc; Some (qz 2)]; [Some (qz 3); None; Some 0%Qc]].
Example C126_example :
  lists_simple_paths brute_paths /\ lists_simple_cycles brute_cycles /\
  make_dot brute_paths brute_cycles 4 4 ex_dot None 0 (Some ([0; 2], PCoefs [Some 1%Qc; Some 0%Qc])) "Y"%string (PathTuple [0; 2]%Z) true true false
  = Ok [SNode "x0" true true; SNode "x1" true false; SNode "x2" true true; SNode "x3" false false;
        SEdge "x0" "x1" 1 true false; SEdge "x1" "x2" (qz 2) true false; SEdge "x0" "x3" (qz 3) false false;
        SPredNode "Y"; SPredEdge "x0" "Y" (Some 1%Qc); SSameRank ["x3"; "x1"]; SUnknown "x1" "x3"]%string.
Proof. split; [exact brute_paths_ok|]. split; [exact brute_cycles_ok|]. vm_compute. reflexivity. Qed.
Example C126_cycle_example : (* x0 <-> x1 is a cycle, x1 -> x2 is not part of it *)
  make_dot brute_paths brute_cycles 3 3 (sq [[Some 0%Qc; Some 1%Qc]; [Some 1%Qc]; [Some 0%Qc; Some 1%Qc]]) None 0 None ""%string NoPath true true false
  = Ok [SNode "x0" false false; SNode "x1" false false; SNode "x2" false false;
        SEdge "x1" "x0" 1 false true; SEdge "x0" "x1" 1 false true; SEdge "x1" "x2" 1 false false; SSameRank []]%string.
Proof. vm_compute. reflexivity. Qed.
Example C127_example :
  make_dot brute_paths brute_cycles 1 3 (sq [[Some 0%Qc; Some 0%Qc; Some 1%Qc]]) (Some ["a"; "b"; "c"]%string) 0 None ""%string NoPath true false true
  = Ok [SNode "a" false false; SNode "b" false false; SNode "c" false false; SEdge "c" "a" 1 false false; SSameRank []]%string /\
  make_dot brute_paths brute_cycles 1 3 (sq [[Some 0%Qc; Some 0%Qc; Some 1%Qc]]) None 0 None ""%string NoPath true false true = Err IndexError.
Proof. split; vm_compute; reflexivity. Qed.

(** ** C128: make_dot_highlight *)
(** The graph that is drawn: coefficients of at least the limit, up to rounding. *)
Definition shown_edge (n : nat) (A : mat num) (limit : option Qc) : graph :=
  fun j i => i < n /\ j < n /\ (qf 1 100000000 < qabs (nan_to_num (A i j)))%Qc /\
             match limit with Some l => (l <= qabs (nan_to_num (A i j)))%Qc | None => True end.
Definition reversed (E : graph) : graph := fun a b => E b a.
(** within the given number of steps *)
Definition up_to (m : option Z) (d : nat) : Prop := match m with Some z => (Z.of_nat d <= z)%Z | None => True end.
Lemma present_shown : forall n A limit i j, i < n -> j < n ->
  (present (limited (fun i j => nan_to_num (A i j)) limit) i j = true <-> shown_edge n A limit j i).
Proof.
  intros n A limit i j Hi Hj. unfold present, limited, shown_edge. rewrite qltb_lt. destruct limit as [l|]; [|tauto].
  destruct (qltb (qabs (nan_to_num (A i j))) l) eqn:E.
  - apply qltb_lt in E. split.
    + intro H. exfalso. vm_compute in H. discriminate.
    + intros (_ & _ & _ & H). exfalso. apply (Qclt_not_le _ _ E). exact H.
  - apply qltb_nlt in E. tauto.
Qed.
Lemma within_up_to : forall m d, match m with Some z => (0 <= z)%Z | None => True end -> (within (option_map Z.to_nat m) d = true <-> up_to m d).
Proof. intros [z|] d H; cbn; [|tauto]. rewrite Nat.leb_le. lia. Qed.
Lemma distance_iff : forall (E F : graph) s v d, (forall a b, E a b <-> F a b) -> (distance E s v d <-> distance F s v d).
Proof.
  intros E F s v d H. assert (W : forall p, walk_from_to E s v p <-> walk_from_to F s v p).
  { intro p. unfold walk_from_to. assert (Q : walk E p <-> walk F p); [|tauto]. induction p as [|a p IH]; [tauto|]. destruct p as [|b p]; [tauto|]. cbn [walk] in *. rewrite IH, H. tauto. }
  unfold distance. split; intros [(p & P & L) M]; (split; [exists p; split; [apply W; exact P|exact L]|]); intros q Q; apply M, W; exact Q.
Qed.
Lemma distance_restrict : forall n (E : graph) s v d, s < n -> (forall a b, E a b -> b < n) ->
  (distance E s v d <-> distance (fun a b => a < n /\ E a b) s v d).
Proof.
  intros n E s v d Hs HB. assert (W : forall p, walk_from_to E s v p <-> walk_from_to (fun a b => a < n /\ E a b) s v p).
  { intro p. unfold walk_from_to. split; intros (H1 & H2 & H3 & H4); (split; [exact H1|]); (split; [exact H2|]); (split; [exact H3|]).
    - destruct p as [|a p]; [exact I|]. cbn in H1. injection H1 as ->. clear H2 H3. revert s Hs H4. induction p as [|b p IH]; intros s Hs H4; [exact I|].
      destruct H4 as [H4 H5]. split; [auto|]. apply IH; [apply (HB s); exact H4|exact H5].
    - clear - H4. induction p as [|a p IH]; [exact I|]. destruct p as [|b p]; [exact I|]. destruct H4 as [[_ H4] H5]. split; [exact H4|]. apply IH. exact H5. }
  unfold distance. split; intros [(p & P & L) M]; (split; [exists p; split; [apply W; exact P|exact L]|]); intros q Q; apply M, W; exact Q.
Qed.
Section Highlight.
  Variables (asp : nat -> (nat -> nat -> bool) -> nat -> nat -> list (list nat)) (cyc : nat -> (nat -> nat -> bool) -> list (list nat)).
  Variables (n : nat) (A : mat num) (target : Z) (labels : option (list string)) (max_dsc max_anc : option Z)
            (limit : option Qc) (draw_others detect : bool) (path : path_arg) (color : bool) (vm hm : Qc) (h : highlight).
  Hypothesis H : make_dot_highlight asp cyc n A target labels max_dsc max_anc limit draw_others detect path color vm hm = Ok h.
  Let E := shown_edge n A limit.
  Let tg := Z.to_nat target.
  Let A' := limited (fun i j => nan_to_num (A i j)) limit.
  Let dsc := distances n (children n A') tg (option_map Z.to_nat max_dsc).
  Let anc := distances n (parents n A') tg (option_map Z.to_nat max_anc).
  Let oth := filter (fun v => negb (memb v (map fst dsc) || memb v (map fst anc) || memb v (isolates n A') || (v =? tg))) (seq 0 n).
  Lemma highlight_inv : exists ends pe pn,
    1 < n /\ tg < n /\ (forall i j, i < n -> j < n -> A i j <> None) /\
    match max_dsc with Some z => (0 <= z)%Z | None => True end /\ match max_anc with Some z => (0 <= z)%Z | None => True end /\
    check_path n path color = Ok ends /\ path_edges asp n (fun a b => present A' b a) ends = Ok pe /\ (1 <= vm)%Qc /\
    h_copies h = copies dsc anc (if draw_others then oth ++ isolates n A' else []) tg /\
    h_height h = height dsc anc vm /\ h_coloured h = (fun v => existsb (py_eqb (PInt v)) (map PStr pn)) /\
    h_edges h = flat_map (fun e => flat_map (fun ct => map (fun ch =>
                         (snd e, ct, (fst e, ch), A' (fst e) (snd e), edge_mem (snd e, fst e) pe,
                          edge_mem (snd e, fst e) (if detect then flat_map cycle_pairs (cyc n (fun a b => present A' b a)) else [])))
                         (h_copies h (fst e))) (h_copies h (snd e)))
                  (filter (fun e => draw_others || negb (memb (snd e) (oth ++ isolates n A') || memb (fst e) (oth ++ isolates n A')))
                    (filter (fun e => present A' (fst e) (snd e)) (positions n n))).
  Proof.
    unfold make_dot_highlight in H. destruct (Nat.ltb_spec n 2); [discriminate|]. cbn [orb] in H.
    destruct (existsb _ (positions n n)) eqn:E1; [discriminate|].
    destruct (negb ((0 <=? target) && (target <? Z.of_nat n))%Z) eqn:E2; [discriminate|].
    match type of H with (if ?b then _ else _) = _ => destruct b; [discriminate|] end.
    match type of H with (if ?b then _ else _) = _ => destruct b eqn:E3; [discriminate|] end.
    match type of H with (if ?b then _ else _) = _ => destruct b eqn:E4; [discriminate|] end.
    destruct (check_path n path color) as [ends|] eqn:E5; [|discriminate]. cbn [bind] in H.
    destruct (qltb vm 1 || qltb hm 1) eqn:E6; [discriminate|]. fold A' in H. fold tg in H. fold dsc in H. fold anc in H. fold oth in H.
    destruct (path_edges asp n (fun a b => present A' b a) ends) as [pe|] eqn:E7; [|discriminate]. cbn [bind] in H.
    match type of H with bind ?x _ = _ => destruct x as [pn|] eqn:E8; [|discriminate] end. cbn [bind] in H. injection H as <-.
    exists ends, pe, pn. cbn [h_copies h_height h_coloured h_edges].
    apply negb_false_iff, andb_prop in E2. destruct E2 as [Z1 Z2]. apply Z.leb_le in Z1. apply Z.ltb_lt in Z2.
    split; [lia|]. split; [unfold tg; lia|]. split.
    { intros i j Hi Hj Q. assert (X : existsb (fun e => match A (fst e) (snd e) with None => true | _ => false end) (positions n n) = true); [|congruence].
      apply existsb_exists. exists (i, j). split; [apply positions_In; auto|]. cbn. rewrite Q. reflexivity. }
    split; [destruct max_dsc as [z|]; [apply Z.ltb_ge in E3; exact E3|exact I]|]. split; [destruct max_anc as [z|]; [apply Z.ltb_ge in E4; exact E4|exact I]|].
    split; [reflexivity|]. split; [exact E7|]. split; [apply orb_false_iff in E6; destruct E6 as [E6 _]; apply qltb_nlt in E6; exact E6|].
    split; [reflexivity|]. split; [reflexivity|]. split; reflexivity.
  Qed.
  Lemma dsc_In : tg < n -> match max_dsc with Some z => (0 <= z)%Z | None => True end -> forall v d,
    In (v, d) dsc <-> v <> tg /\ up_to max_dsc d /\ distance E tg v d.
  Proof.
    intros Ht Hm v d. unfold dsc. rewrite (distances_In n _ (fun a b => b < n /\ present A' b a = true) tg _ v d Ht).
    - rewrite (within_up_to max_dsc d Hm). rewrite (distance_restrict n (fun a b => b < n /\ present A' b a = true) tg v d Ht) by tauto.
      rewrite (distance_iff (fun a b => a < n /\ b < n /\ present A' b a = true) E); [tauto|]. intros a b. split.
      + intros (Ha & Hb & P). apply (present_shown n A limit b a Hb Ha). exact P.
      + intro P. assert (Q : a < n /\ b < n) by (unfold E, shown_edge in P; tauto). split; [tauto|]. split; [tauto|]. apply (present_shown n A limit b a); tauto.
    - intros a b. unfold children. rewrite filter_In, in_seq. lia || (split; intros [Q1 Q2]; (split; [lia|exact Q2])).
    - tauto.
  Qed.
  Lemma anc_In : tg < n -> match max_anc with Some z => (0 <= z)%Z | None => True end -> forall v d,
    In (v, d) anc <-> v <> tg /\ up_to max_anc d /\ distance (reversed E) tg v d.
  Proof.
    intros Ht Hm v d. unfold anc. rewrite (distances_In n _ (fun a b => b < n /\ present A' a b = true) tg _ v d Ht).
    - rewrite (within_up_to max_anc d Hm). rewrite (distance_restrict n (fun a b => b < n /\ present A' a b = true) tg v d Ht) by tauto.
      rewrite (distance_iff (fun a b => a < n /\ b < n /\ present A' a b = true) (reversed E)); [tauto|]. intros a b. unfold reversed. split.
      + intros (Ha & Hb & P). apply (present_shown n A limit a b Ha Hb). exact P.
      + intro P. assert (Q : a < n /\ b < n) by (unfold E, shown_edge in P; tauto). split; [tauto|]. split; [tauto|]. apply (present_shown n A limit a b); tauto.
    - intros a b. unfold parents. rewrite filter_In, in_seq. split; intros [Q1 Q2]; (split; [lia|exact Q2]).
    - tauto.
  Qed.
  Lemma isolates_In : forall v, In v (isolates n A') <-> v < n /\ forall u, ~ E u v /\ ~ E v u.
  Proof.
    intro v. unfold isolates. rewrite filter_In, in_seq.
    assert (C : v < n -> (children n A' v = [] <-> forall u, ~ E v u)).
    { intro Hv. split.
      - intros Q u P. assert (Hu : u < n) by (unfold E, shown_edge in P; tauto). assert (I : In u (children n A' v)); [|rewrite Q in I; destruct I].
        apply filter_In. split; [apply in_seq; lia|]. apply (present_shown n A limit u v Hu Hv). exact P.
      - intro Q. destruct (children n A' v) as [|u l] eqn:D; [reflexivity|]. exfalso. assert (I : In u (children n A' v)) by (rewrite D; left; reflexivity).
        apply filter_In in I. destruct I as [I1 I2]. apply in_seq in I1. apply (Q u). apply (present_shown n A limit u v); [lia|exact Hv|exact I2]. }
    assert (P : v < n -> (parents n A' v = [] <-> forall u, ~ E u v)).
    { intro Hv. split.
      - intros Q u P. assert (Hu : u < n) by (unfold E, shown_edge in P; tauto). assert (I : In u (parents n A' v)); [|rewrite Q in I; destruct I].
        apply filter_In. split; [apply in_seq; lia|]. apply (present_shown n A limit v u Hv Hu). exact P.
      - intro Q. destruct (parents n A' v) as [|u l] eqn:D; [reflexivity|]. exfalso. assert (I : In u (parents n A' v)) by (rewrite D; left; reflexivity).
        apply filter_In in I. destruct I as [I1 I2]. apply in_seq in I1. apply (Q u). apply (present_shown n A limit v u); [exact Hv|lia|exact I2]. }
    split.
    - intros [Hv Q]. assert (Hv' : v < n) by lia. split; [exact Hv'|]. intro u.
      destruct (children n A' v) eqn:D1; [|discriminate]. destruct (parents n A' v) eqn:D2; [|discriminate].
      split; [apply P; [exact Hv'|reflexivity]|apply C; [exact Hv'|reflexivity]].
    - intros [Hv Q]. split; [lia|]. rewrite (proj2 (C Hv) (fun u => proj2 (Q u))), (proj2 (P Hv) (fun u => proj1 (Q u))). reflexivity.
  Qed.
  (** A node is a connected one when it is the target, or within reach of it in one direction. *)
  Lemma oth_In : tg < n -> match max_dsc with Some z => (0 <= z)%Z | None => True end -> match max_anc with Some z => (0 <= z)%Z | None => True end ->
    forall v, In v oth <-> v < n /\ v <> tg /\ (exists u, E u v \/ E v u) /\
      (forall d, up_to max_dsc d -> ~ distance E tg v d) /\ (forall d, up_to max_anc d -> ~ distance (reversed E) tg v d).
  Proof.
    intros Ht H1 H2 v. unfold oth. rewrite filter_In, in_seq, negb_true_iff, !orb_false_iff, Nat.eqb_neq.
    assert (M : forall l, memb v l = false <-> ~ In v l) by (intro l; split; [apply memb_notIn|intro Q; destruct (memb v l) eqn:X; [|reflexivity]; apply memb_In in X; contradiction]).
    rewrite !M. split.
    - intros (Hv & ((D & Aa) & Is) & NT). split; [lia|]. split; [exact NT|]. split; [|split].
      + rewrite isolates_In in Is. destruct (children n A' v) as [|u l] eqn:X.
        * destruct (parents n A' v) as [|u l] eqn:Y.
          -- exfalso. apply Is. apply isolates_In. unfold isolates. apply filter_In. split; [apply in_seq; lia|]. rewrite X, Y. reflexivity.
          -- exists u. left. assert (I : In u (parents n A' v)) by (rewrite Y; left; reflexivity). apply filter_In in I. destruct I as [I1 I2]. apply in_seq in I1.
             apply (present_shown n A limit v u); [lia|lia|exact I2].
        * exists u. right. assert (I : In u (children n A' v)) by (rewrite X; left; reflexivity). apply filter_In in I. destruct I as [I1 I2]. apply in_seq in I1.
          apply (present_shown n A limit u v); [lia|lia|exact I2].
      + intros d U Q. apply D. apply in_map_iff. exists (v, d). split; [reflexivity|]. apply dsc_In; auto.
      + intros d U Q. apply Aa. apply in_map_iff. exists (v, d). split; [reflexivity|]. apply anc_In; auto.
    - intros (Hv & NT & (u & U) & D & Aa). split; [lia|]. split; [split; [split|]|exact NT].
      + intro I. apply in_map_iff in I. destruct I as ([v' d] & X & I). cbn in X. subst v'. apply dsc_In in I; [|exact Ht|exact H1]. destruct I as (_ & I1 & I2). exact (D d I1 I2).
      + intro I. apply in_map_iff in I. destruct I as ([v' d] & X & I). cbn in X. subst v'. apply anc_In in I; [|exact Ht|exact H2]. destruct I as (_ & I1 & I2). exact (Aa d I1 I2).
      + intro I. apply isolates_In in I. destruct I as [_ I]. destruct (I u) as [I1 I2]. tauto.
  Qed.

  (** The clusters: the target at 0, descendants at their distance, ancestors at minus their distance,
      everything else in "others". *)
  Theorem highlight_clusters : forall v, v < n ->
    (In (Some 0%Z) (h_copies h v) <-> v = tg) /\
    (forall d, 0 < d -> (In (Some (Z.of_nat d)) (h_copies h v) <-> v <> tg /\ up_to max_dsc d /\ distance E tg v d)) /\
    (forall d, 0 < d -> (In (Some (- Z.of_nat d)%Z) (h_copies h v) <-> v <> tg /\ up_to max_anc d /\ distance (reversed E) tg v d)) /\
    (In None (h_copies h v) <-> draw_others = true /\
       ((v <> tg /\ (forall d, up_to max_dsc d -> ~ distance E tg v d) /\ (forall d, up_to max_anc d -> ~ distance (reversed E) tg v d)) \/
        (forall u, ~ E u v /\ ~ E v u))).
  Proof.
    intros v Hv. destruct highlight_inv as (ends & pe & pn & Hn & Ht & HN & H1 & H2 & _ & _ & _ & HC & _). rewrite HC. unfold copies.
    assert (D1 : forall z, In (Some z) (map (fun vd : nat * nat => Some (Z.of_nat (snd vd))) (filter (fun vd => fst vd =? v) dsc)) <-> exists d, z = Z.of_nat d /\ In (v, d) dsc).
    { intro z. rewrite in_map_iff. split.
      - intros ([v' d] & [= <-] & I). apply filter_In in I. destruct I as [I X]. apply Nat.eqb_eq in X. cbn in X. subst v'. exists d. auto.
      - intros (d & -> & I). exists (v, d). split; [reflexivity|]. apply filter_In. split; [exact I|apply Nat.eqb_refl]. }
    assert (D2 : forall z, In (Some z) (map (fun vd : nat * nat => Some (- Z.of_nat (snd vd))%Z) (filter (fun vd => fst vd =? v) anc)) <-> exists d, z = (- Z.of_nat d)%Z /\ In (v, d) anc).
    { intro z. rewrite in_map_iff. split.
      - intros ([v' d] & [= <-] & I). apply filter_In in I. destruct I as [I X]. apply Nat.eqb_eq in X. cbn in X. subst v'. exists d. auto.
      - intros (d & -> & I). exists (v, d). split; [reflexivity|]. apply filter_In. split; [exact I|apply Nat.eqb_refl]. }
    assert (ZD : forall F d, distance F tg v d -> v <> tg -> 0 < d).
    { intros F d [(p & P & L) _] N. destruct d; [|lia]. exfalso. destruct P as (P1 & P2 & _ & _). destruct p as [|a [|b p]]; cbn in L; try lia. cbn in P1, P2. congruence. }
    assert (T0 : forall z, In (Some z) (if v =? tg then [Some 0%Z] else []) <-> z = 0%Z /\ v = tg).
    { intro z. destruct (Nat.eqb_spec v tg) as [Q|Q]; cbn [In]; [split; [intros [[= <-]|[]]; auto|intros [-> _]; auto]|tauto]. }
    assert (N0 : forall z (b : bool), ~ In (Some z) (if b then [@None Z] else [])) by (intros z [|]; cbn; [intros [D|[]]; discriminate|tauto]).
    split; [|split; [|split]].
    - rewrite !in_app_iff, T0, D1, D2. split.
      + intros [[_ Q]|[Q|[(d & Z0 & I)|(d & Z0 & I)]]]; [exact Q|destruct (N0 _ _ Q)| |].
        * apply dsc_In in I; [|exact Ht|exact H1]. destruct I as (I1 & _ & I2). specialize (ZD _ _ I2 I1). lia.
        * apply anc_In in I; [|exact Ht|exact H2]. destruct I as (I1 & _ & I2). specialize (ZD _ _ I2 I1). lia.
      + auto.
    - intros d Hd. rewrite !in_app_iff, T0, D1, D2, <- (dsc_In Ht H1). split.
      + intros [[Q _]|[Q|[(d' & Z0 & I)|(d' & Z0 & I)]]]; [lia|destruct (N0 _ _ Q)| |lia]. replace d with d' by lia. exact I.
      + intro I. right. right. left. exists d. auto.
    - intros d Hd. rewrite !in_app_iff, T0, D1, D2, <- (anc_In Ht H2). split.
      + intros [[Q _]|[Q|[(d' & Z0 & I)|(d' & Z0 & I)]]]; [lia|destruct (N0 _ _ Q)|lia|]. replace d with d' by lia. exact I.
      + intro I. right. right. right. exists d. auto.
    - rewrite !in_app_iff. assert (X1 : ~ In None (if v =? tg then [Some 0%Z] else [])) by (destruct (v =? tg); cbn; [intros [D|[]]; discriminate|tauto]).
      assert (X2 : forall (f : nat * nat -> Z) l, ~ In None (map (fun vd => Some (f vd)) l)) by (intros f l Q; apply in_map_iff in Q; destruct Q as (x & D & _); discriminate).
      assert (X3 : In None (if memb v (if draw_others then oth ++ isolates n A' else []) then [None] else ([] : list (option Z))) <-> draw_others = true /\ (In v oth \/ In v (isolates n A'))).
      { destruct draw_others; [|cbn; split; [intros []|intros [D _]; discriminate]]. rewrite <- in_app_iff. destruct (memb v (oth ++ isolates n A')) eqn:M.
        - apply memb_In in M. cbn. tauto.
        - apply memb_notIn in M. cbn. tauto. }
      rewrite X3, (oth_In Ht H1 H2), isolates_In.
      pose proof (X2 (fun vd => Z.of_nat (snd vd)) (filter (fun vd => fst vd =? v) dsc)). pose proof (X2 (fun vd => (- Z.of_nat (snd vd))%Z) (filter (fun vd => fst vd =? v) anc)).
      split.
      + intros [Q|[[Q1 Q2]|[Q|Q]]]; [contradiction| |contradiction|contradiction]. split; [exact Q1|]. tauto.
      + intros [Q1 Q2]. right. left. split; [exact Q1|]. destruct Q2 as [(Q2 & Q3 & Q4)|Q2]; [|tauto].
        assert (DEC : (exists u, E u v \/ E v u) \/ (forall u, ~ E u v /\ ~ E v u)).
        { destruct (in_dec Nat.eq_dec v (isolates n A')) as [I|I]; [right; apply isolates_In in I; apply I|left].
          destruct (children n A' v) as [|u l] eqn:X.
          - destruct (parents n A' v) as [|u l] eqn:Y.
            + exfalso. apply I. unfold isolates. apply filter_In. split; [apply in_seq; lia|]. rewrite X, Y. reflexivity.
            + exists u. left. assert (J : In u (parents n A' v)) by (rewrite Y; left; reflexivity). apply filter_In in J. destruct J as [J1 J2]. apply in_seq in J1.
              apply (present_shown n A limit v u); [lia|lia|exact J2].
          - exists u. right. assert (J : In u (children n A' v)) by (rewrite X; left; reflexivity). apply filter_In in J. destruct J as [J1 J2]. apply in_seq in J1.
            apply (present_shown n A limit u v); [lia|lia|exact J2]. }
        destruct DEC as [DEC|DEC]; [left|right]; auto.
  Qed.
  (** Edges are drawn between all copies of their ends (unless an end is in the undrawn cluster). *)
  Theorem highlight_edges : lists_simple_paths asp -> lists_simple_cycles cyc ->
    forall t ct hd ch q p c, In (t, ct, (hd, ch), q, p, c) (h_edges h) <->
      E t hd /\ In ct (h_copies h t) /\ In ch (h_copies h hd) /\ A hd t = Some q /\
      (draw_others = true \/ (~ In t (oth ++ isolates n A') /\ ~ In hd (oth ++ isolates n A'))) /\
      (p = true <-> exists a b rest w, path = PathTuple (a :: b :: rest) /\ dpath E (Z.to_nat a) (Z.to_nat b) w /\ takes w t hd) /\
      (c = true <-> detect = true /\ on_cycle E t hd).
  Proof.
    intros HP HC t ct hd ch q p c. destruct highlight_inv as (ends & pe & pn & Hn & Ht & HN & H1 & H2 & HK & HPE & _ & _ & _ & _ & HE). rewrite HE.
    assert (PB : forall a b, bgraph n (fun a b => present A' b a) a b <-> E a b).
    { intros a b. unfold bgraph. split.
      - intros (Ha & Hb & P). apply (present_shown n A limit b a Hb Ha). exact P.
      - intro P. assert (Q : a < n /\ b < n) by (unfold E, shown_edge in P; tauto). split; [tauto|]. split; [tauto|]. apply (present_shown n A limit b a); tauto. }
    assert (PT : forall u v, edge_mem (u, v) pe = true <-> exists a b rest w, path = PathTuple (a :: b :: rest) /\ dpath E (Z.to_nat a) (Z.to_nat b) w /\ takes w u v).
    { intros u v. rewrite edge_mem_iff. destruct (check_path_inv _ _ _ _ HK) as [[-> ->]|(a & b & rest & -> & -> & _)].
      - cbn in HPE. injection HPE as <-. split; [intros []|]. intros (a & b & rest & w & D & _). discriminate.
      - cbn [path_edges] in HPE. destruct (Nat.ltb_spec (Z.to_nat a) n) as [La|]; [|discriminate]. destruct (Nat.ltb_spec (Z.to_nat b) n) as [Lb|]; [|discriminate].
        cbn [andb] in HPE. injection HPE as <-. rewrite (on_path_listed asp n _ _ _ u v HP La Lb). split.
        + intros (w & D & T). exists a, b, rest, w. split; [reflexivity|]. split; [|exact T]. eapply ProofTotal.dpath_iff; [|exact D]. intros; symmetry; apply PB.
        + intros (a' & b' & rest' & w & [= <- <- <-] & D & T). exists w. split; [|exact T]. eapply ProofTotal.dpath_iff; [|exact D]. intros; apply PB. }
    assert (CT : forall u v, edge_mem (u, v) (if detect then flat_map cycle_pairs (cyc n (fun a b => present A' b a)) else []) = true <-> detect = true /\ on_cycle E u v).
    { intros u v. rewrite edge_mem_iff. destruct detect; [|split; [intros []|intros [D _]; discriminate]].
      rewrite (on_cycle_listed cyc n _ u v HC), (on_cycle_iff _ _ u v PB). tauto. }
    assert (BI : forall x y : bool, (forall P : Prop, (x = true <-> P) -> (y = true <-> P) -> x = y)).
    { intros [|] [|] P X Y; try reflexivity; exfalso; [assert (D : false = true) by tauto|assert (D : false = true) by tauto]; discriminate. }
    rewrite in_flat_map. split.
    - intros ([i j] & I & X). apply filter_In in I. destruct I as [I K]. apply filter_In in I. destruct I as [I P]. apply positions_In in I. cbn [fst snd] in *.
      apply in_flat_map in X. destruct X as (ct' & X1 & X). apply in_map_iff in X. destruct X as (ch' & X & X2). injection X as -> -> -> -> <- <- <-.
      assert (EE : E t hd) by (apply (present_shown n A limit hd t); tauto).
      split; [exact EE|]. split; [exact X1|]. split; [exact X2|]. split.
      { unfold A', limited. destruct (A hd t) as [w|] eqn:AQ; [|exfalso; apply (HN hd t); tauto]. cbn [nan_to_num]. destruct limit as [l|]; [|reflexivity].
        destruct (qltb (qabs w) l) eqn:QL; [|reflexivity]. exfalso. apply qltb_lt in QL. unfold E, shown_edge in EE. rewrite AQ in EE. cbn in EE.
        destruct EE as (_ & _ & _ & EE). apply (Qclt_not_le _ _ QL). exact EE. }
      split; [|split; [apply PT|apply CT]].
      destruct draw_others; [auto|]. right. cbn [orb] in K. apply negb_true_iff, orb_false_iff in K. destruct K as [K1 K2].
      split; apply memb_notIn; assumption.
    - intros (EE & X1 & X2 & AQ & K & P & C). exists (hd, t). assert (HT : hd < n /\ t < n) by (unfold E, shown_edge in EE; tauto). split.
      + apply filter_In. split; [apply filter_In; split; [apply positions_In; exact HT|cbn; apply (present_shown n A limit hd t); tauto]|]. cbn [fst snd].
        destruct K as [->|[K1 K2]]; [reflexivity|]. apply orb_true_iff. right. apply negb_true_iff, orb_false_iff. split.
        * destruct (memb t (oth ++ isolates n A')) eqn:M; [apply memb_In in M; contradiction|reflexivity].
        * destruct (memb hd (oth ++ isolates n A')) eqn:M; [apply memb_In in M; contradiction|reflexivity].
      + cbn [fst snd]. apply in_flat_map. exists ct. split; [exact X1|]. apply in_map_iff. exists ch. split; [|exact X2]. rewrite (BI _ _ _ (PT t hd) P), (BI _ _ _ (CT t hd) C).
        replace (A' hd t) with q; [reflexivity|]. unfold A', limited. rewrite AQ. cbn [nan_to_num]. destruct limit as [l|]; [|reflexivity].
        destruct (qltb (qabs q) l) eqn:QL; [|reflexivity]. exfalso. apply qltb_lt in QL. unfold E, shown_edge in EE. rewrite AQ in EE. cbn in EE.
        destruct EE as (_ & _ & _ & EE). apply (Qclt_not_le _ _ QL). exact EE.
  Qed.
  Lemma level_mono : forall l a b, a < b -> In a l -> level_index a l < level_index b l.
  Proof.
    intros l a b Hab I. unfold level_index. apply uniq_In in I. revert I. pose proof (uniq_NoDup l) as ND. revert ND. generalize (uniq l). intros u ND I.
    induction u as [|x u IH]; [destruct I|]. inversion ND as [|? ? N1 N2]; subst. cbn [filter].
    assert (LE : length (filter (fun y => y <? a) u) <= length (filter (fun y => y <? b) u)).
    { clear - Hab. induction u as [|y u IH]; [reflexivity|]. cbn [filter]. destruct (Nat.ltb_spec y a), (Nat.ltb_spec y b); cbn [List.length]; lia. }
    destruct I as [->|I].
    - rewrite Nat.ltb_irrefl. rewrite (proj2 (Nat.ltb_lt a b) Hab). cbn [List.length]. lia.
    - specialize (IH N2 I). destruct (Nat.ltb_spec x a), (Nat.ltb_spec x b); cbn [List.length]; lia.
  Qed.
  (** Descendants are drawn below the target and further down with their distance, ancestors above. *)
  Theorem highlight_heights : forall v w d d', 0 < d -> d < d' ->
    h_height h (Some 0%Z) = 0%Qc /\ h_height h None = 0%Qc /\
    (In (Some (Z.of_nat d)) (h_copies h v) -> (h_height h (Some (Z.of_nat d)) < 0)%Qc /\
       (In (Some (Z.of_nat d')) (h_copies h w) -> (h_height h (Some (Z.of_nat d')) < h_height h (Some (Z.of_nat d)))%Qc)) /\
    (In (Some (- Z.of_nat d)%Z) (h_copies h v) -> (0 < h_height h (Some (- Z.of_nat d)%Z))%Qc /\
       (In (Some (- Z.of_nat d')%Z) (h_copies h w) -> (h_height h (Some (- Z.of_nat d)%Z) < h_height h (Some (- Z.of_nat d')%Z))%Qc)).
  Proof.
    intros v w d d' Hd Hdd. destruct highlight_inv as (ends & pe & pn & Hn & Ht & HN & H1 & H2 & _ & _ & HV & HC & HH & _). rewrite HH, HC.
    assert (MEM : forall v, (In (Some (Z.of_nat d)) (copies dsc anc (if draw_others then oth ++ isolates n A' else []) tg v) -> In d (map snd dsc)) /\
                            (In (Some (- Z.of_nat d)%Z) (copies dsc anc (if draw_others then oth ++ isolates n A' else []) tg v) -> In d (map snd anc))).
    { clear v w. intro v. unfold copies. assert (N0 : forall z (b : bool), ~ In (Some z) (if b then [@None Z] else [])) by (intros z [|]; cbn; [intros [D|[]]; discriminate|tauto]).
      split; intro I; rewrite !in_app_iff in I; (destruct I as [I|[I|[I|I]]]; [destruct (v =? tg); cbn in I; [destruct I as [I|[]]; injection I as I; lia|destruct I]|destruct (N0 _ _ I)| |]);
        apply in_map_iff in I; destruct I as ([x y] & E1 & I); injection E1 as E1; apply filter_In in I; destruct I as [I _]; cbn in E1; try lia;
        replace d with y by lia; apply in_map_iff; exists (x, y); auto. }
    assert (V0 : (0 < vm)%Qc) by (eapply Qclt_le_trans; [|exact HV]; reflexivity).
    assert (QP : forall k, (0 < qn (k + 1) * vm)%Qc).
    { intro k. replace 0%Qc with (0 * vm)%Qc by ring. apply Qcmult_lt_compat_r; [exact V0|]. apply (proj2 (ProofBootstrap.qn_lt 0 _)). lia. }
    assert (QM : forall a b, a < b -> (qn (a + 1) * vm < qn (b + 1) * vm)%Qc) by (intros a b L; apply Qcmult_lt_compat_r; [exact V0|]; apply ProofBootstrap.qn_lt; lia).
    assert (OP : forall x y, (x < y)%Qc -> (- y < - x)%Qc) by (intros x y L; apply Qclt_minus_iff in L; apply Qclt_minus_iff; replace (- x + - - y)%Qc with (y + - x)%Qc by ring; exact L).
    split; [reflexivity|]. split; [reflexivity|]. unfold height. split; intro I.
    - apply MEM in I. destruct (Z.ltb_spec 0 (Z.of_nat d)); [|lia]. destruct (Z.ltb_spec 0 (Z.of_nat d')); [|lia]. rewrite !Nat2Z.id. split.
      + replace 0%Qc with (- 0)%Qc by ring. apply OP. apply QP.
      + intros _. apply OP, QM. apply level_mono; assumption.
    - apply MEM in I. destruct (Z.ltb_spec 0 (- Z.of_nat d)); [lia|]. destruct (Z.ltb_spec 0 (- Z.of_nat d')); [lia|].
      destruct (Z.ltb_spec (- Z.of_nat d) 0); [|lia]. destruct (Z.ltb_spec (- Z.of_nat d') 0); [|lia]. rewrite !Z.opp_involutive, !Nat2Z.id. split.
      + apply QP.
      + intros _. apply QM. apply level_mono; assumption.
  Qed.
  Theorem highlight_not_coloured : forall v, h_coloured h v = false.
  Proof.
    destruct highlight_inv as (ends & pe & pn & _ & _ & _ & _ & _ & _ & _ & _ & _ & _ & HC & _). intro v. rewrite HC. clear.
    induction pn as [|x l IH]; [reflexivity|]. exact IH.
  Qed.
  Lemma copies_NoDup : forall v, v < n -> NoDup (h_copies h v).
  Proof.
    intros v Hv. destruct highlight_inv as (ends & pe & pn & Hn & Ht & HN & H1 & H2 & _ & _ & _ & HC & _). rewrite HC. unfold copies.
    assert (ZD : forall F d, distance F tg v d -> v <> tg -> 0 < d).
    { intros F d [(p & P & L) _] N. destruct d; [|lia]. exfalso. destruct P as (P1 & P2 & _ & _). destruct p as [|a [|b p]]; cbn in L; try lia. cbn in P1, P2. congruence. }
    assert (GEN : forall l (f : nat -> Z), NoDup l -> (forall a b, f a = f b -> a = b) -> NoDup (map (fun vd : nat * nat => Some (f (snd vd))) (filter (fun vd => fst vd =? v) l))).
    { intros l f ND INJ. induction l as [|[x y] l IH]; [constructor|]. inversion ND as [|? ? N1 N2]; subst. specialize (IH N2). cbn [filter fst].
      destruct (Nat.eqb_spec x v) as [->|]; [|exact IH]. cbn [map snd]. constructor; [|exact IH]. intro I. apply in_map_iff in I. destruct I as ([x' y'] & Q & I).
      apply filter_In in I. destruct I as [I X]. cbn in Q, X. apply Nat.eqb_eq in X. subst x'. injection Q as Q. apply INJ in Q. subst y'. contradiction. }
    assert (D1 : forall z, In z (map (fun vd : nat * nat => Some (Z.of_nat (snd vd))) (filter (fun vd => fst vd =? v) dsc)) -> exists d, z = Some (Z.of_nat d) /\ 0 < d).
    { intros z I. apply in_map_iff in I. destruct I as ([v' d] & <- & I). apply filter_In in I. destruct I as [I X]. apply Nat.eqb_eq in X. cbn in X. subst v'.
      exists d. split; [reflexivity|]. apply dsc_In in I; [|exact Ht|exact H1]. destruct I as (I1 & _ & I2). eapply ZD; eassumption. }
    assert (D2 : forall z, In z (map (fun vd : nat * nat => Some (- Z.of_nat (snd vd))%Z) (filter (fun vd => fst vd =? v) anc)) -> exists d, z = Some (- Z.of_nat d)%Z /\ 0 < d).
    { intros z I. apply in_map_iff in I. destruct I as ([v' d] & <- & I). apply filter_In in I. destruct I as [I X]. apply Nat.eqb_eq in X. cbn in X. subst v'.
      exists d. split; [reflexivity|]. apply anc_In in I; [|exact Ht|exact H2]. destruct I as (I1 & _ & I2). eapply ZD; eassumption. }
    apply NoDup_app_iff'. split; [destruct (v =? tg); constructor; [intros []|constructor]|]. split.
    - apply NoDup_app_iff'. split; [destruct (memb v _); constructor; [intros []|constructor]|]. split.
      + apply NoDup_app_iff'. split; [apply (GEN dsc Z.of_nat); [apply distances_NoDup|intros; lia]|]. split; [apply (GEN anc (fun k => (- Z.of_nat k)%Z)); [apply distances_NoDup|intros; lia]|].
        intros z I1 I2. apply D1 in I1. apply D2 in I2. destruct I1 as (a & -> & La). destruct I2 as (b & Q & Lb). injection Q as Q. lia.
      + intros z I1 I2. assert (z = None) by (destruct (memb v _); cbn in I1; [destruct I1 as [<-|[]]; reflexivity|destruct I1]). subst z.
        apply in_app_iff in I2. destruct I2 as [I2|I2]; [apply D1 in I2|apply D2 in I2]; destruct I2 as (d & D & _); discriminate.
    - intros z I1 I2. assert (z = Some 0%Z) by (destruct (v =? tg); cbn in I1; [destruct I1 as [<-|[]]; reflexivity|destruct I1]). subst z.
      rewrite !in_app_iff in I2. destruct I2 as [I2|[I2|I2]].
      + destruct (memb v _); cbn in I2; [destruct I2 as [D|[]]; discriminate|destruct I2].
      + apply D1 in I2. destruct I2 as (d & D & L). injection D as D. lia.
      + apply D2 in I2. destruct I2 as (d & D & L). injection D as D. lia.
  Qed.
  Lemma h_edges_NoDup : NoDup (h_edges h).
  Proof.
    destruct highlight_inv as (ends & pe & pn & Hn & Ht & HN & H1 & H2 & HK & HPE & _ & _ & _ & _ & HE). rewrite HE.
    assert (PI : forall e, In e (positions n n) -> fst e < n /\ snd e < n) by (intros [i j] I; apply positions_In in I; exact I).
    apply NoDup_flat_map.
    - apply NoDup_filter, NoDup_filter. unfold positions. apply ProofDirect.NoDup_list_prod; apply seq_NoDup.
    - intros e I. apply filter_In in I. destruct I as [I _]. apply filter_In in I. destruct I as [I _]. apply PI in I. apply NoDup_flat_map.
      + apply copies_NoDup. tauto.
      + intros ct _. apply FinFun.Injective_map_NoDup; [intros a b Q; congruence|]. apply copies_NoDup. tauto.
      + intros x y z _ _ I1 I2. apply in_map_iff in I1. apply in_map_iff in I2. destruct I1 as (a & <- & _). destruct I2 as (b & Q & _). congruence.
    - intros [i j] [i' j'] z _ _ I1 I2. apply in_flat_map in I1. apply in_flat_map in I2. destruct I1 as (a & _ & I1). destruct I2 as (b & _ & I2).
      apply in_map_iff in I1. apply in_map_iff in I2. destruct I1 as (a' & <- & _). destruct I2 as (b' & Q & _). cbn in Q. congruence.
  Qed.
  Theorem highlight_edges' : lists_simple_paths asp -> lists_simple_cycles cyc ->
    forall t ct hd ch q p c, In (t, ct, (hd, ch), q, p, c) (h_edges h) <->
      E t hd /\ In ct (h_copies h t) /\ In ch (h_copies h hd) /\ A hd t = Some q /\
      (p = true <-> exists a b rest w, path = PathTuple (a :: b :: rest) /\ dpath E (Z.to_nat a) (Z.to_nat b) w /\ takes w t hd) /\
      (c = true <-> detect = true /\ on_cycle E t hd).
  Proof.
    intros HP HC t ct hd ch q p c. rewrite (highlight_edges HP HC). split; [tauto|]. intros (EE & I1 & I2 & R). split; [exact EE|]. split; [exact I1|]. split; [exact I2|].
    split; [apply R|]. split; [|apply R]. assert (DD : draw_others = true \/ draw_others = false) by (destruct draw_others; auto). destruct DD as [DO|DO]; [auto|]. right.
    destruct highlight_inv as (ends & pe & pn & Hn & Ht & HN & H1 & H2 & _ & _ & _ & HCp & _). rewrite HCp, DO in I1, I2.
    assert (X : forall v z, v < n -> In z (copies dsc anc [] tg v) -> (exists u, E u v \/ E v u) -> ~ In v (oth ++ isolates n A')).
    { intros v z Hv I (u & U) J. apply in_app_iff in J. destruct J as [J|J].
      - apply (oth_In Ht H1 H2) in J. destruct J as (_ & NT & _ & D & Aa). unfold copies in I. cbn [memb existsb app] in I. rewrite !in_app_iff in I. destruct I as [I|[I|I]].
        + destruct (Nat.eqb_spec v tg); [contradiction|destruct I].
        + apply in_map_iff in I. destruct I as ([v' d] & _ & I). apply filter_In in I. destruct I as [I Q]. apply Nat.eqb_eq in Q. cbn in Q. subst v'.
          apply dsc_In in I; [|exact Ht|exact H1]. destruct I as (_ & I3 & I4). exact (D d I3 I4).
        + apply in_map_iff in I. destruct I as ([v' d] & _ & I). apply filter_In in I. destruct I as [I Q]. apply Nat.eqb_eq in Q. cbn in Q. subst v'.
          apply anc_In in I; [|exact Ht|exact H2]. destruct I as (_ & I3 & I4). exact (Aa d I3 I4).
      - apply isolates_In in J. destruct J as [_ J]. destruct (J u). tauto. }
    assert (HT : t < n /\ hd < n) by (unfold E, shown_edge in EE; tauto). split; [apply (X t ct)|apply (X hd ch)]; try tauto; [exists hd|exists t]; auto.
  Qed.
End Highlight.

Theorem C128_clusters : forall asp cyc n A target labels max_dsc max_anc limit others detect path color vm hm h,
  make_dot_highlight asp cyc n A target labels max_dsc max_anc limit others detect path color vm hm = Ok h ->
  let E := shown_edge n A limit in let tg := Z.to_nat target in
  forall v, v < n ->
    (In (Some 0%Z) (h_copies h v) <-> v = tg) /\
    (forall d, 0 < d -> (In (Some (Z.of_nat d)) (h_copies h v) <-> v <> tg /\ up_to max_dsc d /\ distance E tg v d)) /\
    (forall d, 0 < d -> (In (Some (- Z.of_nat d)%Z) (h_copies h v) <-> v <> tg /\ up_to max_anc d /\ distance (reversed E) tg v d)) /\
    (In None (h_copies h v) <-> others = true /\
       ((v <> tg /\ (forall d, up_to max_dsc d -> ~ distance E tg v d) /\ (forall d, up_to max_anc d -> ~ distance (reversed E) tg v d)) \/
        (forall u, ~ E u v /\ ~ E v u))) /\
    NoDup (h_copies h v).
Proof.
  intros asp cyc n A target labels max_dsc max_anc limit others detect path color vm hm h H E tg v Hv.
  destruct (highlight_clusters _ _ _ _ _ _ _ _ _ _ _ _ _ _ _ _ H v Hv) as (H1 & H2 & H3 & H4).
  split; [exact H1|]. split; [exact H2|]. split; [exact H3|]. split; [exact H4|]. eapply copies_NoDup; eassumption.
Qed.
Print Assumptions C128_clusters.
(** Every shown edge is drawn once between every two copies of its ends. *)
Theorem C128_edges : forall asp cyc n A target labels max_dsc max_anc limit others detect path color vm hm h,
  make_dot_highlight asp cyc n A target labels max_dsc max_anc limit others detect path color vm hm = Ok h ->
  lists_simple_paths asp -> lists_simple_cycles cyc ->
  let E := shown_edge n A limit in
  NoDup (h_edges h) /\
  forall t ct hd ch q p c, In (t, ct, (hd, ch), q, p, c) (h_edges h) <->
    E t hd /\ In ct (h_copies h t) /\ In ch (h_copies h hd) /\ A hd t = Some q /\
    (p = true <-> exists a b rest w, path = PathTuple (a :: b :: rest) /\ dpath E (Z.to_nat a) (Z.to_nat b) w /\ takes w t hd) /\
    (c = true <-> detect = true /\ on_cycle E t hd).
Proof.
  intros asp cyc n A target labels max_dsc max_anc limit others detect path color vm hm h H HP HC E. split.
  - eapply h_edges_NoDup; eassumption.
  - eapply highlight_edges'; eassumption.
Qed.
Print Assumptions C128_edges.
(** Descendants are drawn below the target, the further the lower; ancestors above it, the further the higher. *)
Theorem C128_heights : forall asp cyc n A target labels max_dsc max_anc limit others detect path color vm hm h,
  make_dot_highlight asp cyc n A target labels max_dsc max_anc limit others detect path color vm hm = Ok h ->
  forall v w d d', 0 < d -> d < d' ->
    h_height h (Some 0%Z) = 0%Qc /\ h_height h None = 0%Qc /\
    (In (Some (Z.of_nat d)) (h_copies h v) -> (h_height h (Some (Z.of_nat d)) < 0)%Qc /\
       (In (Some (Z.of_nat d')) (h_copies h w) -> (h_height h (Some (Z.of_nat d')) < h_height h (Some (Z.of_nat d)))%Qc)) /\
    (In (Some (- Z.of_nat d)%Z) (h_copies h v) -> (0 < h_height h (Some (- Z.of_nat d)%Z))%Qc /\
       (In (Some (- Z.of_nat d')%Z) (h_copies h w) -> (h_height h (Some (- Z.of_nat d)%Z) < h_height h (Some (- Z.of_nat d')%Z))%Qc)).
Proof. intros. eapply highlight_heights; eassumption. Qed.
Print Assumptions C128_heights.
(** Valid arguments give a drawing. *)
Theorem C128_valid_arguments_partial : forall asp cyc n A target labels max_dsc max_anc limit others detect path vm hm,
  lists_simple_paths asp -> 1 < n -> (forall i j, i < n -> j < n -> A i j <> None) -> (0 <= target < Z.of_nat n)%Z ->
  match labels with Some l => length l = n | None => True end ->
  match max_dsc with Some z => (0 <= z)%Z | None => True end -> match max_anc with Some z => (0 <= z)%Z | None => True end ->
  match path with NoPath => True | PathTuple (a :: b :: _) => (0 <= a < Z.of_nat n)%Z /\ (0 <= b < Z.of_nat n)%Z | _ => False end ->
  (1 <= vm)%Qc -> (1 <= hm)%Qc ->
  exists h, make_dot_highlight asp cyc n A target labels max_dsc max_anc limit others detect path true vm hm = Ok h.
Proof.
  intros asp cyc n A target labels max_dsc max_anc limit others detect path vm hm HP Hn HA Ht HL H1 H2 HPa HV HH. unfold make_dot_highlight.
  destruct (Nat.ltb_spec n 2); [lia|]. cbn [orb]. destruct (existsb _ (positions n n)) eqn:X.
  { exfalso. apply existsb_exists in X. destruct X as ([i j] & I & X). apply positions_In in I. cbn in X. destruct (A i j) eqn:AQ; [discriminate|]. apply (HA i j); tauto. }
  rewrite (proj2 (Z.leb_le 0 target)), (proj2 (Z.ltb_lt target (Z.of_nat n))) by lia. cbn [andb negb].
  assert (L1 : match labels with Some l => negb (length l =? n) | None => false end = false) by (destruct labels; [rewrite HL, Nat.eqb_refl|]; reflexivity). rewrite L1.
  assert (L2 : match max_dsc with Some z => (z <? 0)%Z | None => false end = false) by (destruct max_dsc; [apply Z.ltb_ge; exact H1|reflexivity]). rewrite L2.
  assert (L3 : match max_anc with Some z => (z <? 0)%Z | None => false end = false) by (destruct max_anc; [apply Z.ltb_ge; exact H2|reflexivity]). rewrite L3.
  assert (M : qltb vm 1 || qltb hm 1 = false).
  { apply orb_false_iff. split; match goal with |- ?x = false => destruct x eqn:Q; [|reflexivity] end; apply qltb_lt in Q; exfalso; [apply (Qclt_not_le _ _ Q HV)|apply (Qclt_not_le _ _ Q HH)]. }
  set (G := fun a b => present (limited (fun i j => nan_to_num (A i j)) limit) b a).
  assert (PE : exists ends pe, check_path n path true = Ok ends /\ path_edges asp n G ends = Ok pe /\ forall u v, In (u, v) pe -> u < n /\ v < n).
  { destruct path as [| |[|a [|b rest]]]; try destruct HPa as []; cbn [check_path negb].
    - exists None, []. split; [reflexivity|]. split; [reflexivity|]. intros u v [].
    - rewrite (proj2 (Z.leb_le 0 a)), (proj2 (Z.leb_le 0 b)), (proj2 (Z.leb_le a _)), (proj2 (Z.leb_le b _)) by lia. cbn [andb].
      exists (Some (Z.to_nat a, Z.to_nat b)), (flat_map path_pairs (asp n G (Z.to_nat a) (Z.to_nat b))). split; [reflexivity|].
      cbn [path_edges]. rewrite (proj2 (Nat.ltb_lt (Z.to_nat a) n)), (proj2 (Nat.ltb_lt (Z.to_nat b) n)) by lia. split; [reflexivity|].
      intros u v I. apply (on_path_listed asp n G) in I; [|exact HP|lia|lia]. destruct I as (w & [(_ & _ & _ & W) _] & T). apply (takes_walk _ _ _ _ W) in T. unfold bgraph in T. tauto. }
  destruct PE as (ends & pe & -> & PE & PB). cbn [bind]. rewrite M. fold G. rewrite PE. cbn [bind].
  destruct (mapM_total (get_name match labels with Some l => l | None => map default_name (seq 0 n) end) (uniq (map fst pe ++ map snd pe))) as [pn ->]; [|cbn [bind]; eexists; reflexivity].
  intros x I. rewrite uniq_In in I. assert (Hx : x < n).
  { apply in_app_iff in I. destruct I as [I|I]; apply in_map_iff in I; destruct I as ([u v] & <- & I); apply PB in I; tauto. }
  eexists. apply get_name_ok. split; [|reflexivity]. destruct labels as [l|]; [rewrite HL; exact Hx|]. rewrite map_length, seq_length. exact Hx.
Qed.
Print Assumptions C128_valid_arguments_partial.
(** The documentation promises double-headed arrows for unknown orders; such matrices are refused. *)
Theorem C128_unknown_refuted : forall asp cyc n A target labels max_dsc max_anc limit others detect path color vm hm i j,
  i < n -> j < n -> A i j = None ->
  make_dot_highlight asp cyc n A target labels max_dsc max_anc limit others detect path color vm hm = Err ValueError.
Proof.
  intros asp cyc n A target labels max_dsc max_anc limit others detect path color vm hm i j Hi Hj Q. unfold make_dot_highlight.
  replace (existsb _ (positions n n)) with true; [rewrite orb_true_r; reflexivity|]. symmetry. apply existsb_exists. exists (i, j). split; [apply positions_In; auto|]. cbn. rewrite Q. reflexivity.
Qed.
Print Assumptions C128_unknown_refuted.
(** The nodes of the highlighted path are never highlighted (an index is compared with names). *)
Theorem C128_path_nodes_refuted : forall asp cyc n A target labels max_dsc max_anc limit others detect path color vm hm h,
  make_dot_highlight asp cyc n A target labels max_dsc max_anc limit others detect path color vm hm = Ok h ->
  forall v, h_coloured h v = false.
Proof. intros. eapply highlight_not_coloured; eassumption. Qed.
Print Assumptions C128_path_nodes_refuted.
(** A target without edges is drawn twice when the others are drawn. *)
Theorem C128_isolated_target_refuted : forall asp cyc n A target labels max_dsc max_anc limit detect path color vm hm h,
  make_dot_highlight asp cyc n A target labels max_dsc max_anc limit true detect path color vm hm = Ok h ->
  (forall u, ~ shown_edge n A limit u (Z.to_nat target) /\ ~ shown_edge n A limit (Z.to_nat target) u) ->
  In (Some 0%Z) (h_copies h (Z.to_nat target)) /\ In None (h_copies h (Z.to_nat target)).
Proof.
  intros asp cyc n A target labels max_dsc max_anc limit detect path color vm hm h H I.
  destruct (highlight_inv _ _ _ _ _ _ _ _ _ _ _ _ _ _ _ _ H) as (_ & _ & _ & _ & Ht & _).
  destruct (C128_clusters _ _ _ _ _ _ _ _ _ _ _ _ _ _ _ _ H _ Ht) as (H1 & _ & _ & H4 & _). split; [apply H1; reflexivity|]. apply H4. auto.
Qed.
Print Assumptions C128_isolated_target_refuted.
(** x0 -> x1 -> x2, x0 -> x2, x3 -> x1, x4 isolated; target x1. *)
Definition ex_hl : mat num := fun i j =>
  match i, j with 1, 0 => Some 1%Qc | 2, 1 => Some (qz 2) | 2, 0 => Some (qz 3) | 1, 3 => Some (qz 4) | _, _ => Some 0%Qc end.
Example C128_example :
  match make_dot_highlight brute_paths brute_cycles 5 ex_hl 1 None None None None true true (PathTuple [0; 1]%Z) true (qz 2) (qz 2) with
  | Ok h => map (h_copies h) (seq 0 5) = [[Some (-1)%Z]; [Some 0%Z]; [Some 1%Z]; [Some (-1)%Z]; [None]] /\
            map (fun z => this (h_height h z)) [Some (-1)%Z; Some 0%Z; Some 1%Z; None] = [2#1; 0#1; (-2)#1; 0#1]%Q /\
            map (fun e => let '(t, _, (hd, _), _, p, _) := e in (t, hd, p)) (h_edges h) = [(0, 1, true); (3, 1, false); (0, 2, false); (1, 2, false)]
  | Err _ => False end.
Proof. vm_compute. auto. Qed.

(** ** C129: the printed tables *)
Theorem C129_directions : forall rows n labels out,
  print_directions rows n labels = Ok out ->
  Forall2 (fun r line => let '(fr, to, s, co) := r in let '(t, f, sg, pc) := line in
    (match labels with Some ((_ :: _) as l) => nth_error l to = Some t /\ nth_error l fr = Some f
                     | _ => t = default_name to /\ f = default_name fr end) /\
    (sg = "(b>0)"%string <-> exists z, s = Some z /\ (0 < z)%Z) /\
    (sg = "(b<0)"%string <-> exists z, s = Some z /\ (z <= 0)%Z) /\
    (sg = ""%string <-> s = None) /\
    0 < n /\ (pc * qn n = qn 100 * qn co)%Qc) rows out.
Proof.
  intros rows n labels out H. unfold print_directions in H. apply mapM_ok in H. eapply Forall2_impl; [|exact H]. clear. cbn beta.
  intros [[[fr to] s] co] [[[t f] sg] pc] Q.
  destruct (shown labels to) as [t'|] eqn:E1; [|discriminate]. destruct (shown labels fr) as [f'|] eqn:E2; [|discriminate]. cbn [bind] in Q.
  destruct (Nat.eqb_spec n 0); [discriminate|]. assert (PC : pc = (qn (100 * co) / qn n)%Qc) by congruence. injection Q as <- <- <- _.
  assert (SH : forall i x, shown labels i = Ok x -> match labels with Some ((_ :: _) as l) => nth_error l i = Some x | _ => x = default_name i end).
  { intros i x S. unfold shown, get_name in S. destruct labels as [[|y l]|]; try congruence. destruct (nth_error (y :: l) i); congruence. }
  pose proof (SH _ _ E1). pose proof (SH _ _ E2). split; [destruct labels as [[|y l]|]; auto|].
  unfold sign_text. destruct s as [z|].
  - destruct (Z.ltb_spec 0 z); (split; [|split; [|split; [split; discriminate|]]]).
    + split; [exists z; auto|reflexivity].
    + split; [discriminate|]. intros (z' & [= <-] & L). lia.
    + split; [lia|]. rewrite PC, ProofExper.qn_mult. field. intro Q. apply (ProofTools.qn_inj n 0) in Q. contradiction.
    + split; [discriminate|]. intros (z' & [= <-] & L). lia.
    + split; [exists z; auto|reflexivity].
    + split; [lia|]. rewrite PC, ProofExper.qn_mult. field. intro Q. apply (ProofTools.qn_inj n 0) in Q. contradiction.
  - split; [split; [discriminate|intros (z & D & _); discriminate]|]. split; [split; [discriminate|intros (z & D & _); discriminate]|].
    split; [tauto|]. split; [lia|]. rewrite PC, ProofExper.qn_mult. field. intro Q. apply (ProofTools.qn_inj n 0) in Q. contradiction.
Qed.
Print Assumptions C129_directions.
(** Nothing is printed wrongly for valid labels; a missing label is an IndexError. *)
Theorem C129_errors : forall rows n labels, 0 < n ->
  match labels with
  | Some ((_ :: _) as l) =>
      ((forall fr to s co, In (fr, to, s, co) rows -> fr < length l /\ to < length l) -> exists out, print_directions rows n labels = Ok out) /\
      ((exists fr to s co, In (fr, to, s, co) rows /\ (length l <= fr \/ length l <= to)) -> print_directions rows n labels = Err IndexError)
  | _ => exists out, print_directions rows n labels = Ok out
  end.
Proof.
  intros rows n labels Hn. assert (N0 : n =? 0 = false) by (apply Nat.eqb_neq; lia).
  assert (NL : (forall i, shown labels i = Ok (default_name i)) -> exists out, print_directions rows n labels = Ok out).
  { intro D. unfold print_directions. apply mapM_total. intros [[[fr to] s] co] _. rewrite !D, N0. cbn. eexists. reflexivity. }
  destruct labels as [[|y l]|]; [apply NL; reflexivity| |apply NL; reflexivity]. split.
  - intro V. unfold print_directions. apply mapM_total. intros [[[fr to] s] co] I. destruct (V _ _ _ _ I) as [V1 V2]. cbn [shown].
    rewrite (proj2 (get_name_ok (y :: l) to _) (conj V2 eq_refl)), (proj2 (get_name_ok (y :: l) fr _) (conj V1 eq_refl)). cbn [bind]. rewrite N0. eexists. reflexivity.
  - clear NL. intros (fr & to & s & co & I & V). unfold print_directions. induction rows as [|r rows IH]; [destruct I|]. cbn [mapM].
    assert (GE : forall i e, get_name (y :: l) i = Err e -> e = IndexError) by (intros i e; unfold get_name; destruct (nth_error (y :: l) i); congruence).
    destruct r as [[[fr' to'] s'] co']. cbn [shown] in *. destruct I as [I|I].
    + injection I as -> -> -> ->. destruct (get_name (y :: l) to) as [t|e] eqn:G1; cbn [bind]; [|rewrite (GE _ _ G1); reflexivity].
      destruct (get_name (y :: l) fr) as [f|e] eqn:G2; cbn [bind]; [|rewrite (GE _ _ G2); reflexivity].
      exfalso. unfold get_name in G1, G2. destruct V as [V|V]; apply nth_error_None in V; rewrite V in *; discriminate.
    + specialize (IH I). destruct (get_name (y :: l) to') as [t|e] eqn:G1; cbn [bind]; [|rewrite (GE _ _ G1); reflexivity].
      destruct (get_name (y :: l) fr') as [f|e] eqn:G2; cbn [bind]; [|rewrite (GE _ _ G2); reflexivity]. rewrite N0 in IH |- *. cbn [bind]. rewrite IH. reflexivity.
Qed.
Print Assumptions C129_errors.
Theorem C129_dags : forall dags n labels out,
  print_dagc dags n labels = Ok out ->
  Forall2 (fun d block => (0 < n /\ (fst block * qn n = qn 100 * qn (snd d))%Qc) /\
    Forall2 (fun r line => let '(fr, to, s) := r in let '(t, f, sg) := line in
      (match labels with Some ((_ :: _) as l) => nth_error l to = Some t /\ nth_error l fr = Some f
                       | _ => t = default_name to /\ f = default_name fr end) /\
      (sg = "(b>0)"%string <-> exists z, s = Some z /\ (0 < z)%Z) /\
      (sg = "(b<0)"%string <-> exists z, s = Some z /\ (z <= 0)%Z) /\
      (sg = ""%string <-> s = None)) (fst d) (snd block)) dags out.
Proof.
  intros dags n labels out H. unfold print_dagc in H. apply mapM_ok in H. eapply Forall2_impl; [|exact H]. clear. cbn beta. intros d [pc es] Q.
  destruct (Nat.eqb_spec n 0) as [|N0]; [discriminate|]. match type of Q with bind ?x _ = _ => destruct x as [es'|] eqn:M; [|discriminate] end. cbn [bind] in Q. assert (PC : pc = (qn (100 * snd d) / qn n)%Qc) by congruence. injection Q as _ <-.
  cbn [fst snd]. split; [split; [lia|]; rewrite PC, ProofExper.qn_mult; field; intro Q; apply (ProofTools.qn_inj n 0) in Q; contradiction|].
  apply mapM_ok in M. eapply Forall2_impl; [|exact M]. clear. cbn beta. intros [[fr to] s] [[t f] sg] Q.
  destruct (shown labels to) as [t'|] eqn:E1; [|discriminate]. destruct (shown labels fr) as [f'|] eqn:E2; [|discriminate]. cbn [bind] in Q. injection Q as <- <- <-.
  assert (SH : forall i x, shown labels i = Ok x -> match labels with Some ((_ :: _) as l) => nth_error l i = Some x | _ => x = default_name i end).
  { intros i x S. unfold shown, get_name in S. destruct labels as [[|y l]|]; try congruence. destruct (nth_error (y :: l) i); congruence. }
  pose proof (SH _ _ E1). pose proof (SH _ _ E2). split; [destruct labels as [[|y l]|]; auto|].
  unfold sign_text. destruct s as [z|].
  - destruct (Z.ltb_spec 0 z); (split; [|split; [|split; discriminate]]).
    + split; [exists z; auto|reflexivity].
    + split; [discriminate|]. intros (z' & [= <-] & L). lia.
    + split; [discriminate|]. intros (z' & [= <-] & L). lia.
    + split; [exists z; auto|reflexivity].
  - split; [split; [discriminate|intros (z & D & _); discriminate]|]. split; [split; [discriminate|intros (z & D & _); discriminate]|]. tauto.
Qed.
Print Assumptions C129_dags.
Example C129_example :
  match print_directions [(0, 1, Some 1%Z, 8); (12, 1, Some (-1)%Z, 2)] 10 None with
  | Ok out => map (fun l => let '(t, f, s, p) := l in (t, f, s, this p)) out = [("x1", "x0", "(b>0)", 80#1); ("x1", "x12", "(b<0)", 20#1)]%string%Q
  | Err _ => False end /\
  print_directions [(0, 1, None, 8); (2, 1, None, 2)] 10 (Some ["a"; "b"]%string) = Err IndexError /\
  match print_dagc [([(0, 1, None); (1, 2, None)], 3)] 4 (Some ["a"; "b"; "c"]%string) with
  | Ok out => map (fun b => (this (fst b), snd b)) out = [(75#1, [("b", "a", ""); ("c", "b", "")])]%string%Q
  | Err _ => False end.
Proof. vm_compute. auto. Qed.
