(** * Proofs for the queries on fitted models *)
From Coq Require Import List Arith Lia Bool QArith Qcanon Permutation.
From Verif Require Import Prelude Spec SpecPop Lib LibMat ModelDirect ProofDirect2 ModelParce ModelPaths SpecPaths ProofPaths ProofTotal
  ModelTotal ProofPop ProofPop2 ProofPop3 ModelQuery.
Import ListNotations.
Open Scope nat_scope.

Lemma row_has_nan_iff : forall n A i, row_has_nan n A i = true <-> exists j, j < n /\ A i j = None.
Proof.
  intros n A i. unfold row_has_nan. rewrite existsb_exists. split.
  - intros (j & I & E). apply in_seq in I. exists j. split; [lia|]. destruct (A i j); [discriminate|reflexivity].
  - intros (j & L & E). exists j. split; [apply in_seq; lia|]. rewrite E. reflexivity.
Qed.

Lemma predictors_effect : forall N n B e x A T ols from to_, linear_model N n B e x -> exact_regression N n x ols ->
  total_effects n B T -> from < n -> to_ < n -> (forall j, j < n -> exists w, A from j = Some w /\ (w = 0%Qc <-> B from j = 0%Qc)) ->
  ols (effect_predictors n A from) to_ from = Some (T to_ from).
Proof.
  intros N n B e x A T ols f t LM REG HT Hf Ht HA.
  destruct (topo_exists (edge_of n B) n) as (K & OK & TK).
  { intros a b. unfold edge_of. destruct (lt_dec b n); [|right; tauto]. destruct (lt_dec a n); [|right; tauto].
    destruct (Qc_eq_dec (B b a) 0%Qc); [right; tauto|left; tauto]. }
  { exact (lm_acyclic N n B e x LM). }
  assert (TK' : topological (edge_of n B) K) by (intros a b E; apply TK; [apply E|apply E|exact E]).
  destruct (base_total_correct N n B e x K A T ols f t LM OK TK') as (w & E & _); try assumption.
  - intros j Hj Nz. apply TK'. split; [exact Hf|]. split; [exact Hj|]. intro Z. destruct (HA j Hj) as (v & Ev & Iv). apply Nz. rewrite Ev. f_equal. apply Iv. exact Z.
  - intros j Hj Nz. destruct (HA j Hj) as (v & Ev & Iv). rewrite Ev. split; [|discriminate]. intro Z. injection Z as ->. apply Nz. apply Iv. reflexivity.
  - unfold base_total_effect in E. destruct (index_of f K), (index_of t K); try discriminate. unfold effect_predictors.
    assert (Q : forall (a b : num) (u v : bool), Ok (a, u) = Ok (b, v) -> a = b) by (intros; congruence). apply (Q _ _ _ _ E).
Qed.

Lemma item_pos_iff : forall v order p, item_pos v order = Some p ->
  exists l it r, order = l ++ it :: r /\ length l = p /\ In v (flatten [it]) /\ ~ In v (flatten l).
Proof.
  intros v order. induction order as [|it r IH]; intros p H; [discriminate|]. cbn [item_pos] in H.
  assert (IT : (match it with Single w => v =? w | Block l => memb v l end) = true <-> In v (flatten [it])).
  { unfold flatten. cbn [flat_map]. rewrite app_nil_r. destruct it as [w|l].
    - rewrite Nat.eqb_eq. cbn. intuition.
    - apply memb_In. }
  destruct (match it with Single w => v =? w | Block l => memb v l end).
  - injection H as <-. exists [], it, r. repeat split; [apply IT; reflexivity|cbn; tauto].
  - destruct (item_pos v r) as [q|]; [|discriminate]. injection H as <-. destruct (IH q eq_refl) as (l & it' & r' & -> & L & I & NI).
    exists (it :: l), it', r'. split; [reflexivity|]. split; [cbn; lia|]. split; [exact I|].
    unfold flatten in *. cbn [flat_map] in *. rewrite app_nil_r in IT. intro J. apply in_app_iff in J. destruct J as [J|J]; [|apply NI; exact J].
    apply IT in J. discriminate.
Qed.
Lemma item_pos_none : forall v order, item_pos v order = None <-> ~ In v (flatten order).
Proof.
  intros v order. induction order as [|it r IH]; [cbn; tauto|]. cbn [item_pos].
  assert (IT : (match it with Single w => v =? w | Block l => memb v l end) = true <-> In v (flatten [it])).
  { unfold flatten. cbn [flat_map]. rewrite app_nil_r. destruct it as [w|l].
    - rewrite Nat.eqb_eq. cbn. intuition.
    - apply memb_In. }
  change (flatten (it :: r)) with (flatten ([it] ++ r)). unfold flatten in *. rewrite flat_map_app, in_app_iff.
  destruct (match it with Single w => v =? w | Block l => memb v l end).
  - split; [discriminate|]. intro H. exfalso. apply H. left. apply IT. reflexivity.
  - destruct (item_pos v r) as [q|]; cbn [option_map].
    + split; [discriminate|]. intro H. exfalso. assert (Some q = None) by (apply IH; tauto). discriminate.
    + split; [|reflexivity]. intros _ [H|H]; [apply IT in H; discriminate|]. apply (proj1 IH eq_refl). exact H.
Qed.

(** [a]'s item comes before [b]'s *)
Lemma item_pos_lt : forall a b order p q, NoDup (flatten order) -> item_pos a order = Some p -> item_pos b order = Some q ->
  (p < q <-> exists l r, order = l ++ r /\ In a (flatten l) /\ In b (flatten r)).
Proof.
  intros a b order p q ND Ha Hb. apply item_pos_iff in Ha. apply item_pos_iff in Hb.
  destruct Ha as (la & ia & ra & Ea & La & Ia & Na). destruct Hb as (lb & ib & rb & Eb & Lb & Ib & Nb). split.
  - intro L. exists lb, (ib :: rb). split; [exact Eb|]. split.
    + assert (order = firstn q order ++ skipn q order) as _ by (symmetry; apply firstn_skipn).
      assert (lb = firstn q order) as ->. { rewrite Eb, <- Lb. rewrite firstn_app, firstn_all, Nat.sub_diag. cbn. symmetry. apply app_nil_r. }
      assert (In ia (firstn q order)).
      { rewrite Ea. rewrite firstn_app. apply in_app_iff. right. destruct (q - length la) eqn:D; [lia|]. left. reflexivity. }
      unfold flatten in *. apply in_flat_map. exists ia. split; [assumption|]. cbn [flat_map] in Ia. rewrite app_nil_r in Ia. exact Ia.
    + unfold flatten in *. cbn [flat_map] in *. rewrite app_nil_r in Ib. apply in_app_iff. left. exact Ib.
  - intros (l & r & E & Al & Br).
    destruct (le_lt_dec q p) as [L|L]; [|exact L]. exfalso.
    (* a in l means p < length l; b in r means q >= length l *)
    assert (P : p < length l).
    { destruct (lt_dec p (length l)) as [Q|Q]; [exact Q|]. exfalso. apply Na.
      assert (la = firstn p order) as ->. { rewrite Ea, <- La. rewrite firstn_app, firstn_all, Nat.sub_diag. cbn. symmetry. apply app_nil_r. }
      rewrite E. rewrite firstn_app. rewrite (firstn_all2 l) by lia. unfold flatten. rewrite flat_map_app. apply in_app_iff. left. exact Al. }
    assert (In ib l).
    { assert (X : nth_error order q = Some ib). { rewrite Eb, nth_error_app2 by lia. rewrite Lb, Nat.sub_diag. reflexivity. }
      rewrite E, nth_error_app1 in X by lia. apply nth_error_In in X. exact X. }
    assert (In b (flatten l)).
    { unfold flatten in *. apply in_flat_map. exists ib. split; [assumption|]. cbn [flat_map] in Ib. rewrite app_nil_r in Ib. exact Ib. }
    rewrite E in ND. unfold flatten in ND. rewrite flat_map_app in ND. apply NoDup_app_iff' in ND. destruct ND as (_ & _ & D). exact (D b H0 Br).
Qed.

Lemma nsum_products : forall (A : mat num) (B : mat Qc) (x : nat -> sample) i r l, (forall j, In j l -> A i j = Some (B i j)) ->
  nsum (map (fun j => nmul (A i j) (Some (x j r))) l) = Some (sumf l (fun j => B i j * x j r)%Qc).
Proof.
  intros A B x i r l. induction l as [|j l IH]; intro H; [reflexivity|].
  cbn [map nsum fold_right]. change (fold_right nadd (Some 0%Qc) (map (fun j => nmul (A i j) (Some (x j r))) l)) with (nsum (map (fun j => nmul (A i j) (Some (x j r))) l)).
  rewrite IH by (intros k I; apply H; right; exact I). rewrite (H j (or_introl eq_refl)), sumf_cons. reflexivity.
Qed.
Lemma error_col_exact : forall N n B e x (A : mat num), linear_model N n B e x -> (forall i j, i < n -> j < n -> A i j = Some (B i j)) ->
  forall i r, i < n -> r < N -> error_col n A x i r = Some (e i r).
Proof.
  intros N n B e x A LM HA i r Hi Hr. unfold error_col.
  rewrite (nsum_products A B) by (intros j I; apply in_seq in I; apply HA; lia).
  cbn. f_equal. rewrite (lm_equation N n B e x LM i r Hi Hr) at 1. unfold sumn. ring.
Qed.
Lemma var_error_col_exact : forall N n B e x (A : mat num), linear_model N n B e x -> (forall i j, i < n -> j < n -> A i j = Some (B i j)) ->
  forall i r, i < n -> r < N -> var_error_col n A x i r = Some (e i r).
Proof.
  intros N n B e x A LM HA i r Hi Hr. unfold var_error_col.
  rewrite (nsum_products (fun i j => nsub (Some (if i =? j then 1 else 0)%Qc) (A i j)) (msub midn B)).
  - f_equal. change (sumn n (fun j => msub midn B i j * x j r)%Qc = e i r).
    rewrite (sumn_ext n _ (fun j => midn i j * x j r - B i j * x j r)%Qc) by (intros j _; unfold msub; ring).
    rewrite sumn_minus. unfold midn. rewrite (sumn_ext n _ (fun j => if i =? j then x j r else 0%Qc)) by (intros j _; destruct (i =? j); ring).
    rewrite (sumn_single n _ i Hi) by (intros j _ D; apply not_eq_sym, Nat.eqb_neq in D; rewrite D; reflexivity).
    rewrite Nat.eqb_refl. rewrite (lm_equation N n B e x LM i r Hi Hr) at 1. ring.
  - intros j I. apply in_seq in I. rewrite HA by lia. unfold msub, midn. cbn. destruct (i =? j); f_equal; ring.
Qed.

Lemma nan_cols_In : forall n A v, In v (nan_cols n A) <-> exists i j, i < n /\ j < n /\ A i j = None /\ (v = i \/ v = j).
Proof.
  intros n A v. unfold nan_cols. rewrite in_flat_map. split.
  - intros ([i j] & I & H). apply in_prod_iff in I. destruct I as [I1 I2]. apply in_seq in I1. apply in_seq in I2. cbn [fst snd] in H.
    exists i, j. destruct (A i j); [destruct H|]. cbn in H. split; [lia|]. split; [lia|]. split; [reflexivity|]. intuition.
  - intros (i & j & Hi & Hj & E & V). exists (i, j). split; [apply in_prod; apply in_seq; lia|]. cbn [fst snd]. rewrite E. cbn. intuition.
Qed.

(** ** MultiGroupDirectLiNGAM *)
Definition mgd_pairs (K : list nat) : list (nat * nat) :=
  flat_map (fun c => map (fun t => (nth c K 0, t)) (skipn (S c) K)) (seq 0 (length K)).
Lemma mgd_pairs_In : forall K a b, In (a, b) (mgd_pairs K) <-> precedes K a b.
Proof.
  intros K a b. unfold mgd_pairs. rewrite in_flat_map. split.
  - intros (c & I & H). apply in_seq in I. apply in_map_iff in H. destruct H as (t & E & H). injection E as <- <-.
    assert (D : K = firstn c K ++ nth c K 0 :: skipn (S c) K).
    { assert (X : nth_error K c = Some (nth c K 0)) by (apply nth_error_nth'; lia).
      clear - X. revert c X. induction K as [|k K IH]; intros [|c] X; try discriminate; cbn in *; [reflexivity|]. f_equal. apply IH. exact X. }
    apply in_split in H. destruct H as (l2 & l3 & H). exists (firstn c K), l2, l3. rewrite <- H. exact D.
  - intros (l1 & l2 & l3 & ->). exists (length l1). split; [apply in_seq; rewrite app_length; cbn; lia|].
    apply in_map_iff. exists b. rewrite app_nth2, Nat.sub_diag by lia. split; [reflexivity|].
    replace (skipn (S (length l1)) (l1 ++ a :: l2 ++ b :: l3)) with (l2 ++ b :: l3).
    + apply in_app_iff. right. left. reflexivity.
    + rewrite skipn_app. rewrite skipn_all2 by lia. replace (S (length l1) - length l1) with 1 by lia. reflexivity.
Qed.
Lemma all_results_map : forall {A B} (f : A -> result B) (g : A -> B) l, (forall a, In a l -> f a = Ok (g a)) -> all_results (map f l) = Ok (map g l).
Proof.
  intros A B f g l. induction l as [|a l IH]; intro H; [reflexivity|]. cbn [map all_results]. rewrite (H a (or_introl eq_refl)). cbn [bind].
  rewrite IH by (intros; apply H; right; assumption). reflexivity.
Qed.
Lemma mgd_effect2_ok : forall n K ams from to_, 2 <= n -> is_order n K -> from < n -> to_ < n -> from <> to_ ->
  (forall A, In A ams -> acyclic (edge_of n (denan A))) ->
  exists w, mgd_estimate_total_effect2 n K ams from to_ = Ok (map (fun A => Some (neumann n (denan A) to_ from)) ams, w) /\
    (w = true <-> precedes K to_ from).
Proof.
  intros n K ams f t Hn OK Hf Ht D AC.
  assert (NDK : NoDup K) by (apply (Permutation_NoDup (Permutation_sym OK)), seq_NoDup).
  assert (IK : forall i, i < n -> In i K) by (intros i Hi; apply (Permutation_in _ (Permutation_sym OK)), in_seq; lia).
  unfold mgd_estimate_total_effect2.
  destruct (index_of f K) as [a|] eqn:Ea; [|apply index_of_none in Ea; contradiction (Ea (IK f Hf))].
  destruct (index_of t K) as [b|] eqn:Eb; [|apply index_of_none in Eb; contradiction (Eb (IK t Ht))].
  rewrite (all_results_map _ (fun A => Some (neumann n (denan A) t f))).
  - cbn [bind]. exists (b <? a). split; [reflexivity|].
    pose proof (index_of_some f K a Ea) as Na. pose proof (index_of_some t K b Eb) as Nb.
    rewrite Nat.ltb_lt. split; intro H.
    + apply precedes_nth. exists b, a. split; [exact H|]. split; assumption.
    + apply precedes_nth in H. destruct H as (i & j & L & Hi & Hj).
      assert (i = b) by (eapply NoDup_nth_inj; eassumption). assert (j = a) by (eapply NoDup_nth_inj; eassumption). lia.
  - intros A I. apply total_effect_neumann; auto.
Qed.
Lemma mgd_boot_fold : forall n K ams d, 2 <= n -> is_order n K -> (forall A, In A ams -> acyclic (edge_of n (denan A))) ->
  forall A, nth_error ams d = Some A ->
  forall ps, (forall a b, In (a, b) ps -> precedes K a b) -> forall m,
  exists te, fold_left (fun acc p => let* m := acc in
               let* r := mgd_estimate_total_effect2 n K ams (fst p) (snd p) in
               Ok (if d <? length (fst r) then upd2 m (snd p) (fst p) (nth d (fst r) None) else m)) ps (Ok m) = Ok te /\
    forall i j, (In (j, i) ps -> te i j = Some (neumann n (denan A) i j)) /\ (~ In (j, i) ps -> te i j = m i j).
Proof.
  intros n K ams d Hn OK AC A EA ps. 
  assert (NDK : NoDup K) by (apply (Permutation_NoDup (Permutation_sym OK)), seq_NoDup).
  assert (IK : forall i, In i K -> i < n) by (intros i Hi; apply (Permutation_in _ OK) in Hi; apply in_seq in Hi; lia).
  induction ps as [|[f t] ps IH]; intros HP m.
  - exists m. split; [reflexivity|]. intros i j. split; [intros []|reflexivity].
  - cbn [fold_left bind fst snd].
    assert (P := HP f t (or_introl eq_refl)). destruct (precedes_In K f t P) as [If It].
    assert (D : f <> t) by (intros ->; exact (precedes_irrefl K t NDK P)).
    destruct (mgd_effect2_ok n K ams f t Hn OK (IK f If) (IK t It) D AC) as (w & Ew & _). rewrite Ew. cbn [bind fst snd].
    assert (L : d < length ams) by (apply nth_error_Some; congruence).
    rewrite map_length. apply Nat.ltb_lt in L. rewrite L.
    match goal with |- context [upd2 m t f ?x] => assert (NV : x = Some (neumann n (denan A) t f)) end.
    { apply (nth_error_nth (A:=num)). apply (map_nth_error (fun A => Some (neumann n (denan A) t f)) d ams EA). }
    rewrite NV. destruct (IH ltac:(intros a b I; apply HP; right; exact I) (upd2 m t f (Some (neumann n (denan A) t f)))) as (te & Ete & T).
    exists te. split; [exact Ete|]. intros i j. destruct (T i j) as [T1 T2].
    destruct (in_dec (fun p q : nat * nat => ltac:(decide equality; apply Nat.eq_dec) : {p = q} + {p <> q}) (j, i) ps) as [I|I].
    + split; [intros _; apply T1; exact I|intro X; exfalso; apply X; right; exact I].
    + rewrite (T2 I). unfold upd2. split.
      * intros [E|X]; [|contradiction]. injection E as -> ->. rewrite !Nat.eqb_refl. reflexivity.
      * intro X. destruct (Nat.eqb_spec i t) as [->|]; [|reflexivity]. destruct (Nat.eqb_spec j f) as [->|]; [|reflexivity]. exfalso. apply X. left. reflexivity.
Qed.
