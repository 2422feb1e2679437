(** * Further theorems added after tests with wrong programs (see seeded/LOG.jsonl): C138, C203, C204 *)
From Coq Require Import List Arith Lia Bool ZArith QArith Qcanon String Relations.
From Verif Require Import Prelude Spec Lib LibMat ModelOrder ModelSim ProofSim ModelSimNames ModelSimCheck SpecSimCheck ModelLina.
From Verif Require Props_Sim Props_SimNames Props_SimCheck ProofBootstrap2.
Import ListNotations.
Open Scope nat_scope.

Lemma dot_sum : forall c l, List.length l = List.length c -> ModelSimCheck.dot c l = sumn (List.length c) (fun k => nth k c 0%Qc * nth k l 0%Qc)%Qc.
Proof.
  induction c as [|x c IH]; intros [|y l] H; try discriminate; [reflexivity|]. injection H as H.
  change (ModelSimCheck.dot (x :: c) (y :: l)) with (x * y + ModelSimCheck.dot c l)%Qc. rewrite (IH l H). unfold sumn, sumf.
  change (seq 0 (List.length (x :: c))) with (0 :: seq 1 (List.length c)). rewrite <- seq_shift. cbn [map nth]. rewrite map_map. reflexivity.
Qed.
(** ** C203: the model made from coefficients is their linear combination (without intercept), for discrete variables its sign. *)
Theorem C203_coefficients : forall c R r, List.length (nth r R []) = List.length c ->
  let s := sumn (List.length c) (fun k => nth k c 0%Qc * nth k (nth r R []) 0%Qc)%Qc in
  coef_predictor c R r = s /\ coef_classifier c R r = (if qltb s 0%Qc then 0%Qc else 1%Qc) /\ forall b, linear_predictor c b R r = (s + b)%Qc.
Proof.
  intros c R r H s. assert (E : ModelSimCheck.dot c (nth r R []) = s).
  { apply dot_sum. exact H. }
  unfold coef_predictor, coef_classifier, linear_predictor. rewrite E. repeat split. destruct (qleb 0 s) eqn:L; destruct (qltb s 0) eqn:G; try reflexivity; exfalso.
  - apply qleb_le in L. apply qltb_lt in G. apply (Qclt_not_le _ _ G L).
  - apply qltb_nlt in G. apply qleb_le in G. congruence.
Qed.
Print Assumptions C203_coefficients.
Example C203_coefficients_example : coef_predictor [qz 2; qz 3] [[qz 5; qz 7]] 0 = qz 31 /\ coef_classifier [qz 2; qz (-3)] [[qz 5; qz 7]] 0 = 0%Qc.
Proof. split; reflexivity. Qed.

(** ** C204: training with one matrix per lag *)
Definition text_labels (f : frame) : Prop := match f with Frame ls => forall l, In l ls -> exists s, l = LStr s | Array _ => True end.
Lemma suffixes_text : forall suf ls, (forall l, In l ls -> exists s, l = LStr s) -> exists r, add_suffixes suf ls = Ok r /\ List.length r = List.length ls.
Proof.
  intros suf ls. induction ls as [|l ls IH]; intro H; [exists []; split; reflexivity|]. cbn [add_suffixes]. destruct (H l (or_introl eq_refl)) as [s ->]. cbn [add_suffix bind].
  destruct IH as (r & -> & L); [intros l' Hl'; apply H; right; exact Hl'|]. cbn [bind]. eexists. split; [reflexivity|]. cbn. rewrite L. reflexivity.
Qed.
Lemma names_text : forall f L, text_labels f -> exists r, ts_names f L = Ok r /\ List.length r = S L * width f.
Proof.
  intros f L HT. unfold ts_names. set (ls := match f with Frame ls => ls | Array p => map (fun i => LStr (decimal i)) (seq 0 p) end).
  assert (H : (forall l, In l ls -> exists s, l = LStr s) /\ List.length ls = width f).
  { subst ls. destruct f as [ls|p]; [split; [exact HT|reflexivity]|]. split; [intros l Hl; apply in_map_iff in Hl; destruct Hl as (i & <- & _); eexists; reflexivity|cbn; rewrite map_length, seq_length; reflexivity]. }
  destruct H as [H HL]. rewrite <- HL. assert (G : forall lags, exists r, lagged_names ls lags = Ok r /\ List.length r = List.length lags * List.length ls).
  { induction lags as [|i lags IH]; [exists []; split; reflexivity|]. cbn [lagged_names]. destruct (suffixes_text (lag_suffix i) ls H) as (a & -> & La). cbn [bind]. destruct IH as (b & -> & Lb). cbn [bind]. eexists. split; [reflexivity|]. rewrite app_length. cbn. lia. }
  destruct (G (seq 0 (S L))) as (r & E & Lr). exists r. split; [exact E|]. rewrite Lr, seq_length. reflexivity.
Qed.
Lemma series_acyclic : forall N p L X (B : nat -> mat Qc) d, (exists im, ts_impl N p L X B d = Ok im) <-> acyclic (edge_of p (B 0)).
Proof.
  intros N p L X B d. transitivity (exists im, plain_impl N (p * (L + 1)) X (ts_graph p B) d = Ok im).
  { unfold ts_impl, plain_impl. destruct (ica_search (p * (L + 1)) (fun i j => Some (ts_graph p B i j))); split; intros [im H]; try discriminate; eexists; reflexivity. }
  rewrite Props_Sim.C52_train_accepts.
  assert (IN : forall u w, edge_of (p * (L + 1)) (ts_graph p B) u w -> w < p).
  { intros u w (_ & _ & H). unfold ts_graph in H. destruct (Nat.ltb_spec w p); [assumption|congruence]. }
  assert (ST : forall u w, u < p -> edge_of (p * (L + 1)) (ts_graph p B) u w -> edge_of p (B 0) u w).
  { intros u w Hu E. pose proof (IN u w E) as Hw. destruct E as (_ & _ & H). unfold ts_graph in H. rewrite (proj2 (Nat.ltb_lt w p) Hw), Nat.div_small, Nat.mod_small in H by exact Hu. split; [exact Hw|split; [exact Hu|exact H]]. }
  split; intro A.
  - apply (acyclic_sub _ (edge_of (p * (L + 1)) (ts_graph p B))); [|exact A]. intros u w (Hw & Hu & H). split; [nia|]. split; [nia|]. unfold ts_graph. rewrite (proj2 (Nat.ltb_lt w p) Hw), Nat.div_small, Nat.mod_small by exact Hu. exact H.
  - assert (T : forall u w, clos_trans nat (edge_of (p * (L + 1)) (ts_graph p B)) u w -> w < p /\ (u < p -> clos_trans nat (edge_of p (B 0)) u w)).
    { intros u w H. induction H as [u w H|u m w _ [M1 M2] _ [W1 W2]]; [split; [apply (IN u w H)|intro Hu; apply t_step; apply ST; assumption]|].
      split; [exact W1|]. intro Hu. apply (t_trans _ _ u m w); [apply M2; exact Hu|apply W2; exact M1]. }
    intros v H. destruct (T v v H) as [Hv HC]. apply (A v). apply HC. exact Hv.
Qed.
(** Training with a list of matrices (all variables continuous, default models, text labels) succeeds exactly for VARLiNGAM, matrices of the
    right size without open entries, and an acyclic matrix of lag 0; otherwise ValueError (TypeError if the algorithm is not given as text). *)
Theorem C204_train_series : forall self a f N X L p (B : nat -> mat num), text_labels f ->
  let outcome := snd (train_call self a f N X (Lagged L p B) NoFlags DNone) in
  (outcome = Ok tt <-> a = AlgoName "VARLiNGAM" /\ p = width f /\ (forall l i j, l <= L -> i < p -> j < p -> B l i j <> None) /\
     acyclic (fun j i => i < p /\ j < p /\ exists q, B 0 i j = Some q /\ q <> 0%Qc)) /\
  (outcome = Ok tt \/ outcome = Err (match a with AlgoNotText => TypeError | _ => ValueError end)).
Proof.
  intros self a f N X L p B HT outcome. unfold outcome, train_call. clear outcome.
  destruct a as [| |x]; cbn [dispatch bind make_handler snd].
  - split; [split; [discriminate|intros (H & _); discriminate]|right; reflexivity].
  - split; [split; [discriminate|intros (H & _); discriminate]|right; reflexivity].
  - destruct (String.eqb_spec x "DirectLiNGAM") as [->|D1]; [cbn; split; [split; [discriminate|intros (H & _); discriminate]|right; reflexivity]|].
    destruct (String.eqb_spec x "ICALiNGAM") as [->|D2]; [cbn; split; [split; [discriminate|intros (H & _); discriminate]|right; reflexivity]|].
    destruct (String.eqb_spec x "BottomUpParceLiNGAM") as [->|D3]; [cbn; split; [split; [discriminate|intros (H & _); discriminate]|right; reflexivity]|].
    destruct (String.eqb_spec x "VARLiNGAM") as [->|D4]; [|cbn; split; [split; [discriminate|intros (H & _); congruence]|right; reflexivity]].
    cbn [bind make_handler]. destruct (Nat.eqb_spec p (width f)) as [Ep|Ep]; cbn [andb]; [|split; [split; [discriminate|intros (_ & H & _); contradiction]|right; reflexivity]].
    destruct (forallb (fun l => no_nan p (B l)) (seq 0 (S L))) eqn:EN.
    2:{ cbn. split; [|right; reflexivity]. split; [discriminate|]. intros (_ & _ & H & _). exfalso. rewrite <- Bool.not_true_iff_false in EN. apply EN. apply forallb_forall. intros l Hl. apply in_seq in Hl.
        apply Props_SimCheck.no_nan_iff. intros i j. apply H. lia. }
    assert (HN : forall l i j, l <= L -> i < p -> j < p -> B l i j <> None).
    { intros l i j Hl. rewrite forallb_forall in EN. apply Props_SimCheck.no_nan_iff. apply EN. apply in_seq. lia. }
    unfold ts_simulator. destruct (names_text f L HT) as (names & -> & Ln). cbn [bind]. unfold ts_discrete, by_mask. rewrite Props_SimNames.repeat_list_length, repeat_length, Ln, Ep, Nat.eqb_refl. cbn [bind].
    pose proof (series_acyclic N (width f) L X (fun l => fill (B l)) (fun _ => false)) as SA.
    assert (EQ : acyclic (edge_of (width f) (fill (B 0))) <-> acyclic (fun j i => i < width f /\ j < width f /\ exists q, B 0 i j = Some q /\ q <> 0%Qc)).
    { split; apply acyclic_sub; intros u v.
      - intros (H1 & H2 & q & E & H3). split; [exact H1|split; [exact H2|]]. unfold fill. rewrite E. exact H3.
      - intros (H1 & H2 & H3). unfold fill in H3. destruct (B 0 v u) as [q|] eqn:E; [|congruence]. split; [exact H1|split; [exact H2|]]. exists q. split; [reflexivity|exact H3]. }
    destruct (ts_impl N (width f) L X (fun l => fill (B l)) (fun _ => false)) as [im|e] eqn:EI; cbn [bind check_models check_dict snd].
    + split; [|left; reflexivity]. split; [intros _|reflexivity]. split; [reflexivity|]. split; [reflexivity|]. split; [rewrite <- Ep; exact HN|]. apply EQ, SA. exists im. reflexivity.
    + assert (e = ValueError) as -> by (unfold ts_impl in EI; destruct (ica_search _ _); congruence). split; [|right; reflexivity]. split; [discriminate|]. intros (_ & _ & _ & A). apply EQ, SA in A. destruct A as [im A]. discriminate.
Qed.
Print Assumptions C204_train_series.
Example C204_train_series_example : let X := fun t v : nat => qn (t + v) in let B := fun l i j : nat => if (l =? 0) && (i =? 1) && (j =? 0) then Some 1%Qc else if l =? 1 then Some 1%Qc else Some 0%Qc in
  text_labels (Array 2) /\ snd (train_call None (AlgoName "VARLiNGAM") (Array 2) 5 X (Lagged 1 2 B) NoFlags DNone) = Ok tt /\
  snd (train_call None (AlgoName "VARLiNGAM") (Array 2) 5 X (Lagged 1 2 (fun l i j => if (l =? 1) && (i =? 0) then None else B l i j)) NoFlags DNone) = Err ValueError /\
  snd (train_call None (AlgoName "VAR") (Array 2) 5 X (Lagged 1 2 B) NoFlags DNone) = Err ValueError.
Proof. repeat split. Qed.

(** ** C138: when every minimisation ends with an entry beyond 100, each one starts at a new random vector. *)
Theorem C138_restarts : forall run rnd singular size tol n, (forall k h, (0 < snd (run k h))%Qc) -> (forall k h, exists i, 8 <= i < size /\ (qz 100 < qabs (fst (run k h) i))%Qc) ->
  h_step run rnd singular size tol (S n) = Some (let h := fst (run n (rnd n)) in if singular h then bump h else h).
Proof.
  intros run rnd singular size tol n HP HB.
  assert (G : forall iters k hn, h_loop run rnd singular size tol (S iters) k (S k) (rnd k) None hn = Some (let h := fst (run (k + iters) (rnd (k + iters))) in if singular h then bump h else h)).
  { assert (S1 : forall k iters hn, h_loop run rnd singular size tol (S iters) k (S k) (rnd k) None hn =
      h_loop run rnd singular size tol iters (S k) (S (S k)) (rnd (S k)) None (Some (let h := fst (run k (rnd k)) in if singular h then bump h else h))).
    { intros k iters hn. cbn [h_loop]. pose proof (HP k (rnd k)) as P. pose proof (HB k (rnd k)) as (i & Hi & Q). destruct (run k (rnd k)) as [h s]. cbn [fst snd] in *.
      replace (qltb 0 s) with true by (symmetry; apply qltb_lt; exact P). cbn [andb].
      replace (too_large size (if singular h then bump h else h)) with true; [reflexivity|]. symmetry. unfold too_large. apply existsb_exists. exists i. split; [apply in_seq; lia|]. apply qltb_lt.
      destruct (singular h); [|exact Q]. unfold bump. destruct (Nat.ltb_spec i 8); [lia|exact Q]. }
    induction iters as [|iters IH]; intros k hn.
    - rewrite S1. cbn [h_loop]. rewrite Nat.add_0_r. reflexivity.
    - rewrite S1, IH. replace (S k + iters) with (k + S iters) by lia. reflexivity. }
  unfold h_step. rewrite (G n 0 None). reflexivity.
Qed.
Print Assumptions C138_restarts.
Example C138_restarts_example : let run := fun (k : nat) (h : nat -> Qc) => ((fun i : nat => (h i + qz 101)%Qc), 1%Qc) in let rnd := fun k _ : nat => qn k in
  (forall k i, exists j, 8 <= j < 9 /\ (qz 100 < qabs (fst (run k (rnd i)) j))%Qc) /\ match h_step run rnd (fun _ => false) 9 0%Qc 3 with Some h => this (h 0) | None => 0%Q end = 103%Q.
Proof.
  cbn zeta. split; [|vm_compute; reflexivity]. intros k i. exists 8. split; [lia|]. cbn [fst].
  assert (P : (0 <= qn i)%Qc) by apply ProofBootstrap2.qn_nonneg.
  unfold qabs. destruct (qltb (qn i + qz 101) 0) eqn:E.
  - exfalso. apply qltb_lt in E. apply (Qclt_not_le _ _ E). apply (Qcle_trans _ (qn i + 0)); [rewrite Qcplus_0_r; exact P|]. apply Qcplus_le_compat; [apply Qcle_refl|discriminate].
  - apply (Qclt_le_trans _ (0 + qz 101)); [reflexivity|]. apply Qcplus_le_compat; [exact P|apply Qcle_refl].
Qed.
