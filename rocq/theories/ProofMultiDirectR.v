(** * MultiGroupDirectLiNGAM on data: how the data sets are combined *)
From Coq Require Import Reals Lra Lia Arith Bool List Permutation.
From Verif Require Import Prelude Lib LibR SpecDirectR ModelDirectR ProofDirectR ProofDirectR2 ModelMultiDirectR.
From Verif Require ModelDirect ProofDirect.
Import ListNotations.
Open Scope R_scope.

(** ** The first best entry *)
Definition first_best (l : list (option R)) (k : nat) : Prop :=
  exists x, nth_error l k = Some x /\
    match x with
    | None => forall i y, (i < k)%nat -> nth_error l i = Some y -> y <> None
    | Some v => forall i y, nth_error l i = Some y -> exists w, y = Some w /\ w <= v /\ ((i < k)%nat -> w < v)
    end.
Lemma best_from : forall r pre b bi, first_best pre bi -> nth_error pre bi = Some b -> first_best (pre ++ r) (argbest (fun v b => Rltb b v) b bi (length pre) r).
Proof.
  induction r as [|x r IH]; intros pre b bi F N; cbn [argbest]; [rewrite app_nil_r; exact F|].
  assert (Lb : (bi < length pre)%nat) by (apply nth_error_Some; rewrite N; discriminate).
  assert (E : pre ++ x :: r = (pre ++ [x]) ++ r) by (rewrite <- app_assoc; reflexivity).
  assert (Np : forall i y, nth_error (pre ++ [x]) i = Some y -> (i < length pre)%nat /\ nth_error pre i = Some y \/ i = length pre /\ y = x).
  { intros i y H. destruct (Nat.lt_ge_cases i (length pre)) as [L|L]; [left; rewrite nth_error_app1 in H by exact L; auto|right]. rewrite nth_error_app2 in H by exact L.
    destruct (i - length pre)%nat as [|q] eqn:D; [|destruct q; discriminate]. injection H as ->. split; [lia|reflexivity]. }
  destruct F as (b' & Nb & F). assert (b' = b) by congruence. subst b'. destruct b as [b|].
  - destruct x as [v|].
    + unfold Rltb. destruct (Rlt_dec b v) as [L|L].
      * rewrite E. replace (S (length pre)) with (length (pre ++ [Some v])) by (rewrite app_length; cbn; lia). apply IH.
        -- exists (Some v). split; [rewrite nth_error_app2, Nat.sub_diag by lia; reflexivity|]. intros i y H. destruct (Np i y H) as [[Li H1]|[-> ->]].
           ++ destruct (F i y H1) as (w & -> & W & _). exists w. split; [reflexivity|]. split; [lra|intro; lra].
           ++ exists v. split; [reflexivity|]. split; [lra|lia].
        -- rewrite nth_error_app2, Nat.sub_diag by lia. reflexivity.
      * rewrite E. replace (S (length pre)) with (length (pre ++ [Some v])) by (rewrite app_length; cbn; lia). apply IH.
        -- exists (Some b). split; [rewrite nth_error_app1 by exact Lb; exact N|]. intros i y H. destruct (Np i y H) as [[Li H1]|[-> ->]].
           ++ apply F. exact H1.
           ++ exists v. split; [reflexivity|]. split; [lra|lia].
        -- rewrite nth_error_app1 by exact Lb. exact N.
    + exists None. rewrite nth_error_app2, Nat.sub_diag by lia. split; [reflexivity|]. intros i y Hi H. rewrite nth_error_app1 in H by exact Hi. destruct (F i y H) as (w & -> & _). discriminate.
  - exists None. rewrite nth_error_app1 by exact Lb. split; [exact N|]. intros i y Hi H. rewrite nth_error_app1 in H by lia. exact (F i y Hi H).
Qed.
Lemma argmax_best : forall l k, argmax l = Some k -> first_best l k.
Proof.
  intros [|x r] k H; [discriminate|]. cbn [argmax] in H. injection H as <-. apply (best_from r [x] x 0).
  - exists x. split; [reflexivity|]. destruct x as [v|]; [|intros i y Hi; lia]. intros [|i] y H; [injection H as <-; exists v; split; [reflexivity|split; [lra|lia]]|destruct i; discriminate].
  - reflexivity.
Qed.
Lemma argmax_some : forall l, l <> [] -> exists k, argmax l = Some k.
Proof. intros [|x r] H; [contradiction|]. eexists. reflexivity. Qed.
Lemma best_unique : forall l k k', first_best l k -> first_best l k' -> k = k'.
Proof.
  intros l k k' (x & N & F) (x' & N' & F'). destruct (Nat.lt_trichotomy k k') as [L|[E|L]]; [exfalso|exact E|exfalso].
  - destruct x as [v|], x' as [v'|].
    + destruct (F k' _ N') as (w & E & W & _). injection E as <-. destruct (F' k _ N) as (w & E & _ & W'). injection E as <-. specialize (W' L). lra.
    + destruct (F k' _ N') as (w & E & _). discriminate.
    + destruct (F' k _ N) as (w & E & _). discriminate.
    + apply (F' k None L N). reflexivity.
  - destruct x as [v|], x' as [v'|].
    + destruct (F k' _ N') as (w & E & _ & W). injection E as <-. destruct (F' k _ N) as (w & E & W' & _). injection E as <-. specialize (W L). lra.
    + destruct (F k' _ N') as (w & E & _). discriminate.
    + destruct (F' k _ N) as (w & E & _). discriminate.
    + apply (F k' None L N'). reflexivity.
Qed.
Lemma best_argmax : forall l k, first_best l k -> argmax l = Some k.
Proof.
  intros l k F. destruct (argmax_some l) as (k' & E); [intros ->; destruct F as (x & N & _); destruct k; discriminate|]. rewrite E. f_equal. apply (best_unique l); [apply argmax_best; exact E|exact F].
Qed.
Definition mix (a b : R) (x y : option R) : option R := match x, y with Some x, Some y => Some (a * x + b * y) | _, _ => None end.
Lemma best_mix : forall (A : Type) a b (f g h : A -> option R) (l : list A) k, 0 < a -> 0 < b -> (forall i, In i l -> h i = mix a b (f i) (g i)) ->
  first_best (map f l) k -> first_best (map g l) k -> first_best (map h l) k.
Proof.
  intros A a b f g h l k Ha Hb H (x & N & F) (y & M & G). rewrite nth_error_map in N, M. destruct (nth_error l k) as [i|] eqn:Ek; [|discriminate]. cbn in N, M. injection N as <-. injection M as <-.
  exists (h i). rewrite nth_error_map, Ek. split; [reflexivity|]. rewrite (H i) by (apply nth_error_In in Ek; exact Ek).
  assert (ML : forall q i, nth_error l q = Some i -> nth_error (map f l) q = Some (f i) /\ nth_error (map g l) q = Some (g i)) by (intros q j Hq; rewrite !nth_error_map, Hq; split; reflexivity).
  destruct (f i) as [v|] eqn:Fi, (g i) as [w|] eqn:Gi; cbn [mix].
  - intros q z Hz. rewrite nth_error_map in Hz. destruct (nth_error l q) as [j|] eqn:Eq; [|discriminate]. cbn in Hz. injection Hz as <-. destruct (ML q j Eq) as [Mf Mg].
    destruct (F q _ Mf) as (v' & Ef & V & V'). destruct (G q _ Mg) as (w' & Eg & W & W'). rewrite (H j) by (apply nth_error_In in Eq; exact Eq). rewrite Ef, Eg. cbn [mix]. eexists. split; [reflexivity|]. split.
    + apply Rplus_le_compat; apply Rmult_le_compat_l; lra.
    + intro L. apply Rplus_lt_compat; apply Rmult_lt_compat_l; auto.
  - intros q z Lq Hz. rewrite nth_error_map in Hz. destruct (nth_error l q) as [j|] eqn:Eq; [|discriminate]. cbn in Hz. injection Hz as <-. destruct (ML q j Eq) as [Mf Mg].
    rewrite (H j) by (apply nth_error_In in Eq; exact Eq). destruct (F q _ Mf) as (v' & Ef & _). pose proof (G q _ Lq Mg). rewrite Ef. destruct (g j); [discriminate|congruence].
  - intros q z Lq Hz. rewrite nth_error_map in Hz. destruct (nth_error l q) as [j|] eqn:Eq; [|discriminate]. cbn in Hz. injection Hz as <-. destruct (ML q j Eq) as [Mf Mg].
    rewrite (H j) by (apply nth_error_In in Eq; exact Eq). destruct (G q _ Mg) as (v' & Eg & _). pose proof (F q _ Lq Mf). rewrite Eg. destruct (f j); [discriminate|congruence].
  - intros q z Lq Hz. rewrite nth_error_map in Hz. destruct (nth_error l q) as [j|] eqn:Eq; [|discriminate]. cbn in Hz. injection Hz as <-. destruct (ML q j Eq) as [Mf Mg].
    rewrite (H j) by (apply nth_error_In in Eq; exact Eq). pose proof (F q _ Lq Mf). pose proof (G q _ Lq Mg). destruct (f j), (g j); try congruence; discriminate.
Qed.

(** ** The weighted sum *)
Fixpoint weighted (U Uc Vj : list nat) (i : nat) (ds : list dataset) : option R :=
  match ds with
  | [] => Some 0
  | d :: ds => oadd (option_map (fun M => M * INR (fst d)) (group_M U Uc Vj i d)) (weighted U Uc Vj i ds)
  end.
Fixpoint size (ds : list dataset) : nat := match ds with [] => 0%nat | d :: ds => (fst d + size ds)%nat end.
Lemma total_is_size : forall ds, total_size ds = size ds.
Proof.
  intro ds. unfold total_size. assert (G : forall t, fold_left (fun t (d : dataset) => (t + fst d)%nat) ds t = (t + size ds)%nat); [|rewrite G; reflexivity].
  induction ds as [|d ds IH]; intro t; cbn; [lia|]. rewrite IH. lia.
Qed.
Lemma size_app : forall ds ds', size (ds ++ ds') = (size ds + size ds')%nat.
Proof. induction ds as [|d ds IH]; intros; cbn; [reflexivity|]. rewrite IH. lia. Qed.
Definition occupied (ds : list dataset) : Prop := ds <> [] /\ forall d, In d ds -> (0 < fst d)%nat.
Lemma size_pos : forall ds, occupied ds -> (0 < size ds)%nat.
Proof. intros [|d ds] [N H]; [contradiction|]. cbn. pose proof (H d (or_introl eq_refl)). lia. Qed.
Lemma score_weighted : forall ds U Uc Vj i, group_score ds U Uc Vj i = option_map (fun v => - (v / INR (size ds))) (weighted U Uc Vj i ds).
Proof.
  intros ds U Uc Vj i. unfold group_score. rewrite total_is_size. set (T := INR (size ds)). clearbody T. assert (G : forall l a, fold_left (fun MG (d : dataset) => oadd MG (option_map (fun M => M * (INR (fst d) / T)) (group_M U Uc Vj i d))) l a = oadd a (option_map (fun v => v / T) (weighted U Uc Vj i l))).
  { induction l as [|d l IH]; intro a; cbn [fold_left weighted].
    - destruct a; cbn; [f_equal; unfold Rdiv; ring|reflexivity].
    - rewrite IH. destruct a as [a|]; [|reflexivity]. destruct (group_M U Uc Vj i d) as [M|]; [|reflexivity]. destruct (weighted U Uc Vj i l) as [v|]; [|reflexivity]. cbn. f_equal. unfold Rdiv. ring. }
  rewrite G. destruct (weighted U Uc Vj i ds); cbn; [f_equal; ring|reflexivity].
Qed.
Lemma weighted_app : forall ds ds' U Uc Vj i, weighted U Uc Vj i (ds ++ ds') = oadd (weighted U Uc Vj i ds) (weighted U Uc Vj i ds').
Proof.
  induction ds as [|d ds IH]; intros ds' U Uc Vj i; cbn [app weighted].
  - destruct (weighted U Uc Vj i ds'); cbn; [f_equal; ring|reflexivity].
  - rewrite IH. destruct (group_M U Uc Vj i d), (weighted U Uc Vj i ds), (weighted U Uc Vj i ds'); cbn; try reflexivity. f_equal. ring.
Qed.
Lemma weighted_perm : forall ds ds' U Uc Vj i, Permutation ds ds' -> weighted U Uc Vj i ds = weighted U Uc Vj i ds' /\ size ds = size ds'.
Proof.
  intros ds ds' U Uc Vj i P. induction P as [|d l l' P [IH IS]|x y l|l l' l'' P1 [IH1 IS1] P2 [IH2 IS2]].
  - split; reflexivity.
  - cbn. rewrite IH, IS. split; reflexivity.
  - cbn. split; [|lia]. destruct (group_M U Uc Vj i x), (group_M U Uc Vj i y), (weighted U Uc Vj i l); cbn; try reflexivity. f_equal. ring.
  - split; congruence.
Qed.
Lemma score_app : forall ds ds' U Uc Vj i, occupied ds -> occupied ds' ->
  group_score (ds ++ ds') U Uc Vj i = mix (INR (size ds) / INR (size ds + size ds')) (INR (size ds') / INR (size ds + size ds')) (group_score ds U Uc Vj i) (group_score ds' U Uc Vj i).
Proof.
  intros ds ds' U Uc Vj i O O'. pose proof (size_pos ds O) as S. pose proof (size_pos ds' O') as S'. apply lt_INR in S, S'. cbn in S, S'. rewrite !score_weighted, weighted_app, size_app.
  destruct (weighted U Uc Vj i ds) as [v|], (weighted U Uc Vj i ds') as [v'|]; cbn; try reflexivity. f_equal. rewrite plus_INR. field. repeat split; lra.
Qed.
Lemma mix_pos : forall ds ds', occupied ds -> occupied ds' -> 0 < INR (size ds) / INR (size ds + size ds').
Proof. intros ds ds' O O'. pose proof (size_pos ds O) as S. apply Rdiv_lt_0_compat; apply lt_0_INR; lia. Qed.
Lemma mix_pos' : forall ds ds', occupied ds -> occupied ds' -> 0 < INR (size ds') / INR (size ds + size ds').
Proof. intros ds ds' O O'. pose proof (size_pos ds' O') as S. apply Rdiv_lt_0_compat; apply lt_0_INR; lia. Qed.

(** ** The search *)
Lemma candidates_NoDup : forall mode po U, NoDup U -> NoDup (fst (ModelDirect.search_candidate mode po U)).
Proof.
  intros mode po U ND. destruct mode as [|pk|pk]; cbn [ModelDirect.search_candidate fst]; [exact ND| |].
  - destruct po as [|p po]; cbn [fst]; [exact ND|apply NoDup_filter; exact ND].
  - destruct (filter _ U) eqn:E; [apply NoDup_filter; exact ND|]. rewrite <- E. apply NoDup_filter. exact ND.
Qed.
Lemma search_in : forall mode po ds U m, group_search mode po ds U = Ok m -> In m U.
Proof.
  intros mode po ds U m E. unfold group_search in E. pose proof (fun x => ProofDirect.candidate_incl mode po U x) as Inc. destruct (ModelDirect.search_candidate mode po U) as [Uc Vj]. cbn [fst] in Inc. apply Inc.
  destruct Uc as [|a [|b Uc]]; [discriminate|injection E as <-; left; reflexivity|]. destruct (argmax _) as [k|]; [|discriminate]. destruct (nth_error _ k) as [x|] eqn:N; [|discriminate]. injection E as <-. exact (nth_error_In _ _ N).
Qed.
Lemma search_app : forall mode po ds ds' U m, NoDup U -> occupied ds -> occupied ds' -> group_search mode po ds U = Ok m -> group_search mode po ds' U = Ok m -> group_search mode po (ds ++ ds') U = Ok m.
Proof.
  intros mode po ds ds' U m ND O O' E E'. unfold group_search in *. pose proof (candidates_NoDup mode po U ND) as NC. destruct (ModelDirect.search_candidate mode po U) as [Uc Vj]. cbn [fst] in NC.
  destruct Uc as [|a [|b Uc]]; [exact E|exact E|]. set (C := a :: b :: Uc) in *.
  destruct (argmax (map (group_score ds U C Vj) C)) as [k|] eqn:A; [|discriminate]. destruct (argmax (map (group_score ds' U C Vj) C)) as [k'|] eqn:A'; [|discriminate].
  destruct (nth_error C k) as [x|] eqn:N; [|discriminate]. destruct (nth_error C k') as [x'|] eqn:N'; [|discriminate]. injection E as ->. injection E' as ->.
  assert (k = k'). { apply (proj1 (NoDup_nth_error C) NC); [apply nth_error_Some; rewrite N; discriminate|rewrite N, N'; reflexivity]. } subst k'.
  rewrite (best_argmax _ k); [rewrite N; reflexivity|].
  apply (best_mix nat (INR (size ds) / INR (size ds + size ds')) (INR (size ds') / INR (size ds + size ds')) (group_score ds U C Vj) (group_score ds' U C Vj)); [apply mix_pos; assumption|apply mix_pos'; assumption| |apply argmax_best; exact A|apply argmax_best; exact A'].
  intros i _. apply score_app; assumption.
Qed.
Lemma loop_prefix : forall steps mode po ds U K0 K, group_loop steps mode po ds U K0 = Ok K -> exists L, K = K0 ++ L.
Proof.
  induction steps as [|steps IH]; intros mode po ds U K0 K E; cbn [group_loop] in E; [injection E as <-; exists []; rewrite app_nil_r; reflexivity|].
  destruct (group_search mode po ds U) as [m|]; [|discriminate]. cbn [bind] in E. apply IH in E. destruct E as (L & ->). exists (m :: L). rewrite <- app_assoc. reflexivity.
Qed.
Lemma occupied_regress : forall ds U m, occupied ds -> occupied (group_regress_out ds U m).
Proof.
  intros ds U m [N H]. split; [destruct ds; [contradiction|discriminate]|]. intros d Hd. unfold group_regress_out in Hd. apply in_map_iff in Hd. destruct Hd as (d0 & <- & Hd). cbn. apply H. exact Hd.
Qed.
Lemma loop_app : forall steps mode po ds ds' U K0 K, NoDup U -> occupied ds -> occupied ds' -> group_loop steps mode po ds U K0 = Ok K -> group_loop steps mode po ds' U K0 = Ok K -> group_loop steps mode po (ds ++ ds') U K0 = Ok K.
Proof.
  induction steps as [|steps IH]; intros mode po ds ds' U K0 K ND O O' E E'; cbn [group_loop] in *; [exact E|].
  destruct (group_search mode po ds U) as [m|] eqn:S; [|discriminate]. destruct (group_search mode po ds' U) as [m'|] eqn:S'; [|discriminate]. cbn [bind] in E, E'.
  assert (m = m'). { destruct (loop_prefix _ _ _ _ _ _ _ E) as (L & ->). destruct (loop_prefix _ _ _ _ _ _ _ E') as (L' & EL). rewrite <- !app_assoc in EL. apply app_inv_head in EL. cbn in EL. congruence. } subst m'.
  rewrite (search_app mode po ds ds' U m ND O O' S S'). cbn [bind]. unfold group_regress_out. rewrite map_app. apply IH; [apply NoDup_filter; exact ND|apply (occupied_regress ds U m O)|apply (occupied_regress ds' U m O')|exact E|exact E'].
Qed.
Lemma loop_perm : forall steps mode po ds ds' U K0, Permutation ds ds' -> group_loop steps mode po ds U K0 = group_loop steps mode po ds' U K0.
Proof.
  induction steps as [|steps IH]; intros mode po ds ds' U K0 P; cbn [group_loop]; [reflexivity|].
  assert (S : group_search mode po ds U = group_search mode po ds' U).
  { unfold group_search. destruct (ModelDirect.search_candidate mode po U) as [Uc Vj]. rewrite (map_ext (group_score ds U Uc Vj) (group_score ds' U Uc Vj)); [reflexivity|]. intro i. rewrite !score_weighted. destruct (weighted_perm ds ds' U Uc Vj i P) as [-> ->]. reflexivity. }
  rewrite S. destruct (group_search mode po ds' U) as [m|]; [|reflexivity]. cbn [bind]. apply IH. unfold group_regress_out. apply Permutation_map. exact P.
Qed.
(** One data set: the order of DirectLiNGAM. *)
Lemma loop_single : forall steps mode po n X U K0, (0 < n)%nat -> group_loop steps mode po [(n, X)] U K0 = loop (pwling_score n) argmax steps n mode po X U K0.
Proof.
  induction steps as [|steps IH]; intros mode po n X U K0 Hn; cbn [group_loop loop]; [reflexivity|].
  assert (S : group_search mode po [(n, X)] U = search (pwling_score n) argmax mode po X U).
  { unfold group_search, search. destruct (ModelDirect.search_candidate mode po U) as [Uc Vj]. destruct Uc as [|a [|b Uc]]; [reflexivity|reflexivity|]. set (C := a :: b :: Uc).
    assert (T : forall l, traverse (pwling_score n X U C Vj) l = Ok (map (group_score [(n, X)] U C Vj) l)).
    { induction l as [|i l IHl]; [reflexivity|]. cbn [traverse map]. rewrite IHl. rewrite score_weighted. unfold pwling_score. cbn [bind weighted size fst]. unfold group_M. f_equal. f_equal.
      destruct (fold_left _ U (Some 0)) as [M|]; cbn; [|reflexivity]. f_equal. rewrite Nat.add_0_r. field. apply not_0_INR. lia. }
    rewrite T. cbn [bind]. reflexivity. }
  rewrite S. destruct (search _ _ _ _ _ _) as [m|]; [|reflexivity]. cbn [bind]. apply IH. exact Hn.
Qed.
(** ** Other units *)
Definition converted (d d' : dataset) (P : nat -> Prop) : Prop :=
  (0 < fst d)%nat /\ exists pi, same_distribution (fst d) (fst d') pi /\ forall j, P j -> affine_rel (fst d') pi (snd d j) (snd d' j).
Lemma group_M_rel : forall d d' U Uc Vj i, converted d d' (fun j => In j U) -> In i U -> group_M U Uc Vj i d' = group_M U Uc Vj i d.
Proof.
  intros [n X] [n' X'] U Uc Vj i (Hn & pi & SD & H) Hi. cbn [fst snd] in *. pose proof (pwling_score_rel n n' pi SD Hn X X' U Uc Vj i H Hi) as E. unfold pwling_score in E. unfold group_M.
  destruct (fold_left _ U (Some 0)) as [M|], (fold_left _ U (Some 0)) as [M'|]; cbn in E; try congruence. injection E as E. f_equal. lra.
Qed.
Lemma loop_converted : forall k, 0 < k -> forall steps mode po ds ds' U K0,
  Forall2 (fun d d' => converted d d' (fun j => In j U) /\ INR (fst d') = k * INR (fst d)) ds ds' ->
  group_loop steps mode po ds' U K0 = group_loop steps mode po ds U K0.
Proof.
  intros k Hk. induction steps as [|steps IH]; intros mode po ds ds' U K0 F; cbn [group_loop]; [reflexivity|].
  assert (S : group_search mode po ds' U = group_search mode po ds U).
  { unfold group_search. pose proof (fun x => ProofDirect.candidate_incl mode po U x) as Inc. destruct (ModelDirect.search_candidate mode po U) as [Uc Vj]. cbn [fst] in Inc. rewrite (map_ext_in (group_score ds' U Uc Vj) (group_score ds U Uc Vj)); [reflexivity|]. intros i Hi. apply Inc in Hi.
    rewrite !score_weighted. assert (W : weighted U Uc Vj i ds' = option_map (fun v => k * v) (weighted U Uc Vj i ds) /\ INR (size ds') = k * INR (size ds)).
    { clear IH. induction F as [|d d' l l' [C E] F IHF]; [cbn; split; [f_equal; ring|ring]|]. destruct IHF as [IW IS]. cbn [weighted size]. rewrite (group_M_rel d d' U Uc Vj i C Hi), IW, !plus_INR, IS, E. split; [|ring].
      destruct (group_M U Uc Vj i d), (weighted U Uc Vj i l); cbn; try reflexivity. f_equal. ring. }
    destruct W as [-> ->]. destruct (weighted U Uc Vj i ds) as [v|] eqn:W; cbn; [|reflexivity]. f_equal. f_equal. destruct (Req_dec (INR (size ds)) 0) as [Z|NZ].
    - rewrite Z, Rmult_0_r. assert (size ds = 0%nat) by (apply INR_eq; exact Z). destruct ds as [|d ds]; [cbn in W; injection W as <-; unfold Rdiv; ring|]. exfalso. inversion F as [|? ? ? ? [[Hp _] _] _]; subst. cbn in H. lia.
    - field. split; [exact NZ|lra]. }
  rewrite S. destruct (group_search mode po ds U) as [m|] eqn:Sr; [|reflexivity]. cbn [bind]. apply search_in in Sr. apply IH. clear S IH.
  induction F as [|d d' l l' [C E] F IHF]; [constructor|]. constructor; [|exact IHF]. cbn [fst snd]. split; [|exact E]. destruct C as (Hn & pi & SD & H). split; [exact Hn|]. exists pi. split; [exact SD|]. cbn [fst snd]. intros j Hj.
  apply (regress_out_rel (fst d) (fst d') (affine_rel (fst d') pi) (residual_affine (fst d) (fst d') pi SD Hn) m U); try assumption; [apply incl_refl|]. unfold remove_nat in Hj. apply filter_In in Hj. tauto.
Qed.
