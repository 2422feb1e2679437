(** * MultiGroupRCD.bootstrap: C239 *)
From Coq Require Import List Arith Lia Bool ZArith QArith Qcanon Relations.
From Verif Require Import Prelude Spec Lib LibMat ModelPaths ProofTotal ModelRCD ModelQuery Props_RCD ModelRcdBoot Props_RcdBoot ModelMGRcdQuery Props_MGRcdQuery ModelMGRcdBoot.
Import ListNotations.
Open Scope nat_scope.

(** What one round records for data set g when the estimates are (M, Bs): zero off the ancestors; the entry of the inverse
    of I - B_g when no matrix up to the g-th has a NaN in the row of the cause; zero otherwise. *)
Definition nan_up_to (n : nat) (Bs : list (mat num)) (g from : nat) : Prop :=
  exists h B j, h <= g /\ nth_error Bs h = Some B /\ j < n /\ B from j = None.
Definition mg_records (n : nat) (M : sets) (Bs : list (mat num)) (g : nat) (B te : mat num) : Prop :=
  forall to from, to < n -> from < n ->
    (M to from = false -> te to from = Some 0%Qc) /\
    (M to from = true -> nan_up_to n Bs g from -> te to from = Some 0%Qc) /\
    (M to from = true -> ~ nan_up_to n Bs g from ->
       forall T, meq n (mmul n (msub midn (denan B)) T) midn -> te to from = Some (T to from)).

Lemma row_nan n (B : mat num) from : row_has_nan n B from = true <-> exists j, j < n /\ B from j = None.
Proof. apply nan_row. Qed.
Lemma effect2_total n from to : from < n -> to < n -> from <> to -> forall Bs,
  (forall B, In B Bs -> acyclic (edge_of n (denan B))) ->
  exists es, mgr_effect2 n Bs from to = Ok es /\ length es <= length Bs /\
    forall g B, nth_error Bs g = Some B ->
      (nan_up_to n Bs g from -> length es <= g) /\
      (~ nan_up_to n Bs g from -> forall T, meq n (mmul n (msub midn (denan B)) T) midn -> nth_error es g = Some (Some (T to from))).
Proof.
  intros Hf Ht N. induction Bs as [|B Bs IH]; intro AC; cbn [mgr_effect2].
  - exists []. split; [reflexivity|]. split; [cbn; lia|]. intros [|g] B H; discriminate.
  - destruct (row_has_nan n B from) eqn:R.
    + exists []. split; [reflexivity|]. split; [cbn; lia|]. intros g C H. split; [cbn; lia|]. intro Q. exfalso. apply Q.
      apply row_nan in R. destruct R as (j & Hj & E). exists 0, B, j. repeat split; [lia|exact Hj|exact E].
    + destruct (total_effect_spec n B from to ltac:(lia) Hf Ht N (AC B (or_introl eq_refl))) as (t & E & U). rewrite E. cbn [bind].
      destruct IH as (es & F & L & P); [intros C I; apply AC; right; exact I|]. rewrite F. cbn [bind].
      assert (K : forall g, nan_up_to n (B :: Bs) (S g) from <-> nan_up_to n Bs g from).
      { intro g. split.
        - intros (h & C & j & H1 & H2 & H3 & H4). destruct h as [|h].
          + cbn in H2. injection H2 as <-. assert (row_has_nan n B from = true) by (apply row_nan; eauto). congruence.
          + exists h, C, j. repeat split; [lia|exact H2|exact H3|exact H4].
        - intros (h & C & j & H1 & H2 & H3 & H4). exists (S h), C, j. repeat split; [lia|exact H2|exact H3|exact H4]. }
      exists (Some t :: es). split; [reflexivity|]. split; [cbn [length]; lia|]. intros [|g] C H; cbn [nth_error length] in *.
      * injection H as <-. split.
        -- intros (h & C & j & H1 & H2 & H3 & H4). assert (h = 0) by lia. subst h. cbn in H2. injection H2 as <-.
           assert (row_has_nan n B from = true) by (apply row_nan; eauto). congruence.
        -- intros _ T TI. f_equal. f_equal. destruct U as (_ & U & _). apply U. exact TI.
      * destruct (P g C H) as [P1 P2]. rewrite K. split; [intro Q; specialize (P1 Q); lia|exact P2].
Qed.
Lemma mg_store_total n Bs : forall l te, (forall to from, In (to, from) l -> exists es, mgr_effect2 n Bs from to = Ok es) ->
  exists te', mgr_boot_store n Bs l te = Ok te' /\
    forall i j, (~ In (i, j) l -> forall g, te' g i j = te g i j) /\
                (In (i, j) l -> exists es, mgr_effect2 n Bs j i = Ok es /\ forall g, te' g i j = nth g es (te g i j)).
Proof.
  induction l as [|[to from] l IH]; intros te H; cbn [mgr_boot_store].
  - exists te. split; [reflexivity|]. intros i j. split; [reflexivity|intros []].
  - destruct (H to from (or_introl eq_refl)) as [es E]. rewrite E. cbn [bind].
    destruct (IH (fun g i j => if (i =? to) && (j =? from) then nth g es (te g i j) else te g i j)) as (te' & S1 & S2).
    { intros a b I. apply (H a b). right. exact I. }
    exists te'. split; [exact S1|]. intros i j. destruct (S2 i j) as [A C].
    assert (DEC : {In (i, j) l} + {~ In (i, j) l}) by (apply in_dec; intros [a b] [c d]; destruct (Nat.eq_dec a c); destruct (Nat.eq_dec b d); [left; congruence|right; congruence|right; congruence|right; congruence]).
    split.
    + intros NI g. rewrite A by (intro I; apply NI; right; exact I).
      destruct (Nat.eqb_spec i to) as [Ei|]; cbn [andb]; [subst i|reflexivity]. destruct (Nat.eqb_spec j from) as [Ej|]; [subst j|reflexivity].
      exfalso. apply NI. left. reflexivity.
    + intro I. destruct DEC as [I'|I'].
      * destruct (C I') as (es' & E' & G). exists es'. split; [exact E'|]. intro g. rewrite G.
        destruct (Nat.eqb_spec i to) as [Ei|]; cbn [andb]; [subst i|reflexivity]. destruct (Nat.eqb_spec j from) as [Ej|]; [subst j|reflexivity].
        rewrite E in E'. injection E' as <-. destruct (nth_error es g) as [v|] eqn:V.
        -- apply nth_error_nth with (d := nth g es (te g to from)) in V as V1. apply nth_error_nth with (d := te g to from) in V as V2. congruence.
        -- apply nth_error_None in V. rewrite nth_overflow by exact V. reflexivity.
      * destruct I as [I|I]; [|contradiction]. injection I as -> ->. exists es. split; [exact E|]. intro g.
        rewrite A by exact I'. rewrite !Nat.eqb_refl. reflexivity.
Qed.
Lemma mg_store_records n M Bs : (forall i, M i i = false) -> (forall B, In B Bs -> acyclic (edge_of n (denan B))) ->
  exists te, mgr_boot_store n Bs (rcd_boot_pairs n M) (fun _ _ _ => Some 0%Qc) = Ok te /\
    forall g B, nth_error Bs g = Some B -> mg_records n M Bs g B (te g).
Proof.
  intros IR AC. destruct (mg_store_total n Bs (rcd_boot_pairs n M) (fun _ _ _ => Some 0%Qc)) as (te & S1 & S2).
  { intros to from I. apply in_pairs in I. destruct I as (A & C & Q).
    destruct (effect2_total n from to C A ltac:(intros ->; rewrite IR in Q; discriminate) Bs AC) as (es & E & _). eauto. }
  exists te. split; [exact S1|]. intros g B HB to from Ht Hf. destruct (S2 to from) as [A C]. rewrite in_pairs in A, C.
  split; [intro Q; apply A; intros (_ & _ & Z); congruence|].
  assert (G : M to from = true -> from <> to) by (intros Q ->; rewrite IR in Q; discriminate).
  split; intro Q; destruct (effect2_total n from to Hf Ht (G Q) Bs AC) as (es & E & _ & P);
    destruct (C (conj Ht (conj Hf Q))) as (es' & E' & V); rewrite E in E'; injection E' as <-; destruct (P g B HB) as [P1 P2]; rewrite V.
  - intro Z. apply nth_overflow. apply P1. exact Z.
  - intros Z T TI. apply nth_error_nth. apply P2; assumption.
Qed.

(** ** C239 *)
(** When the fit of each list of resampled data sets succeeds and no estimate has a directed circle, bootstrap returns one
    list for each data set, with one matrix and one record of total effects for each round; the object keeps the last fit. *)
Theorem C239_bootstrap_partial : forall fit z resample Xs n o, fits_width n Xs -> (0 < z)%Z ->
  (forall k, k < Z.to_nat z -> exists M Bs, fit (resample k Xs) = Ok (M, Bs) /\ length Bs = length Xs /\ (forall i, M i i = false) /\
     forall B, In B Bs -> acyclic (edge_of n (denan B))) ->
  exists R M Bs, fit (resample (Z.to_nat z - 1) Xs) = Ok (M, Bs) /\
    mgr_bootstrap fit z resample Xs o = (Some {| nvar := n; anc := M; ams := Bs |}, Ok R) /\ length R = length Xs /\
    forall g, g < length Xs -> exists l, nth_error R g = Some l /\ length l = Z.to_nat z /\
      forall k, k < Z.to_nat z -> exists M Bs B te, fit (resample k Xs) = Ok (M, Bs) /\ nth_error Bs g = Some B /\
        nth_error l k = Some (B, te) /\ mg_records n M Bs g B te.
Proof.
  intros fit z resample Xs n o W Hz H. unfold mgr_bootstrap. rewrite (check_ok _ _ W), (proj2 (Z.ltb_lt 0 z) Hz).
  assert (G : forall m a o, (forall k, k < m -> exists M Bs, fit (resample (a + k) Xs) = Ok (M, Bs) /\ length Bs = length Xs /\ (forall i, M i i = false) /\
        forall B, In B Bs -> acyclic (edge_of n (denan B))) ->
    exists l, mgr_boot_loop n fit (map (fun k => resample k Xs) (seq a m)) o =
      (match m with 0 => o | S m' => match fit (resample (a + m') Xs) with Ok (M, Bs) => Some {| nvar := n; anc := M; ams := Bs |} | Err _ => o end end, Ok l) /\ length l = m /\
      forall k, k < m -> exists M Bs te, fit (resample (a + k) Xs) = Ok (M, Bs) /\ length Bs = length Xs /\ nth_error l k = Some (Bs, te) /\
        forall g B, nth_error Bs g = Some B -> mg_records n M Bs g B (te g)).
  { clear. induction m as [|m IH]; intros a o H.
    - exists []. split; [reflexivity|]. split; [reflexivity|]. intros k Hk. lia.
    - cbn [seq map mgr_boot_loop]. destruct (H 0 ltac:(lia)) as (M & Bs & F & LB & IR & AC). rewrite Nat.add_0_r in F. rewrite F.
      destruct (mg_store_records n M Bs IR AC) as (te & T & RT). rewrite T.
      destruct (IH (S a) (Some {| nvar := n; anc := M; ams := Bs |})) as (l & E & L & R).
      { intros k Hk. replace (S a + k) with (a + S k) by lia. apply H. lia. }
      rewrite E. exists ((Bs, te) :: l). split; [|split].
      + f_equal. destruct m as [|m'].
        * rewrite Nat.add_0_r, F. reflexivity.
        * replace (S a + m') with (a + S m') by lia. destruct (H (S m') ltac:(lia)) as (M2 & B2 & F2 & _). rewrite F2. reflexivity.
      + cbn [length]. lia.
      + intros [|k] Hk.
        * exists M, Bs, te. rewrite Nat.add_0_r. split; [exact F|]. split; [exact LB|]. split; [reflexivity|exact RT].
        * replace (a + S k) with (S a + k) by lia. apply R. lia. }
  destruct (G (Z.to_nat z) 0 o H) as (l & E & L & R). rewrite E.
  destruct (Z.to_nat z) as [|m] eqn:Q; [lia|]. replace (S m - 1) with m by lia.
  destruct (H m ltac:(lia)) as (M & Bs & F & _). cbn [Nat.add]. rewrite F. eexists. exists M, Bs. split; [reflexivity|]. split; [reflexivity|].
  split; [rewrite map_length, seq_length; reflexivity|]. intros g Hg. eexists. split.
  - rewrite nth_error_map. rewrite (nth_error_nth' _ 0) by (rewrite seq_length; exact Hg). rewrite seq_nth by exact Hg. cbn [option_map Nat.add]. reflexivity.
  - split; [rewrite map_length; exact L|]. intros k Hk. destruct (R k Hk) as (M' & Bs' & te & F' & LB & N & RT).
    destruct (nth_error Bs' g) as [B|] eqn:EB; [|apply nth_error_None in EB; lia].
    exists M', Bs', B, (te g). split; [exact F'|]. split; [exact EB|]. split; [|apply RT; exact EB].
    rewrite (map_nth_error _ k l N). cbn [fst snd]. rewrite (nth_error_nth _ _ _ EB). reflexivity.
Qed.
Print Assumptions C239_bootstrap_partial.

(** Rejected arguments and a failing first fit leave the object as it was. *)
Theorem C239_errors : forall fit z resample Xs o,
  ((forall m, ~ fits_width m Xs) -> mgr_bootstrap fit z resample Xs o = (o, Err ValueError)) /\
  ((z <= 0)%Z -> mgr_bootstrap fit z resample Xs o = (o, Err ValueError)) /\
  (forall n e, fits_width n Xs -> (0 < z)%Z -> fit (resample 0 Xs) = Err e -> mgr_bootstrap fit z resample Xs o = (o, Err e)).
Proof.
  intros fit z resample Xs o.
  assert (V : forall e, mgr_check Xs = Err e -> e = ValueError).
  { intros e E. unfold mgr_check in E. destruct (length Xs <? 2); [congruence|]. destruct Xs; [congruence|]. destruct (forallb _ _); congruence. }
  split; [|split].
  - intro H. unfold mgr_bootstrap. destruct (mgr_check Xs) as [m|e] eqn:E; [apply check_inv in E; destruct (H m E)|]. rewrite (V e eq_refl). reflexivity.
  - intro H. unfold mgr_bootstrap. destruct (mgr_check Xs) as [m|e] eqn:E; [|rewrite (V e eq_refl); reflexivity].
    rewrite (proj2 (Z.ltb_ge 0 z) H). reflexivity.
  - intros n e W Hz F. unfold mgr_bootstrap. rewrite (check_ok _ _ W), (proj2 (Z.ltb_lt 0 z) Hz).
    destruct (Z.to_nat z) as [|m] eqn:Q; [lia|]. cbn [seq map mgr_boot_loop]. rewrite F. reflexivity.
Qed.
Print Assumptions C239_errors.

(** The circle of C235, found for every data set: each fit succeeds, bootstrap raises. *)
Definition mg_circle (Xs : list dset) : result (sets * list (mat num)) :=
  match circle 0 with Ok (M, B) => Ok (M, map (fun _ => B) Xs) | Err e => Err e end.
Definition ds5 : dset := {| rows := 4; cols := 5; col := fun i r => Q2Qc (inject_Z (Z.of_nat (i + r))) |}.
Theorem C239_bootstrap_completes_when_its_fits_do_refuted : forall z o, (0 < z)%Z ->
  fits_width 5 [ds5; ds5] /\ (exists M B, mg_circle [ds5; ds5] = Ok (M, [B; B]) /\ forall i, M i i = false) /\
  snd (mgr_bootstrap mg_circle z (fun _ Xs => Xs) [ds5; ds5] o) = Err ValueError.
Proof.
  intros z o Hz. assert (W : fits_width 5 [ds5; ds5]) by (split; [cbn; lia|intros X [<-|[<-|[] ] ]; reflexivity]).
  split; [exact W|]. unfold mgr_bootstrap. rewrite (check_ok _ _ W), (proj2 (Z.ltb_lt 0 z) Hz).
  destruct (Z.to_nat z) as [|m] eqn:Q; [lia|]. cbn [seq map mgr_boot_loop].
  assert (K : match circle 0 with Ok (M, B) => match mgr_boot_store 5 [B; B] (rcd_boot_pairs 5 M) (fun _ _ _ => Some 0%Qc) with Err ValueError => true | _ => false end | _ => false end = true) by (vm_compute; reflexivity).
  unfold mg_circle. destruct (circle 0) as [[M B]|e] eqn:E; [|discriminate]. cbn [map]. split.
  - exists M, B. split; [reflexivity|]. exact (proj1 (C31_ancestor_sets _ _ _ _ _ _ _ _ _ _ _ _ E)).
  - destruct (mgr_boot_store _ _ _ _) as [te|[]]; try discriminate. reflexivity.
Qed.
Print Assumptions C239_bootstrap_completes_when_its_fits_do_refuted.
(** Two data sets of two variables, x0 a cause of x1 with the coefficients 1 and 2: the hypotheses of the first theorem hold
    and the effects are recorded.  With a NaN in the row of x0 of the second matrix its effect is a zero. *)
Definition fit_fine (_ : list dset) : result (sets * list (mat num)) := Ok (anc fitted2, ams fitted2).
Example C239_example : fits_width 2 [ds 1; ds 2] /\ length (ams fitted2) = length [ds 1; ds 2] /\ (forall i, anc fitted2 i i = false) /\
  (forall B, In B (ams fitted2) -> acyclic (edge_of 2 (denan B))) /\
  match snd (mgr_bootstrap fit_fine 1 (fun _ Xs => Xs) [ds 1; ds 2] None) with
  | Ok R => map (map (fun r => option_map this (snd r 1 0))) R | Err _ => [] end = [ [Some 1%Q]; [Some 2%Q] ].
Proof.
  split; [split; [cbn; lia|intros X [<-|[<-|[] ] ]; reflexivity]|]. split; [reflexivity|]. split.
  - intro i. cbn. destruct (Nat.eqb_spec i 1) as [->|]; reflexivity.
  - split; [|vm_compute; reflexivity]. intros B HB x HX.
    assert (R : forall a b, edge_of 2 (denan B) a b -> a < b).
    { intros a b E. unfold edge_of in E. destruct HB as [<-|[<-|[] ] ]; unfold denan in E; cbn in E;
        destruct (Nat.eqb_spec b 1) as [Eb|Eb]; destruct (Nat.eqb_spec a 0) as [Ea|Ea]; cbn in E; try lia; exfalso; intuition congruence. }
    assert (T : forall a b, clos_trans _ (edge_of 2 (denan B)) a b -> a < b) by (induction 1; [apply R; assumption|lia]).
    apply T in HX. lia.
Qed.
Definition fit_nan (_ : list dset) : result (sets * list (mat num)) :=
  Ok (anc fitted2, [fun i j => Some (if (i =? 1) && (j =? 0) then 1%Qc else 0%Qc);
                    fun i j => if (i =? 1) && (j =? 0) then Some (Q2Qc 2) else if (i =? 0) && (j =? 1) then None else Some 0%Qc]).
Example C239_example_nan :
  match snd (mgr_bootstrap fit_nan 1 (fun _ Xs => Xs) [ds 1; ds 2] None) with
  | Ok R => map (map (fun r => option_map this (snd r 1 0))) R | Err _ => [] end = [ [Some 1%Q]; [Some 0%Q] ].
Proof. vm_compute. reflexivity. Qed.
