(** * C197-C199: the VARMALiNGAM object's order search, bootstrap and pruning *)
From Coq Require Import List Arith Lia Bool ZArith QArith Qcanon Permutation.
From Verif Require Import Prelude Lib Spec ModelVAR ModelVarma SpecVarma ProofVarma.
Import ListNotations.
Open Scope nat_scope.

Section Obj.
  Context (n : nat) (prune : bool) (varmax : nat -> series -> nat * nat -> list (mat Qc) * list (mat Qc) * series) (value : nat -> series -> nat * nat -> num)
    (lingam : nat -> series -> list nat * mat Qc) (lasso : nat -> (nat -> nat -> Qc) -> list nat -> nat -> nat -> Qc).
  Notation FIT := (varma_fit n prune varmax value lingam lasso).
  Notation BOOT := (varma_bootstrap n prune varmax value lingam lasso).

  Lemma search_some : forall N X o v o', search_order value N X o = Some (v, o') ->
    within o' o /\ value N X o' = Some v /\ forall o'' u, within o'' o -> value N X o'' = Some u -> (v <= u)%Qc /\ (lexlt o'' o' -> (v < u)%Qc).
  Proof.
    intros N X o v o' E. pose proof (search_fold value N X (orders o) None) as F. unfold search_order in E. rewrite E in F.
    destruct F as [[E0 _]|(l1 & l2 & EO & V & _ & H1 & H2)]; [discriminate|].
    assert (IW : forall a, In a (orders o) <-> within a o) by (intros [p q]; rewrite orders_In; unfold within; cbn [fst snd]; tauto).
    split; [apply IW; rewrite EO; apply in_or_app; right; left; reflexivity|]. split; [exact V|]. intros o'' u W U.
    pose proof (proj2 (IW o'') W) as I. pose proof (orders_split o l1 o' l2 EO o'') as SP.
    assert (H1' : In o'' l1 -> (v < u)%Qc) by (intro J; exact (H1 o'' u J U)).
    split; [|intro L; apply H1', SP; split; assumption]. rewrite EO in I. apply in_app_iff in I. destruct I as [I|[<-|I]].
    - apply Qclt_le_weak, H1', I.
    - rewrite V in U. injection U as <-. apply Qcle_refl.
    - exact (H2 o'' u I U).
  Qed.
  Lemma search_none : forall N X o, search_order value N X o = None <-> forall o', within o' o -> value N X o' = None.
  Proof.
    intros N X o. pose proof (search_fold value N X (orders o) None) as F. unfold search_order.
    assert (IW : forall a, In a (orders o) <-> within a o) by (intros [p q]; rewrite orders_In; unfold within; cbn [fst snd]; tauto).
    destruct (fold_left (search_step value N X) (orders o) None) as [[v o']|].
    - destruct F as [[E0 _]|(l1 & l2 & EO & V & _)]; [discriminate|]. split; [discriminate|]. intro H. rewrite (H o') in V; [discriminate|]. apply IW. rewrite EO. apply in_or_app. right. left. reflexivity.
    - destruct F as [_ F]. split; [|reflexivity]. intros _ o' W. apply F, IW, W.
  Qed.

  (** C197: a fit that searches the order chooses the order with the smallest criterion (the first one in lexicographic order among equals) and keeps the coefficients
      of that order. *)
  Theorem C197_smallest_criterion : varmax_shapes varmax -> forall noise w N X, fresh w -> wo_criterion w = true -> (exists o v, within o (wo_order w) /\ value N X o = Some v) ->
    exists w1 r, FIT noise w N X = Ok (w1, r) /\ within (wo_order w1) (wo_order w) /\
      (exists v, value N X (wo_order w1) = Some v /\
        forall o u, within o (wo_order w) -> value N X o = Some u -> (v <= u)%Qc /\ (lexlt o (wo_order w1) -> (v < u)%Qc)) /\
      match wo_ar w1 with Some A => A | None => [] end = fst (fst (varmax N X (wo_order w1))) /\
      match wo_ma w1 with Some M => M | None => [] end = snd (fst (varmax N X (wo_order w1))) /\ wo_resid w1 = snd (varmax N X (wo_order w1)).
  Proof.
    intros SH noise w N X FR HC (o & v & W & V). destruct (search_order value N X (wo_order w)) as [[v1 o1]|] eqn:E.
    - destruct (fit_estimates n prune varmax value lingam lasso SH noise w N X o1 FR) as (order & po & EF & _); [rewrite HC; exists v1; exact E|].
      destruct (search_some _ _ _ _ _ E) as (W1 & V1 & H1). exists (after_fit varmax w o1 N X), (order, po). split; [exact EF|]. cbn [after_fit wo_order wo_ar wo_ma wo_resid].
      split; [exact W1|]. split; [exists v1; split; assumption|]. rewrite !present_list. split; [|split]; reflexivity.
    - rewrite (proj1 (search_none _ _ _) E o W) in V. discriminate.
  Qed.
  (** C197: when no order up to the given one has a number as its criterion, the fit raises AttributeError ('NoneType' object has no attribute ...). *)
  Theorem C197_no_number_refuted : forall noise w N X, fresh w -> wo_criterion w = true -> (forall o, within o (wo_order w) -> value N X o = None) ->
    FIT noise w N X = Err AttributeError.
  Proof. intros noise w N X FR HC H. apply fit_needs_value; [exact FR|exact HC|]. apply search_none. exact H. Qed.
  (** C197: so does order=(0, 0). *)
  Theorem C197_order_zero_refuted : forall noise w N X, fresh w -> wo_criterion w = true -> wo_order w = (0, 0) -> FIT noise w N X = Err AttributeError.
  Proof. intros noise w N X FR HC HO. apply C197_no_number_refuted; [exact FR|exact HC|]. rewrite HO. intros [p q] (H1 & H2 & H3). cbn in H1, H2. exfalso. apply H3. f_equal; lia. Qed.
  (** C197: without a criterion the given order is used. *)
  Theorem C197_fixed_order : varmax_shapes varmax -> forall noise w N X, fresh w -> wo_criterion w = false ->
    exists w1 r, FIT noise w N X = Ok (w1, r) /\ wo_order w1 = wo_order w /\ wo_resid w1 = snd (varmax N X (wo_order w)).
  Proof.
    intros SH noise w N X FR HC. destruct (fit_estimates n prune varmax value lingam lasso SH noise w N X (wo_order w) FR) as (order & po & EF & _); [rewrite HC; reflexivity|].
    eexists. eexists. split; [exact EF|]. split; reflexivity.
  Qed.
  (** C197: one given array alone is ignored: the fit is that of an object without it. *)
  Theorem C197_single_array_ignored_refuted : forall noise w N X, fresh w ->
    FIT noise w N X = FIT noise {| wo_order := wo_order w; wo_criterion := wo_criterion w; wo_ar := None; wo_ma := None; wo_rows := 0; wo_resid := fun _ _ => 0%Qc |} N X.
  Proof.
    intros noise w N X FR. unfold varma_fit. cbn [wo_order wo_criterion wo_ar wo_ma wo_rows wo_resid]. destruct FR as [F|F]; rewrite F; [reflexivity|]. destruct (wo_ar w); reflexivity.
  Qed.
  (** C197: a second fit of the same object: the first fit overwrote the order, so the search only goes up to the order chosen for the first data ... *)
  Theorem C197_second_search_refuted : varmax_shapes varmax -> forall noise w N X w1 r, fresh w -> FIT noise w N X = Ok (w1, r) -> fst (wo_order w1) = 0 \/ snd (wo_order w1) = 0 ->
    fresh w1 /\ forall noise' N' X' w2 r', FIT noise' w1 N' X' = Ok (w2, r') -> fst (wo_order w2) <= fst (wo_order w1) /\ snd (wo_order w2) <= snd (wo_order w1).
  Proof.
    intros SH noise w N X w1 r FR E Z.
    assert (FF : forall noise w N X w1 r, fresh w -> FIT noise w N X = Ok (w1, r) -> exists o, w1 = after_fit varmax w o N X /\ fst o <= fst (wo_order w) /\ snd o <= snd (wo_order w)).
    { clear - SH. intros noise w N X w1 r FR E. destruct (wo_criterion w) eqn:HC.
      - destruct (search_order value N X (wo_order w)) as [[v1 o1]|] eqn:ES.
        + destruct (fit_estimates n prune varmax value lingam lasso SH noise w N X o1 FR) as (order & po & EF & _); [rewrite HC; exists v1; exact ES|]. rewrite EF in E. injection E as <- _.
          exists o1. split; [reflexivity|]. destruct (search_some _ _ _ _ _ ES) as ((W1 & W2 & _) & _). split; assumption.
        + rewrite (fit_needs_value n prune varmax value lingam lasso noise w N X FR HC ES) in E. discriminate.
      - destruct (fit_estimates n prune varmax value lingam lasso SH noise w N X (wo_order w) FR) as (order & po & EF & _); [rewrite HC; reflexivity|]. rewrite EF in E. injection E as <- _.
        exists (wo_order w). split; [reflexivity|]. split; apply Nat.le_refl. }
    destruct (FF noise w N X w1 r FR E) as (o & -> & _). cbn [after_fit wo_order] in *.
    assert (FR1 : fresh (after_fit varmax w o N X)).
    { unfold fresh. cbn [after_fit wo_ar wo_ma]. destruct o as [p q]. destruct (SH N X p q) as [L1 L2]. cbn [fst snd] in Z. destruct Z as [Z|Z]; subst; [left|right].
      - destruct (fst (fst (varmax N X (0, q)))); [reflexivity|discriminate].
      - destruct (snd (fst (varmax N X (p, 0)))); [reflexivity|discriminate]. }
    split; [exact FR1|]. intros noise' N' X' w2 r' E2. destruct (FF noise' _ N' X' w2 r' FR1 E2) as (o' & -> & H1 & H2). cbn [after_fit wo_order] in *. split; assumption.
  Qed.
  (** ... and when both numbers chosen are positive, nothing is estimated again, whatever the new data. *)
  Theorem C197_second_fit_refuted : varmax_shapes varmax -> forall noise w N X w1 r, fresh w -> FIT noise w N X = Ok (w1, r) -> 0 < fst (wo_order w1) -> 0 < snd (wo_order w1) ->
    forall noise' N' X' w2 r', FIT noise' w1 N' X' = Ok (w2, r') -> wo_order w2 = wo_order w1 /\ wo_ar w2 = wo_ar w1 /\ wo_ma w2 = wo_ma w1.
  Proof.
    intros SH noise w N X w1 r FR E P Q noise' N' X' w2 r' E2.
    assert (NF : exists A M, wo_ar w1 = Some A /\ wo_ma w1 = Some M).
    { assert (FF : exists o, w1 = after_fit varmax w o N X).
      { destruct (wo_criterion w) eqn:HC.
        - destruct (search_order value N X (wo_order w)) as [[v1 o1]|] eqn:ES.
          + destruct (fit_estimates n prune varmax value lingam lasso SH noise w N X o1 FR) as (order & po & EF & _); [rewrite HC; exists v1; exact ES|]. rewrite EF in E. injection E as <- _. exists o1. reflexivity.
          + rewrite (fit_needs_value n prune varmax value lingam lasso noise w N X FR HC ES) in E. discriminate.
        - destruct (fit_estimates n prune varmax value lingam lasso SH noise w N X (wo_order w) FR) as (order & po & EF & _); [rewrite HC; reflexivity|]. rewrite EF in E. injection E as <- _. exists (wo_order w). reflexivity. }
      destruct FF as [[p q] ->]. cbn [after_fit wo_order wo_ar wo_ma fst snd] in *. destruct (SH N X p q) as [L1 L2].
      destruct (fst (fst (varmax N X (p, q)))) as [|a A]; [cbn in L1; lia|]. destruct (snd (fst (varmax N X (p, q)))) as [|m M]; [cbn in L2; lia|]. exists (a :: A), (m :: M). split; reflexivity. }
    destruct NF as (A & M & EA & EM). unfold varma_fit in E2. rewrite EA, EM in E2. cbn [bind] in E2. destruct (lingam _ _) as [order psi0].
    destruct (psi_omega _ _ _ _ _ _) as [po|]; [|discriminate]. cbn [bind] in E2.
    match type of E2 with context [bind ?t _] => destruct t as [po'|]; [|discriminate] end. cbn [bind] in E2. injection E2 as <- _. cbn [wo_order wo_ar wo_ma]. rewrite EA, EM. split; [|split]; reflexivity.
  Qed.

  (** ** C198: bootstrap *)
  Lemma boot_loop_ok : varmax_shapes varmax -> forall p q A M ar0 ma0 N draws w Y, (ar0 = None \/ ma0 = None) -> length A = p -> length M = q -> wo_order w = (p, q) -> wo_criterion w = false -> wo_resid w = snd (varmax N Y (p, q)) ->
    exists w' l, varma_boot_loop n prune varmax value lingam lasso (Some A) (Some M) ar0 ma0 (p, q) w N draws = Ok (w', l) /\ length l = length draws /\ wo_order w' = (p, q) /\
      (draws <> [] -> wo_ar w' = present (fst (fst (varmax N (last (map fst l) Y) (p, q)))) /\ wo_ma w' = present (snd (fst (varmax N (last (map fst l) Y) (p, q))))) /\
      forall k d nz Xs psi omega, nth_error draws k = Some (d, nz) -> nth_error l k = Some (Xs, (psi, omega)) ->
        length psi = 1 + p /\ length omega = q /\
        (forall j, j < N -> j < Nat.max p q -> Xs j = snd (varmax N (nth k (Y :: map fst l) Y) (p, q)) (d j)) /\
        (forall j i, j < N -> Nat.max p q <= j -> Xs j i =
           (sumn p (fun t => mvec n (nth t A zmat) (Xs (j - t - 1)%nat) i) + snd (varmax N (nth k (Y :: map fst l) Y) (p, q)) (d j) i
            + sumn q (fun t => mvec n (nth t M zmat) (snd (varmax N (nth k (Y :: map fst l) Y) (p, q)) (d (j - t - 1)%nat)) i))%Qc).
  Proof.
    intros SH p q A M ar0 ma0 N draws. induction draws as [|[d nz] draws IH]; intros w Y F0 LA LM HO HC HR.
    - exists w, []. split; [reflexivity|]. split; [reflexivity|]. split; [exact HO|]. split; [congruence|]. intros k ? ? ? ? ? H. destruct k; discriminate.
    - cbn [varma_boot_loop fst snd]. set (st := Nat.max p q). set (e := fun j => wo_resid w (d j)).
      set (Xs := if N <=? st then varma_resampled n [] [] st e N else varma_resampled n A M st e N).
      replace (if N <=? st then Ok (varma_resampled n [] [] st e N) else Ok (varma_resampled n A M st e N)) with (Ok Xs) by (unfold Xs; destruct (N <=? st); reflexivity).
      cbn [bind]. set (w0 := {| wo_order := wo_order w; wo_criterion := wo_criterion w; wo_ar := ar0; wo_ma := ma0; wo_rows := wo_rows w; wo_resid := wo_resid w |}).
      destruct (fit_estimates n prune varmax value lingam lasso SH nz w0 N Xs (p, q)) as (order & [psi omega] & EF & L1 & L2); [exact F0|cbn; rewrite HC; symmetry; exact HO|].
      rewrite EF. cbn [bind]. destruct (IH (after_fit varmax w0 (p, q) N Xs) Xs F0 LA LM eq_refl HC eq_refl) as (w' & l & EL & LL & HO' & HL & HK). rewrite EL. cbn [bind].
      exists w', ((Xs, (psi, omega)) :: l). split; [reflexivity|]. split; [cbn; rewrite LL; reflexivity|]. split; [exact HO'|]. split.
      + intros _. destruct draws as [|dr draws].
        * destruct l; [|discriminate]. cbn [varma_boot_loop] in EL. injection EL as <-. split; reflexivity.
        * destruct (HL ltac:(discriminate)) as [G1 G2]. replace (last (map fst ((Xs, (psi, omega)) :: l)) Y) with (last (map fst l) Xs); [split; assumption|].
          destruct l as [|x l]; [discriminate|]. cbn [map fst]. clear. revert x. induction l as [|y l IH]; intro x; [reflexivity|]. specialize (IH y). cbn [map last] in *. exact IH.
      + intros k d' nz' Xs' psi' omega' Hd Hl. destruct k as [|k].
        * cbn [nth_error] in Hd, Hl. injection Hd as <- <-. injection Hl as <- <- <-. split; [exact L1|]. split; [exact L2|]. cbn [nth]. rewrite <- HR. fold st. split.
          { intros j J1 J2. unfold Xs. destruct (Nat.leb_spec N st); apply (resampled_start n _ _ st e N j J1 J2). }
          { intros j i J1 J2. unfold Xs. destruct (Nat.leb_spec N st) as [Q|Q]; [lia|]. rewrite (resampled_rec n A M st e N j i) at 1; [|unfold st; lia|exact J1|exact J2]. rewrite LA, LM. reflexivity. }
        * cbn [nth_error] in Hd, Hl. pose proof (HK k d' nz' Xs' psi' omega' Hd Hl) as G.
          assert (EN : nth (S k) (Y :: map fst ((Xs, (psi, omega)) :: l)) Y = nth k (Xs :: map fst l) Xs).
          { cbn [map fst nth]. destruct k as [|k]; [reflexivity|]. cbn [nth]. apply nth_indep. rewrite map_length. assert (S k < length l) by (apply nth_error_Some; congruence). lia. }
          rewrite EN. exact G.
  Qed.
  (** C198: bootstrap of an object without both arrays and with p, q >= 1: one entry per sample, of the given order; every resampled series follows the VARMA recursion with
      the coefficients fitted to the data.  The errors are drawn from the residuals of the data for the first sample and, for the later ones, from the residuals of the PREVIOUS
      sample's fit. *)
  Theorem C198_samples : varmax_shapes varmax -> forall noise w N X draws p q, fresh w -> wo_order w = (p, q) -> 1 <= p -> 1 <= q ->
    exists w' l, BOOT noise w N X draws = Ok (w', l) /\ length l = length draws /\ wo_order w' = (p, q) /\ wo_criterion w' = wo_criterion w /\
      forall k d nz Xs psi omega, nth_error draws k = Some (d, nz) -> nth_error l k = Some (Xs, (psi, omega)) ->
        let A := fst (fst (varmax N X (p, q))) in let M := snd (fst (varmax N X (p, q))) in
        let e := fun j => snd (varmax N (nth k (X :: map fst l) X) (p, q)) (d j) in
        length psi = 1 + p /\ length omega = q /\
        (forall j, j < N -> j < Nat.max p q -> Xs j = e j) /\
        (forall j i, j < N -> Nat.max p q <= j -> Xs j i =
           (sumn p (fun t => mvec n (nth t A zmat) (Xs (j - t - 1)%nat) i) + e j i + sumn q (fun t => mvec n (nth t M zmat) (e (j - t - 1)%nat) i))%Qc).
  Proof.
    intros SH noise w N X draws p q FR HO P Q. unfold varma_bootstrap.
    set (w0 := {| wo_order := wo_order w; wo_criterion := false; wo_ar := wo_ar w; wo_ma := wo_ma w; wo_rows := wo_rows w; wo_resid := wo_resid w |}).
    destruct (fit_estimates n prune varmax value lingam lasso SH noise w0 N X (p, q)) as (order & po & EF & _); [exact FR|cbn; symmetry; exact HO|].
    rewrite EF. cbn [bind]. destruct (SH N X p q) as [L1 L2].
    assert (EA : wo_ar (after_fit varmax w0 (p, q) N X) = Some (fst (fst (varmax N X (p, q))))) by (cbn; destruct (fst (fst (varmax N X (p, q)))); [cbn in L1; lia|reflexivity]).
    assert (EM : wo_ma (after_fit varmax w0 (p, q) N X) = Some (snd (fst (varmax N X (p, q))))) by (cbn; destruct (snd (fst (varmax N X (p, q)))); [cbn in L2; lia|reflexivity]).
    rewrite EA, EM, HO.
    destruct (boot_loop_ok SH p q (fst (fst (varmax N X (p, q)))) (snd (fst (varmax N X (p, q)))) (wo_ar w) (wo_ma w) N draws (after_fit varmax w0 (p, q) N X) X) as (w' & l & EL & LL & HO' & _ & HK); try assumption; try reflexivity.
    rewrite EL. cbn [bind]. eexists. exists l. split; [reflexivity|]. split; [exact LL|]. split; [exact HO'|]. split; [reflexivity|]. exact HK.
  Qed.
  (** C198: afterwards the object holds the coefficients of the last sample, not of the data. *)
  Theorem C198_object_afterwards_refuted : varmax_shapes varmax -> forall noise w N X draws p q w' l, fresh w -> wo_order w = (p, q) -> 1 <= p -> 1 <= q -> draws <> [] ->
    BOOT noise w N X draws = Ok (w', l) -> exists Xs po, In (Xs, po) l /\ wo_ar w' = Some (fst (fst (varmax N Xs (p, q)))) /\ wo_ma w' = Some (snd (fst (varmax N Xs (p, q)))).
  Proof.
    intros SH noise w N X draws p q w' l FR HO P Q ND E. unfold varma_bootstrap in E.
    set (w0 := {| wo_order := wo_order w; wo_criterion := false; wo_ar := wo_ar w; wo_ma := wo_ma w; wo_rows := wo_rows w; wo_resid := wo_resid w |}) in E.
    destruct (fit_estimates n prune varmax value lingam lasso SH noise w0 N X (p, q)) as (order & po & EF & _); [exact FR|cbn; symmetry; exact HO|].
    rewrite EF in E. cbn [bind] in E. destruct (SH N X p q) as [L1 L2].
    assert (EA : wo_ar (after_fit varmax w0 (p, q) N X) = Some (fst (fst (varmax N X (p, q))))) by (cbn; destruct (fst (fst (varmax N X (p, q)))); [cbn in L1; lia|reflexivity]).
    assert (EM : wo_ma (after_fit varmax w0 (p, q) N X) = Some (snd (fst (varmax N X (p, q))))) by (cbn; destruct (snd (fst (varmax N X (p, q)))); [cbn in L2; lia|reflexivity]).
    rewrite EA, EM, HO in E.
    destruct (boot_loop_ok SH p q (fst (fst (varmax N X (p, q)))) (snd (fst (varmax N X (p, q)))) (wo_ar w) (wo_ma w) N draws (after_fit varmax w0 (p, q) N X) X) as (w2 & l2 & EL & LL & HO' & HL & _); try assumption; try reflexivity.
    rewrite EL in E. cbn [bind] in E. injection E as <- <-. cbn [wo_ar wo_ma]. destruct (HL ND) as [G1 G2]. destruct (exists_last (l := l2)) as (l' & [Xs po'] & ->); [intros ->; destruct draws; [congruence|discriminate]|].
    rewrite map_app in G1, G2. cbn [map fst] in G1, G2. rewrite last_last in G1, G2. exists Xs, po'. split; [apply in_or_app; right; left; reflexivity|]. destruct (SH N Xs p q) as [L3 L4]. rewrite G1, G2.
    split; [destruct (fst (fst (varmax N Xs (p, q)))); [cbn in L3; lia|reflexivity]|destruct (snd (fst (varmax N Xs (p, q)))); [cbn in L4; lia|reflexivity]].
  Qed.
  (** C198: bootstrap evaluates the given order, while fit evaluates the order chosen by the criterion. *)
  Theorem C198_ignores_criterion_refuted : varmax_shapes varmax -> forall noise w N X draws w1 order po w' l Xs po', fresh w -> 1 <= fst (wo_order w) -> 1 <= snd (wo_order w) ->
    FIT noise w N X = Ok (w1, (order, po)) -> BOOT noise w N X draws = Ok (w', l) -> In (Xs, po') l ->
    length (fst po) = 1 + fst (wo_order w1) /\ length (snd po) = snd (wo_order w1) /\ length (fst po') = 1 + fst (wo_order w) /\ length (snd po') = snd (wo_order w).
  Proof.
    intros SH noise w N X draws w1 order po w' l Xs po' FR P Q EF EB I. destruct (wo_order w) as [p q] eqn:HO. cbn [fst snd] in *.
    destruct (C198_samples SH noise w N X draws p q FR HO P Q) as (w2 & l2 & EB2 & LL & _ & _ & HK). rewrite EB in EB2. injection EB2 as <- <-.
    assert (G : length (fst po) = 1 + fst (wo_order w1) /\ length (snd po) = snd (wo_order w1)).
    { destruct (wo_criterion w) eqn:HC.
      - destruct (search_order value N X (wo_order w)) as [[v1 o1]|] eqn:ES.
        + destruct (fit_estimates n prune varmax value lingam lasso SH noise w N X o1 FR) as (order' & po2 & EF2 & L1 & L2); [rewrite HC; exists v1; exact ES|]. rewrite EF2 in EF. injection EF as <- _ <-. split; assumption.
        + rewrite (fit_needs_value n prune varmax value lingam lasso noise w N X FR HC ES) in EF. discriminate.
      - destruct (fit_estimates n prune varmax value lingam lasso SH noise w N X (wo_order w) FR) as (order' & po2 & EF2 & L1 & L2); [rewrite HC; reflexivity|]. rewrite EF2 in EF. injection EF as <- _ <-. split; assumption. }
    destruct G as [G1 G2]. split; [exact G1|]. split; [exact G2|]. apply In_nth_error in I. destruct I as [k K]. destruct po' as [psi omega].
    destruct (nth_error draws k) as [[d nz]|] eqn:ED; [|exfalso; apply nth_error_None in ED; assert (k < length l) by (apply nth_error_Some; congruence); lia].
    destruct (HK k d nz Xs psi omega ED K) as (G3 & G4 & _). split; assumption.
  Qed.
  (** C198: an object without both arrays, of order (p, 0) or (0, q): the first sample raises TypeError ('NoneType' object is not iterable). *)
  Theorem C198_pure_orders_refuted : varmax_shapes varmax -> forall noise w N X draws p q, fresh w -> wo_order w = (p, q) -> p = 0 \/ q = 0 -> Nat.max p q < N -> draws <> [] ->
    BOOT noise w N X draws = Err TypeError.
  Proof.
    intros SH noise w N X draws p q FR HO Z HN ND. unfold varma_bootstrap.
    set (w0 := {| wo_order := wo_order w; wo_criterion := false; wo_ar := wo_ar w; wo_ma := wo_ma w; wo_rows := wo_rows w; wo_resid := wo_resid w |}).
    destruct (fit_estimates n prune varmax value lingam lasso SH noise w0 N X (p, q)) as (order & po & EF & _); [exact FR|cbn; symmetry; exact HO|].
    rewrite EF. cbn [bind]. destruct (SH N X p q) as [L1 L2]. destruct draws as [|[d nz] draws]; [congruence|]. rewrite HO. cbn [varma_boot_loop fst snd].
    destruct (Nat.leb_spec N (Nat.max p q)); [lia|].
    assert (NN : wo_ar (after_fit varmax w0 (p, q) N X) = None \/ wo_ma (after_fit varmax w0 (p, q) N X) = None).
    { cbn [after_fit wo_ar wo_ma]. destruct Z as [-> | ->]; [left; destruct (fst (fst (varmax N X (0, q)))); [reflexivity|discriminate]|right; destruct (snd (fst (varmax N X (p, 0)))); [reflexivity|discriminate]]. }
    destruct NN as [-> | ->]; [reflexivity|]. destruct (wo_ar (after_fit varmax w0 (p, q) N X)); reflexivity.
  Qed.
End Obj.
(** C198: with pruning (the default), fit followed by bootstrap of the same object raises ValueError as soon as the fitted order has p, q >= 1. *)
Theorem C198_after_fit_refuted : forall n varmax value lingam lasso, varmax_shapes varmax -> forall noise w N X w1 r, fresh w ->
  varma_fit n true varmax value lingam lasso noise w N X = Ok (w1, r) -> 1 <= fst (wo_order w1) -> 1 <= snd (wo_order w1) -> Nat.max (fst (wo_order w1)) (snd (wo_order w1)) + 2 <= N ->
  forall noise' X' draws, varma_bootstrap n true varmax value lingam lasso noise' w1 N X' draws = Err ValueError.
Proof.
  intros n varmax value lingam lasso SH noise w N X w1 r FR E P Q HN noise' X' draws.
  assert (FF : exists o, w1 = after_fit varmax w o N X).
  { destruct (wo_criterion w) eqn:HC.
    - destruct (search_order value N X (wo_order w)) as [[v1 o1]|] eqn:ES.
      + destruct (fit_estimates n true varmax value lingam lasso SH noise w N X o1 FR) as (order & po & EF & _); [rewrite HC; exists v1; exact ES|]. rewrite EF in E. injection E as <- _. exists o1. reflexivity.
      + rewrite (fit_needs_value n true varmax value lingam lasso noise w N X FR HC ES) in E. discriminate.
    - destruct (fit_estimates n true varmax value lingam lasso SH noise w N X (wo_order w) FR) as (order & po & EF & _); [rewrite HC; reflexivity|]. rewrite EF in E. injection E as <- _. exists (wo_order w). reflexivity. }
  destruct FF as [[p q] ->]. cbn [after_fit wo_order fst snd] in P, Q, HN. destruct (SH N X p q) as [L1 L2]. clear E.
  unfold varma_bootstrap, varma_fit. cbn [after_fit wo_order wo_criterion wo_ar wo_ma wo_rows wo_resid].
  destruct (fst (fst (varmax N X (p, q)))) as [|a A]; [cbn in L1; lia|]. destruct (snd (fst (varmax N X (p, q)))) as [|m M]; [cbn in L2; lia|]. cbn [present bind].
  destruct (lingam _ _) as [order psi0]. cbn [fst snd]. destruct (psi_omega_ok n psi0 (a :: A) (m :: M)) as (po & EP & _). rewrite L1, L2 in EP. rewrite EP. cbn [bind].
  unfold varma_pruning, join_rows_ok, fits_rows. rewrite L1, L2. destruct (Nat.eqb_spec q 0); [lia|]. destruct (Nat.eqb_spec (N - Nat.max p q) N); [lia|]. destruct (Nat.eqb_spec (N - Nat.max p q) 1); [lia|]. reflexivity.
Qed.
Print Assumptions C197_smallest_criterion.
Print Assumptions C197_no_number_refuted.
Print Assumptions C197_order_zero_refuted.
Print Assumptions C197_fixed_order.
Print Assumptions C197_single_array_ignored_refuted.
Print Assumptions C197_second_search_refuted.
Print Assumptions C197_second_fit_refuted.
Print Assumptions C198_samples.
Print Assumptions C198_object_afterwards_refuted.
Print Assumptions C198_ignores_criterion_refuted.
Print Assumptions C198_pure_orders_refuted.
Print Assumptions C198_after_fit_refuted.

(** ** C199: pruning *)
Lemma joined_past : forall n N X p rows ee t k c, c < n -> k <= p -> k < N -> t < N -> joined n N X p rows ee t (n * k + c) = X (if k <=? t then t - k else N + t - k) c.
Proof.
  intros n N X p rows ee t k c Hc Hk HN Ht. unfold joined. destruct (Nat.ltb_spec (n * k + c) (n * (1 + p))) as [_|H]; [|nia].
  assert (D : (n * k + c) / n = k) by (rewrite (Nat.mul_comm n k); rewrite Nat.div_add_l by lia; rewrite Nat.div_small by exact Hc; lia).
  assert (M : (n * k + c) mod n = c) by (rewrite Nat.add_comm, Nat.mul_comm, Nat.mod_add by lia; apply Nat.mod_small, Hc).
  rewrite D, M. unfold np_roll. rewrite (Nat.mod_small k N HN). f_equal. destruct (Nat.leb_spec k t) as [L|L].
  - replace (t + (N - k)) with (t - k + 1 * N) by lia. rewrite Nat.mod_add by lia. apply Nat.mod_small. lia.
  - rewrite Nat.mod_small by lia. lia.
Qed.
Lemma joined_errors : forall n N X p ee t k c, c < n -> S k < N -> t < N -> joined n N X p N ee t (n * (1 + p) + n * k + c) = ee (if S k <=? t then t - S k else N + t - S k) c.
Proof.
  intros n N X p ee t k c Hc HN Ht. unfold joined. destruct (Nat.ltb_spec (n * (1 + p) + n * k + c) (n * (1 + p))) as [H|_]; [lia|]. rewrite Nat.eqb_refl.
  replace (n * (1 + p) + n * k + c - n * (1 + p)) with (n * k + c) by lia.
  assert (D : (n * k + c) / n = k) by (rewrite (Nat.mul_comm n k); rewrite Nat.div_add_l by lia; rewrite Nat.div_small by exact Hc; lia).
  assert (M : (n * k + c) mod n = c) by (rewrite Nat.add_comm, Nat.mul_comm, Nat.mod_add by lia; apply Nat.mod_small, Hc).
  cbv zeta. rewrite D, M. unfold np_roll. rewrite (Nat.mod_small (k + 1) N) by lia. f_equal. destruct (Nat.leb_spec (S k) t) as [L|L].
  - replace (t + (N - (k + 1))) with (t - S k + 1 * N) by lia. rewrite Nat.mod_add by lia. apply Nat.mod_small. lia.
  - rewrite Nat.mod_small by lia. lia.
Qed.
Lemma nth_mats : forall (f : nat -> mat Qc) p k r c, k < p -> nth k (map f (seq 0 p)) zmat r c = f k r c.
Proof. intros f p k r c H. rewrite (nth_indep _ zmat (f 0)) by (rewrite map_length, seq_length; exact H). rewrite (map_nth f), seq_nth by exact H. reflexivity. Qed.
Lemma prune_entry : forall n lasso N X rows ee p q order psis omegas, varma_pruning n lasso N X rows ee (p, q) order = Ok (psis, omegas) -> NoDup order -> (forall v, In v order -> v < n) ->
  forall i r, nth_error order i = Some r ->
  let ps := lasso_predictors (n * (1 + p + q)) (skipn i order) in
  let M := fun c => match index_of c ps with Some m => lasso N (joined n N X p rows ee) ps r m | None => 0%Qc end in
  (forall k c, k <= p -> nth k psis zmat r c = M (n * k + c)) /\ (forall k c, k < q -> nth k omegas zmat r c = M (n * (1 + p) + n * k + c)).
Proof.
  intros n lasso N X rows ee p q order psis omegas E ND B i r Hi ps M. unfold varma_pruning in E. destruct (join_rows_ok N rows q); [|discriminate]. cbn [bind] in E.
  match type of E with Ok (?a, ?b) = _ => assert (E1 : psis = a) by congruence; assert (E2 : omegas = b) by congruence end. clear E. subst psis omegas.
  assert (Hr : nth i order 0 = r) by (apply nth_error_nth; exact Hi). assert (Li : i < length order) by (apply nth_error_Some; congruence).
  assert (EM : forall c, fold_left (prune_target lasso N (n * (1 + p + q)) (joined n N X p rows ee) order) (seq 0 (length order)) zmat r c = M c).
  { intro c. rewrite (prune_row lasso N (n * (1 + p + q)) (joined n N X p rows ee) order i r c Hr); [|apply seq_NoDup|].
    - destruct (memb i (seq 0 (length order))) eqn:ME; [reflexivity|]. apply memb_notIn in ME. exfalso. apply ME. apply in_seq. lia.
    - intros j Hj Ej. apply in_seq in Hj. apply (proj1 (NoDup_nth order 0) ND); [lia|exact Li|]. rewrite Ej, Hr. reflexivity. }
  split; intros k c Hk.
  - rewrite nth_mats by lia. apply EM.
  - rewrite nth_mats by lia. apply EM.
Qed.
(** C199: every variable is regressed (adaptive lasso) on the current variables before it in the causal order, on the p lagged series and on the q lagged errors, all shifted
    cyclically, and every coefficient is put at its variable and lag. *)
Theorem C199_coefficients : forall n lasso N X ee p q order psis omegas, p < N -> q < N -> varma_pruning n lasso N X N ee (p, q) order = Ok (psis, omegas) -> Permutation order (seq 0 n) ->
  forall i r, nth_error order i = Some r -> exists Z ps,
    (forall t k c, t < N -> k <= p -> c < n -> Z t (n * k + c) = X (if k <=? t then t - k else N + t - k) c) /\
    (forall t k c, t < N -> k < q -> c < n -> Z t (n * (1 + p) + n * k + c) = ee (if k <? t then t - k - 1 else N + t - k - 1) c) /\
    NoDup ps /\ (forall c, In c ps <-> c < n * (1 + p + q) /\ ~ In c (skipn i order)) /\
    (forall m k c, k <= p -> nth_error ps m = Some (n * k + c) -> nth k psis zmat r c = lasso N Z ps r m) /\
    (forall m k c, k < q -> nth_error ps m = Some (n * (1 + p) + n * k + c) -> nth k omegas zmat r c = lasso N Z ps r m).
Proof.
  intros n lasso N X ee p q order psis omegas Hp Hq E PM i r Hi.
  assert (ND : NoDup order) by (apply (Permutation_NoDup (Permutation_sym PM)), seq_NoDup).
  assert (B : forall v, In v order -> v < n) by (intros v Hv; apply (Permutation_in _ PM) in Hv; apply in_seq in Hv; lia).
  destruct (prune_entry n lasso N X N ee p q order psis omegas E ND B i r Hi) as [E1 E2]. exists (joined n N X p N ee), (lasso_predictors (n * (1 + p + q)) (skipn i order)).
  assert (NP : NoDup (lasso_predictors (n * (1 + p + q)) (skipn i order))) by (apply NoDup_filter, seq_NoDup).
  split; [intros t k c Ht Hk Hc; apply joined_past; lia|]. split.
  { intros t k c Ht Hk Hc. rewrite joined_errors by lia. f_equal. change (k <? t) with (S k <=? t). destruct (S k <=? t); lia. }
  split; [exact NP|]. split.
  { intro c. unfold lasso_predictors. rewrite filter_In, in_seq, negb_true_iff, memb_notIn. split; [intros [H1 H2]; split; [lia|exact H2]|intros [H1 H2]; split; [lia|exact H2]]. }
  split; intros m k c Hk Hm; [rewrite E1 by exact Hk|rewrite E2 by exact Hk]; rewrite (index_of_NoDup _ m _ NP Hm); reflexivity.
Qed.
(** C199: the instantaneous matrix keeps the causal order: no effect of a variable on itself or on an earlier one. *)
Theorem C199_keeps_order : forall n lasso N X rows ee p q order psis omegas, varma_pruning n lasso N X rows ee (p, q) order = Ok (psis, omegas) -> Permutation order (seq 0 n) ->
  forall i j r c, nth_error order i = Some r -> nth_error order j = Some c -> i <= j -> nth 0 psis zmat r c = 0%Qc.
Proof.
  intros n lasso N X rows ee p q order psis omegas E PM i j r c Hi Hj L.
  assert (ND : NoDup order) by (apply (Permutation_NoDup (Permutation_sym PM)), seq_NoDup).
  assert (B : forall v, In v order -> v < n) by (intros v Hv; apply (Permutation_in _ PM) in Hv; apply in_seq in Hv; lia).
  destruct (prune_entry n lasso N X rows ee p q order psis omegas E ND B i r Hi) as [E1 _]. rewrite E1 by lia. rewrite Nat.mul_0_r, Nat.add_0_l.
  destruct (index_of c (lasso_predictors (n * (1 + p + q)) (skipn i order))) as [m|] eqn:EI; [|reflexivity]. exfalso. apply index_of_some, nth_error_In in EI. unfold lasso_predictors in EI.
  apply filter_In in EI. destruct EI as [_ EI]. rewrite negb_true_iff, memb_notIn in EI. apply EI.
  rewrite <- (firstn_skipn i order) in Hj. rewrite nth_error_app2 in Hj by (rewrite firstn_length; lia). exact (nth_error_In _ _ Hj).
Qed.
Print Assumptions C199_coefficients.
Print Assumptions C199_keeps_order.

(** ** Examples *)
Definition ex_a (X : series) : Qc := if Qc_eq_bool (X 1 0) (qz 4) then qf 1 2 else 0%Qc.
(** an estimator whose coefficient depends on the data, with the residuals that belong to it *)
Definition ex_varmax (N : nat) (X : series) (o : nat * nat) : list (mat Qc) * list (mat Qc) * series :=
  (repeat (fun _ _ => ex_a X) (fst o), repeat zmat (snd o), fun t i => match t with 0 => X 0 i | S t' => (X t i - (if 1 <=? fst o then ex_a X * X t' i else 0))%Qc end).
Definition ex_value (N : nat) (X : series) (o : nat * nat) : num :=
  Some (if Qc_eq_bool (X 1 0) (qz 4) then match o with (1, 0) => qz 1 | (1, 1) => qz 2 | _ => qz 3 end else match o with (1, 1) => qz 1 | (0, 1) => qz 1 | _ => qz 3 end).
Definition ex_lingam (N : nat) (R : series) : list nat * mat Qc := ([0], zmat).
Definition ex_lasso (N : nat) (Z : nat -> nat -> Qc) (ps : list nat) (t k : nat) : Qc := qz (Z.of_nat (10 * t + k)).
Definition ex_new (o : nat * nat) (c : bool) : varma_obj := {| wo_order := o; wo_criterion := c; wo_ar := None; wo_ma := None; wo_rows := 0; wo_resid := fun _ _ => 0%Qc |}.
Definition ex_four : series := fun _ _ => qz 4.
Definition ex_five : series := fun _ _ => qz 5.
Example C197_example_shapes : varmax_shapes ex_varmax.
Proof. intros N X p q. cbn [ex_varmax fst snd]. rewrite !repeat_length. split; reflexivity. Qed.
(** data 4, 4, 4: (1, 0) is best; data 5, 5, 5: (0, 1) and (1, 1) are equally good and the first is taken; after the fit to 4, 4, 4 the same data give (1, 0). *)
Example C197_example : exists w1 r1 w2 r2 w3 r3,
  varma_fit 1 true ex_varmax ex_value ex_lingam ex_lasso ex_four (ex_new (1, 1) true) 3 ex_four = Ok (w1, r1) /\ wo_order w1 = (1, 0) /\
  varma_fit 1 true ex_varmax ex_value ex_lingam ex_lasso ex_four (ex_new (1, 1) true) 3 ex_five = Ok (w2, r2) /\ wo_order w2 = (0, 1) /\
  varma_fit 1 true ex_varmax ex_value ex_lingam ex_lasso ex_four w1 3 ex_five = Ok (w3, r3) /\ wo_order w3 = (1, 0).
Proof. do 6 eexists. split; [reflexivity|]. split; [reflexivity|]. split; [reflexivity|]. split; [reflexivity|]. split; reflexivity. Qed.
(** C198: the second sample may contain an error that is no residual of the data. *)
Theorem C198_residuals_drift_refuted : exists n varmax value lingam lasso noise w N X draws w' X1 po1 X2 po2, varmax_shapes varmax /\ fresh w /\ wo_order w = (1, 1) /\
  varma_bootstrap n true varmax value lingam lasso noise w N X draws = Ok (w', [(X1, po1); (X2, po2)]) /\ ~ exists t, t < N /\ X2 0 0 = snd (varmax N X (1, 1)) t 0.
Proof.
  exists 1, ex_varmax, ex_value, ex_lingam, ex_lasso, ex_four, (ex_new (1, 1) true), 2, ex_four, [(fun _ => 0, ex_four); (fun _ => 1, ex_four)]. do 5 eexists.
  split; [exact C197_example_shapes|]. split; [left; reflexivity|]. split; [reflexivity|]. split; [reflexivity|].
  intros (t & Ht & E). apply (f_equal this) in E. destruct t as [|[|t]]; [vm_compute in E; discriminate E|vm_compute in E; discriminate E|lia].
Qed.
Print Assumptions C198_residuals_drift_refuted.
Example C198_example : exists w1 r w2 l,
  varma_fit 1 true ex_varmax ex_value ex_lingam ex_lasso ex_four (ex_new (1, 1) false) 3 ex_four = Ok (w1, r) /\ wo_order w1 = (1, 1) /\
  varma_bootstrap 1 true ex_varmax ex_value ex_lingam ex_lasso ex_four w1 3 ex_four [(fun j => j, ex_four)] = Err ValueError /\
  varma_bootstrap 1 true ex_varmax ex_value ex_lingam ex_lasso ex_four (ex_new (1, 0) false) 3 ex_four [(fun j => j, ex_four)] = Err TypeError /\
  varma_bootstrap 1 true ex_varmax ex_value ex_lingam ex_lasso ex_four (ex_new (1, 1) true) 3 ex_four [(fun j => j, ex_four); (fun j => 2 - j, ex_four)] = Ok (w2, l) /\ length l = 2 /\ wo_criterion w2 = true.
Proof. do 4 eexists. split; [reflexivity|]. split; [reflexivity|]. split; [reflexivity|]. split; [reflexivity|]. split; [reflexivity|]. split; reflexivity. Qed.
(** two variables in the order 1, 0, one lag of each kind *)
Example C199_example : exists psis omegas,
  varma_pruning 2 ex_lasso 3 ex_four 3 ex_five (1, 1) [1; 0] = Ok (psis, omegas) /\ nth 0 psis zmat 0 1 = qz 0 /\ nth 1 psis zmat 0 1 = qz 2 /\ nth 0 omegas zmat 0 0 = qz 3 /\ nth 0 omegas zmat 1 1 = qz 13 /\ nth 1 psis zmat 1 0 = qz 10 /\ nth 0 psis zmat 1 0 = 0%Qc.
Proof. do 2 eexists. split; [reflexivity|]. repeat split; apply Qc_is_canon; vm_compute; reflexivity. Qed.
