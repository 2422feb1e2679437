(** * C216, C217: the lag VARLiNGAM chooses; what calls that fail leave behind *)
From Coq Require Import List Arith Lia Bool ZArith QArith Qcanon.
From Verif Require Import Prelude Lib Spec ModelVAR ModelVarState Props_VAR.
Import ListNotations.
Open Scope nat_scope.

(** VAR with [lag] lags has that many coefficient matrices. *)
Definition var_shapes (var_model : nat -> series -> nat -> result (list (mat Qc) * series)) : Prop :=
  forall N X lag Ms R, var_model N X lag = Ok (Ms, R) -> length Ms = lag.

Section State.
  Variables (n : nat) (prune model_ok : bool) (var_model : nat -> series -> nat -> result (list (mat Qc) * series)) (value : nat -> series -> nat -> num)
    (lingam : nat -> series -> result (list nat * mat Qc)) (lasso : lasso_fn).
  Notation FIT := (vs_fit n prune model_ok var_model value lingam lasso).
  Notation BOOT := (vs_bootstrap n prune model_ok var_model value lingam lasso).
  Notation ATT := (attempt n prune model_ok var_model value lingam lasso).
  Notation REP := (vs_repeat n prune model_ok var_model value lingam lasso).

  (** ** C216 *)
  Lemma search_ok : forall N X L best, fold_left (lag_step var_model value N X) (seq 1 L) (Ok None) = Ok best ->
    (forall k, 1 <= k <= L -> exists r, var_model N X k = Ok r) /\
    match best with
    | None => forall k, 1 <= k <= L -> value N X k = None
    | Some (v, (lag, fitted)) => 1 <= lag <= L /\ var_model N X lag = Ok fitted /\ value N X lag = Some v /\
        forall k u, 1 <= k <= L -> value N X k = Some u -> (v <= u)%Qc /\ (k < lag -> (v < u)%Qc)
    end.
  Proof.
    intros N X. induction L as [|L IH]; intros best E.
    - injection E as <-. split; intros k Hk; lia.
    - rewrite seq_S, fold_left_app in E. cbn [fold_left] in E. destruct (fold_left _ (seq 1 L) (Ok None)) as [b|e] eqn:EB; [|discriminate].
      destruct (IH b eq_refl) as [HA HB]. unfold lag_step in E. cbn [bind] in E. change (1 + L) with (S L) in E. destruct (var_model N X (S L)) as [f|e] eqn:EM; [|discriminate]. cbn [bind] in E. injection E as <-.
      split; [intros k Hk; destruct (Nat.eq_dec k (S L)) as [->|D]; [exists f; exact EM|apply HA; lia]|].
      destruct (value N X (S L)) as [v|] eqn:EV.
      + destruct b as [[w [lag fitted]]|].
        * destruct HB as (H1 & H2 & H3 & H4). destruct (qltb v w) eqn:T.
          -- apply qltb_lt in T. split; [lia|]. split; [exact EM|]. split; [exact EV|]. intros k u Hk Hu. destruct (Nat.eq_dec k (S L)) as [->|D]; [rewrite EV in Hu; injection Hu as <-; split; [apply Qcle_refl|lia]|].
             destruct (H4 k u ltac:(lia) Hu) as [Q _]. assert (V : (v < u)%Qc) by (eapply Qclt_le_trans; eassumption). split; [apply Qclt_le_weak; exact V|intros _; exact V].
          -- apply qltb_nlt in T. split; [lia|]. split; [exact H2|]. split; [exact H3|]. intros k u Hk Hu. destruct (Nat.eq_dec k (S L)) as [->|D]; [rewrite EV in Hu; injection Hu as <-; split; [exact T|lia]|]. apply H4; [lia|exact Hu].
        * split; [lia|]. split; [exact EM|]. split; [exact EV|]. intros k u Hk Hu. destruct (Nat.eq_dec k (S L)) as [->|D]; [rewrite EV in Hu; injection Hu as <-; split; [apply Qcle_refl|lia]|].
          rewrite (HB k ltac:(lia)) in Hu. discriminate.
      + destruct b as [[w [lag fitted]]|].
        * destruct HB as (H1 & H2 & H3 & H4). split; [lia|]. split; [exact H2|]. split; [exact H3|]. intros k u Hk Hu. apply H4; [|exact Hu]. destruct (Nat.eq_dec k (S L)) as [->|D]; [congruence|lia].
        * intros k Hk. destruct (Nat.eq_dec k (S L)) as [->|D]; [exact EV|apply HB; lia].
  Qed.
  Lemma search_total : forall N X L, (forall k, 1 <= k <= L -> exists r, var_model N X k = Ok r) -> exists best, fold_left (lag_step var_model value N X) (seq 1 L) (Ok None) = Ok best.
  Proof.
    intros N X. induction L as [|L IH]; intro H; [eexists; reflexivity|]. destruct IH as [b E]; [intros k Hk; apply H; lia|]. rewrite seq_S, fold_left_app, E. cbn [fold_left]. unfold lag_step. cbn [bind].
    change (1 + L) with (S L). destruct (H (S L) ltac:(lia)) as [r ->]. cbn [bind]. eexists. reflexivity.
  Qed.
  (** The lag with the smallest criterion, the first among equals; its coefficients and residuals are kept. *)
  Theorem C216_smallest_criterion : forall st st1 N X, vs_ar st = None -> vs_criterion st = true -> FIT st true N X = (st1, Ok tt) ->
    1 <= vs_lags st1 <= vs_lags st /\ (exists Ms R, var_model N X (vs_lags st1) = Ok (Ms, R) /\ vs_ar st1 = Some Ms /\ vs_resid st1 = R) /\
    exists v, value N X (vs_lags st1) = Some v /\ forall k u, 1 <= k <= vs_lags st -> value N X k = Some u -> (v <= u)%Qc /\ (k < vs_lags st1 -> (v < u)%Qc).
  Proof.
    intros st st1 N X HA HC E. unfold vs_fit in E. destruct (ATT (no_result st) true N X) as [s|e] eqn:EA; [|discriminate]. injection E as <-.
    unfold attempt in EA. cbn [negb no_result vs_ar vs_criterion vs_lags vs_rows vs_resid vs_result] in EA. destruct model_ok; [|discriminate]. cbn [negb] in EA. rewrite HA in EA. unfold estimate in EA. rewrite HC in EA.
    destruct (fold_left (lag_step var_model value N X) (seq 1 (vs_lags st)) (Ok None)) as [b|e] eqn:EF; [|discriminate]. cbn [bind] in EA. destruct (search_ok N X _ _ EF) as [_ HB]. destruct b as [[v [lag [Ms R]]]|]; [|discriminate]. cbn [bind] in EA.
    destruct (lingam (N - lag) R) as [[order B0]|e]; [|discriminate]. cbn [bind] in EA. destruct (if prune then _ else _) as [Bs|e]; [|discriminate]. cbn [bind] in EA. injection EA as <-. cbn [vs_lags vs_ar vs_resid].
    destruct HB as (H1 & H2 & H3 & H4). split; [exact H1|]. split; [exists Ms, R; repeat split; exact H2|]. exists v. split; [exact H3|exact H4].
  Qed.
  (** Without a criterion: the given lag. *)
  Theorem C216_fixed_lag : forall st st1 N X, vs_ar st = None -> vs_criterion st = false -> FIT st true N X = (st1, Ok tt) ->
    vs_lags st1 = vs_lags st /\ exists Ms R, var_model N X (vs_lags st) = Ok (Ms, R) /\ vs_ar st1 = Some Ms /\ vs_resid st1 = R.
  Proof.
    intros st st1 N X HA HC E. unfold vs_fit in E. destruct (ATT (no_result st) true N X) as [s|e] eqn:EA; [|discriminate]. injection E as <-.
    unfold attempt in EA. cbn [negb no_result vs_ar vs_criterion vs_lags vs_rows vs_resid vs_result] in EA. destruct model_ok; [|discriminate]. cbn [negb] in EA. rewrite HA in EA. unfold estimate in EA. rewrite HC in EA.
    destruct (var_model N X (vs_lags st)) as [[Ms R]|e] eqn:EM; [|discriminate]. cbn [bind] in EA.
    destruct (lingam (N - vs_lags st) R) as [[order B0]|e]; [|discriminate]. cbn [bind] in EA. destruct (if prune then _ else _) as [Bs|e]; [|discriminate]. cbn [bind] in EA. injection EA as <-. cbn. split; [reflexivity|]. exists Ms, R. repeat split.
  Qed.
  (** When no lag has a number as its criterion (in particular for lags=0), the fit raises AttributeError. *)
  Theorem C216_no_number_refuted : forall st N X, model_ok = true -> vs_ar st = None -> vs_criterion st = true ->
    (forall k, 1 <= k <= vs_lags st -> exists r, var_model N X k = Ok r) -> (forall k, 1 <= k <= vs_lags st -> value N X k = None) ->
    FIT st true N X = (no_result st, Err AttributeError).
  Proof.
    intros st N X HM HA HC HV HN. unfold vs_fit, attempt. cbn [negb no_result vs_ar vs_criterion vs_lags vs_rows vs_resid vs_result]. rewrite HM, HA. cbn [negb]. unfold estimate. rewrite HC.
    destruct (search_total N X (vs_lags st) HV) as [b E]. rewrite E. cbn [bind]. destruct (search_ok N X _ _ E) as [_ HB]. destruct b as [[v [lag [Ms R]]]|]; [|reflexivity].
    destruct HB as (H1 & _ & H3 & _). rewrite (HN lag H1) in H3. discriminate.
  Qed.
  Lemma prune_lengths : forall N X order lags is Bs Bs', prune_vars lasso N n lags X order Bs is = Ok Bs' -> length Bs' = length Bs.
  Proof.
    intros N X order lags is. induction is as [|i is IH]; intros Bs Bs' E; cbn in E; [injection E as <-; reflexivity|].
    destruct (prune_var lasso N n lags X order Bs i) as [B1|e] eqn:EP; [|discriminate]. cbn [bind] in E. rewrite (IH _ _ E). unfold prune_var in EP. destruct (index_of i order) as [no|]; [|discriminate].
    destruct Bs as [|B0 Bt]; [discriminate|]. destruct (write_taus n i no 1 lags _ Bt) as [Bt'|e] eqn:EW; [|discriminate]. cbn [bind] in EP. injection EP as <-. cbn [length]. f_equal. clear - EW.
    revert Bt' EW. generalize 1. induction Bt as [|B Bt IH]; intros tau Bt' EW; cbn [write_taus] in EW; [injection EW as <-; reflexivity|]. destruct (lags <? tau); [discriminate|].
    destruct (write_taus n i no (S tau) lags _ Bt) as [r|e] eqn:ER; [|discriminate]. cbn [bind] in EW. injection EW as <-. cbn [length]. f_equal. apply (IH _ _ ER).
  Qed.
  Lemma fit_blocks : forall st st1 N X, var_shapes var_model -> FIT st true N X = (st1, Ok tt) -> exists Ms order Bs, vs_ar st1 = Some Ms /\ vs_result st1 = Some (order, Bs) /\ length Bs = S (length Ms) /\ vs_criterion st1 = vs_criterion st.
  Proof.
    intros st st1 N X SH E. unfold vs_fit in E. destruct (ATT (no_result st) true N X) as [s|e] eqn:EA; [|discriminate]. injection E as <-.
    unfold attempt in EA. cbn [negb] in EA. destruct (negb model_ok); [discriminate|].
    destruct (match vs_ar (no_result st) with None => _ | Some Ms => _ end) as [[lag [Ms R]]|e]; [|discriminate]. cbn [bind] in EA.
    destruct (lingam (N - lag) R) as [[order B0]|e]; [|discriminate]. cbn [bind] in EA. destruct (if prune then _ else _) as [Bs|e] eqn:EB; [|discriminate]. cbn [bind] in EA. injection EA as <-. cbn [vs_ar vs_result vs_criterion no_result].
    exists Ms, order, Bs. split; [reflexivity|]. split; [reflexivity|]. split; [|reflexivity]. assert (LC : length (calc_b n B0 Ms) = S (length Ms)) by (unfold calc_b; cbn [length]; rewrite map_length; reflexivity).
    destruct prune; [rewrite <- LC; apply (prune_lengths _ _ _ _ _ _ _ EB)|injection EB as <-; exact LC].
  Qed.
  (** The bootstrap of an object without coefficients switches the choice off: all matrices have the maximal number of lags, whatever
      the criterion prefers. *)
  Theorem C216_bootstrap_maximal_lag_refuted : forall st st' N X draws l, var_shapes var_model -> vs_ar st = None -> BOOT st true N X draws = (st', Ok l) ->
    forall Bs, In Bs l -> length Bs = S (vs_lags st).
  Proof.
    intros st st' N X draws l SH HA E. unfold vs_bootstrap in E. cbn [negb] in E. destruct (FIT (with_criterion false st) true N X) as [st1 [u|e]] eqn:E1; [|discriminate]. destruct u.
    destruct draws as [ds|]; [|discriminate]. destruct (REP _ _ _ _ st1 ds) as [st2 [l'|e]] eqn:ER; [|discriminate]. injection E as _ <-. rename l' into l.
    destruct (fit_blocks _ _ _ _ SH E1) as (Ms1 & o1 & B1 & _ & _ & _ & C1). cbn [with_criterion vs_criterion] in C1. clear E1.
    set (M0 := match vs_ar st1 with Some Ms => Ms | None => [] end) in *. clearbody M0. revert st1 st2 l ER C1.
    induction ds as [|d ds IH]; intros s1 s2 l ER C1; cbn [vs_repeat] in ER; [injection ER as _ <-; intros Bs []|]. destruct (vs_rows s1 =? 0); [discriminate|].
    destruct (FIT (with_settings (vs_ar st) (vs_lags st) s1) true N _) as [s' [u|e]] eqn:EF; [|discriminate]. destruct u. destruct (REP (vs_ar st) (vs_lags st) N M0 s' ds) as [s'' [l1|e]] eqn:E2; [|discriminate]. cbn [bind] in ER. injection ER as _ <-.
    destruct (fit_blocks _ _ _ _ SH EF) as (Ms & o & Bs0 & A1 & A2 & A3 & A4). cbn [with_settings vs_criterion] in A4.
    destruct (C216_fixed_lag (with_settings (vs_ar st) (vs_lags st) s1) s' N _ HA C1 EF) as (_ & Ms' & R & EM & A1' & _). cbn [with_settings vs_lags] in EM. rewrite A2. intros Bs [<-|HB].
    - rewrite A3. f_equal. rewrite A1 in A1'. injection A1' as ->. exact (SH _ _ _ _ _ EM).
    - apply (IH s' s'' l1 E2); [congruence|exact HB].
  Qed.

  (** ** C217 *)
  (** A fit that fails leaves the settings alone and no result of an earlier fit: every later call is the one it would have been. *)
  Theorem C217_failed_fit : forall st st' valid N X e, FIT st valid N X = (st', Err e) -> st' = no_result st /\ vs_result st' = None /\
    (forall valid' N' X', FIT st' valid' N' X' = FIT st valid' N' X') /\ (forall N' X' draws, BOOT st' true N' X' draws = BOOT st true N' X' draws).
  Proof.
    intros st st' valid N X e E. unfold vs_fit in E. destruct (ATT (no_result st) valid N X); [discriminate|]. injection E as <- _. split; [reflexivity|]. split; [reflexivity|]. split; reflexivity.
  Qed.
  (** A bootstrap whose data are rejected changes nothing. *)
  Theorem C217_rejected_bootstrap : forall st N X draws, BOOT st false N X draws = (st, Err ValueError).
  Proof. reflexivity. Qed.
  (** A bootstrap that succeeds restores the criterion. *)
  Theorem C217_successful_bootstrap : forall st st' N X draws l, BOOT st true N X draws = (st', Ok l) -> vs_criterion st' = vs_criterion st.
  Proof.
    intros st st' N X draws l E. unfold vs_bootstrap in E. cbn [negb] in E. destruct (FIT (with_criterion false st) true N X) as [st1 [u|e]]; [|discriminate]. destruct draws as [ds|]; [|discriminate].
    destruct (REP _ _ _ _ st1 ds) as [st2 [l'|e]]; [|discriminate]. injection E as <- _. reflexivity.
  Qed.
  Lemma fit_criterion : forall st valid N X, vs_criterion (fst (FIT st valid N X)) = vs_criterion st.
  Proof.
    intros st valid N X. unfold vs_fit. destruct (ATT (no_result st) valid N X) as [s|e] eqn:EA; [|reflexivity]. cbn [fst].
    unfold attempt in EA. destruct (negb valid); [discriminate|]. destruct (negb model_ok); [discriminate|].
    destruct (match vs_ar (no_result st) with None => _ | Some Ms => _ end) as [[lag [Ms R]]|e]; [|discriminate]. cbn [bind] in EA.
    destruct (lingam (N - lag) R) as [[order B0]|e]; [|discriminate]. cbn [bind] in EA. destruct (if prune then _ else _) as [Bs|e]; [|discriminate]. cbn [bind] in EA. injection EA as <-. reflexivity.
  Qed.
  Lemma repeat_criterion : forall ar lags N Ms ds st, vs_criterion (fst (REP ar lags N Ms st ds)) = vs_criterion st.
  Proof.
    intros ar lags N Ms. induction ds as [|d ds IH]; intro st; [reflexivity|]. cbn [vs_repeat]. destruct (vs_rows st =? 0); [reflexivity|].
    pose proof (fit_criterion (with_settings ar lags st) true N (resampled n N Ms lags (fun j => vs_resid st (d j)) N)) as FC. destruct (FIT (with_settings ar lags st) true N _) as [s [u|e]]; cbn [fst] in FC; [|exact FC].
    pose proof (IH s) as HI. destruct (REP ar lags N Ms s ds) as [s' r]. cbn [fst] in *. rewrite HI. exact FC.
  Qed.
  (** A bootstrap that fails otherwise loses the criterion: later fits do not choose the lag any more. *)
  Theorem C217_failed_bootstrap_refuted : forall st st' N X draws e, BOOT st true N X draws = (st', Err e) -> vs_criterion st' = false.
  Proof.
    intros st st' N X draws e E. unfold vs_bootstrap in E. cbn [negb] in E. pose proof (fit_criterion (with_criterion false st) true N X) as FC. destruct (FIT (with_criterion false st) true N X) as [st1 [u|e1]]; cbn [fst with_criterion vs_criterion] in FC; [|injection E as <- _; exact FC].
    destruct draws as [ds|]; [|injection E as <- _; exact FC]. pose proof (repeat_criterion (vs_ar st) (vs_lags st) N (match vs_ar st1 with Some Ms => Ms | None => [] end) ds st1) as RC.
    destruct (REP _ _ _ _ st1 ds) as [st2 [l'|e2]]; [discriminate|]. injection E as <- _. cbn [fst] in RC. congruence.
  Qed.
  (** Everything else is as before, when n_sampling is not negative and no LiNGAM model accepts an empty table of residuals. *)
  Theorem C217_failed_bootstrap_partial : forall st st' N X ds e, (forall R, exists e0, lingam 0 R = Err e0) -> BOOT st true N X (Some ds) = (st', Err e) ->
    vs_lags st' = vs_lags st /\ vs_ar st' = vs_ar st /\ vs_result st' = None.
  Proof.
    intros st st' N X ds e H0 E. unfold vs_bootstrap in E. cbn [negb] in E.
    assert (FR : forall st st' N X, FIT st true N X = (st', Ok tt) -> vs_rows st' =? 0 = false).
    { clear - H0. intros st st' N X E. unfold vs_fit in E. destruct (ATT (no_result st) true N X) as [s|e] eqn:EA; [|discriminate]. injection E as <-.
      unfold attempt in EA. cbn [negb] in EA. destruct (negb model_ok); [discriminate|].
      destruct (match vs_ar (no_result st) with None => _ | Some Ms => _ end) as [[lag [Ms R]]|e]; [|discriminate]. cbn [bind] in EA.
      destruct (lingam (N - lag) R) as [[order B0]|e] eqn:EL; [|discriminate]. cbn [bind] in EA. destruct (if prune then _ else _) as [Bs|e]; [|discriminate]. cbn [bind] in EA. injection EA as <-. cbn [vs_rows].
      apply Nat.eqb_neq. intro Z. rewrite Z in EL. destruct (H0 R) as [e0 K]. congruence. }
    destruct (FIT (with_criterion false st) true N X) as [st1 [u|e1]] eqn:E1; [|injection E as <- _; destruct (C217_failed_fit _ _ _ _ _ _ E1) as (-> & _); repeat split]. destruct u.
    pose proof (FR _ _ _ _ E1) as Z1. set (M0 := match vs_ar st1 with Some Ms => Ms | None => [] end) in *. clearbody M0. clear E1.
    destruct (REP _ _ _ M0 st1 ds) as [st2 [l'|e2]] eqn:ER; [discriminate|]. injection E as <- _. revert st1 st2 e2 ER Z1.
    induction ds as [|d ds IH]; intros s1 s2 e2 ER Z1; cbn [vs_repeat] in ER; [discriminate|]. rewrite Z1 in ER.
    destruct (FIT (with_settings (vs_ar st) (vs_lags st) s1) true N _) as [s' [u|e3]] eqn:EF; [|injection ER as <- _; destruct (C217_failed_fit _ _ _ _ _ _ EF) as (-> & _); repeat split].
    destruct u. destruct (REP (vs_ar st) (vs_lags st) N M0 s' ds) as [s'' [l1|e3]] eqn:E2; [discriminate|]. injection ER as <- _. exact (IH s' s'' e3 E2 (FR _ _ _ _ EF)).
  Qed.
End State.
Print Assumptions C216_smallest_criterion.
Print Assumptions C216_fixed_lag.
Print Assumptions C216_no_number_refuted.
Print Assumptions C216_bootstrap_maximal_lag_refuted.
Print Assumptions C217_failed_fit.
Print Assumptions C217_rejected_bootstrap.
Print Assumptions C217_successful_bootstrap.
Print Assumptions C217_failed_bootstrap_refuted.
Print Assumptions C217_failed_bootstrap_partial.

(** An object with lags=2, criterion='bic'; VAR models without effects, the first lag preferred; a LiNGAM model that rejects empty and constant
    residuals (equal first values). *)
Definition vs_new : var_state := {| vs_criterion := true; vs_lags := 2; vs_ar := None; vs_rows := 0; vs_resid := fun _ _ => 0%Qc; vs_result := None |}.
Definition ex_var (N : nat) (X : series) (lag : nat) : result (list (mat Qc) * series) := Ok (repeat zmat lag, fun r => X (r + lag)).
Definition ex_value (N : nat) (X : series) (lag : nat) : num := Some (qz (Z.of_nat lag)).
Definition ex_lingam (rows : nat) (R : series) : result (list nat * mat Qc) :=
  if (rows =? 0) || qeqb (R 0 0) (R 1 0) then Err ValueError else Ok ([0], zmat).
Definition ex_flat : series := ex_series [[1]; [1]; [1]; [1]; [1]]%Z.
Definition ex_wave : series := ex_series [[1]; [2]; [1]; [2]; [1]]%Z.
Notation FIT1 := (vs_fit 1 false true ex_var ex_value ex_lingam (fun _ _ _ => 0%Qc)).
Notation BOOT1 := (vs_bootstrap 1 false true ex_var ex_value ex_lingam (fun _ _ _ => 0%Qc)).
(** A bootstrap on constant data fails; a fit to other data afterwards uses two lags instead of the best one. *)
Theorem C217_later_fit_refuted : exists st st' st1 st2 X Y draws, vs_ar st = None /\ vs_criterion st = true /\
  BOOT1 st true 5 X (Some draws) = (st', Err ValueError) /\
  FIT1 st true 5 Y = (st1, Ok tt) /\ vs_lags st1 = 1 /\ FIT1 st' true 5 Y = (st2, Ok tt) /\ vs_lags st2 = 2.
Proof.
  exists vs_new. do 3 eexists. exists ex_flat, ex_wave, [fun j => j]. split; [reflexivity|]. split; [reflexivity|]. split; [reflexivity|]. split; [reflexivity|]. split; [reflexivity|]. split; reflexivity.
Qed.
Print Assumptions C217_later_fit_refuted.
(** A negative n_sampling is noticed after the fit: the coefficients of these data stay and a later fit to other data keeps them. *)
Theorem C217_negative_sampling_refuted : forall n prune model_ok var_model value lingam lasso st st' N X e, vs_ar st = None ->
  vs_bootstrap n prune model_ok var_model value lingam lasso st true N X None = (st', Err e) -> vs_result st' <> None ->
  exists Ms, vs_ar st' = Some Ms /\ forall N' Y st'', vs_fit n prune model_ok var_model value lingam lasso st' true N' Y = (st'', Ok tt) -> vs_ar st'' = Some Ms.
Proof.
  intros n prune model_ok var_model value lingam lasso st st' N X e HA E HR. unfold vs_bootstrap in E. cbn [negb] in E.
  destruct (vs_fit n prune model_ok var_model value lingam lasso (with_criterion false st) true N X) as [st1 [u|e1]] eqn:E1.
  2:{ injection E as <- _. exfalso. apply HR. destruct (C217_failed_fit n prune model_ok var_model value lingam lasso _ _ _ _ _ _ E1) as (-> & _). reflexivity. }
  injection E as <- _. destruct u.
  assert (A : exists Ms, vs_ar st1 = Some Ms).
  { unfold vs_fit in E1. destruct (attempt _ _ _ _ _ _ _ _ true N X) as [s|e2] eqn:EA; [|discriminate]. injection E1 as <-. unfold attempt in EA. cbn [negb] in EA. destruct (negb model_ok); [discriminate|].
    destruct (match vs_ar _ with None => _ | Some Ms => _ end) as [[lag [Ms R]]|e2]; [|discriminate]. cbn [bind] in EA.
    destruct (lingam (N - lag) R) as [[order B0]|e2]; [|discriminate]. cbn [bind] in EA. destruct (if prune then _ else _) as [Bs|e2]; [|discriminate]. cbn [bind] in EA. injection EA as <-. exists Ms. reflexivity. }
  destruct A as [Ms A]. exists Ms. split; [exact A|]. intros N' Y st'' EF. unfold vs_fit in EF. destruct (attempt _ _ _ _ _ _ _ (no_result st1) true N' Y) as [s|e2] eqn:EA; [|discriminate]. injection EF as <-.
  unfold attempt in EA. cbn [negb no_result vs_ar] in EA. destruct (negb model_ok); [discriminate|]. rewrite A in EA. cbn [bind] in EA.
  destruct (lingam _ _) as [[order B0]|e2]; [|discriminate]. cbn [bind] in EA. destruct (if prune then _ else _) as [Bs|e2]; [|discriminate]. cbn [bind] in EA. injection EA as <-. reflexivity.
Qed.
Print Assumptions C217_negative_sampling_refuted.
(** C216: the first of two lags is chosen; a bootstrap of the same object before the fit uses two. *)
Example C216_example : exists st1 st2 l, FIT1 vs_new true 5 ex_wave = (st1, Ok tt) /\ vs_lags st1 = 1 /\ var_shapes ex_var /\
  BOOT1 vs_new true 5 ex_wave (Some [fun j => j mod 2]) = (st2, Ok l) /\ map (@length (mat Qc)) l = [3].
Proof.
  do 3 eexists. split; [reflexivity|]. split; [reflexivity|]. split; [|split; reflexivity].
  intros N X lag Ms R E. injection E as <- _. apply repeat_length.
Qed.
Example C216_example_fixed : exists st1, FIT1 (with_criterion false vs_new) true 5 ex_wave = (st1, Ok tt) /\ vs_lags st1 = 2.
Proof. eexists. split; reflexivity. Qed.
Example C216_example_no_number : (forall k, 1 <= k <= 2 -> exists r, ex_var 5 ex_wave k = Ok r) /\
  vs_fit 1 false true ex_var (fun _ _ _ => None) ex_lingam (fun _ _ _ => 0%Qc) vs_new true 5 ex_wave = (no_result vs_new, Err AttributeError).
Proof. split; [intros k _; eexists; reflexivity|reflexivity]. Qed.
Example C217_example : (forall R, exists e, ex_lingam 0 R = Err e) /\ (exists st', FIT1 vs_new true 5 ex_flat = (st', Err ValueError)) /\
  exists st' e, BOOT1 vs_new true 5 ex_flat (Some []) = (st', Err e) /\ vs_criterion st' = false /\ vs_lags st' = 2 /\ vs_ar st' = None.
Proof. split; [intro R; eexists; reflexivity|]. split; [eexists; reflexivity|]. do 2 eexists. split; [reflexivity|]. repeat split. Qed.
Example C217_example_negative : exists st' e, BOOT1 vs_new true 5 ex_wave None = (st', Err e) /\ vs_result st' <> None.
Proof. do 2 eexists. split; [reflexivity|]. discriminate. Qed.
