(** * C233: for which data a LongitudinalLiNGAM object answers *)
From Coq Require Import List Arith Lia Bool ZArith QArith Qcanon.
From Verif Require Import Prelude Lib Spec ModelDirect ModelLongResult ModelLongState.
From Verif Require ProofDirect2.
Import ListNotations.
Open Scope nat_scope.

(** The last value that is there. *)
Fixpoint last_some {A} (l : list (option A)) (d : option A) : option A := match l with [] => d | x :: r => last_some r (match x with Some a => Some a | None => d end) end.

Section Answers.
  Context (pk : option (nat * nat * nat * nat)) (lags : nat)
    (estimate : nat -> nat -> nat -> list dataset -> result ((nat -> nat -> mat num) * (nat -> list (option nat)) * (nat -> mat num))).
  Notation FIT := (long_fit_call pk lags estimate).
  Notation BOOT := (long_bootstrap_call pk lags estimate).
  Notation BLOOP := (boot_fits pk lags estimate).

  (** The results of a successful fit of a new object. *)
  Definition fresh_fit (xs : list dataset) : option long_fitted := lo_fit (fst (FIT long_new xs)).
  Lemma check_cases : forall o xs, match check_list o xs with
    | (o', Err e) => e = ValueError /\ lo_fit o' = lo_fit o
    | (o', Ok (n, p)) => o' = {| lo_T := Some (length xs); lo_np := Some (n, p); lo_fit := lo_fit o |} /\ 2 <= length xs /\ forall x, In x xs -> d_shape x = Some (n, p) end.
  Proof.
    intros o [|x [|y xs]]; cbn [check_list]; try (split; reflexivity). destruct (d_shape x) as [[n p]|]; [|split; reflexivity]. destruct (same_shapes (n, p) (x :: y :: xs)) eqn:E; [|split; reflexivity].
    split; [reflexivity|]. split; [cbn; lia|]. intros z Hz. unfold same_shapes in E. rewrite forallb_forall in E. specialize (E z Hz). destruct (d_shape z) as [[a b]|]; [|discriminate]. cbn in E. apply andb_true_iff in E. destruct E as [E1 E2]. apply Nat.eqb_eq in E1, E2. subst. reflexivity.
  Qed.
  Lemma check_same : forall o o' xs, snd (check_list o xs) = snd (check_list o' xs).
  Proof. intros o o' [|x [|y xs]]; cbn [check_list]; try reflexivity. destruct (d_shape x) as [np|]; [|reflexivity]. destruct (same_shapes np (x :: y :: xs)); reflexivity. Qed.
  Lemma fit_cases : forall o xs, match FIT o xs with
    | (o', Err e) => lo_fit o' = lo_fit o /\ o' = fst (check_list o xs) /\ fresh_fit xs = None
    | (o', Ok _) => exists f, lo_fit o' = Some f /\ fresh_fit xs = Some f /\ lo_T o' = Some (lf_T f) /\ lo_np o' = Some (lf_n f, lf_p f) /\ lf_T f = length xs /\ 2 <= length xs /\
        (forall x, In x xs -> d_shape x = Some (lf_n f, lf_p f)) /\
        exists R, estimate (lf_T f) (lf_n f) (lf_p f) xs = Ok (lf_adj f, lf_orders f, R) /\ (pk = None -> lf_resid f = Some R) end.
  Proof.
    intros o xs. unfold fresh_fit, long_fit_call. pose proof (check_cases o xs) as C. pose proof (check_same o long_new xs) as S0. pose proof (check_cases long_new xs) as C0.
    destruct (check_list o xs) as [o1 [[n p]|e]]; cbn [snd] in S0.
    - destruct (check_list long_new xs) as [o2 r2]. cbn [snd] in S0. subst r2. destruct C as (-> & L & SH). destruct C0 as (-> & _).
      assert (K : forall r : result ((nat -> nat -> mat num) * (nat -> list (option nat)) * (nat -> mat num)), r = estimate (length xs) n p xs -> True) by trivial. clear K.
      destruct pk as [[[[a b] c] d]|].
      + destruct ((a =? length xs) && (b =? lags + 1) && (c =? p) && (d =? p)); [|split; [reflexivity|split; reflexivity]].
        destruct (estimate (length xs) n p xs) as [[[adj ords] R]|e] eqn:E; [|split; [reflexivity|split; reflexivity]].
        eexists. split; [reflexivity|]. split; [reflexivity|]. split; [reflexivity|]. split; [reflexivity|]. split; [reflexivity|]. split; [exact L|]. split; [exact SH|]. exists R. cbn. split; [exact E|discriminate].
      + destruct (estimate (length xs) n p xs) as [[[adj ords] R]|e] eqn:E; [|split; [reflexivity|split; reflexivity]].
        eexists. split; [reflexivity|]. split; [reflexivity|]. split; [reflexivity|]. split; [reflexivity|]. split; [reflexivity|]. split; [exact L|]. split; [exact SH|]. exists R. cbn. split; [exact E|reflexivity].
    - destruct (check_list long_new xs) as [o2 r2]. cbn [snd] in S0. subst r2. split; [exact (proj2 C)|]. split; [reflexivity|]. exact (proj2 C0).
  Qed.

  (** After any calls of fit, matrices, orders and residuals are those a new object computes from the data of the last successful call. *)
  Theorem C233_results : forall calls o, lo_fit (long_fits pk lags estimate o calls) = last_some (map fresh_fit calls) (lo_fit o).
  Proof.
    induction calls as [|xs calls IH]; intro o; [reflexivity|]. cbn [long_fits map last_some]. rewrite IH. f_equal. pose proof (fit_cases o xs) as F. destruct (FIT o xs) as [o1 [u|e]]; cbn [fst].
    - destruct F as (f & -> & -> & _). reflexivity.
    - destruct F as (-> & _ & ->). reflexivity.
  Qed.
  (** A successful fit does not depend on the object it is called on, and the object remembers the shape of its data. *)
  Theorem C233_successful_fit : forall o o' xs, FIT o xs = (o', Ok tt) -> (forall o2, FIT o2 xs = (o', Ok tt)) /\
    exists f, lo_fit o' = Some f /\ lo_T o' = Some (length xs) /\ forall x, In x xs -> d_shape x = lo_np o' /\ join_call o' (lf_n f) (lf_p f) = Ok tt.
  Proof.
    intros o o' xs E. pose proof (fit_cases o xs) as F. rewrite E in F. destruct F as (f & F1 & F2 & F3 & F4 & F5 & F6 & F7 & R & F8 & F9). split.
    - intro o2. pose proof (fit_cases o2 xs) as G. destruct (FIT o2 xs) as [o3 [[]|e]].
      + destruct G as (g & G1 & G2 & G3 & G4 & _). rewrite F2 in G2. injection G2 as <-. destruct o', o3. cbn in *. subst. reflexivity.
      + destruct G as (_ & _ & G). rewrite F2 in G. discriminate.
    - exists f. split; [exact F1|]. split; [rewrite F3, F5; reflexivity|]. intros x Hx. split; [rewrite F4; exact (F7 x Hx)|]. unfold join_call. rewrite F4. unfold fits_block. rewrite !Nat.eqb_refl. reflexivity.
  Qed.
  Theorem C233_short_list : forall o xs, length xs < 2 -> FIT o xs = (o, Err ValueError) /\ forall rs, BOOT o xs rs = (o, Err ValueError).
  Proof. intros o [|x [|y xs]] H; cbn in H; try lia; split; reflexivity. Qed.

  Section Tests.
    Context (pv : nat -> (nat -> num) -> (nat -> num) -> num) (junk : nat -> nat -> nat -> num).
    (** After a successful fit without prior knowledge, the p-values are tests between the errors (I - B_t) residual_t of that fit. *)
    Theorem C233_p_values : forall o o' xs f, pk = None -> FIT o xs = (o', Ok tt) -> lo_fit o' = Some f -> exists P R, long_p_values_call pv junk o' = Ok P /\ estimate (lf_T f) (lf_n f) (lf_p f) xs = Ok (lf_adj f, lf_orders f, R) /\
      forall t i j, 1 <= t < length xs -> i < j < lf_p f -> exists u v, P t i j = pv (lf_n f) u v /\
        (forall s, s < lf_n f -> u s = long_error_col (lf_p f) (lf_adj f t 0) (R t) i s) /\ (forall s, s < lf_n f -> v s = long_error_col (lf_p f) (lf_adj f t 0) (R t) j s).
    Proof.
      intros o o' xs f HP E EF. pose proof (fit_cases o xs) as F. rewrite E in F. destruct F as (f' & F1 & F2 & F3 & F4 & F5 & F6 & F7 & R & F8 & F9). rewrite EF in F1. injection F1 as <-.
      unfold long_p_values_call. rewrite F3, F4, EF, (F9 HP). unfold fits_block. rewrite !Nat.eqb_refl. cbn [orb andb negb]. rewrite Nat.ltb_irrefl. eexists. exists R. split; [reflexivity|]. split; [exact F8|].
      intros t i j Ht Hij. cbv beta; destruct (Nat.eqb_spec t 0) as [?|?]; [lia|]. rewrite ProofDirect2.p_values_spec by lia. rewrite (proj2 (Nat.ltb_lt i j)) by lia. do 2 eexists. split; [reflexivity|].
      unfold long_errors. rewrite F5, (proj2 (Nat.ltb_lt t (length xs))) by lia.
      assert (SP : forall a k, k < a -> spread a k = k) by (intros a k Hk; unfold spread; destruct (Nat.eqb_spec a 1); lia).
      rewrite !SP by lia. split; intros s Hs; rewrite SP by exact Hs; reflexivity.
    Qed.
    Lemma failed_shape : forall o o' xs e n p x rest, xs = x :: rest -> rest <> [] -> d_shape x = Some (n, p) -> FIT o xs = (o', Err e) -> o' = {| lo_T := Some (length xs); lo_np := Some (n, p); lo_fit := lo_fit o |}.
    Proof.
      intros o o' xs e n p x rest -> HR SH E. pose proof (fit_cases o (x :: rest)) as F. rewrite E in F. destruct F as (_ & -> & _). destruct rest as [|y rest]; [congruence|]. cbn [check_list]. rewrite SH. destruct (same_shapes (n, p) (x :: y :: rest)); reflexivity.
    Qed.
    (** A fit that fails on more time points: the p-values of the additional times are tests on uninitialised memory. *)
    Theorem C233_uninitialised_refuted : forall o o1 o2 xs ys x rest e n p, pk = None -> FIT o xs = (o1, Ok tt) -> lo_np o1 = Some (n, p) -> FIT o1 ys = (o2, Err e) -> ys = x :: rest -> d_shape x = Some (n, p) -> length xs < length ys ->
      exists P, long_p_values_call pv junk o2 = Ok P /\ forall t i j, length xs <= t -> i < j < p -> P t i j = pv n (junk t i) (junk t j).
    Proof.
      intros o o1 o2 xs ys x rest e n p HP E NP E2 EY SX L. pose proof (fit_cases o xs) as F. rewrite E in F. destruct F as (f & F1 & F2 & F3 & F4 & F5 & F6 & F7 & R & F8 & F9). rewrite F4 in NP. injection NP as <- <-.
      assert (HR : rest <> []) by (intros ->; subst ys; cbn in L; lia). rewrite (failed_shape o1 o2 ys e _ _ x rest EY HR SX E2).
      unfold long_p_values_call. cbn [lo_T lo_np lo_fit]. rewrite F1, (F9 HP). unfold fits_block. rewrite !Nat.eqb_refl. cbn [orb andb negb]. destruct (Nat.ltb_spec (length ys) (lf_T f)); [lia|]. eexists. split; [reflexivity|].
      intros t i j Ht Hij. cbv beta; destruct (Nat.eqb_spec t 0) as [?|?]; [lia|]. rewrite ProofDirect2.p_values_spec by lia. rewrite (proj2 (Nat.ltb_lt i j)) by lia. unfold long_errors. rewrite F5, (proj2 (Nat.ltb_ge t (length xs))) by lia. reflexivity.
    Qed.
    (** A fit that fails on fewer time points or on another number of rows: the p-values of the fitted model raise, and so does
        estimate_total_effect with the data of the fitted model. *)
    Theorem C233_fewer_times_refuted : forall o o1 o2 xs ys x rest e n p, pk = None -> FIT o xs = (o1, Ok tt) -> lo_np o1 = Some (n, p) -> FIT o1 ys = (o2, Err e) -> ys = x :: rest -> rest <> [] -> d_shape x = Some (n, p) -> length ys < length xs ->
      long_p_values_call pv junk o2 = Err IndexError.
    Proof.
      intros o o1 o2 xs ys x rest e n p HP E NP E2 EY HR SX L. pose proof (fit_cases o xs) as F. rewrite E in F. destruct F as (f & F1 & F2 & F3 & F4 & F5 & F6 & F7 & R & F8 & F9). rewrite F4 in NP. injection NP as <- <-.
      rewrite (failed_shape o1 o2 ys e _ _ x rest EY HR SX E2). unfold long_p_values_call. cbn [lo_T lo_np lo_fit]. rewrite F1, (F9 HP). unfold fits_block. rewrite !Nat.eqb_refl. cbn [orb andb negb]. destruct (Nat.ltb_spec (length ys) (lf_T f)); [reflexivity|lia].
    Qed.
    Theorem C233_other_rows_refuted : forall o o1 o2 xs ys x rest e n p n' p', pk = None -> FIT o xs = (o1, Ok tt) -> lo_np o1 = Some (n, p) -> FIT o1 ys = (o2, Err e) -> ys = x :: rest -> rest <> [] -> d_shape x = Some (n', p') -> n <> n' -> n <> 1 ->
      long_p_values_call pv junk o2 = Err ValueError /\ join_call o2 n p = Err ValueError.
    Proof.
      intros o o1 o2 xs ys x rest e n p n' p' HP E NP E2 EY HR SX DN D1. pose proof (fit_cases o xs) as F. rewrite E in F. destruct F as (f & F1 & F2 & F3 & F4 & F5 & F6 & F7 & R & F8 & F9). rewrite F4 in NP. injection NP as <- <-.
      rewrite (failed_shape o1 o2 ys e _ _ x rest EY HR SX E2). unfold long_p_values_call, join_call. cbn [lo_T lo_np lo_fit]. rewrite F1, (F9 HP). unfold fits_block. destruct (Nat.eqb_spec (lf_n f) n'); [contradiction|]. destruct (Nat.eqb_spec (lf_n f) 1); [contradiction|]. split; reflexivity.
    Qed.
  End Tests.

  (** A successful bootstrap returns the matrices new objects compute from the resamples, and leaves the last of them as the results of the object. *)
  Lemma boot_fits_spec : forall rs o o' l, BLOOP o rs = (o', Ok l) -> map (fun xs => option_map lf_adj (fresh_fit xs)) rs = map (@Some _) l /\ lo_fit o' = last_some (map fresh_fit rs) (lo_fit o).
  Proof.
    induction rs as [|xs rs IH]; intros o o' l H; cbn [boot_fits] in H; [injection H as <- <-; split; reflexivity|].
    pose proof (fit_cases o xs) as F. destruct (FIT o xs) as [o1 [[]|e]]; [|discriminate]. destruct F as (f & F1 & F2 & _). rewrite F1 in H. destruct (BLOOP o1 rs) as [o2 [l2|e]] eqn:E; [|discriminate]. injection H as <- <-.
    apply IH in E. destruct E as [E1 E2]. cbn [map last_some]. rewrite F2, E1, E2, F1. split; reflexivity.
  Qed.
  Theorem C233_bootstrap : forall o o' xs rs l, BOOT o xs rs = (o', Ok l) -> map (fun r => option_map lf_adj (fresh_fit r)) rs = map (@Some _) l.
  Proof. intros o o' xs rs l. unfold long_bootstrap_call. destruct (check_list o xs) as [o1 [np|e]]; [|discriminate]. intro H. exact (proj1 (boot_fits_spec _ _ _ _ H)). Qed.
  Lemma last_some_app : forall A (l : list (option A)) x d, last_some (l ++ [Some x]) d = Some x.
  Proof. intros A l x. induction l as [|y l IH]; intro d; [reflexivity|]. cbn. apply IH. Qed.
  Theorem C233_bootstrap_replaces_fit_refuted : forall o o' xs rs r l, BOOT o xs (rs ++ [r]) = (o', Ok l) -> exists f, fresh_fit r = Some f /\ lo_fit o' = Some f.
  Proof.
    intros o o' xs rs r l. unfold long_bootstrap_call. destruct (check_list o xs) as [o1 [np|e]]; [|discriminate]. intro H. apply boot_fits_spec in H. destruct H as [H1 H2]. rewrite map_app in H1, H2. cbn [map] in H1, H2.
    destruct (fresh_fit r) as [f|] eqn:E.
    - exists f. split; [reflexivity|]. rewrite H2. apply last_some_app.
    - exfalso. assert (I : In (@None (nat -> nat -> mat num)) (map (@Some _) l)) by (rewrite <- H1; apply in_or_app; right; left; reflexivity). apply in_map_iff in I. destruct I as (y & Y & _). discriminate.
  Qed.
End Answers.
Print Assumptions C233_results.
Print Assumptions C233_successful_fit.
Print Assumptions C233_short_list.
Print Assumptions C233_p_values.
Print Assumptions C233_uninitialised_refuted.
Print Assumptions C233_fewer_times_refuted.
Print Assumptions C233_other_rows_refuted.
Print Assumptions C233_bootstrap.
Print Assumptions C233_bootstrap_replaces_fit_refuted.

(** ** Examples: a fit of two times, then a list of three whose last data set has another number of rows. *)
Definition ex_est (T n p : nat) (xs : list dataset) : result ((nat -> nat -> mat num) * (nat -> list (option nat)) * (nat -> mat num)) :=
  Ok (fun _ _ _ _ => Some 0%Qc, fun _ => [Some 0; Some 1], fun t s i => Some (d_value (nth t xs {| d_shape := None; d_value := fun _ _ => 0%Qc |}) s i)).
Definition ex_set (n p : nat) (v : nat) : dataset := {| d_shape := Some (n, p); d_value := fun s i => qn (v + s + i) |}.
Definition ex_pv (n : nat) (u v : nat -> num) : num := nmul (u 0) (v 0).
Example C233_example : exists o1 o2, long_fit_call None 1 ex_est long_new [ex_set 5 2 3; ex_set 5 2 4] = (o1, Ok tt) /\ long_fit_call None 1 ex_est o1 [ex_set 5 2 3; ex_set 5 2 4; ex_set 6 2 0] = (o2, Err ValueError) /\ lo_np o1 = Some (5, 2) /\
  match long_p_values_call ex_pv (fun _ _ _ => Some (qz 77)) o1, long_p_values_call ex_pv (fun _ _ _ => Some (qz 77)) o2 with Ok P, Ok P' => P 1 0 1 = Some (qz 20) /\ P' 1 0 1 = Some (qz 20) /\ P' 2 0 1 = Some (qz 5929) | _, _ => False end.
Proof. do 2 eexists. split; [reflexivity|]. split; [reflexivity|]. split; [reflexivity|]. vm_compute. split; [|split]; f_equal; apply Qc_is_canon; reflexivity. Qed.
Example C233_example_rows : exists o1 o2, long_fit_call None 1 ex_est long_new [ex_set 5 2 3; ex_set 5 2 4] = (o1, Ok tt) /\ long_fit_call None 1 ex_est o1 [ex_set 6 2 3; ex_set 5 2 4] = (o2, Err ValueError) /\ long_p_values_call ex_pv (fun _ _ _ => None) o2 = Err ValueError /\
  match long_bootstrap_call None 1 ex_est o1 [ex_set 5 2 3; ex_set 5 2 4] [[ex_set 5 2 7; ex_set 5 2 8]] with (o3, Ok [_]) => option_map (fun f => lf_resid f <> None) (lo_fit o3) <> None | _ => False end.
Proof. do 2 eexists. split; [reflexivity|]. split; [reflexivity|]. split; [reflexivity|]. cbn. discriminate. Qed.
