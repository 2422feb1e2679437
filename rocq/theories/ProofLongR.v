(** * LongitudinalLiNGAM in other units *)
From Coq Require Import Reals Lra Lia Arith Bool List FunctionalExtensionality.
From Verif Require Import Prelude LibR SpecDirectR SpecLongR ModelDirectR ProofDirectR3 ProofDirectR4 ProofVarR ProofVarR2 Props_DirectR ModelLongR.
From Verif Require ModelDirect.
Import ListNotations.
Open Scope R_scope.

Lemma lag_columns_window : forall p L X t, lag_columns p L X t = map (window p L X t) (seq 0 (p * L)).
Proof. reflexivity. Qed.
Lemma window_sub : forall n p L X t, window_independent n p L X t -> independent_columns n (lag_columns p L X t).
Proof.
  intros n p L X t H. rewrite lag_columns_window. apply (independent_sub n (window p L X t) (seq 0 (p * S L))); [apply seq_NoDup..| |exact H].
  intros c Hc. apply in_seq in Hc. apply in_seq. nia.
Qed.
Lemma seq_coefs : forall (cs : list R) m, length cs = m -> cs = map (fun j => nth j cs 0) (seq 0 m).
Proof.
  intros cs m L. apply nth_ext with (d := 0) (d' := 0); [rewrite map_length, seq_length; exact L|]. intros j Hj. rewrite nth_map_seq by lia. reflexivity.
Qed.
Lemma window_present : forall p L X t i, (L <= t)%nat -> (i < p)%nat -> window p L X t (p * L + i) = X t i.
Proof.
  intros p L X t i Ht Hi. unfold window. f_equal.
  - f_equal. rewrite Nat.mul_comm, Nat.div_add_l, Nat.div_small by lia. lia.
  - rewrite Nat.add_comm, Nat.mul_comm, Nat.mod_add, Nat.mod_small by lia. reflexivity.
Qed.

Section One.
Context (lr : nat -> list (nat -> R) -> (nat -> R) -> list R).
Context (n p L : nat) (X : rpanel) (t : nat) (Hp : (0 < p)%nat) (Ht : (L <= t)%nat).
Context (RO : regression_oracle n (lr n)) (IND : window_independent n p L X t).

Lemma coefs_len : forall i, length (coefs lr n p L X t i) = (p * L)%nat.
Proof using RO IND.
  intro i. destruct (RO (lag_columns p L X t) (X t i) (window_sub n p L X t IND)) as [E _].
  unfold coefs. rewrite E. unfold lag_columns. rewrite map_length, seq_length. reflexivity.
Qed.
Lemma n_t_sum : forall i s, (i < p)%nat -> n_t lr n p L X t i s = X t i s - rsum (p * L) (fun r => nth r (coefs lr n p L X t i) 0 * window p L X t r s).
Proof using RO IND Hp Ht.
  intros i s Hi. unfold n_t. destruct (Nat.ltb_spec i p); [|lia]. rewrite (seq_coefs _ _ (coefs_len i)) at 1. rewrite lag_columns_window, lin_seq. reflexivity.
Qed.
Lemma n_t_independent : independent_columns n (map (n_t lr n p L X t) (seq 0 p)).
Proof using RO IND Hp Ht.
  intros ds b Ld H. rewrite map_length, seq_length in Ld. rewrite (seq_coefs ds p Ld).
  set (g := fun c => if (c <? p * L)%nat then - rsum p (fun i => nth i ds 0 * nth c (coefs lr n p L X t i) 0) else nth (c - p * L) ds 0).
  assert (G : Forall (fun c => c = 0) (map g (seq 0 (p * S L)))).
  { apply (IND _ b); [rewrite !map_length; reflexivity|]. intros s Hs. rewrite <- (H s Hs). rewrite (seq_coefs ds p Ld) at 1. rewrite !lin_seq. cbn [Nat.add]. f_equal.
    rewrite Nat.mul_succ_r, rsum_split.
    rewrite (rsum_ext (p * L) _ (fun c => - rsum p (fun i => nth i ds 0 * nth c (coefs lr n p L X t i) 0 * window p L X t c s))).
    2:{ intros c Hc. unfold g. destruct (Nat.ltb_spec c (p * L)); [|lia]. rewrite <- !rsum_opp, <- rsum_scal_r. apply rsum_ext. intros; ring. }
    rewrite rsum_opp, <- (rsum_swap p (p * L) (fun i c => nth i ds 0 * nth c (coefs lr n p L X t i) 0 * window p L X t c s)), <- rsum_opp, <- rsum_plus.
    apply rsum_ext. intros i Hi. rewrite n_t_sum by exact Hi. unfold g. destruct (Nat.ltb_spec (p * L + i) (p * L)); [lia|].
    replace (p * L + i - p * L)%nat with i by lia. rewrite window_present by assumption.
    rewrite (rsum_ext (p * L) (fun c => nth i ds 0 * _ * _) (fun c => nth i ds 0 * (nth c (coefs lr n p L X t i) 0 * window p L X t c s))) by (intros; ring).
    rewrite rsum_scal. ring. }
  rewrite Forall_forall in *. intros c Hc. apply in_map_iff in Hc. destruct Hc as (i & <- & Hi). apply in_seq in Hi.
  assert (Q : g (p * L + i)%nat = 0) by (apply G; apply in_map_iff; exists (p * L + i)%nat; split; [reflexivity|apply in_seq; nia]).
  unfold g in Q. destruct (Nat.ltb_spec (p * L + i) (p * L)); [lia|]. replace (p * L + i - p * L)%nat with i in Q by lia. exact Q.
Qed.

Context (a b : nat -> nat -> R) (Ha : forall u j, (u <= t)%nat -> (j < p)%nat -> a u j <> 0).
Let X' : rpanel := panel_in_units a b X.
Let wa : nat -> R := fun r => a (t - L + r / p)%nat (r mod p)%nat.
Let wb : nat -> R := fun r => b (t - L + r / p)%nat (r mod p)%nat.
Lemma wa_nz : forall r, (r < p * L)%nat -> wa r <> 0.
Proof using Hp Ht Ha.
  intros r Hr. unfold wa. apply Ha; [|apply Nat.mod_upper_bound; lia].
  assert (r / p < L)%nat by (apply Nat.div_lt_upper_bound; lia). lia.
Qed.
Lemma coefs_units : forall i, (i < p)%nat -> coefs lr n p L X' t i = unit_coefs (a t i) wa (seq 0 (p * L)) (coefs lr n p L X t i).
Proof using RO IND Hp Ht Ha.
  intros i Hi. unfold coefs. pose proof (window_sub n p L X t IND) as I0.
  assert (NZ : forall r, In r (seq 0 (p * L)) -> wa r <> 0) by (intros r Hr; apply in_seq in Hr; apply wa_nz; lia).
  assert (E : lag_columns p L X' t = map (fun r => in_units (wa r) (wb r) (window p L X t r)) (seq 0 (p * L))) by reflexivity.
  assert (I1 : independent_columns n (lag_columns p L X' t)) by (rewrite E; apply independent_units; [exact NZ|exact I0]).
  apply (least_squares_unique n (lag_columns p L X' t) (X' t i)); [exact I1|apply RO; exact I1|]. rewrite E.
  apply (least_squares_units n (window p L X t) wa wb (seq 0 (p * L)) (a t i) (b t i) (X t i)); [apply Ha; lia|exact NZ|]. apply RO. exact I0.
Qed.
Lemma coefs_nth : forall i r, (i < p)%nat -> (r < p * L)%nat -> nth r (coefs lr n p L X' t i) 0 = a t i / wa r * nth r (coefs lr n p L X t i) 0.
Proof using RO IND Hp Ht Ha.
  intros i r Hi Hr. rewrite coefs_units by exact Hi. rewrite (nth_unit_coefs p Hp) by (rewrite ?seq_length; try apply coefs_len; exact Hr). rewrite seq_nth by exact Hr. reflexivity.
Qed.
Lemma m_tau_units : forall l i j, (l < L)%nat -> (i < p)%nat -> (j < p)%nat ->
  m_tau lr n p L X' t l i j = a t i / a (t - L + l)%nat j * m_tau lr n p L X t l i j.
Proof using RO IND Hp Ht Ha.
  intros l i j Hl Hi Hj. unfold m_tau. rewrite coefs_nth by (try assumption; nia). unfold wa. f_equal. f_equal. f_equal.
  - f_equal. rewrite Nat.div_add_l, Nat.div_small by lia. lia.
  - rewrite Nat.add_comm, Nat.mod_add, Nat.mod_small by lia. reflexivity.
Qed.
End One.

Section Units.
Context (lr : nat -> list (nat -> R) -> (nat -> R) -> list R).
Context (n p L : nat) (X : rpanel) (t : nat) (Hp : (0 < p)%nat) (Ht : (L <= t)%nat).
Context (RO : regression_oracle n (lr n)) (IND : window_independent n p L X t).
Context (a b : nat -> nat -> R) (Ha : forall u j, (u <= t)%nat -> (j < p)%nat -> a u j <> 0).
Let X' : rpanel := panel_in_units a b X.
Lemma window_units : window_independent n p L X' t.
Proof.
  apply (independent_units n (window p L X t) (fun r => a (t - L + r / p)%nat (r mod p)%nat) (fun r => b (t - L + r / p)%nat (r mod p)%nat)); [|exact IND].
  intros r Hr. apply in_seq in Hr. apply Ha; [|apply Nat.mod_upper_bound; lia]. assert (r / p < S L)%nat by (apply Nat.div_lt_upper_bound; lia). lia.
Qed.
Definition shift (i : nat) : R :=
  if (i <? p)%nat then b t i - rsum (p * L) (fun r => nth r (coefs lr n p L X' t i) 0 * b (t - L + r / p)%nat (r mod p)%nat) else 0.
Lemma n_t_units : n_t lr n p L X' t = fun i => in_units (a t i) (shift i) (n_t lr n p L X t i).
Proof.
  extensionality i. extensionality s. unfold in_units, shift. destruct (Nat.ltb_spec i p) as [Hi|Hi].
  2:{ unfold n_t. destruct (Nat.ltb_spec i p); [lia|]. ring. }
  rewrite (n_t_sum lr n p L X' t Hp Ht RO window_units) by exact Hi. rewrite (n_t_sum lr n p L X t Hp Ht RO IND) by exact Hi.
  rewrite (rsum_ext (p * L) (fun r => nth r (coefs lr n p L X' t i) 0 * window p L X' t r s)
    (fun r => nth r (coefs lr n p L X' t i) 0 * b (t - L + r / p)%nat (r mod p)%nat + a t i * (nth r (coefs lr n p L X t i) 0 * window p L X t r s))).
  - rewrite rsum_plus, rsum_scal. unfold X', panel_in_units, in_units. ring.
  - intros r Hr. unfold X'. rewrite (coefs_nth lr n p L X t Hp Ht RO IND a b Ha) by assumption. unfold window, panel_in_units, in_units.
    field. apply (wa_nz p L t Hp Ht a Ha r Hr).
Qed.
Lemma b_tau_units : forall B B' l i j, in_units_matrix (a t) B B' -> (l < L)%nat -> (i < p)%nat -> (j < p)%nat ->
  b_tau p B' (m_tau lr n p L X' t l) i j = a t i / a (t - L + l)%nat j * b_tau p B (m_tau lr n p L X t l) i j.
Proof.
  intros B B' l i j HB Hl Hi Hj. unfold b_tau. rewrite <- rsum_scal. apply rsum_ext. intros k Hk. rewrite HB.
  unfold X'. rewrite (m_tau_units lr n p L X t Hp Ht RO IND a b Ha) by assumption.
  pose proof (Ha t k ltac:(lia) Hk). pose proof (Ha (t - L + l)%nat j ltac:(lia) Hj). unfold rid. destruct (Nat.eqb_spec i k) as [->|]; field; split; assumption.
Qed.
End Units.

Definition time_rel (L p t : nat) (a : nat -> nat -> R) (r r' : time_result) : Prop :=
  match r, r' with
  | None, None => (t < L)%nat
  | Some (K, Bs, E), Some (K', Bs', E') =>
      (L <= t)%nat /\ K' = K /\ length Bs = S L /\ length Bs' = S L /\
      (forall i j, (i < p)%nat -> (j < p)%nat -> nth 0 Bs' (fun _ _ => 0) i j = a t i / a t j * nth 0 Bs (fun _ _ => 0) i j) /\
      (forall l i j, (l < L)%nat -> (i < p)%nat -> (j < p)%nat ->
         nth (S l) Bs' (fun _ _ => 0) i j = a t i / a (t - L + l)%nat j * nth (S l) Bs (fun _ _ => 0) i j) /\
      exists c, forall i s, (i < p)%nat -> E' i s = a t i * E i s + c i
  | _, _ => False
  end.
Section Times.
Context (lr : nat -> list (nat -> R) -> (nat -> R) -> list R) (lars : nat -> list (nat -> R) -> (nat -> R) -> result (list R)) (logsv : nat -> rmat -> R).
Context (n p L T : nat) (X : rpanel) (Hn : (0 < n)%nat) (Hp : (0 < p)%nat).
Context (SV : singular_value_oracle logsv) (RO : regression_oracle n (lr n)).
Context (LL : forall cols y c, lars n cols y = Ok c -> length c = length cols).
Context (LS : forall es e cols y, length es = length cols -> Forall is_sign es -> is_sign e ->
     lars n (flip_columns es cols) (fun s => e * y s)
     = match lars n cols y with Ok c => Ok (map (fun ec => e * fst ec * snd ec) (combine es c)) | Err x => Err x end).
Context (IND : forall t, (L <= t < T)%nat -> window_independent n p L X t).
Context (a b : nat -> nat -> R) (Ha : forall u j, (u < T)%nat -> (j < p)%nat -> a u j <> 0).
Lemma times_rel : forall ms m o, (o + m <= T)%nat ->
  match long_times lr lars logsv ms n p L X (seq o m), long_times lr lars logsv ms n p L (panel_in_units a b X) (seq o m) with
  | Ok rs, Ok rs' => length rs = m /\ length rs' = m /\ forall q, (q < m)%nat -> time_rel L p (o + q) a (nth q rs None) (nth q rs' None)
  | Err x, Err x' => x' = x
  | _, _ => False
  end.
Proof.
  intro ms. induction m as [|m IH]; intros o Ho; [cbn; repeat split; lia|]. cbn [seq long_times].
  specialize (IH (S o) ltac:(lia)).
  assert (Fin : forall r r', time_rel L p o a r r' ->
    match (let* rs := long_times lr lars logsv ms n p L X (seq (S o) m) in Ok (r :: rs)),
          (let* rs := long_times lr lars logsv ms n p L (panel_in_units a b X) (seq (S o) m) in Ok (r' :: rs)) with
    | Ok rs, Ok rs' => length rs = S m /\ length rs' = S m /\ forall q, (q < S m)%nat -> time_rel L p (o + q) a (nth q rs None) (nth q rs' None)
    | Err x, Err x' => x' = x
    | _, _ => False
    end).
  { intros r r' H. destruct (long_times lr lars logsv ms n p L X (seq (S o) m)) as [rs|x], (long_times lr lars logsv ms n p L (panel_in_units a b X) (seq (S o) m)) as [rs'|x'];
      cbn [bind]; try contradiction; [|exact IH]. destruct IH as (L1 & L2 & Q). cbn [length]. split; [f_equal; exact L1|]. split; [f_equal; exact L2|].
    intros [|q] Hq; cbn [nth]; [rewrite Nat.add_0_r; exact H|]. rewrite Nat.add_succ_r. apply Q. lia. }
  destruct (Nat.ltb_spec o L) as [Lo|Lo]; cbn [bind]; [apply Fin; exact Lo|].
  assert (I : window_independent n p L X o) by (apply IND; lia).
  assert (Ha' : forall u j, (u <= o)%nat -> (j < p)%nat -> a u j <> 0) by (intros; apply Ha; [lia|assumption]).
  rewrite (n_t_units lr n p L X o Hp Lo RO I a b Ha').
  pose proof (C162_adjacency_units (lr n) (lars n) logsv ms n p true ModelDirect.NoPK (n_t lr n p L X o) (a o) (shift lr n p L X o a b) SV RO LL LS Hn
    (n_t_independent lr n p L X o Hp Lo RO I) (fun j Hj => Ha' o j (le_n o) Hj)) as F.
  destruct (fit (lr n) (lars n) logsv ms n p true ModelDirect.NoPK (n_t lr n p L X o)) as [[K B]|x],
    (fit (lr n) (lars n) logsv ms n p true ModelDirect.NoPK (fun j => in_units (a o j) (shift lr n p L X o a b j) (n_t lr n p L X o j))) as [[K' B']|x'];
    cbn [bind]; try contradiction; [|exact F].
  destruct F as [-> HB]. apply Fin. cbn [fst snd time_rel length]. rewrite !map_length, !seq_length.
  split; [exact Lo|]. split; [reflexivity|]. split; [reflexivity|]. split; [reflexivity|]. split; [intros; apply HB|]. split.
  - intros l i j Hl Hi Hj. cbn [nth]. rewrite !nth_map_seq by exact Hl. apply (b_tau_units lr n p L X o Hp Lo RO I a b Ha'); assumption.
  - exists (shift lr n p L X o a b). intros i s _. reflexivity.
Qed.
End Times.
