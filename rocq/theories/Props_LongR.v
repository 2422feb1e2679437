(** * C193: LongitudinalLiNGAM in other units and with other origins *)
From Coq Require Import Reals Lra Lia Arith Bool List.
From Verif Require Import Prelude LibR SpecDirectR SpecLongR ModelDirectR ProofDirectR8 Props_DirectR ModelLongR ProofLongR Props_VarR.
From Verif Require ModelDirect.
Import ListNotations.
Open Scope R_scope.

(** Every variable may be given another unit and another origin at every time point: the same causal orders are found, the
    coefficient of a cause on an effect changes with the units of both at their time points, and the residuals of a variable
    change with its unit (up to a constant).  Matrix number 1 + l of time t belongs to the causes at time t - L + l (C50). *)
Theorem C193_units : forall lr lars logsv ms T n p L (X : rpanel) (a b : nat -> nat -> R),
  singular_value_oracle logsv -> regression_oracle n (lr n) ->
  (forall cols y c, lars n cols y = Ok c -> length c = length cols) ->
  (forall es e cols y, length es = length cols -> Forall is_sign es -> is_sign e ->
     lars n (flip_columns es cols) (fun s => e * y s)
     = match lars n cols y with Ok c => Ok (map (fun ec => e * fst ec * snd ec) (combine es c)) | Err x => Err x end) ->
  (forall t, (L <= t < T)%nat -> window_independent n p L X t) ->
  (forall t j, (t < T)%nat -> (j < p)%nat -> a t j <> 0) ->
  match long_fit lr lars logsv ms T n p L X, long_fit lr lars logsv ms T n p L (fun t j s => a t j * X t j s + b t j) with
  | Ok rs, Ok rs' =>
      length rs = T /\ length rs' = T /\
      forall t, (t < T)%nat ->
        match nth t rs None, nth t rs' None with
        | None, None => (t < L)%nat
        | Some (K, Bs, E), Some (K', Bs', E') =>
            (L <= t)%nat /\ K' = K /\ length Bs = S L /\ length Bs' = S L /\
            (forall i j, (i < p)%nat -> (j < p)%nat -> nth 0 Bs' (fun _ _ => 0) i j = a t i / a t j * nth 0 Bs (fun _ _ => 0) i j) /\
            (forall l i j, (l < L)%nat -> (i < p)%nat -> (j < p)%nat ->
               nth (S l) Bs' (fun _ _ => 0) i j = a t i / a (t - L + l)%nat j * nth (S l) Bs (fun _ _ => 0) i j) /\
            exists c, forall i s, (i < p)%nat -> E' i s = a t i * E i s + c i
        | _, _ => False
        end
  | Err x, Err x' => x' = x
  | _, _ => False
  end.
Proof.
  intros lr lars logsv ms T n p L X a b SV RO LL LS IND Ha. unfold long_fit.
  destruct (T <? 2)%nat; [reflexivity|]. destruct (Nat.eqb_spec n 0) as [|Hn]; [reflexivity|]. destruct (Nat.eqb_spec p 0) as [|Hp]; [reflexivity|].
  cbn [orb]. destruct (L =? 0)%nat; [reflexivity|].
  pose proof (times_rel lr lars logsv n p L T X ltac:(lia) ltac:(lia) SV RO LL LS IND a b Ha ms T 0 ltac:(lia)) as H.
  change (fun t j s => a t j * X t j s + b t j) with (panel_in_units a b X).
  destruct (long_times lr lars logsv ms n p L X (seq 0 T)) as [rs|x], (long_times lr lars logsv ms n p L (panel_in_units a b X) (seq 0 T)) as [rs'|x']; try contradiction; [|exact H].
  destruct H as (H1 & H2 & H). split; [exact H1|]. split; [exact H2|]. intros t Ht. exact (H t Ht).
Qed.

(** In particular the level around which a variable moves at each time point, such as a trend common to all subjects, does not
    matter: the orders and matrices are those of the data without it.  (VARLiNGAM is different: C186.) *)
Theorem C193_trend : forall lr lars logsv ms T n p L (X : rpanel) (trend : nat -> nat -> R),
  singular_value_oracle logsv -> regression_oracle n (lr n) ->
  (forall cols y c, lars n cols y = Ok c -> length c = length cols) ->
  (forall es e cols y, length es = length cols -> Forall is_sign es -> is_sign e ->
     lars n (flip_columns es cols) (fun s => e * y s)
     = match lars n cols y with Ok c => Ok (map (fun ec => e * fst ec * snd ec) (combine es c)) | Err x => Err x end) ->
  (forall t, (L <= t < T)%nat -> window_independent n p L X t) ->
  match long_fit lr lars logsv ms T n p L X, long_fit lr lars logsv ms T n p L (fun t j s => X t j s + trend t j) with
  | Ok rs, Ok rs' =>
      forall t, (t < T)%nat ->
        match nth t rs None, nth t rs' None with
        | None, None => True
        | Some (K, Bs, _), Some (K', Bs', _) =>
            K' = K /\ forall tau i j, (tau <= L)%nat -> (i < p)%nat -> (j < p)%nat -> nth tau Bs' (fun _ _ => 0) i j = nth tau Bs (fun _ _ => 0) i j
        | _, _ => False
        end
  | Err x, Err x' => x' = x
  | _, _ => False
  end.
Proof.
  intros lr lars logsv ms T n p L X b SV RO LL LS IND.
  pose proof (C193_units lr lars logsv ms T n p L X (fun _ _ => 1) b SV RO LL LS IND ltac:(intros; lra)) as H. cbn beta in H.
  replace (fun t j s => X t j s + b t j) with (fun t j s => 1 * X t j s + b t j).
  2:{ apply FunctionalExtensionality.functional_extensionality; intro t. apply FunctionalExtensionality.functional_extensionality; intro j.
      apply FunctionalExtensionality.functional_extensionality; intro s. ring. }
  destruct (long_fit lr lars logsv ms T n p L X) as [rs|x], (long_fit lr lars logsv ms T n p L (fun t j s => 1 * X t j s + b t j)) as [rs'|x']; try contradiction; [|exact H].
  destruct H as (_ & _ & H). intros t Ht. specialize (H t Ht).
  destruct (nth t rs None) as [[[K Bs] E]|], (nth t rs' None) as [[[K' Bs'] E']|]; try contradiction; [|trivial].
  destruct H as (_ & HK & _ & _ & H0 & H1 & _). split; [exact HK|]. intros [|l] i j Hl Hi Hj; [rewrite H0 by assumption|rewrite H1 by (try assumption; lia)]; field.
Qed.

(** ** Example: two time points, two variables, six subjects *)
Definition ex_panel : rpanel := fun t j s =>
  nth (2 * t + j) (nth s [[1; 0; 0; 0]; [0; 1; 0; 0]; [0; 0; 1; 0]; [0; 0; 0; 1]; [0; 0; 0; 0]; [1; 2; 3; 5] ] []) 0.
Example C193_example_independent : forall t, (1 <= t < 2)%nat -> window_independent 6 2 1 ex_panel t.
Proof.
  intros t Ht. replace t with 1%nat by lia. intros cs b L H. destruct cs as [|c0 [|c1 [|c2 [|c3 [|] ] ] ] ]; try discriminate.
  pose proof (H 0%nat ltac:(lia)) as H0. pose proof (H 1%nat ltac:(lia)) as H1. pose proof (H 2%nat ltac:(lia)) as H2. pose proof (H 3%nat ltac:(lia)) as H3.
  pose proof (H 4%nat ltac:(lia)) as H4. unfold window, ex_panel in H0, H1, H2, H3, H4. cbn in H0, H1, H2, H3, H4. repeat constructor; lra.
Qed.
(** the second time point is measured in other units than the first, and from other origins *)
Example C193_example : forall logsv, singular_value_oracle logsv ->
  match long_fit ex_lr_n (fun _ => ex_lars) logsv ModelDirect.Pwling 2 6 2 1 ex_panel,
        long_fit ex_lr_n (fun _ => ex_lars) logsv ModelDirect.Pwling 2 6 2 1 (fun t j s => (if (t =? 0)%nat then 1 else 1000) * ex_panel t j s + INR (10 * t + j)) with
  | Ok [None; Some (K, [B0; B1], _)], Ok [None; Some (K', [B0'; B1'], _)] => K' = K /\ B0' 1%nat 0%nat = B0 1%nat 0%nat /\ B1' 1%nat 0%nat = 1000 * B1 1%nat 0%nat
  | Ok _, _ => False
  | Err x, Err x' => x' = x
  | _, _ => False
  end.
Proof.
  intros logsv SV.
  pose proof (C193_units ex_lr_n (fun _ => ex_lars) logsv ModelDirect.Pwling 2 6 2 1 ex_panel (fun t _ => if (t =? 0)%nat then 1 else 1000) (fun t j => INR (10 * t + j))
    SV (C186_example_regression 6) ex_lars_length ex_lars_signs C193_example_independent ltac:(intros t j _ _; cbn beta; destruct (t =? 0)%nat; lra)) as H. cbn beta in H.
  destruct (long_fit _ _ _ _ _ _ _ _ ex_panel) as [rs|x], (long_fit _ _ _ _ _ _ _ _ (fun t j s => _ + _)) as [rs'|x']; try contradiction; [|exact H].
  destruct H as (L1 & L2 & H). destruct rs as [|r0 [|r1 [|] ] ]; try discriminate. destruct rs' as [|r0' [|r1' [|] ] ]; try discriminate.
  pose proof (H 0%nat ltac:(lia)) as H0. pose proof (H 1%nat ltac:(lia)) as H1. cbn [nth] in H0, H1.
  destruct r0 as [[[? ?] ?]|]; destruct r0' as [[[? ?] ?]|]; try contradiction; [destruct H0; lia|].
  destruct r1 as [[[K Bs] E]|]; destruct r1' as [[[K' Bs'] E']|]; try contradiction; [|lia].
  destruct H1 as (_ & HK & A & B & C & D & _). destruct Bs as [|B0 [|B1 [|] ] ]; try discriminate. destruct Bs' as [|B0' [|B1' [|] ] ]; try discriminate.
  split; [exact HK|]. specialize (C 1%nat 0%nat ltac:(lia) ltac:(lia)). specialize (D 0%nat 1%nat 0%nat ltac:(lia) ltac:(lia) ltac:(lia)). cbn [nth Nat.eqb Nat.sub Nat.add] in C, D.
  split; [rewrite C|rewrite D]; field.
Qed.
Print Assumptions C193_units.
Print Assumptions C193_trend.
