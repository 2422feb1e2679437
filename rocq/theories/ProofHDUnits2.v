(** * Proofs: rescaling in HighDimDirectLiNGAM *)
From Coq Require Import List Arith Bool ZArith QArith Qcanon Lia Permutation Sorted.
From Verif Require Import Prelude Spec SpecPop SpecHDPop Lib LibMat ModelDirect ModelRCD ModelHighDim ModelHighDimData
  ProofLim ProofPop ProofRCD ProofHighDim ProofHighDim2 ProofHDPop ProofHDUnits.
Import ListNotations.
Open Scope nat_scope.

(** ** The statistics of rescaled columns *)
Definition times (c : Qc) (y : sample) : sample := fun r => (c * y r)%Qc.
Lemma Qcpow_mult : forall a b k, ((a * b) ^ k = a ^ k * b ^ k)%Qc.
Proof. intros a b. induction k as [|k IH]; [cbn; ring|]. cbn [Qcpower]. rewrite IH. ring. Qed.
Lemma Qcpow_add : forall a k l, (a ^ (k + l) = a ^ k * a ^ l)%Qc.
Proof. intros a k l. induction k as [|k IH]; [cbn [Qcpower Nat.add]; ring|]. cbn [Nat.add Qcpower]. rewrite IH. ring. Qed.
Lemma Qcpow_pos : forall c k, (0 < c)%Qc -> (0 < c ^ k)%Qc.
Proof. intros c k Hc. induction k as [|k IH]; [reflexivity|]. cbn [Qcpower]. apply Qcmult_pos; assumption. Qed.
Lemma mean_scal : forall N c x, mean N (fun r => c * x r)%Qc = (c * mean N x)%Qc.
Proof. intros. unfold mean. rewrite sumn_scal. unfold Qcdiv. ring. Qed.
Lemma moment_scaled : forall N K c d u y, 1 <= K -> moment_stat N K (times c u) (times d y) = (c ^ (K + 1) * d * moment_stat N K u y)%Qc.
Proof.
  intros N K c d u y HK. unfold moment_stat, times.
  rewrite (mean_ext N (fun r => (c * u r) ^ (K - 1) * (d * y r))%Qc (fun r => c ^ (K - 1) * d * (u r ^ (K - 1) * y r))%Qc) by (intros; rewrite Qcpow_mult; ring).
  rewrite (mean_ext N (fun r => (c * u r) ^ 2)%Qc (fun r => c ^ 2 * u r ^ 2)%Qc) by (intros; rewrite Qcpow_mult; reflexivity).
  rewrite (mean_ext N (fun r => (c * u r) ^ K)%Qc (fun r => c ^ K * u r ^ K)%Qc) by (intros; rewrite Qcpow_mult; reflexivity).
  rewrite (mean_ext N (fun r => c * u r * (d * y r))%Qc (fun r => c * d * (u r * y r))%Qc) by (intros; ring).
  rewrite !mean_scal. destruct K as [|K]; [lia|]. replace (S K - 1) with K by lia. replace (S K + 1) with (S (S K)) by lia. cbn [Qcpower]. ring.
Qed.
Lemma qabs_mult_pos : forall c x, (0 < c)%Qc -> qabs (c * x) = (c * qabs x)%Qc.
Proof.
  intros c x Hc. unfold qabs. destruct (qltb x 0) eqn:E1; destruct (qltb (c * x) 0) eqn:E2; try ring.
  - apply qltb_lt in E1. apply qltb_nlt in E2. exfalso. apply (Qclt_not_le x 0 E1). apply (Qcmult_lt_0_le_reg_r _ _ c Hc). rewrite (Qcmult_comm x c). ring_simplify (0 * c)%Qc. exact E2.
  - apply qltb_nlt in E1. apply qltb_lt in E2. exfalso. apply (Qclt_not_le _ _ E2). apply Qcmult_nonneg; [apply Qclt_le_weak; exact Hc|exact E1].
Qed.
Lemma residual_scaled : forall N x C v u c, residual_on N x C v u -> residual_on N (fun j => times c (x j)) C v (times c u).
Proof.
  intros N x C v u c [(b & Hb) O]. split.
  - exists b. intros r Hr. unfold times. rewrite (Hb r Hr). rewrite (sumf_ext _ (fun q => b q * (c * x q r))%Qc (fun q => c * (b q * x q r))%Qc) by (intros; ring). rewrite sumf_scal. ring.
  - intros q Hq. unfold times. transitivity (c * c * dot N u (x q))%Qc; [|rewrite (O q Hq); ring]. unfold dot. rewrite <- sumn_scal. apply sumn_ext. intros. ring.
Qed.
Lemma data_tau_scaled : forall N pinv K Y c v C j, normal_equations N pinv -> 1 <= K -> (0 < c)%Qc -> NoDup C ->
  data_tau N pinv K (fun i => times c (Y i)) v C j = (c ^ (K + 2) * data_tau N pinv K Y v C j)%Qc.
Proof.
  intros N pinv K Y c v C j NE HK Hc ND. rewrite !data_tau_eq.
  rewrite (moment_stat_ext N K (hd_resid pinv (fun i => times c (Y i)) C v) (times c (hd_resid pinv Y C v)) (times c (Y j)) (times c (Y j))); [| |reflexivity].
  - rewrite moment_scaled by exact HK. replace (K + 2) with (K + 1 + 1) by lia. rewrite (Qcpow_add c (K + 1) 1). cbn [Qcpower]. rewrite Qcmult_1_r. apply qabs_mult_pos. apply Qcmult_pos; [apply Qcpow_pos|]; exact Hc.
  - apply (residual_unique N (fun i => times c (Y i)) C v); [apply resid_spec; assumption|]. apply residual_scaled, resid_spec; assumption.
Qed.
Lemma data_tau0_scaled : forall N K Y c v j, 1 <= K -> (0 < c)%Qc -> data_tau0 N K (fun i => times c (Y i)) v j = (c ^ (K + 2) * data_tau0 N K Y v j)%Qc.
Proof.
  intros N K Y c v j HK Hc. rewrite !data_tau0_eq, moment_scaled by exact HK. replace (K + 2) with (K + 1 + 1) by lia. rewrite (Qcpow_add c (K + 1) 1). cbn [Qcpower]. rewrite Qcmult_1_r. apply qabs_mult_pos. apply Qcmult_pos; [apply Qcpow_pos|]; exact Hc.
Qed.

(** ** The loop on proportional statistics *)
Lemma qltb_scaled : forall k a b, (0 < k)%Qc -> qltb (k * a) (k * b) = qltb a b.
Proof.
  intros k a b Hk. destruct (qltb a b) eqn:E.
  - apply qltb_lt in E. apply qltb_lt. rewrite (Qcmult_comm k a), (Qcmult_comm k b). apply Qcmult_lt_compat_r; assumption.
  - apply qltb_nlt in E. apply qltb_nlt. rewrite (Qcmult_comm k a), (Qcmult_comm k b). apply Qcmult_le_compat_r; [exact E|apply Qclt_le_weak; exact Hk].
Qed.
Lemma qmin_scaled : forall k a b, (0 < k)%Qc -> qmin (k * a) (k * b) = (k * qmin a b)%Qc.
Proof. intros k a b Hk. unfold qmin. rewrite qltb_scaled by exact Hk. destruct (qltb b a); reflexivity. Qed.
Lemma qmax_scaled : forall k a b, (0 < k)%Qc -> qmax (k * a) (k * b) = (k * qmax a b)%Qc.
Proof. intros k a b Hk. unfold qmax. rewrite qltb_scaled by exact Hk. destruct (qltb a b); reflexivity. Qed.
Lemma qmin_assoc : forall a b c, qmin a (qmin b c) = qmin (qmin a b) c.
Proof.
  intros a b c. destruct (qmin_iff b c) as [I1 I2]. destruct (qmin_iff a b) as [J1 J2]. destruct (Qclt_le_dec b c) as [L|L].
  - rewrite (I1 (Qclt_le_weak _ _ L)). symmetry. apply (qmin_iff (qmin a b) c). eapply Qcle_trans; [apply qmin_r|apply Qclt_le_weak; exact L].
  - rewrite (I2 L). destruct (Qclt_le_dec a b) as [L2|L2]; [rewrite (J1 (Qclt_le_weak _ _ L2)); reflexivity|]. rewrite (J2 L2).
    rewrite (proj2 (qmin_iff b c) L). apply (qmin_iff a c). eapply Qcle_trans; eassumption.
Qed.
Lemma fold_scaled : forall (op : Qc -> Qc -> Qc) k, (forall a b, op (k * a) (k * b) = (k * op a b))%Qc -> forall l a, fold_left op (map (Qcmult k) l) (k * a)%Qc = (k * fold_left op l a)%Qc.
Proof. intros op k H. induction l as [|b l IH]; intro a; [reflexivity|]. cbn [map fold_left]. rewrite H. apply IH. Qed.
Lemma qmax_list_scaled : forall k l, (0 < k)%Qc -> qmax_list (map (Qcmult k) l) = (k * qmax_list l)%Qc.
Proof. intros k [|a l] Hk; [cbn; ring|]. cbn [map qmax_list]. apply fold_scaled. intros. apply qmax_scaled. exact Hk. Qed.
Lemma qmin_list_scaled : forall k l, (0 < k)%Qc -> qmin_list (map (Qcmult k) l) = (k * qmin_list l)%Qc.
Proof. intros k [|a l] Hk; [cbn; ring|]. cbn [map qmin_list]. apply fold_scaled. intros. apply qmin_scaled. exact Hk. Qed.
Lemma argmin_scaled : forall k l, (0 < k)%Qc -> np_argmin (map Some (map (Qcmult k) l)) = np_argmin (map Some l).
Proof.
  intros k l Hk.
  assert (G : forall l a bi i, argbest qltb (Some (k * a)%Qc) bi i (map Some (map (Qcmult k) l)) = argbest qltb (Some a) bi i (map Some l)).
  { induction l0 as [|b l0 IH]; intros a bi i; [reflexivity|]. cbn [map argbest]. rewrite qltb_scaled by exact Hk. destruct (qltb b a); apply IH. }
  destruct l as [|a l]; [reflexivity|]. cbn [map np_argmin]. f_equal. apply G.
Qed.

Section Scaled.
  Variables (tau0 tau0' : nat -> nat -> Qc) (tau tau' : nat -> list nat -> nat -> Qc) (enum : list nat -> list nat) (J : nat) (alpha : Qc).
  Hypothesis HE : forall l, Permutation (enum l) l.
  Variable k : Qc.
  Hypothesis Hk : (0 < k)%Qc.
  Variable n : nat.
  Hypothesis H0 : forall v j, v < n -> j < n -> tau0' v j = (k * tau0 v j)%Qc.
  Hypothesis H1 : forall v C j, NoDup C -> tau' v C j = (k * tau v C j)%Qc.
  Definition cap : Qc := qz 100000.
  Definition below (a : Qc) : Prop := (a <= cap)%Qc /\ (k * a <= cap)%Qc.
  Definition like (z z' : Qc) : Prop := forall a, below a -> qmin (k * a) z' = (k * qmin a z)%Qc.
  Lemma below_min : forall a z, below a -> below (qmin a z).
  Proof.
    intros a z [B1 B2]. split; [eapply Qcle_trans; [apply qmin_l|exact B1]|]. eapply Qcle_trans; [|exact B2]. rewrite (Qcmult_comm k _), (Qcmult_comm k a). apply Qcmult_le_compat_r; [apply qmin_l|apply Qclt_le_weak; exact Hk].
  Qed.
  Lemma like_big : like (qz 10000000000) (qz 10000000000).
  Proof. intros a [B1 B2]. rewrite !qmin_huge by assumption. reflexivity. Qed.
  Lemma like_step : forall z z' t, like z z' -> like (qmin z t) (qmin z' (k * t)%Qc).
  Proof. intros z z' t L a Ba. rewrite !qmin_assoc, (L a Ba). apply qmin_scaled. exact Hk. Qed.
  Lemma like_update : forall v C js ret ret', NoDup C -> (forall j, like (ret j) (ret' j)) -> forall j, like (taus_update tau v C js ret j) (taus_update tau' v C js ret' j).
  Proof.
    intros v C js. unfold taus_update. induction js as [|a js IH]; intros ret ret' ND L j; [apply L|]. cbn [fold_left]. apply IH; [exact ND|].
    intro b. unfold upd. destruct (b =? a); [rewrite H1 by exact ND; apply like_step, L|apply L].
  Qed.
  Lemma like_calc : forall v ch sets ret ret', (forall s, In s sets -> NoDup (fst s)) -> (forall j, like (ret j) (ret' j)) -> forall j, like (calc_taus tau true v ch sets ret j) (calc_taus tau' true v ch sets ret' j).
  Proof.
    intros v ch sets ret ret' HS L j. destruct sets as [|[C an] sets]; [apply L|]. cbn [calc_taus]. specialize (HS (C, an) (or_introl eq_refl)). cbn [fst] in HS. apply like_update; [exact HS|]. intro b. apply like_update; assumption.
  Qed.
  Lemma cond_set_scaled : forall theta T T' c c' v, (forall j, In j theta -> T' v j = (k * T v j)%Qc) -> c' = (k * c)%Qc -> cond_set theta T' c' v = cond_set theta T c v.
  Proof.
    intros theta T T' c c' v E ->. unfold cond_set.
    rewrite (filter_ext_in (fun j => qltb (k * c) (T' v j)) (fun j => qltb c (T v j)) theta) by (intros j Hj; rewrite (E j Hj); apply qltb_scaled; exact Hk). reflexivity.
  Qed.
  Definition prop (theta psi : list nat) (T T' : mat Qc) : Prop := forall i j, In i psi -> In j (theta ++ psi) -> T' i j = (k * T i j)%Qc /\ below (T i j).

  Lemma update_scaled : forall theta psi T T' c c', theta <> [] -> NoDup (theta ++ psi) -> prop theta psi T T' -> c' = (k * c)%Qc ->
    prop theta psi (update_stats tau0 tau enum J true theta psi T c) (update_stats tau0' tau' enum J true theta psi T' c').
  Proof.
    intros theta psi T T' c c' NT ND HP Hc i j Hi Hj. unfold update_stats. destruct (Nat.eqb_spec i j) as [->|Nij].
    { split; [ring|]. split; [vm_compute; discriminate|]. replace (k * 0)%Qc with 0%Qc by ring. vm_compute. discriminate. }
    rewrite (proj2 (memb_In i psi) Hi). apply NoDup_app_iff' in ND. destruct ND as (NDt & NDp & DJ).
    destruct (HP i j Hi Hj) as [E Bl]. rewrite (cond_set_scaled theta T T' c c' i (fun q Hq => proj1 (HP i q Hi (in_or_app _ _ _ (or_introl Hq)))) Hc).
    destruct (last_some theta NT) as (r & EL & Ir). rewrite EL. cbn [get_prune_stats].
    destruct (cond_set_last tau0 tau J theta T c i r EL NDt) as (C1 & C2 & C3 & C4).
    split; [|apply below_min; exact Bl]. rewrite E. apply like_calc; [|intro; apply like_big|exact Bl].
    intros s Hs. unfold cond_sets in Hs. apply in_map_iff in Hs. destruct Hs as (y & <- & Hy). cbn [fst].
    assert (NDe : NoDup (enum (remove_nat r (cond_set theta T c i)))).
    { eapply Permutation_NoDup; [apply Permutation_sym, HE|]. apply remove_nat_NoDup. exact C1. }
    pose proof (combs_NoDup_elem _ _ _ NDe Hy) as NDy. apply combs_In in Hy. destruct Hy as [_ Hy].
    constructor; [|exact NDy]. intro Q. apply Hy in Q. apply (Permutation_in _ (HE _)) in Q. apply remove_nat_In in Q. tauto.
  Qed.
  (** The choice made in a round. *)
  Lemma max_scaled : forall theta psi T T', prop theta psi T T' ->
    map (fun i => qmax_list (map (fun j => T' i j) psi)) psi = map (Qcmult k) (map (fun i => qmax_list (map (fun j => T i j) psi)) psi).
  Proof.
    intros theta psi T T' HP. rewrite map_map. apply map_ext_in. intros i Hi. rewrite <- qmax_list_scaled by exact Hk. f_equal. rewrite map_map. apply map_ext_in. intros j Hj. apply HP; [exact Hi|apply in_app_iff; right; exact Hj].
  Qed.
  Lemma prop_next : forall theta psi T T' r, NoDup psi -> In r psi -> prop theta psi T T' -> prop (theta ++ [r]) (remove_nat r psi) T T'.
  Proof.
    intros theta psi T T' r NDp Hr HP i j Hi Hj. apply HP; [apply remove_nat_In in Hi; tauto|]. rewrite <- app_assoc in Hj. apply in_app_iff in Hj. apply in_app_iff. destruct Hj as [Hj|[<-|Hj]]; [left; exact Hj|right; exact Hr|right; apply remove_nat_In in Hj; tauto].
  Qed.
  Lemma loop_scaled : forall fuel theta psi T T' c c', theta <> [] -> NoDup (theta ++ psi) -> prop theta psi T T' -> c' = (k * c)%Qc ->
    hd_loop tau0' tau' enum J alpha true fuel theta psi T' c' = hd_loop tau0 tau enum J alpha true fuel theta psi T c.
  Proof.
    induction fuel as [|fuel IH]; intros theta psi T T' c c' NT ND HP Hc; cbn [hd_loop]; [reflexivity|]. destruct (length psi <=? 1); [reflexivity|].
    pose proof (update_scaled theta psi T T' c c' NT ND HP Hc) as HU. set (U := update_stats tau0 tau enum J true theta psi T c) in *. set (U' := update_stats tau0' tau' enum J true theta psi T' c') in *.
    rewrite (max_scaled theta psi U U' HU), argmin_scaled by exact Hk.
    destruct (np_argmin _) as [i|]; [|reflexivity]. destruct (nth_error psi i) as [r|] eqn:En; [|reflexivity]. apply nth_error_In in En.
    assert (ND2 := ND). apply NoDup_app_iff' in ND2. destruct ND2 as (_ & NDp & _).
    apply IH; [destruct theta; discriminate| |apply prop_next; assumption|].
    - eapply Permutation_NoDup; [|exact ND]. rewrite <- app_assoc. apply Permutation_app_head. cbn [app]. apply remove_nat_perm; assumption.
    - rewrite qmin_list_scaled, Hc, <- Qcmult_assoc by exact Hk. apply qmax_scaled. exact Hk.
  Qed.
  Lemma order_scaled : (forall v j, v < n -> j < n -> v <> j -> below (tau0 v j)) -> hd_order tau0' tau' enum J alpha true n = hd_order tau0 tau enum J alpha true n.
  Proof.
    intro HB. unfold hd_order. set (T := fun i j : nat => if i =? j then 0%Qc else qz 100000). destruct n as [|m] eqn:En; [reflexivity|]. rewrite <- En in *. clear m En. destruct n as [|m]; [reflexivity|].
    cbn [hd_loop]. destruct (length (seq 0 (S m)) <=? 1) eqn:L; [reflexivity|].
    assert (HU : prop [] (seq 0 (S m)) (update_stats tau0 tau enum J true [] (seq 0 (S m)) T 0) (update_stats tau0' tau' enum J true [] (seq 0 (S m)) T 0)).
    { intros i j Hi Hj. cbn [app] in Hj. unfold update_stats. destruct (Nat.eqb_spec i j) as [->|Nij].
      { split; [ring|]. split; [vm_compute; discriminate|]. replace (k * 0)%Qc with 0%Qc by ring. vm_compute. discriminate. }
      rewrite (proj2 (memb_In i _) Hi). cbn [map last get_prune_stats]. rewrite (proj2 (memb_In j _)) by (apply remove_nat_In; split; [exact Hj|congruence]).
      apply in_seq in Hi. apply in_seq in Hj. rewrite H0 by lia. unfold T. rewrite (proj2 (Nat.eqb_neq i j) Nij).
      destruct (HB i j ltac:(lia) ltac:(lia) Nij) as [B1 B2]. rewrite (proj2 (qmin_iff (qz 100000) (tau0 i j)) B1), (proj2 (qmin_iff (qz 100000) (k * tau0 i j)%Qc) B2). split; [reflexivity|split; assumption]. }
    rewrite (max_scaled [] (seq 0 (S m)) _ _ HU), argmin_scaled by exact Hk. destruct (np_argmin _) as [i|]; [|reflexivity]. destruct (nth_error (seq 0 (S m)) i) as [r|] eqn:En; [|reflexivity]. apply nth_error_In in En.
    apply loop_scaled; [discriminate| |apply prop_next; [apply seq_NoDup|exact En|exact HU]|].
    - eapply Permutation_NoDup; [|apply (seq_NoDup (S m) 0)]. cbn [app]. apply remove_nat_perm; [apply seq_NoDup|exact En].
    - rewrite qmin_list_scaled, <- Qcmult_assoc by exact Hk. rewrite <- qmax_scaled by exact Hk. f_equal. ring.
  Qed.
End Scaled.

(** ** Two columns *)
Lemma two_columns : forall tau0 tau enum J alpha, (forall a b, (0 <= tau0 a b)%Qc) ->
  hd_order tau0 tau enum J alpha true 2 = Ok (if qltb (qmin (qz 100000) (tau0 1 0)) (qmin (qz 100000) (tau0 0 1)) then [1; 0] else [0; 1]).
Proof.
  intros tau0 tau enum J alpha NN. unfold hd_order.
  assert (PM : forall a, (0 <= a)%Qc -> qmax 0 a = a /\ qmax a 0 = a).
  { intros a Ha. unfold qmax. split; [destruct (qltb 0 a) eqn:E; [reflexivity|apply qltb_nlt in E; apply Qcle_antisym; assumption]|].
    destruct (qltb a 0) eqn:E; [apply qltb_lt in E; exfalso; exact (Qclt_not_le _ _ E Ha)|reflexivity]. }
  assert (Q : forall a b, (0 <= qmin (qz 100000) (tau0 a b))%Qc) by (intros a b; destruct (qmin_cases (qz 100000) (tau0 a b)) as [->| ->]; [vm_compute; discriminate|apply NN]).
  set (p := qmin (qz 100000) (tau0 0 1)). set (q := qmin (qz 100000) (tau0 1 0)).
  assert (R : hd_loop tau0 tau enum J alpha true 2 [] (seq 0 2) (fun i j => if i =? j then 0%Qc else qz 100000) 0%Qc =
    match np_argmin [Some (qmax 0 p); Some (qmax q 0)] with None => Err ValueError | Some i => match nth_error [0; 1] i with None => Err IndexError | Some r => Ok (r :: remove_nat r [0; 1]) end end).
  { unfold p, q. cbn [hd_loop seq length Nat.leb map qmax_list fold_left].
    unfold update_stats. cbn [memb existsb Nat.eqb orb map last get_prune_stats remove_nat filter negb].
    destruct (np_argmin _) as [i|]; [|reflexivity]. destruct (nth_error [0; 1] i) as [r|] eqn:E; [|reflexivity].
    destruct i as [|[|i]]; cbn in E; [injection E as <-|injection E as <-|destruct i; discriminate]; reflexivity. }
  rewrite R, (proj1 (PM p (Q 0 1))), (proj2 (PM q (Q 1 0))). cbn [np_argmin argbest]. destruct (qltb q p); reflexivity.
Qed.
