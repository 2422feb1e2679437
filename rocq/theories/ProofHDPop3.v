(** * Proofs: the loop of HighDimDirectLiNGAM with its two deviations repaired *)
From Coq Require Import List Arith Bool ZArith QArith Qcanon Lia Permutation Relations Sorted.
From Verif Require Import Prelude Spec SpecPop SpecRCDPop SpecHDPop SpecHighDim Lib LibMat ModelDirect ModelRCD ModelHighDim ModelHighDimData
  ProofLim ProofLim2 ProofPop ProofRCD ProofRCDPop ProofRCDPop3 ProofHighDim ProofHighDim2 ProofHDPop ProofHDPop2.
Import ListNotations.
Open Scope nat_scope.

(** Some combination of size [k] contains a given set of at most [k] elements. *)
Lemma combs_cover : forall l k S, NoDup l -> NoDup S -> incl S l -> length S <= k -> k <= length l -> exists x, In x (combs k l) /\ incl S x.
Proof.
  induction l as [|a l IH]; intros k S ND NS I L1 L2.
  - assert (S = []) as -> by (destruct S as [|s S]; [reflexivity|destruct (I s (or_introl eq_refl))]). cbn in L2. assert (k = 0) as -> by lia. exists []. split; [left; reflexivity|intros y []].
  - inversion ND as [|? ? NI NDl]. subst. destruct k as [|k]; [exists []; split; [left; reflexivity|]; destruct S; [intros y []|cbn in L1; lia]|].
    rewrite combs_S_cons. cbn [length] in L2. destruct (in_dec Nat.eq_dec a S) as [Ia|Na].
    + destruct (IH k (remove_nat a S) NDl) as (x & Hx & Ix).
      * apply remove_nat_NoDup. exact NS.
      * intros y Hy. apply remove_nat_In in Hy. destruct Hy as [Hy N]. apply I in Hy. destruct Hy as [Hy|Hy]; [congruence|exact Hy].
      * pose proof (remove_nat_length a S NS Ia). lia.
      * lia.
      * exists (a :: x). split; [apply in_app_iff; left; apply in_map; exact Hx|]. intros y Hy. destruct (Nat.eq_dec y a) as [->|N]; [left; reflexivity|right]. apply Ix, remove_nat_In. split; [exact Hy|congruence].
    + assert (Il : incl S l) by (intros y Hy; destruct (I y Hy) as [Q|Q]; [congruence|exact Q]).
      destruct (Nat.eq_dec k (length l)) as [E|E].
      * exists (a :: l). split; [apply in_app_iff; left; apply in_map; subst k; rewrite combs_full; left; reflexivity|]. intros y Hy. right. apply Il. exact Hy.
      * destruct (IH (Datatypes.S k) S NDl NS Il L1 ltac:(lia)) as (x & Hx & Ix). exists x. split; [apply in_app_iff; right; exact Hx|exact Ix].
Qed.

Section Stats.
  Variables (tau0 : nat -> nat -> Qc) (tau : nat -> list nat -> nat -> Qc).
  Lemma taus_update_cases : forall v cond js ret j, (taus_update tau v cond js ret j <= ret j)%Qc /\
    (In j js -> (taus_update tau v cond js ret j <= tau v cond j)%Qc) /\ (taus_update tau v cond js ret j = ret j \/ taus_update tau v cond js ret j = tau v cond j).
  Proof.
    intros v cond. unfold taus_update. induction js as [|k js IH]; intros ret j; cbn [fold_left].
    - split; [apply Qcle_refl|]. split; [intros []|left; reflexivity].
    - destruct (IH (upd ret k (qmin (ret k) (tau v cond k))) j) as (I1 & I2 & I3).
      assert (U : (upd ret k (qmin (ret k) (tau v cond k)) j <= ret j)%Qc /\ (j = k -> (upd ret k (qmin (ret k) (tau v cond k)) j <= tau v cond j)%Qc) /\
                  (upd ret k (qmin (ret k) (tau v cond k)) j = ret j \/ upd ret k (qmin (ret k) (tau v cond k)) j = tau v cond j)).
      { unfold upd. destruct (Nat.eqb_spec j k) as [->|N]; [|split; [apply Qcle_refl|split; [congruence|left; reflexivity]]].
        split; [apply qmin_l|]. split; [intros _; apply qmin_r|apply qmin_cases]. }
      destruct U as (U1 & U2 & U3). split; [eapply Qcle_trans; eassumption|]. split.
      + intros [<-|Hj]; [eapply Qcle_trans; [exact I1|apply U2; reflexivity]|apply I2; exact Hj].
      + destruct I3 as [->|I3]; [exact U3|right; exact I3].
  Qed.
  Lemma calc_taus_cases : forall v ch sets ret j, let z := calc_taus tau false v ch sets ret j in
    (z <= ret j)%Qc /\ (In j ch -> forall s, In s sets -> (z <= tau v (fst s) j)%Qc) /\ (z = ret j \/ exists s, In s sets /\ z = tau v (fst s) j).
  Proof.
    intros v ch. induction sets as [|[cond an] sets IH]; intros ret j z; unfold z; cbn [calc_taus].
    - split; [apply Qcle_refl|]. split; [intros _ s []|left; reflexivity].
    - set (ret' := taus_update tau v cond an (taus_update tau v cond ch ret)).
      destruct (IH ret' j) as (I1 & I2 & I3). destruct (taus_update_cases v cond ch ret j) as (A1 & A2 & A3).
      destruct (taus_update_cases v cond an (taus_update tau v cond ch ret) j) as (B1 & _ & B3). fold ret' in B1, B3.
      split; [eapply Qcle_trans; [exact I1|]; eapply Qcle_trans; eassumption|]. split.
      + intros Hj s [<-|Hs]; [cbn [fst]; eapply Qcle_trans; [exact I1|]; eapply Qcle_trans; [exact B1|]; apply A2; exact Hj|apply I2; assumption].
      + destruct I3 as [->|(s & Hs & Es)]; [|right; exists s; split; [right; exact Hs|exact Es]].
        destruct B3 as [->| ->]; [|right; exists (cond, an); split; [left; reflexivity|reflexivity]].
        destruct A3 as [->| ->]; [left; reflexivity|right; exists (cond, an); split; [left; reflexivity|reflexivity]].
  Qed.
End Stats.

Section Repaired.
  Variables (N n Kd : nat) (B : mat Qc) (e x : nat -> sample) (pinv : (nat -> sample) -> list nat -> nat -> nat -> Qc).
  Hypothesis M : exact_sample N n B e x.
  Hypothesis HK : 1 <= Kd.
  Hypothesis F : faithful N n Kd B x.
  Hypothesis NE : normal_equations N pinv.
  Variables (enum : list nat -> list nat) (J : nat) (alpha : Qc).
  Hypothesis enum_perm : forall l, Permutation (enum l) l.
  Hypothesis HJ : in_degree_at_most n J B.
  Notation t0 := (data_tau0 N Kd x).
  Notation t1 := (data_tau_repaired N pinv Kd x).

  Definition closed (theta : list nat) : Prop := forall l1 v l2, theta = l1 ++ v :: l2 -> forall p, edge_of n B p v -> In p l1.
  Lemma closed_anc : forall theta v q, closed theta -> In q theta -> ancestor n B v q -> In v theta.
  Proof.
    intros theta v q C Hq A. apply clos_trans_t1n in A. revert Hq. induction A as [v q E|v w q E A IH]; intro Hq.
    - apply in_split in Hq. destruct Hq as (l1 & l2 & ->). apply in_app_iff. left. exact (C l1 q l2 eq_refl v E).
    - specialize (IH Hq). apply in_split in IH. destruct IH as (l1 & l2 & ->). apply in_app_iff. left. exact (C l1 w l2 eq_refl v E).
  Qed.
  Definition parents (v : nat) : list nat := filter (fun j => negb (Qc_eq_bool (B v j) 0)) (seq 0 n).
  Lemma parents_In : forall v p, v < n -> (In p (parents v) <-> edge_of n B p v).
  Proof.
    intros v p Hv. unfold parents. rewrite filter_In, in_seq, negb_true_iff. split.
    - intros [H1 H2]. split; [exact Hv|]. split; [lia|]. intro Z. rewrite Z in H2. discriminate H2.
    - intros (_ & Hp & NZ). split; [lia|]. destruct (Qc_eq_bool (B v p) 0) eqn:Q; [|reflexivity]. apply Qc_eq_bool_correct in Q. contradiction.
  Qed.

  (** What holds before a round. *)
  Record inv (theta psi : list nat) (T : mat Qc) : Prop := {
    inv_order : is_order n (theta ++ psi);
    inv_sorted : StronglySorted lt psi;
    inv_closed : closed theta;
    inv_nonneg : forall i j, In i psi -> (0 <= T i j)%Qc;
    inv_pos : forall v p, In v psi -> edge_of n B p v -> (0 < T v p)%Qc;
    inv_zero : forall t l, theta = t ++ [l] -> forall v, In v psi -> (forall p, edge_of n B p v -> In p t) -> forall j, In j psi -> T v j = 0%Qc }.

  Lemma repaired_round : forall theta psi T, inv theta psi T ->
    let T' := update_stats t0 t1 enum J false theta psi T 0 in
    (forall i j, In i psi -> (0 <= T' i j)%Qc) /\ (forall v p, In v psi -> edge_of n B p v -> (0 < T' v p)%Qc) /\
    (forall v, In v psi -> (forall p, edge_of n B p v -> In p theta) -> forall j, In j psi -> T' v j = 0%Qc).
  Proof.
    intros theta psi T I T'. destruct I as [IO IS IC IN IP IZ].
    assert (ND := is_order_NoDup _ _ IO). apply NoDup_app_iff' in ND. destruct ND as (NDt & NDp & DJ).
    assert (Ln : forall a, In a theta \/ In a psi -> a < n).
    { intros a Ha. apply in_or_app in Ha. apply (Permutation_in _ IO), in_seq in Ha. lia. }
    assert (EQ : forall i j, In i psi -> i <> j -> T' i j = qmin (T i j) (get_prune_stats t0 t1 enum J false i psi (last (map Some theta) None) (cond_set theta T 0 i) j)).
    { intros i j Hi Nij. unfold T', update_stats. rewrite (proj2 (Nat.eqb_neq i j) Nij), (proj2 (memb_In i psi) Hi). reflexivity. }
    assert (EQd : forall i, T' i i = 0%Qc) by (intro i; unfold T', update_stats; rewrite Nat.eqb_refl; reflexivity).
    (* the new statistics *)
    assert (GN : forall i j, In i psi -> (0 <= get_prune_stats t0 t1 enum J false i psi (last (map Some theta) None) (cond_set theta T 0 i) j)%Qc).
    { intros i j Hi. unfold get_prune_stats. destruct (last (map Some theta) None) as [r|].
      - destruct (calc_taus_cases t1 i (remove_nat i psi) (cond_sets enum J (cond_set theta T 0 i) r) (fun _ => qz 10000000000) j) as (_ & _ & [->|(s & _ & ->)]); [vm_compute; discriminate|].
        unfold data_tau_repaired. destruct (memb j (fst s)); [vm_compute; discriminate|]. apply tau_nonneg.
      - destruct (memb j (remove_nat i psi)); [apply tau0_nonneg|vm_compute; discriminate]. }
    assert (CS : forall i r s, In i psi -> last (map Some theta) None = Some r -> In s (cond_sets enum J (cond_set theta T 0 i) r) ->
       NoDup (fst s) /\ (forall q, In q (fst s) -> In q theta)).
    { intros i r s Hi Hr Hs. destruct (cond_set_last t0 t1 J theta T 0%Qc i r Hr NDt) as (C1 & C2 & C3 & C4).
      unfold cond_sets in Hs. apply in_map_iff in Hs. destruct Hs as (y & <- & Hy). cbn [fst].
      assert (NDe : NoDup (enum (remove_nat r (cond_set theta T 0 i)))).
      { eapply Permutation_NoDup; [apply Permutation_sym, enum_perm|]. apply remove_nat_NoDup. exact C1. }
      pose proof (combs_NoDup_elem _ _ _ NDe Hy) as NDy. apply combs_In in Hy. destruct Hy as [_ Hy].
      assert (Y : forall q, In q y -> In q (cond_set theta T 0 i) /\ q <> r).
      { intros q Hq. apply Hy in Hq. apply (Permutation_in _ (enum_perm _)) in Hq. apply remove_nat_In in Hq. exact Hq. }
      split; [constructor; [intro Q; apply Y in Q; tauto|exact NDy]|]. intros q [<-|Hq]; [apply C4; exact C2|apply C4; apply Y; exact Hq]. }
    assert (VAL : forall i C, In i psi -> (forall q, In q C -> In q theta) -> forall q, In q C -> q < n /\ q <> i /\ ~ ancestor n B i q).
    { intros i C Hi HC q Hq. apply HC in Hq. split; [apply Ln; left; exact Hq|]. split; [intro Z; subst q; exact (DJ i Hq Hi)|]. intro A. exact (DJ i (closed_anc theta i q IC Hq A) Hi). }
    split; [|split].
    - intros i j Hi. destruct (Nat.eq_dec i j) as [->|Nij]; [rewrite EQd; apply Qcle_refl|]. rewrite EQ by assumption. destruct (qmin_cases (T i j) (get_prune_stats t0 t1 enum J false i psi (last (map Some theta) None) (cond_set theta T 0 i) j)) as [->| ->]; [apply IN; exact Hi|apply GN; exact Hi].
    - intros v p Hv E. pose proof (edge_irrefl N n B e x M p v E) as Npv. rewrite EQ by congruence.
      destruct (qmin_cases (T v p) (get_prune_stats t0 t1 enum J false v psi (last (map Some theta) None) (cond_set theta T 0 v) p)) as [->| ->]; [apply IP; assumption|].
      unfold get_prune_stats. destruct (last (map Some theta) None) as [r|] eqn:EL.
      + destruct (calc_taus_cases t1 v (remove_nat v psi) (cond_sets enum J (cond_set theta T 0 v) r) (fun _ => qz 10000000000) p) as (_ & _ & [->|(s & Hs & ->)]); [reflexivity|].
        unfold data_tau_repaired. destruct (memb p (fst s)) eqn:Mp; [reflexivity|]. apply memb_notIn in Mp. destruct (CS v r s Hv eq_refl Hs) as [ND1 In1].
        apply (tau_pos N n Kd B x pinv F NE v (fst s) p E ND1 Mp). apply (VAL v (fst s) Hv In1).
      + destruct (memb p (remove_nat v psi)); [apply (tau0_pos N n Kd B x F); exact E|reflexivity].
    - intros v Hv HP j Hj. destruct (Nat.eq_dec v j) as [->|Nvj]; [apply EQd|]. rewrite EQ by assumption.
      assert (Hvn : v < n) by (apply Ln; right; exact Hv). assert (Hjn : j < n) by (apply Ln; right; exact Hj).
      assert (Ij : In j (remove_nat v psi)) by (apply remove_nat_In; split; [exact Hj|congruence]).
      destruct (last (map Some theta) None) as [r|] eqn:EL.
      + assert (EX : exists t, theta = t ++ [r]).
        { destruct theta as [|a0 th]; [discriminate|]. destruct (exists_last (l := a0 :: th)) as (t & l & Et); [discriminate|]. rewrite Et in EL. rewrite last_snoc in EL. injection EL as ->. exists t. exact Et. }
        destruct EX as (t & Et).
        destruct (in_dec Nat.eq_dec r (parents v)) as [Ir|Nr].
        * (* the last placed variable is a parent *)
          apply (parents_In v r Hvn) in Ir.
          destruct (cond_set_last t0 t1 J theta T 0%Qc v r EL NDt) as (C1 & C2 & C3 & C4). set (cs := cond_set theta T 0 v) in *.
          assert (PC : forall p, edge_of n B p v -> In p cs).
          { intros p E. unfold cs. assert (Q : In p (cond_set (t ++ [r]) T 0 v)) by (apply (proj2 (cond_set_In t0 t1 J t r T 0%Qc v p)); rewrite <- Et; split; [apply HP; exact E|left; apply IP; assumption]). rewrite <- Et in Q. exact Q. }
          assert (LP : length (parents v) <= J) by (apply HJ; exact Hvn).
          assert (NDP : NoDup (parents v)) by (apply NoDup_filter, seq_NoDup).
          assert (IPr : In r (parents v)) by (apply parents_In; assumption).
          pose proof (remove_nat_length r (parents v) NDP IPr) as L1.
          assert (L2 : length (parents v) <= length cs) by (apply NoDup_incl_length; [exact NDP|]; intros p Hp; apply PC, parents_In; assumption).
          pose proof (remove_nat_length r cs C1 C2) as L3. pose proof (Permutation_length (enum_perm (remove_nat r cs))) as L4.
          destruct (combs_cover (enum (remove_nat r cs)) (Nat.min J (length cs) - 1) (remove_nat r (parents v))) as (y & Hy & Iy).
          { eapply Permutation_NoDup; [apply Permutation_sym, enum_perm|]. apply remove_nat_NoDup. exact C1. }
          { apply remove_nat_NoDup. exact NDP. }
          { intros p Hp. apply remove_nat_In in Hp. destruct Hp as [Hp N0]. eapply Permutation_in; [apply Permutation_sym, enum_perm|]. apply remove_nat_In. split; [|exact N0]. apply PC, parents_In; assumption. }
          { lia. }
          { lia. }
          set (s := (r :: y, enum (filter (fun a => negb (memb a y)) cs))).
          assert (Hs : In s (cond_sets enum J cs r)) by (unfold cond_sets; apply in_map_iff; exists y; split; [reflexivity|exact Hy]).
          destruct (CS v r s Hv eq_refl Hs) as [NDs Ins]. cbn [get_prune_stats].
          destruct (calc_taus_cases t1 v (remove_nat v psi) (cond_sets enum J cs r) (fun _ => qz 10000000000) j) as (_ & LB & _). specialize (LB Ij s Hs).
          assert (Z : t1 v (fst s) j = 0%Qc).
          { unfold data_tau_repaired. rewrite (proj2 (memb_notIn j (fst s))) by (intro Q; apply Ins in Q; exact (DJ j Q Hj)).
            apply (tau_zero N n Kd B e x pinv M HK NE); try assumption; [|apply (VAL v (fst s) Hv Ins)].
            intros p E. cbn [fst s]. destruct (Nat.eq_dec p r) as [->|N0]; [left; reflexivity|right]. apply Iy, remove_nat_In. split; [apply parents_In; assumption|congruence]. }
          rewrite Z in LB. specialize (GN v j Hv). cbn [get_prune_stats] in GN. fold cs in GN.
          set (g := calc_taus t1 false v (remove_nat v psi) (cond_sets enum J cs r) (fun _ => qz 10000000000) j) in *.
          assert (G0 : g = 0%Qc) by (apply Qcle_antisym; assumption). rewrite G0. apply (qmin_iff (T v j) 0). apply IN. exact Hv.
        * (* all parents were placed before *)
          assert (Z : T v j = 0%Qc).
          { apply (IZ t r Et v Hv); [|exact Hj]. intros p E. specialize (HP p E). rewrite Et in HP. apply in_app_iff in HP. destruct HP as [HP|[<-|[]]]; [exact HP|]. exfalso. apply Nr, parents_In; assumption. }
          rewrite Z. specialize (GN v j Hv). apply (qmin_iff 0). exact GN.
      + assert (theta = []) as ET.
        { destruct theta as [|a0 th]; [reflexivity|]. destruct (last_some (a0 :: th)) as (r & E & _); [discriminate|]. congruence. }
        cbn [get_prune_stats]. rewrite (proj2 (memb_In j _) Ij). rewrite (tau0_zero N n Kd B e x M HK v j Hvn Hjn) by (intros p E; specialize (HP p E); rewrite ET in HP; destruct HP).
        apply (qmin_iff (T v j) 0). apply IN. exact Hv.
  Qed.

  Lemma repaired_loop : forall fuel theta psi T K, inv theta psi T -> hd_loop t0 t1 enum J alpha false fuel theta psi T 0%Qc = Ok K -> is_order n K /\ closed K.
  Proof.
    induction fuel as [|fuel IH]; intros theta psi T K I; cbn [hd_loop].
    { destruct (Nat.leb_spec (length psi) 1) as [L|L]; [|discriminate]. intros [= <-]. pose proof I as [IO IS IC IN IP IZ]. split; [exact IO|].
      destruct psi as [|a [|b psi]]; [rewrite app_nil_r; exact IC| |cbn in L; lia].
      assert (ND := is_order_NoDup _ _ IO). intros l1 v l2 E p Ed. destruct l2 as [|z l2] using rev_ind.
      - apply app_inj_tail in E. destruct E as [<- <-]. pose proof (edge_irrefl N n B e x M p a Ed) as Npa. destruct Ed as (_ & Hp & _).
        assert (Ip : In p (theta ++ [a])) by (apply (Permutation_in _ (Permutation_sym IO)), in_seq; lia). apply in_app_iff in Ip. destruct Ip as [Ip|[<-|[]]]; [exact Ip|congruence].
      - rewrite app_comm_cons, app_assoc in E. apply app_inj_tail in E. destruct E as [E _]. exact (IC l1 v l2 E p Ed). }
    destruct (Nat.leb_spec (length psi) 1) as [L|L].
    { intros [= <-]. pose proof I as [IO IS IC IN IP IZ]. split; [exact IO|].
      destruct psi as [|a [|b psi]]; [rewrite app_nil_r; exact IC| |cbn in L; lia].
      intros l1 v l2 E p Ed. destruct l2 as [|z l2] using rev_ind.
      - apply app_inj_tail in E. destruct E as [<- <-]. pose proof (edge_irrefl N n B e x M p a Ed) as Npa. destruct Ed as (_ & Hp & _).
        assert (Ip : In p (theta ++ [a])) by (apply (Permutation_in _ (Permutation_sym IO)), in_seq; lia). apply in_app_iff in Ip. destruct Ip as [Ip|[<-|[]]]; [exact Ip|congruence].
      - rewrite app_comm_cons, app_assoc in E. apply app_inj_tail in E. destruct E as [E _]. exact (IC l1 v l2 E p Ed). }
    set (T' := update_stats t0 t1 enum J false theta psi T 0). destruct (repaired_round theta psi T I) as (R1 & R2 & R3). fold T' in R1, R2, R3.
    destruct I as [IO IS IC IN IP IZ].
    assert (NP : psi <> []) by (intro Z; rewrite Z in L; cbn in L; lia).
    destruct (choice_round alpha psi T' 0%Qc NP IS) as (i & r & A1 & A2 & RC). rewrite A1, A2. set (c' := qmax 0 _) in *.
    assert (ND := is_order_NoDup _ _ IO). apply NoDup_app_iff' in ND. destruct ND as (NDt & NDp & DJ).
    destruct (exists_source n B (es_acyclic _ _ _ _ _ M) psi NP) as (s & Hs & HPs).
    { intros v Hv. assert (Iv : In v (theta ++ psi)) by (apply in_app_iff; right; exact Hv). apply (Permutation_in _ IO), in_seq in Iv. lia. }
    assert (PT : forall p v, edge_of n B p v -> ~ In p psi -> In p theta).
    { intros p v (_ & Hp & _) NI. assert (Ip : In p (theta ++ psi)) by (apply (Permutation_in _ (Permutation_sym IO)), in_seq; lia). apply in_app_iff in Ip. tauto. }
    destruct (choice_zero alpha psi T' c' r RC) as (C0 & Hr & Zr).
    { intros a b Ha _. apply R1. exact Ha. }
    { exists s. split; [exact Hs|]. apply (R3 s Hs). intros p E. apply (PT p s E). exact (HPs p E). }
    rewrite C0. intro E. apply (IH (theta ++ [r]) (remove_nat r psi) T' K); [|exact E].
    assert (PR : forall p, edge_of n B p r -> In p theta).
    { intros p Ed. apply (PT p r Ed). intro Hp. pose proof (R2 r p Hr Ed) as P. rewrite (Zr p Hp) in P. exact (Qclt_not_le _ _ P (Qcle_refl _)). }
    assert (SUB : forall v, In v (remove_nat r psi) -> In v psi) by (intros v Hv; apply remove_nat_In in Hv; tauto).
    constructor.
    - unfold is_order. rewrite <- IO, <- app_assoc. cbn [app]. apply Permutation_app_head. symmetry. apply remove_nat_perm; assumption.
    - apply filter_sorted. exact IS.
    - intros l1 v l2 Eq p Ed. destruct l2 as [|z l2] using rev_ind.
      + apply app_inj_tail in Eq. destruct Eq as [<- <-]. apply PR. exact Ed.
      + rewrite app_comm_cons, app_assoc in Eq. apply app_inj_tail in Eq. destruct Eq as [Eq _]. exact (IC l1 v l2 Eq p Ed).
    - intros a b Ha. apply R1, SUB, Ha.
    - intros v p Hv Ed. apply R2; [apply SUB, Hv|exact Ed].
    - intros t l Eq v Hv HP j Hj. apply app_inj_tail in Eq. destruct Eq as [<- _]. apply R3; [apply SUB, Hv|exact HP|apply SUB, Hj].
  Qed.

  Lemma repaired_topological : forall K, data_order_repaired N pinv Kd x enum J alpha n = Ok K -> is_order n K /\ topological (edge_of n B) K.
  Proof.
    intros K H. unfold data_order_repaired, hd_order in H. assert (I0 : inv [] (seq 0 n) (fun i j => if i =? j then 0%Qc else qz 100000)).
    { constructor.
      + apply Permutation_refl.
      + apply seq_sorted.
      + intros l1 v l2 E. destruct l1; discriminate.
      + intros i j _. destruct (i =? j); vm_compute; discriminate.
      + intros v p _ E. pose proof (edge_irrefl N n B e x M p v E) as Npv. destruct (Nat.eqb_spec v p); [congruence|reflexivity].
      + intros t l E. destruct t; discriminate. }
    destruct (repaired_loop n [] (seq 0 n) _ K I0 H) as [HO HC]. split; [exact HO|]. intros p v E. assert (Iv : In v K) by (apply (Permutation_in _ (Permutation_sym HO)), in_seq; destruct E as (Hv & _); lia).
      apply in_split in Iv. destruct Iv as (l1 & l2 & ->). pose proof (HC l1 v l2 eq_refl p E) as Ip. apply in_split in Ip. destruct Ip as (m1 & m2 & ->).
      exists m1, m2, l2. rewrite <- app_assoc. reflexivity.
  Qed.
End Repaired.
