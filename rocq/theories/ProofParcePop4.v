(** * BottomUpParceLiNGAM on model data: fit *)
From Coq Require Import List Arith Bool ZArith QArith Qcanon Lia Permutation Relations Sorted.
From Verif Require Import Prelude Spec Lib LibMat SpecPop SpecRCDPop SpecParce SpecParcePop ModelDirect ModelParce ModelParcePop ProofEffect ProofPop ProofPop2 ProofPop3 ProofParce ProofParce3 ProofParce4 ProofParcePop ProofParcePop2 ProofParcePop3.
Import ListNotations.
Open Scope nat_scope.

Section Fit.
  Variables (N m n : nat) (B : mat Qc) (e x : nat -> sample).
  Variable ols : (nat -> sample) -> list nat -> sample -> nat -> Qc.
  Variables (st pv fc : sample -> sample -> Qc) (m2log : Qc -> Qc) (sf : ext -> nat -> num) (thr ind_corr : Qc) (mode : indep) (lasso : list nat -> nat -> nat -> num).
  Hypothesis LM : linear_model N m B e x.
  Hypothesis NC : no_cancelling N m B e x.
  Hypothesis OLS : solves_least_squares N ols.
  Hypothesis nm : n <= m.
  Hypothesis n2 : 2 <= n.
  Hypothesis TF : mode = Fcorr -> ideal_fcorrelation N m e fc ind_corr.
  Hypothesis TH : mode = Hsic -> exists lo hi cut, ideal_hsic N m n e st pv m2log (fun s => sf (Fin s)) thr lo hi cut.
  Notation fit := (parce_data_fit N ols (fun y z => (Some (st y z), Some (pv y z))) (fun y z => Some (fc y z)) m2log sf thr ind_corr mode lasso x n).
  Let st' := fun t ps i => st (centred N x i) (parce_resid N ols x t ps).
  Let pv' := fun t ps i => pv (centred N x i) (parce_resid N ols x t ps).
  Let fc' := fun t ps i => fc (centred N x i) (parce_resid N ols x t ps).
  Let acc := accepts m2log sf thr ind_corr mode st' pv' fc'.
  Let stat := stat_of m2log mode st' pv' fc'.
  Notation all_ind := (all_indep (Ind N m e x ols)).

  Lemma fin_h : mode = Hsic -> forall t ps i, (Some (st' t ps i), Some (pv' t ps i)) = (Some (st' t ps i), Some (pv' t ps i)) /\ pv' t ps i <> 0%Qc /\ (0 <= m2log (pv' t ps i))%Qc.
  Proof. intros M t ps i. destruct (TH M) as (lo & hi & cut & P & _). split; [reflexivity|apply P]. Qed.
  Lemma fin_f : mode = Fcorr -> forall t ps i, Some (fc' t ps i) = Some (fc' t ps i).
  Proof. reflexivity. Qed.
  Lemma combs : forall U j i, (forall k, In k U -> k < n) -> In j U -> In i (without j U) ->
    combination N m e (centred N x i) /\ combination N m e (parce_resid N ols x j (without j U)).
  Proof.
    intros U j i HU Hj Hi. split.
    - apply (xc_comb N m B e x LM). apply without_In in Hi. specialize (HU i (proj1 Hi)). lia.
    - apply (R_comb N m B e x ols LM); [specialize (HU j Hj); lia|]. intros p Ip. apply without_In in Ip. specialize (HU p (proj1 Ip)). lia.
  Qed.
  Lemma Ind_dec : forall t ps i, {Ind N m e x ols t ps i} + {~ Ind N m e x ols t ps i}.
  Proof. intros. apply share_dec. Qed.
  Lemma acc_iff : forall U j, set_ok n U -> In j U -> (forall k, In k U -> k < n) -> (acc U j <-> all_ind U j).
  Proof.
    intros U j OK Hj HU. unfold acc, accepts. assert (MC : mode = Hsic \/ mode = Fcorr) by (destruct mode; auto); destruct MC as [M|M]; rewrite M.
    - destruct (TH M) as (lo & hi & cut & P1 & P2 & P3 & P4 & P5 & P6 & P7).
      apply (hsic_test (Ind N m e x ols) Ind_dec n (fun k => k < n) st' pv' m2log (fun s => sf (Fin s)) thr lo hi cut); try assumption.
      + intros. apply P1.
      + intros U' j' i' OK' Hj' HU' Hi' I'. destruct (combs U' j' i' HU' Hj' Hi') as [C1 C2]. exact (P2 _ _ C1 C2 I').
      + intros U' j' i' OK' Hj' HU' Hi' I'. destruct (combs U' j' i' HU' Hj' Hi') as [C1 C2]. exact (P3 _ _ C1 C2 I').
    - destruct (TF M) as [P1 P2]. apply (fcorr_test (Ind N m e x ols) n (fun k => k < n) fc' ind_corr P1); try assumption.
      intros U' j' i' OK' Hj' HU' Hi'. destruct (combs U' j' i' HU' Hj' Hi') as [C1 C2]. exact (P2 _ _ C1 C2).
  Qed.
  Lemma stat_lt : forall U j i, set_ok n U -> In j U -> In i U -> (forall k, In k U -> k < n) -> all_ind U j -> ~ all_ind U i -> (stat U j < stat U i)%Qc.
  Proof.
    intros U j i OK Hj Hi HU AJ AI. unfold stat, stat_of. assert (MC : mode = Hsic \/ mode = Fcorr) by (destruct mode; auto); destruct MC as [M|M]; rewrite M.
    - destruct (TH M) as (lo & hi & cut & P1 & P2 & P3 & P4 & P5 & P6 & P7).
      apply (hsic_stat_lt (Ind N m e x ols) Ind_dec n (fun k => k < n) st' pv' m2log thr lo hi cut); try assumption.
      + intros. apply P1.
      + intros U' j' i' OK' Hj' HU' Hi' I'. destruct (combs U' j' i' HU' Hj' Hi') as [C1 C2]. exact (P2 _ _ C1 C2 I').
      + intros U' j' i' OK' Hj' HU' Hi' I'. destruct (combs U' j' i' HU' Hj' Hi') as [C1 C2]. exact (P3 _ _ C1 C2 I').
    - pose proof (acc_iff U j OK Hj HU) as A1. pose proof (acc_iff U i OK Hi HU) as A2. unfold acc, accepts in A1, A2. rewrite M in A1, A2.
      eapply Qclt_le_trans; [apply A1; exact AJ|]. apply Qcnot_lt_le. intro Q. apply AI, A2. exact Q.
  Qed.
  Lemma fit_returns : exists order M, fit = Ok (order, M).
  Proof.
    destruct (parce_succeeds (fun t ps i => (Some (st' t ps i), Some (pv' t ps i))) (fun t ps i => Some (fc' t ps i)) m2log sf thr ind_corr mode lasso n None n2) as [[order M] E].
    - unfold finite_stats. destruct mode eqn:EM; [|intros; eexists; reflexivity]. intros t ps i. exists (st' t ps i), (pv' t ps i). split; [reflexivity|]. destruct (TH eq_refl) as (lo & hi & cut & P & _). apply P.
    - discriminate.
    - exists order, M. exact E.
  Qed.
  Lemma data_sound : forall order M, fit = Ok (order, M) ->
    (forall a b, a < n -> b < n -> ancestor m B a b -> precedes (flatten order) a b \/ exists block, In (Block block) order /\ In a block /\ In b block).
  Proof.
    intros order M E a b Ha Hb A.
    apply (fit_sound _ _ m2log sf thr ind_corr mode lasso st' pv' fc' fin_h fin_f n (observed m n B) order M n2 (observed_acyclic N m n B e x LM) E).
    - apply (rejects N m n B e x ols LM NC nm). exact acc_iff.
    - exact Ha.
    - exact Hb.
    - split; [exact Ha|split; [exact Hb|exact A]].
  Qed.
  (** The order consists of at most one block, at the front, and single variables. *)
  Lemma data_shape : forall order M, fit = Ok (order, M) -> exists rest K, order = block_items rest ++ map Single K /\ is_order n (rest ++ K) /\
    M = parce_adjacency lasso None (block_items rest ++ map Single K) /\
    (rest = [] \/ (2 <= length rest /\ forall j, In j rest -> ~ all_ind rest j)) /\
    (forall a b, observed m n B a b -> precedes (rest ++ K) a b \/ (In a rest /\ In b rest)).
  Proof.
    intros order M E.
    destruct (fit_exact _ _ m2log sf thr ind_corr mode lasso st' pv' fc' fin_h fin_f n None order M n2 ltac:(discriminate) E) as (K & BU & OR & EO & EM).
    exists (setdiff (seq 0 n) K), K. split; [exact EO|]. split; [exact OR|]. split; [exact EM|]. split.
    - apply (block_rejected N m n e x ols stat acc acc_iff stat_lt (seq 0 n) K BU (sorted_seq n 0)); [rewrite seq_length; exact n2|]. intros k Hk. apply in_seq in Hk. lia.
    - intros a b (Ha & Hb & A). pose proof (data_sound order M E a b Ha Hb A) as S. set (rest := setdiff (seq 0 n) K) in *.
      destruct S as [S|(bl & I & I1 & I2)].
      + left. rewrite EO, flatten_app, flatten_singles in S. destruct rest; [exact S|]. cbn [block_items flatten flat_map] in S. rewrite app_nil_r in S. exact S.
      + right. rewrite EO in I. apply in_app_iff in I. destruct I as [I|I]; [|apply in_map_iff in I; destruct I as (? & Q & _); discriminate].
        destruct rest as [|r0 rest]; [contradiction|]. cbn [block_items] in I. destruct I as [I|[]]. injection I as <-. auto.
  Qed.
  (** Rows of ordered variables. *)
  Lemma data_rows : forall order M, exact_regression N n x lasso -> fit = Ok (order, M) ->
    forall i j, In (Single i) order -> j < n -> (forall q, edge_of m B q i -> q < n) -> M i j = Some (B i j).
  Proof.
    intros order M RG E i j Hi Hj HP. destruct (data_shape order M E) as (rest & K & EO & OR & -> & _ & SND).
    apply (row_exact N m n B e x LM nm lasso RG rest K OR SND i j); [|exact Hj|exact HP].
    rewrite EO in Hi. apply in_app_iff in Hi. destruct Hi as [Hi|Hi]; [destruct rest; [contradiction|destruct Hi as [Hi|[]]; discriminate]|].
    apply in_map_iff in Hi. destruct Hi as (v & Q & Hv). injection Q as <-. exact Hv.
  Qed.
  (** A variable of the block without effects in the block has a hidden direct cause. *)
  Lemma data_block : forall order M, fit = Ok (order, M) -> forall block i, In (Block block) order -> In i block ->
    (forall k, In k block -> ~ ancestor m B i k) -> exists q, n <= q /\ edge_of m B q i.
  Proof.
    intros order M E block i HB Hi NE. destruct (data_shape order M E) as (rest & K & EO & OR & _ & RJ & SND).
    assert (ER : rest = block).
    { rewrite EO in HB. apply in_app_iff in HB. destruct HB as [I|I]; [|apply in_map_iff in I; destruct I as (? & Q & _); discriminate].
      destruct rest; [contradiction|]. destruct I as [I|[]]. injection I as <-. reflexivity. }
    subst rest. destruct RJ as [->|[_ RJ]]; [contradiction|].
    pose proof (is_order_NoDup _ _ OR) as ND. pose proof ND as ND'. apply NoDup_app_iff' in ND'. destruct ND' as (NDb & _ & DJ).
    assert (HL : forall k, In k block -> k < n) by (intros k Hk; apply (is_order_In _ _ OR), in_or_app; left; exact Hk).
    assert (D : (exists q, n <= q /\ edge_of m B q i) \/ forall q, edge_of m B q i -> q < n).
    { destruct (existsb (fun q => (n <=? q) && negb (qeqb (B i q) 0)) (seq 0 m)) eqn:Q.
      - left. apply existsb_exists in Q. destruct Q as (q & Iq & Q). apply andb_true_iff in Q. destruct Q as [Q1 Q2]. apply Nat.leb_le in Q1. apply in_seq in Iq. exists q. split; [exact Q1|].
        split; [specialize (HL i Hi); lia|]. split; [lia|]. intro Z. apply qeqb_eq in Z. rewrite Z in Q2. discriminate.
      - right. intros q (Q1 & Q2 & Q3). destruct (le_lt_dec n q) as [L|L]; [|exact L]. exfalso.
        assert (T : existsb (fun q => (n <=? q) && negb (qeqb (B i q) 0)) (seq 0 m) = true); [|congruence].
        apply existsb_exists. exists q. split; [apply in_seq; lia|]. apply andb_true_iff. split; [apply Nat.leb_le; exact L|]. destruct (qeqb (B i q) 0) eqn:Z; [apply qeqb_eq in Z; contradiction|reflexivity]. }
    destruct D as [D|D]; [exact D|exfalso]. apply (RJ i Hi). apply (last_all_ind N m B e x ols LM OLS block i NDb); [intros k Hk; specialize (HL k Hk); lia|exact Hi|exact NE|].
    intros q Eq. destruct (SND q i) as [P|[P _]]; [split; [apply D; exact Eq|split; [apply HL; exact Hi|apply t_step; exact Eq]]| |exact P].
    destruct (precedes_app_inv _ _ _ _ P) as [Q|[[Q1 Q2]|Q]]; [apply (precedes_In _ _ _ Q)|contradiction (DJ i Hi Q2)|contradiction (DJ i Hi (proj2 (precedes_In _ _ _ Q)))].
  Qed.
End Fit.
