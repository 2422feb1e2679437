(** * BottomUpParceLiNGAM on data that follow a linear acyclic model (C144, C145)

    The model has [m] variables, the first [n] of which are observed. *)
From Coq Require Import List Arith Bool ZArith QArith Qcanon Lia.
From Verif Require Import Prelude Spec Lib SpecPop SpecRCDPop SpecParcePop ModelParce ModelParcePop ProofParce ProofParce4 ProofPop3 ProofEffect ProofParcePop3 ProofParcePop4 OlsGS Props_RCDPop.
Import ListNotations.
Open Scope nat_scope.

(** ** C144: hidden variables *)
(** fit returns, and an observed variable is never placed after one of its effects: it precedes the effect or both
    belong to the unordered block.  This holds whatever coefficients the regression returns. *)
Lemma not_h : forall P : Prop, Fcorr = Hsic -> P.
Proof. discriminate. Qed.
Lemma not_f : forall P : Prop, Hsic = Fcorr -> P.
Proof. discriminate. Qed.
Theorem C144_fcorr_positions_sound_with_hidden :
  forall N m n B e x ols st pv fc m2log sf thr ind_corr lasso, 2 <= n -> n <= m ->
  linear_model N m B e x -> no_cancelling N m B e x -> ideal_fcorrelation N m e fc ind_corr ->
  exists order M, parce_data_fit N ols (fun y z => (Some (st y z), Some (pv y z))) (fun y z => Some (fc y z)) m2log sf thr ind_corr Fcorr lasso x n = Ok (order, M) /\
    forall a b, a < n -> b < n -> ancestor m B a b ->
      precedes (flatten order) a b \/ exists block, In (Block block) order /\ In a block /\ In b block.
Proof.
  intros N m n B e x ols st pv fc m2log sf thr ind_corr lasso n2 nm LM NC TF.
  destruct (fit_returns N m n e x ols st pv fc m2log sf thr ind_corr Fcorr lasso n2 (fun _ => TF) (not_h _)) as (order & M & E).
  exists order, M. split; [exact E|].
  exact (data_sound N m n B e x ols st pv fc m2log sf thr ind_corr Fcorr lasso LM NC nm n2 (fun _ => TF) (not_h _) order M E).
Qed.
Print Assumptions C144_fcorr_positions_sound_with_hidden.
Theorem C144_hsic_positions_sound_with_hidden :
  forall N m n B e x ols st pv fcorr m2log sf thr ind_corr lasso lo hi cut, 2 <= n -> n <= m ->
  linear_model N m B e x -> no_cancelling N m B e x ->
  ideal_hsic N m n e st pv m2log (fun s => sf (Fin s)) thr lo hi cut ->
  exists order M, parce_data_fit N ols (fun y z => (Some (st y z), Some (pv y z))) (fun y z => Some (fcorr y z)) m2log sf thr ind_corr Hsic lasso x n = Ok (order, M) /\
    forall a b, a < n -> b < n -> ancestor m B a b ->
      precedes (flatten order) a b \/ exists block, In (Block block) order /\ In a block /\ In b block.
Proof.
  intros N m n B e x ols st pv fcorr m2log sf thr ind_corr lasso lo hi cut n2 nm LM NC TH.
  assert (TH' : Hsic = Hsic -> exists lo hi cut, ideal_hsic N m n e st pv m2log (fun s => sf (Fin s)) thr lo hi cut) by (intros _; exists lo, hi, cut; exact TH).
  destruct (fit_returns N m n e x ols st pv fcorr m2log sf thr ind_corr Hsic lasso n2 (not_f _) TH') as (order & M & E).
  exists order, M. split; [exact E|].
  exact (data_sound N m n B e x ols st pv fcorr m2log sf thr ind_corr Hsic lasso LM NC nm n2 (not_f _) TH' order M E).
Qed.
Print Assumptions C144_hsic_positions_sound_with_hidden.
(** The coefficients of an ordered variable all of whose direct causes are observed are the true ones. *)
Theorem C144_fcorr_rows_exact_with_hidden :
  forall N m n B e x ols st pv fc m2log sf thr ind_corr lasso order M, 2 <= n -> n <= m ->
  linear_model N m B e x -> no_cancelling N m B e x -> ideal_fcorrelation N m e fc ind_corr -> exact_regression N n x lasso ->
  parce_data_fit N ols (fun y z => (Some (st y z), Some (pv y z))) (fun y z => Some (fc y z)) m2log sf thr ind_corr Fcorr lasso x n = Ok (order, M) ->
  forall i j, In (Single i) order -> j < n -> (forall q, edge_of m B q i -> q < n) -> M i j = Some (B i j).
Proof.
  intros N m n B e x ols st pv fc m2log sf thr ind_corr lasso order M n2 nm LM NC TF RG E.
  exact (data_rows N m n B e x ols st pv fc m2log sf thr ind_corr Fcorr lasso LM NC nm n2 (fun _ => TF) (not_h _) order M RG E).
Qed.
Print Assumptions C144_fcorr_rows_exact_with_hidden.
Theorem C144_hsic_rows_exact_with_hidden :
  forall N m n B e x ols st pv fcorr m2log sf thr ind_corr lasso lo hi cut order M, 2 <= n -> n <= m ->
  linear_model N m B e x -> no_cancelling N m B e x ->
  ideal_hsic N m n e st pv m2log (fun s => sf (Fin s)) thr lo hi cut -> exact_regression N n x lasso ->
  parce_data_fit N ols (fun y z => (Some (st y z), Some (pv y z))) (fun y z => Some (fcorr y z)) m2log sf thr ind_corr Hsic lasso x n = Ok (order, M) ->
  forall i j, In (Single i) order -> j < n -> (forall q, edge_of m B q i -> q < n) -> M i j = Some (B i j).
Proof.
  intros N m n B e x ols st pv fcorr m2log sf thr ind_corr lasso lo hi cut order M n2 nm LM NC TH RG E.
  refine (data_rows N m n B e x ols st pv fcorr m2log sf thr ind_corr Hsic lasso LM NC nm n2 (not_f _) _ order M RG E).
  intros _. exists lo, hi, cut. exact TH.
Qed.
Print Assumptions C144_hsic_rows_exact_with_hidden.
(** The search gives up for a reason: every last variable of the block (one without effects in the block) has a
    hidden direct cause. *)
Theorem C144_fcorr_block_is_confounded :
  forall N m n B e x ols st pv fc m2log sf thr ind_corr lasso order M, 2 <= n -> n <= m ->
  linear_model N m B e x -> no_cancelling N m B e x -> solves_least_squares N ols -> ideal_fcorrelation N m e fc ind_corr ->
  parce_data_fit N ols (fun y z => (Some (st y z), Some (pv y z))) (fun y z => Some (fc y z)) m2log sf thr ind_corr Fcorr lasso x n = Ok (order, M) ->
  forall block i, In (Block block) order -> In i block -> (forall k, In k block -> ~ ancestor m B i k) ->
  exists q, n <= q /\ edge_of m B q i.
Proof.
  intros N m n B e x ols st pv fc m2log sf thr ind_corr lasso order M n2 nm LM NC OLS TF E.
  exact (data_block N m n B e x ols st pv fc m2log sf thr ind_corr Fcorr lasso LM NC OLS nm n2 (fun _ => TF) (not_h _) order M E).
Qed.
Print Assumptions C144_fcorr_block_is_confounded.
Theorem C144_hsic_block_is_confounded :
  forall N m n B e x ols st pv fcorr m2log sf thr ind_corr lasso lo hi cut order M, 2 <= n -> n <= m ->
  linear_model N m B e x -> no_cancelling N m B e x -> solves_least_squares N ols ->
  ideal_hsic N m n e st pv m2log (fun s => sf (Fin s)) thr lo hi cut ->
  parce_data_fit N ols (fun y z => (Some (st y z), Some (pv y z))) (fun y z => Some (fcorr y z)) m2log sf thr ind_corr Hsic lasso x n = Ok (order, M) ->
  forall block i, In (Block block) order -> In i block -> (forall k, In k block -> ~ ancestor m B i k) ->
  exists q, n <= q /\ edge_of m B q i.
Proof.
  intros N m n B e x ols st pv fcorr m2log sf thr ind_corr lasso lo hi cut order M n2 nm LM NC OLS TH E.
  refine (data_block N m n B e x ols st pv fcorr m2log sf thr ind_corr Hsic lasso LM NC OLS nm n2 (not_f _) _ order M E).
  intros _. exists lo, hi, cut. exact TH.
Qed.
Print Assumptions C144_hsic_block_is_confounded.

(** ** C145: no hidden variables: the order is complete and causal, and the adjacency matrix is the true one *)
Lemma complete_order : forall N n B e x ols st pv fc m2log sf thr ind_corr mode lasso, 2 <= n ->
  linear_model N n B e x -> no_cancelling N n B e x -> solves_least_squares N ols -> exact_regression N n x lasso ->
  (mode = Fcorr -> ideal_fcorrelation N n e fc ind_corr) ->
  (mode = Hsic -> exists lo hi cut, ideal_hsic N n n e st pv m2log (fun s => sf (Fin s)) thr lo hi cut) ->
  exists K M, parce_data_fit N ols (fun y z => (Some (st y z), Some (pv y z))) (fun y z => Some (fc y z)) m2log sf thr ind_corr mode lasso x n = Ok (map Single K, M) /\
    is_order n K /\ topological (edge_of n B) K /\ forall i j, i < n -> j < n -> M i j = Some (B i j).
Proof.
  intros N n B e x ols st pv fc m2log sf thr ind_corr mode lasso n2 LM NC OLS RG TF TH.
  destruct (fit_returns N n n e x ols st pv fc m2log sf thr ind_corr mode lasso n2 TF TH) as (order & M & E).
  destruct (data_shape N n n B e x ols st pv fc m2log sf thr ind_corr mode lasso LM NC (le_n n) n2 TF TH order M E) as (rest & K & EO & OR & EM & _ & SND).
  assert (ER : rest = []).
  { destruct rest as [|r0 rest]; [reflexivity|exfalso].
    assert (HB : In (Block (r0 :: rest)) order) by (rewrite EO; left; reflexivity).
    assert (HL : forall k, In k (r0 :: rest) -> k < n) by (intros k Hk; apply (is_order_In _ _ OR), in_or_app; left; exact Hk).
    destruct (topo_exists (edge_of n B) n (edge_of_dec n B) (lm_acyclic _ _ _ _ _ LM)) as (l & OL & TL).
    assert (NDl : NoDup l) by (exact (is_order_NoDup _ _ OL)).
    destruct (exists_first (rev l) (r0 :: rest)) as (v & Iv & Mv); [apply NoDup_rev; exact NDl|intros k Hk; apply in_rev; rewrite rev_involutive; apply (is_order_In _ _ OL), HL, Hk|discriminate|].
    destruct (data_block N n n B e x ols st pv fc m2log sf thr ind_corr mode lasso LM NC OLS (le_n n) n2 TF TH order M E (r0 :: rest) v HB Iv) as (q & Lq & Eq); [|destruct Eq as (_ & L & _); lia].
    intros k Ik A. apply (Mv k Ik). apply precedes_rev.
    clear - A TL NDl. induction A as [a c Q|a c d _ IH1 _ IH2]; [apply TL; [apply Q|apply Q|exact Q]|exact (precedes_trans l _ _ _ NDl IH1 IH2)]. }
  subst rest. cbn [block_items app] in *. exists K, M. split; [rewrite <- EO; exact E|]. split; [exact OR|]. split.
  - intros a b Eab. pose proof Eab as (Hb & Ha & _). destruct (SND a b) as [P|[[] _]]; [|exact P]. split; [exact Ha|split; [exact Hb|apply Relation_Operators.t_step; exact Eab]].
  - intros i j Hi Hj. apply (data_rows N n n B e x ols st pv fc m2log sf thr ind_corr mode lasso LM NC (le_n n) n2 TF TH order M RG E i j); [|exact Hj|intros q Eq; apply Eq].
    rewrite EO. apply in_map. apply (is_order_In _ _ OR). exact Hi.
Qed.
Theorem C145_fcorr_recovers_model :
  forall N n B e x ols st pv fc m2log sf thr ind_corr lasso, 2 <= n ->
  linear_model N n B e x -> no_cancelling N n B e x -> solves_least_squares N ols -> exact_regression N n x lasso -> ideal_fcorrelation N n e fc ind_corr ->
  exists K M, parce_data_fit N ols (fun y z => (Some (st y z), Some (pv y z))) (fun y z => Some (fc y z)) m2log sf thr ind_corr Fcorr lasso x n = Ok (map Single K, M) /\
    is_order n K /\ topological (edge_of n B) K /\ forall i j, i < n -> j < n -> M i j = Some (B i j).
Proof. intros N n B e x ols st pv fc m2log sf thr ind_corr lasso n2 LM NC OLS RG TF. apply (complete_order N n B e x); try assumption; [auto|discriminate]. Qed.
Print Assumptions C145_fcorr_recovers_model.
Theorem C145_hsic_recovers_model :
  forall N n B e x ols st pv fcorr m2log sf thr ind_corr lasso lo hi cut, 2 <= n ->
  linear_model N n B e x -> no_cancelling N n B e x -> solves_least_squares N ols -> exact_regression N n x lasso ->
  ideal_hsic N n n e st pv m2log (fun s => sf (Fin s)) thr lo hi cut ->
  exists K M, parce_data_fit N ols (fun y z => (Some (st y z), Some (pv y z))) (fun y z => Some (fcorr y z)) m2log sf thr ind_corr Hsic lasso x n = Ok (map Single K, M) /\
    is_order n K /\ topological (edge_of n B) K /\ forall i j, i < n -> j < n -> M i j = Some (B i j).
Proof. intros N n B e x ols st pv fcorr m2log sf thr ind_corr lasso lo hi cut n2 LM NC OLS RG TH. apply (complete_order N n B e x); try assumption; [discriminate|]. intros _. exists lo, hi, cut. exact TH. Qed.
Print Assumptions C145_hsic_recovers_model.

(** ** Examples *)
Definition px_fc (m : nat) (y z : sample) : Qc := if ex_ind 8 m had y z then 0%Qc else 1%Qc.
Definition px_pv (m : nat) (y z : sample) : Qc := if ex_ind 8 m had y z then qf 1 2 else qf 1 100.
Definition px_log (p : Qc) : Qc := if qltb p (qf 1 4) then qn 10 else 1%Qc.
Definition px_sf (s : ext) (d : nat) : num := match s with Fin s => Some (if qltb s (qn 10) then qf 1 2 else qf 1 100) | _ => None end.
Lemma px_fc_ideal : forall m, ideal_fcorrelation 8 m had (px_fc m) (qf 1 2).
Proof.
  intro m. split; [reflexivity|]. intros y z Cy Cz. unfold px_fc. pose proof (ex_ind_ideal 8 m had y z Cy Cz) as I. unfold share_no_error. rewrite <- I.
  destruct (ex_ind 8 m had y z); split; try reflexivity; discriminate.
Qed.
Lemma px_hsic_ideal : forall m n, n <= 5 -> ideal_hsic 8 m n had (px_fc m) (px_pv m) px_log (fun s => px_sf (Fin s)) (qf 1 20) 1%Qc (qn 10) 1%Qc.
Proof.
  intros m n Hn. unfold ideal_hsic. split; [|split; [|split; [|split; [|split; [|split]]]]].
  - intros y z. unfold px_pv. destruct (ex_ind 8 m had y z); split; discriminate.
  - intros y z Cy Cz S. apply (ex_ind_ideal 8 m had y z Cy Cz) in S. unfold px_pv, px_fc. rewrite S. split; [discriminate|split; [discriminate|reflexivity]].
  - intros y z Cy Cz S. assert (Q : ex_ind 8 m had y z = false) by (destruct (ex_ind 8 m had y z) eqn:Q; [contradiction (S (proj1 (ex_ind_ideal 8 m had y z Cy Cz) Q))|reflexivity]).
    unfold px_pv, px_fc. rewrite Q. split; [discriminate|split; [reflexivity|discriminate]].
  - discriminate.
  - do 6 (destruct n as [|n]; [reflexivity|]). lia.
  - intros k s Hk H0 Hs. cbn [px_sf]. exists (qf 1 2). split; [|discriminate]. assert (Q : qltb s (qn 10) = true).
    { apply qltb_lt. eapply Qcle_lt_trans; [exact Hs|]. assert (k < 5) by lia. do 5 (destruct k as [|k]; [reflexivity|]). lia. }
    rewrite Q. reflexivity.
  - intros k s Hk Hs. exists (qf 1 100). split; [|reflexivity]. cbn [px_sf]. destruct (qltb s (qn 10)) eqn:Q; [apply qltb_lt in Q; contradiction (Qclt_not_le _ _ Q Hs)|reflexivity].
Qed.
Definition px_lasso (x : nat -> sample) (ps : list nat) (i p : nat) : num := Some (gs 8 x ps (x i) p).
Lemma px_lasso_exact : forall n x, exact_regression 8 n x (px_lasso x).
Proof. intros n x ps i _ _ ND _. exists (gs 8 x ps (x i)). split; [apply gs_solves; [lia|exact ND]|reflexivity]. Qed.
Definition px_fit (m : nat) (mode : indep) (x : nat -> sample) (n : nat) :=
  parce_data_fit 8 (gs 8) (fun y z => (Some (px_fc m y z), Some (px_pv m y z))) (fun y z => Some (px_fc m y z)) px_log px_sf (qf 1 20) (qf 1 2) mode (px_lasso x) x n.
Definition px_show (n : nat) (r : result (list item * mat num)) : list item * list (list (option Q)) :=
  match r with Ok (o, A) => (o, map (fun i => map (fun j => match A i j with Some v => Some (this v) | None => None end) (seq 0 n)) (seq 0 n)) | Err _ => ([], []) end.
(** One hidden common cause of 0 and 1 (hx: 3 -> 0, 3 -> 1, 0 -> 2): both modes place 2 last and leave 0 and 1 in a block. *)
Example C144_example :
  (linear_model 8 4 (B_of hx_E) had hx_x /\ no_cancelling 8 4 (B_of hx_E) had hx_x /\ solves_least_squares 8 (gs 8) /\ exact_regression 8 3 hx_x (px_lasso hx_x) /\
   ideal_fcorrelation 8 4 had (px_fc 4) (qf 1 2) /\ ideal_hsic 8 4 3 had (px_fc 4) (px_pv 4) px_log (fun s => px_sf (Fin s)) (qf 1 20) 1%Qc (qn 10) 1%Qc) /\
  px_show 3 (px_fit 4 Fcorr hx_x 3) = ([Block [0; 1]; Single 2], [[Some 0; None; Some 0]; [None; Some 0; Some 0]; [Some 1; Some 0; Some 0]]%Q) /\
  fst (px_show 3 (px_fit 4 Hsic hx_x 3)) = [Block [0; 1]; Single 2].
Proof.
  destruct (model_check_spec 8 4 hx_E hx_CL had hx_x hx_check) as (LM & NC & _). split.
  - split; [exact LM|]. split; [exact NC|]. split; [apply gs_solves; lia|]. split; [apply px_lasso_exact|]. split; [apply px_fc_ideal|apply px_hsic_ideal; lia].
  - vm_compute. auto.
Qed.
(** Five observed variables, none hidden. *)
Example C145_example :
  (linear_model 8 5 (B_of fx_E) had fx_x /\ no_cancelling 8 5 (B_of fx_E) had fx_x /\ solves_least_squares 8 (gs 8) /\ exact_regression 8 5 fx_x (px_lasso fx_x) /\
   ideal_fcorrelation 8 5 had (px_fc 5) (qf 1 2) /\ ideal_hsic 8 5 5 had (px_fc 5) (px_pv 5) px_log (fun s => px_sf (Fin s)) (qf 1 20) 1%Qc (qn 10) 1%Qc) /\
  fst (px_show 5 (px_fit 5 Fcorr fx_x 5)) = [Single 4; Single 0; Single 3; Single 2; Single 1] /\
  nth 2 (snd (px_show 5 (px_fit 5 Hsic fx_x 5))) [] = [Some 1; Some 0; Some 0; Some 0; Some 1]%Q.
Proof.
  destruct (model_check_spec 8 5 fx_E fx_E had fx_x fx_check) as (LM & NC & _). split.
  - split; [exact LM|]. split; [exact NC|]. split; [apply gs_solves; lia|]. split; [apply px_lasso_exact|]. split; [apply px_fc_ideal|apply px_hsic_ideal; lia].
  - vm_compute. auto.
Qed.
