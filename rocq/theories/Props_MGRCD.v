(** * MultiGroupRCD on data sets that follow linear models with one causal graph *)
From Coq Require Import List Arith Bool ZArith QArith Qcanon Lia Relations.
From Verif Require Import Prelude Spec Lib LibMat SpecPop SpecRCDPop SpecMGRCD ModelRCD ModelRCDPop ModelMGRCD ProofMGRCD OlsGS Props_RCDPop.
Import ListNotations.
Open Scope nat_scope.

(** ** C192 *)
(** With ideal joint tests the shared ancestor sets are those of the common graph, and every group gets its own coefficients.
    A cause has to be visible in one group only; in the others its effects may cancel. *)
Theorem C192_recovers_models :
  forall n Gs ols icpt pshapiro ppearson phsic fcorr mlcoef m2log sf cor_alpha ind_alpha shapiro_alpha ind_corr kind maxl mlhsicr,
  2 <= length Gs -> one_graph n Gs -> seen_somewhere n Gs ->
  (forall g, In g Gs -> solves_least_squares (g_rows g) (ols (g_rows g))) ->
  joint_normality n Gs (mg_nongauss_test pshapiro m2log sf shapiro_alpha) ->
  joint_correlation n Gs (mg_corr_test ppearson m2log sf cor_alpha) ->
  joint_independence n Gs (mg_ind_test phsic fcorr m2log sf ind_alpha ind_corr kind) ->
  maxl = 1 \/ maxl = 2 ->
  exists M As, mg_rcd_fit ols icpt pshapiro ppearson phsic fcorr mlcoef m2log sf cor_alpha ind_alpha shapiro_alpha ind_corr kind (map data_of Gs) n maxl mlhsicr = Ok (M, As) /\
    (forall g, In g Gs -> forall i j, M i j = true <-> ancestor n (g_B g) j i) /\
    length As = length Gs /\
    (forall k g, nth_error Gs k = Some g -> exists A, nth_error As k = Some A /\ forall i j, i < n -> j < n -> A i j = Some (g_B g i j)).
Proof. exact mg_rcd_correct. Qed.
Print Assumptions C192_recovers_models.

(** Fisher's method turns tests that decide in every single group into ideal joint tests.  [p] is 0 where the null
    hypothesis of the group fails and 1 where it holds. *)
Lemma stat_none : forall m2log ps, fold_left (fun s p => ext_add s (if qeqb p 0 then None else Some (m2log p))) ps None = None.
Proof. intros m2log ps. induction ps as [|p ps IH]; [reflexivity|]. cbn. exact IH. Qed.
Lemma stat_decisive : forall m2log ps, m2log 1%Qc = 0%Qc -> (forall p, In p ps -> p = 0%Qc \/ p = 1%Qc) ->
  (In 0%Qc ps /\ fisher_stat m2log ps = None) \/ (~ In 0%Qc ps /\ fisher_stat m2log ps = Some 0%Qc).
Proof.
  intros m2log ps L1 HP. unfold fisher_stat. induction ps as [|p ps IH]; [right; split; [intros []|reflexivity]|]. cbn [fold_left].
  destruct (HP p (or_introl eq_refl)) as [-> | ->].
  - left. split; [left; reflexivity|]. cbn. apply stat_none.
  - assert (E : ext_add (Some 0%Qc) (if qeqb 1 0 then None else Some (m2log 1%Qc)) = Some 0%Qc) by (cbn; rewrite L1; f_equal; ring).
    rewrite E. destruct (IH (fun q I => HP q (or_intror I))) as [[I Q]|[I Q]]; [left; split; [right; exact I|exact Q]|right; split; [intros [X|X]; [discriminate|exact (I X)]|exact Q]].
Qed.
Definition decisive_correlation (n : nat) (Gs : list group) (p : nat -> sample -> sample -> Qc) : Prop :=
  forall g y z, In g Gs -> combination (g_rows g) n (g_e g) y -> combination (g_rows g) n (g_e g) z ->
  (cov (g_rows g) y z <> 0%Qc -> p (g_rows g) y z = 0%Qc) /\ (cov (g_rows g) y z = 0%Qc -> p (g_rows g) y z = 1%Qc).
Definition decisive_independence (n : nat) (Gs : list group) (p : nat -> sample -> sample -> Qc) : Prop :=
  forall g y z, In g Gs -> combination (g_rows g) n (g_e g) y -> combination (g_rows g) n (g_e g) z ->
  let indep := forall k, k < n -> cov (g_rows g) y (g_e g k) = 0%Qc \/ cov (g_rows g) z (g_e g k) = 0%Qc in
  (indep /\ p (g_rows g) y z = 1%Qc) \/ (~ indep /\ p (g_rows g) y z = 0%Qc).
Theorem C192_fisher_joins_tests :
  forall n Gs ppearson phsic fcorr pshapiro m2log sf cor_alpha ind_alpha shapiro_alpha ind_corr,
  Gs <> [] ->
  m2log 1%Qc = 0%Qc -> (forall d, sf None d = 0%Qc /\ sf (Some 0%Qc) d = 1%Qc) ->
  (0 < cor_alpha)%Qc -> (cor_alpha < 1)%Qc -> (0 <= ind_alpha)%Qc -> (ind_alpha < 1)%Qc -> (0 <= shapiro_alpha)%Qc ->
  decisive_correlation n Gs ppearson -> decisive_independence n Gs phsic ->
  (forall g y, In g Gs -> combination (g_rows g) n (g_e g) y -> var (g_rows g) y <> 0%Qc -> pshapiro (g_rows g) y = 0%Qc) ->
  joint_correlation n Gs (mg_corr_test ppearson m2log sf cor_alpha) /\
  joint_independence n Gs (mg_ind_test phsic fcorr m2log sf ind_alpha ind_corr Hsic) /\
  joint_normality n Gs (mg_nongauss_test pshapiro m2log sf shapiro_alpha).
Proof.
  intros n Gs ppearson phsic fcorr pshapiro m2log sf cor_alpha ind_alpha shapiro_alpha ind_corr NE L1 SF CA0 CA1 IA0 IA1 SA DC DI DN.
  split; [|split].
  - intros y z CB. unfold mg_corr_test, fisher_p. rewrite map_map. cbn [fst snd].
    set (ps := map (fun g => ppearson (g_rows g) (y g) (z g)) Gs).
    assert (HP : forall p, In p ps -> p = 0%Qc \/ p = 1%Qc).
    { intros p I. apply in_map_iff in I. destruct I as (g & <- & I). destruct (CB g I) as [C1 C2]. destruct (DC g _ _ I C1 C2) as [D1 D2].
      destruct (Qc_eq_dec (cov (g_rows g) (y g) (z g)) 0) as [Z|Z]; [right; apply D2; exact Z|left; apply D1; exact Z]. }
    destruct (stat_decisive m2log ps L1 HP) as [[I E]|[I E]]; rewrite E; destruct (SF (2 * length ps)) as [S0 S1]; [rewrite S0|rewrite S1].
    + split; [intros _|intros _; apply qltb_lt; exact CA0]. apply in_map_iff in I. destruct I as (g & P0 & I). exists g. split; [exact I|]. intro Z.
      destruct (CB g I) as [C1 C2]. destruct (DC g _ _ I C1 C2) as [_ D2]. rewrite (D2 Z) in P0. discriminate.
    + split.
      * intro Q. apply qltb_lt in Q. exfalso. exact (Qclt_not_le _ _ Q (Qclt_le_weak _ _ CA1)).
      * intros (g & Ig & Z). exfalso. apply I. apply in_map_iff. exists g. split; [|exact Ig]. destruct (CB g Ig) as [C1 C2]. apply (proj1 (DC g _ _ Ig C1 C2)). exact Z.
  - intros y z CB. unfold mg_ind_test, mg_hsic_independent. rewrite map_map. cbn [fst snd].
    set (ps := map (fun g => phsic (g_rows g) (y g) (z g)) Gs).
    assert (HP : forall p, In p ps -> p = 0%Qc \/ p = 1%Qc).
    { intros p I. apply in_map_iff in I. destruct I as (g & <- & I). destruct (CB g I) as [C1 C2]. destruct (DI g _ _ I C1 C2) as [[_ D]|[_ D]]; [right|left]; exact D. }
    destruct (stat_decisive m2log ps L1 HP) as [[I E]|[I E]]; rewrite E; destruct (SF (2 * length ps)) as [S0 S1]; [rewrite S0|rewrite S1].
    + split.
      * intro Q. apply qltb_lt in Q. exfalso. exact (Qclt_not_le _ _ Q IA0).
      * intro F. exfalso. apply in_map_iff in I. destruct I as (g & P0 & I). destruct (CB g I) as [C1 C2]. destruct (DI g _ _ I C1 C2) as [[_ D]|[D _]]; [rewrite D in P0; discriminate|exact (D (F g I))].
    + split; [intros _ g Ig|intros _; apply qltb_lt; exact IA1]. destruct (CB g Ig) as [C1 C2]. destruct (DI g _ _ Ig C1 C2) as [[D _]|[_ D]]; [exact D|].
      exfalso. apply I. apply in_map_iff. exists g. split; [exact D|exact Ig].
  - intros y CB. unfold mg_nongauss_test, fisher_p. rewrite map_map. cbn [fst snd].
    set (ps := map (fun g => pshapiro (g_rows g) (y g)) Gs).
    assert (HP : forall p, In p ps -> p = 0%Qc).
    { intros p I. apply in_map_iff in I. destruct I as (g & <- & I). destruct (CB g I) as [C V]. exact (DN g _ I C V). }
    destruct (stat_decisive m2log ps L1 (fun p I => or_introl (HP p I))) as [[I E]|[I E]]; rewrite E; destruct (SF (2 * length ps)) as [S0 S1].
    + rewrite S0. apply negb_true_iff. apply qltb_nlt. exact SA.
    + exfalso. apply I. destruct Gs as [|g Gs']; [congruence|]. unfold ps. cbn [map]. left. apply (HP). left. reflexivity.
Qed.
Print Assumptions C192_fisher_joins_tests.

(** ** Two groups with the graph 0 -> 1, 0 -> 2, 1 -> 2: in the second one the two effects of 0 on 2 cancel *)
Definition cx_B (s : Qc) : mat Qc := fun i j => match i, j with 1, 0 => 1%Qc | 2, 1 => 1%Qc | 2, 0 => s | _, _ => 0%Qc end.
Definition cx_x (s : Qc) (i : nat) : sample := tab 8 (fun r => match i with
  | 0 => had 0 r | 1 => had 0 r + had 1 r | 2 => s * had 0 r + (had 0 r + had 1 r) + had 2 r | _ => 0 end)%Qc.
Definition cx_group (s : Qc) : group := {| g_rows := 8; g_B := cx_B s; g_e := had; g_x := cx_x s |}.
Definition cx_Gs : list group := [cx_group 1%Qc; cx_group (qz (-1))].
Lemma cx_model : forall s, all2 3 8 (fun i r => qeqb (cx_x s i r) (sumn 3 (fun j => cx_B s i j * cx_x s j r) + had i r)%Qc) = true -> linear_model 8 3 (cx_B s) had (cx_x s).
Proof.
  intros s H. assert (V : forallb (fun i => qltb 0 (fcov 8 (had i) (had i))) (seq 0 3) && all2 3 3 (fun i j => (i =? j) || qeqb (fcov 8 (had i) (had j)) 0) = true) by (vm_compute; reflexivity).
  apply andb_true_iff in V. destruct V as [V1 V2]. constructor.
  - assert (UP : forall j i, ancestor 3 (cx_B s) j i -> j < i).
    { intros j i A. induction A as [j i (_ & _ & Z)|a b c _ IH1 _ IH2]; [|lia]. destruct i as [|[|[|i]]]; destruct j as [|[|j]]; try lia; contradiction Z; reflexivity. }
    intros v A. apply UP in A. lia.
  - intros i r Hi Hr. apply qeqb_eq. exact (all2_spec 3 8 _ H i r Hi Hr).
  - intros i Hi. rewrite forallb_forall in V1. specialize (V1 i ltac:(apply in_seq; lia)). rewrite fcov_eq in V1. apply qltb_lt in V1. exact V1.
  - intros i j Hi Hj D. pose proof (all2_spec 3 3 _ V2 i j Hi Hj) as Q. cbv beta in Q. rewrite fcov_eq in Q. destruct (Nat.eqb_spec i j); [contradiction|]. apply qeqb_eq. exact Q.
Qed.
Lemma cx_one_graph : one_graph 3 cx_Gs.
Proof.
  split.
  - intros g [<-|[<-|[]]]; apply cx_model; vm_compute; reflexivity.
  - assert (E : forall s t j i, t <> 0%Qc -> edge_of 3 (cx_B s) j i -> edge_of 3 (cx_B t) j i).
    { intros s t j i T (Hi & Hj & Z). split; [exact Hi|]. split; [exact Hj|]. destruct i as [|[|[|i]]]; destruct j as [|[|j]]; cbn in *; first [exact Z|exact T|congruence]. }
    intros g h j i [<-|[<-|[]]] [<-|[<-|[]]]; apply E; discriminate.
Qed.
Lemma cx_seen : seen_somewhere 3 cx_Gs.
Proof.
  intros g j i I A. exists (cx_group 1%Qc). split; [left; reflexivity|].
  assert (U : j < i /\ i < 3).
  { assert (UP : forall s j i, ancestor 3 (cx_B s) j i -> j < i /\ i < 3).
    { intros s j0 i0 A0. induction A0 as [a b (Hi & _ & Z)|a b c _ IH1 _ IH2]; [|lia]. split; [|exact Hi]. destruct b as [|[|[|b]]]; destruct a as [|[|a]]; try lia; contradiction Z; reflexivity. }
    destruct I as [<-|[<-|[]]]; exact (UP _ _ _ A). }
  cbn [cx_group g_rows g_x g_e]. rewrite <- fcov_eq. intro Z.
  assert (T : all2 3 3 (fun i j => negb (j <? i) || negb (qeqb (fcov 8 (cx_x 1 i) (had j)) 0)) = true) by (vm_compute; reflexivity).
  pose proof (all2_spec 3 3 _ T i j ltac:(lia) ltac:(lia)) as Q. cbv beta in Q. rewrite Z in Q.
  destruct (Nat.ltb_spec j i); [discriminate|lia].
Qed.
(** effects of 0 on 2 cancel in the second group *)
Example C192_cancels : cov 8 (cx_x (qz (-1)) 2) (had 0) = 0%Qc.
Proof. rewrite <- fcov_eq. apply Qc_is_canon. vm_compute. reflexivity. Qed.
Definition cx_pp (N : nat) (y z : sample) : Qc := if ex_corr 8 y z then 0%Qc else 1%Qc.
Definition cx_ph (N : nat) (y z : sample) : Qc := if ex_ind 8 3 had y z then 1%Qc else 0%Qc.
Definition cx_fc (N : nat) (y z : sample) : Qc := if ex_ind 8 3 had y z then 0%Qc else 1%Qc.
Definition cx_sf (s : option Qc) (d : nat) : Qc := match s with None => 0%Qc | Some _ => 1%Qc end.
Definition cx_fit (kind : indep_kind) (maxl : nat) := mg_rcd_fit gs (fun _ _ _ _ => 0%Qc) (fun _ _ => 0%Qc) cx_pp cx_ph cx_fc (fun _ _ _ _ _ => 0%Qc)
  (fun _ => 0%Qc) cx_sf (qf 1 100) (qf 1 100) (qf 1 100) (qf 1 2) kind (map data_of cx_Gs) 3 maxl true.
Definition show_groups (n : nat) (r : result (sets * list (mat num))) : list (list nat) * list (list (list (option Q))) :=
  match r with
  | Ok (M, As) => (map (fun i => filter (M i) (seq 0 n)) (seq 0 n), map (fun A : mat num => map (fun i => map (fun j => match A i j with Some v => Some (this v) | None => None end) (seq 0 n)) (seq 0 n)) As)
  | Err _ => ([], []) end.
Lemma cx_tests : decisive_correlation 3 cx_Gs cx_pp /\ decisive_independence 3 cx_Gs cx_ph.
Proof.
  assert (R : forall g, In g cx_Gs -> g_rows g = 8 /\ g_e g = had) by (intros g [<-|[<-|[]]]; split; reflexivity). split.
  - intros g y z I Cy Cz. destruct (R g I) as [R1 R2]. rewrite R1, R2 in *. unfold cx_pp. pose proof (ex_corr_ideal 8 3 had y z Cy Cz) as E.
    destruct (ex_corr 8 y z); split; intro Q; try reflexivity; [contradiction (proj1 E eq_refl Q)|]. apply E in Q. discriminate.
  - intros g y z I Cy Cz. destruct (R g I) as [R1 R2]. rewrite R1, R2 in *. cbv zeta. unfold cx_ph. pose proof (ex_ind_ideal 8 3 had y z Cy Cz) as E.
    destruct (ex_ind 8 3 had y z); [left; split; [apply E; reflexivity|reflexivity]|right; split; [|reflexivity]]. intro Q. apply E in Q. discriminate.
Qed.
(** The hypotheses of both theorems hold for these groups; the fit finds 0 as an ancestor of 2 and the coefficient -1. *)
Example C192_example :
  2 <= length cx_Gs /\ one_graph 3 cx_Gs /\ seen_somewhere 3 cx_Gs /\
  (forall g, In g cx_Gs -> solves_least_squares (g_rows g) (gs (g_rows g))) /\
  joint_correlation 3 cx_Gs (mg_corr_test cx_pp (fun _ => 0%Qc) cx_sf (qf 1 100)) /\
  joint_independence 3 cx_Gs (mg_ind_test cx_ph cx_fc (fun _ => 0%Qc) cx_sf (qf 1 100) (qf 1 2) Hsic) /\
  joint_normality 3 cx_Gs (mg_nongauss_test (fun _ _ => 0%Qc) (fun _ => 0%Qc) cx_sf (qf 1 100)) /\
  show_groups 3 (cx_fit Hsic 1) = ([[]; [0]; [0; 1]],
    [[[Some 0%Q; Some 0%Q; Some 0%Q]; [Some 1%Q; Some 0%Q; Some 0%Q]; [Some 1%Q; Some 1%Q; Some 0%Q]];
     [[Some 0%Q; Some 0%Q; Some 0%Q]; [Some 1%Q; Some 0%Q; Some 0%Q]; [Some (-1)%Q; Some 1%Q; Some 0%Q]]]).
Proof.
  split; [cbn; lia|]. split; [exact cx_one_graph|]. split; [exact cx_seen|]. split; [intros g [<-|[<-|[]]]; apply gs_solves; cbn; lia|].
  destruct (C192_fisher_joins_tests 3 cx_Gs cx_pp cx_ph cx_fc (fun _ _ => 0%Qc) (fun _ => 0%Qc) cx_sf (qf 1 100) (qf 1 100) (qf 1 100) (qf 1 2)) as (J1 & J2 & J3).
  - discriminate.
  - reflexivity.
  - intro d. split; reflexivity.
  - reflexivity.
  - reflexivity.
  - discriminate.
  - reflexivity.
  - discriminate.
  - apply cx_tests.
  - apply cx_tests.
  - reflexivity.
  - split; [exact J1|]. split; [exact J2|]. split; [exact J3|]. vm_compute. reflexivity.
Qed.

(** ** With independence = 'fcorr' only the last group decides (C33) *)
(** An F-correlation that is below the threshold exactly for independent columns of the group does not help:
    in these groups the ancestor 0 of 2 is lost with max_explanatory_num = 1. *)
Theorem C192_fcorr_refuted :
  ~ (forall n Gs ols icpt pshapiro ppearson phsic fcorr mlcoef m2log sf cor_alpha ind_alpha shapiro_alpha ind_corr mlhsicr,
     2 <= length Gs -> one_graph n Gs -> seen_somewhere n Gs ->
     (forall g, In g Gs -> solves_least_squares (g_rows g) (ols (g_rows g))) ->
     joint_normality n Gs (mg_nongauss_test pshapiro m2log sf shapiro_alpha) ->
     joint_correlation n Gs (mg_corr_test ppearson m2log sf cor_alpha) ->
     (forall g y z, In g Gs -> combination (g_rows g) n (g_e g) y -> combination (g_rows g) n (g_e g) z ->
        ((fcorr (g_rows g) y z < ind_corr)%Qc <-> forall k, k < n -> cov (g_rows g) y (g_e g k) = 0%Qc \/ cov (g_rows g) z (g_e g k) = 0%Qc)) ->
     exists M As, mg_rcd_fit ols icpt pshapiro ppearson phsic fcorr mlcoef m2log sf cor_alpha ind_alpha shapiro_alpha ind_corr Fcorr (map data_of Gs) n 1 mlhsicr = Ok (M, As) /\
       (forall g, In g Gs -> forall i j, M i j = true <-> ancestor n (g_B g) j i)).
Proof.
  intro C. destruct C192_example as (L & OG & SS & OLS & J1 & _ & J3 & _).
  destruct (C 3 cx_Gs gs (fun _ _ _ _ => 0%Qc) (fun _ _ => 0%Qc) cx_pp cx_ph cx_fc (fun _ _ _ _ _ => 0%Qc) (fun _ => 0%Qc) cx_sf (qf 1 100) (qf 1 100) (qf 1 100) (qf 1 2) true L OG SS OLS J3 J1) as (M & As & E & HM).
  - intros g y z I Cy Cz. assert (R : g_rows g = 8 /\ g_e g = had) by (destruct I as [<-|[<-|[]]]; split; reflexivity). destruct R as [R1 R2]. rewrite R1, R2 in *.
    pose proof (ex_ind_ideal 8 3 had y z Cy Cz) as X. unfold cx_fc. rewrite <- X. destruct (ex_ind 8 3 had y z); split; intro Q; try reflexivity; discriminate.
  - assert (S : fst (show_groups 3 (cx_fit Fcorr 1)) = [[]; [0]; []]) by (vm_compute; reflexivity).
    unfold cx_fit in S. rewrite E in S. cbn [show_groups fst map seq] in S. pose proof (f_equal (fun l => nth 2 l []) S) as S2. cbn [nth] in S2.
    assert (A : ancestor 3 (cx_B 1) 0 2) by (apply t_step; split; [lia|split; [lia|discriminate]]).
    apply (HM (cx_group 1%Qc) (or_introl eq_refl)) in A.
    assert (I : In 0 (filter (M 2) [0; 1; 2])) by (apply filter_In; split; [left; reflexivity|exact A]). rewrite S2 in I. destruct I.
Qed.
Print Assumptions C192_fcorr_refuted.
