(** * Properties of HighDimDirectLiNGAM on data (C166-C171) *)
From Coq Require Import List Arith Lia Bool ZArith QArith Qcanon Permutation.
From Verif Require Import Prelude Spec SpecPop SpecRCDPop SpecHDPop Lib LibMat ModelDirect ModelRCD ModelHighDim ModelHighDimData
  ProofLim ProofPop ProofRCD ProofHighDim ProofHDPop ProofHDPop2 ProofHDPop3 ProofHDUnits ProofHDUnits2 ProofHDUnits3 ProofHDUnits4 ProofExper OlsGS ProofHDEx.
From Verif Require ProofParcePop3.
Import ListNotations.
Open Scope nat_scope.

(** C166.  On an exact sample of a linear acyclic model the first variable of the order has no cause, and the second
    none but the first. *)
Theorem C166_first_two :
  forall N n K B e x pinv enum J alpha, exact_sample N n B e x -> 1 <= K -> faithful N n K B x -> normal_equations N pinv ->
  (forall l, Permutation (enum l) l) -> 2 <= n ->
  exists a b rest, data_order N pinv K x enum J alpha n = Ok (a :: b :: rest) /\ is_order n (a :: b :: rest) /\
    (forall p, ~ edge_of n B p a) /\ (forall p, edge_of n B p b -> p = a).
Proof.
  intros N n K B e x pinv enum J alpha M HK F NE HE Hn.
  destruct (hd_order_ok (data_tau0 N K x) (data_tau N pinv K x) enum J alpha true n) as (L & E & HO).
  destruct (first_two N n K B e x pinv M HK F NE enum J alpha HE L E Hn) as (a & b & rest & EL & H1 & H2).
  exists a, b, rest. subst L. split; [exact E|]. split; [exact HO|]. split; assumption.
Qed.
Print Assumptions C166_first_two.
(** With two variables this is the whole order. *)
Theorem C166_two_variables :
  forall N K B e x pinv enum J alpha, exact_sample N 2 B e x -> 1 <= K -> faithful N 2 K B x -> normal_equations N pinv ->
  (forall l, Permutation (enum l) l) ->
  exists L, data_order N pinv K x enum J alpha 2 = Ok L /\ is_order 2 L /\ topological (edge_of 2 B) L.
Proof.
  intros N K B e x pinv enum J alpha M HK F NE HE.
  destruct (C166_first_two N 2 K B e x pinv enum J alpha M HK F NE HE ltac:(lia)) as (a & b & rest & E & HO & H1 & H2).
  exists (a :: b :: rest). split; [exact E|]. split; [exact HO|].
  assert (L := Permutation_length HO). cbn in L. destruct rest; [|cbn in L; lia].
  intros j i HE'. assert (HE2 := HE'). destruct HE2 as (Hi & Hj & _).
  assert (I : In i [a; b]) by (apply (Permutation_in i (Permutation_sym HO)); apply in_seq; lia). destruct I as [<-|[<-|[]]]; [exfalso; exact (H1 j HE')|].
  apply H2 in HE'. subst j. exists [], [], []. reflexivity.
Qed.
Print Assumptions C166_two_variables.

(** C167, refuted.  With four variables the order need not be a causal order: 2 -> 3, but 3 comes first. *)
Theorem C167_causal_order_refuted :
  exists N n K B e x pinv enum J alpha L, exact_sample N n B e x /\ K = 4 /\ J = 3 /\ alpha = qf 1 2 /\ faithful N n K B x /\ in_degree_at_most n J B /\
    normal_equations N pinv /\ (forall l, Permutation (enum l) l) /\
    data_order N pinv K x enum J alpha n = Ok L /\ ~ topological (edge_of n B) L.
Proof.
  exists 16, 4, 4, exB, exe, exx, (pinv0 16), (fun l => l), 3, (qf 1 2), [0; 1; 3; 2].
  split; [exact ex_sample|]. do 3 (split; [reflexivity|]). split; [exact ex_faithful|]. split; [exact ex_degree|]. split; [apply pinv0_normal|]. split; [intro; apply Permutation_refl|].
  split; [vm_compute; reflexivity|]. intro T. specialize (T 2 3).
  assert (G : edge_of 4 exB 2 3) by (repeat split; try lia; intro Z; apply (f_equal this) in Z; vm_compute in Z; discriminate Z). specialize (T G). apply (ProofParcePop3.precedes_split [0; 1; 3; 2] [0; 1] 3 [2] 2 eq_refl) in T; [cbn in T; lia|].
  repeat constructor; cbn; lia.
Qed.
Print Assumptions C167_causal_order_refuted.
(** C167, the part that holds.  If a variable of the conditioning set keeps its statistic and all conditioning sets are
    used (two changes of the code), the order is a causal order for every number of variables. *)
Theorem C167_repaired_partial :
  forall N n K B e x pinv enum J alpha, exact_sample N n B e x -> 1 <= K -> faithful N n K B x -> normal_equations N pinv ->
  (forall l, Permutation (enum l) l) -> in_degree_at_most n J B ->
  exists L, data_order_repaired N pinv K x enum J alpha n = Ok L /\ is_order n L /\ topological (edge_of n B) L.
Proof.
  intros N n K B e x pinv enum J alpha M HK F NE HE HJ.
  destruct (hd_order_ok (data_tau0 N K x) (data_tau_repaired N pinv K x) enum J alpha false n) as (L & E & HO).
  exists L. split; [exact E|]. apply (repaired_topological N n K B e x pinv M HK F NE enum J alpha HE HJ L E).
Qed.
Print Assumptions C167_repaired_partial.
Example C167_example_repaired : data_order_repaired 16 (pinv0 16) 4 exx (fun l => l) 3 (qf 1 2) 4 = Ok [0; 1; 2; 3].
Proof. vm_compute. reflexivity. Qed.
Example C166_example : exists a b rest, data_order 16 (pinv0 16) 4 exx (fun l => l) 3 (qf 1 2) 4 = Ok (a :: b :: rest) /\ a = 0 /\ b = 1 /\ rest = [3; 2].
Proof. exists 0, 1, [3; 2]. split; [vm_compute; reflexivity|]. repeat split. Qed.
Example C166_example_hypotheses : exact_sample 16 4 exB exe exx /\ faithful 16 4 4 exB exx /\ in_degree_at_most 4 3 exB /\ normal_equations 16 (pinv0 16).
Proof. split; [exact ex_sample|]. split; [exact ex_faithful|]. split; [exact ex_degree|]. apply pinv0_normal. Qed.

(** C168, refuted.  In sufficiently small units (large numbers) the order is that of the columns. *)
Theorem C168_large_numbers_refuted :
  forall N pinv K Y enum J alpha n t, (forall l, Permutation (enum l) l) -> normal_equations N pinv -> 1 <= K -> (0 < t)%Qc ->
  (forall v C j u, v < n -> j < n -> v <> j -> NoDup C -> ~ In v C -> (forall q, In q C -> q < n) -> length C + 2 <= n ->
    residual_on N Y C v u -> (t <= qabs (moment_stat N K u (Y j)))%Qc) ->
  exists c0, (0 < c0)%Qc /\ forall c, (c0 <= c)%Qc -> data_order N pinv K (fun j r => c * Y j r)%Qc enum J alpha n = Ok (seq 0 n).
Proof. exact order_large. Qed.
Print Assumptions C168_large_numbers_refuted.
(** C168, the part that holds: as long as no statistic reaches 100000, a common factor changes nothing. *)
Theorem C168_common_factor_partial :
  forall N pinv K Y enum J alpha n c, (forall l, Permutation (enum l) l) -> normal_equations N pinv -> 1 <= K -> (0 < c)%Qc ->
  (forall v j, v < n -> j < n -> v <> j -> (qabs (moment_stat N K (Y v) (Y j)) <= qz 100000)%Qc /\ (c ^ (K + 2) * qabs (moment_stat N K (Y v) (Y j)) <= qz 100000)%Qc) ->
  data_order N pinv K (fun j r => c * Y j r)%Qc enum J alpha n = data_order N pinv K Y enum J alpha n.
Proof. exact order_units. Qed.
Print Assumptions C168_common_factor_partial.

(** Three columns, six rows, no statistic zero. *)
Definition three (i r : nat) : Qc := qz (nth r (nth i [[3; -1; 4; -2; 0; 1]; [1; 5; -2; 2; -3; 0]; [2; -1; 0; 3; 1; -4]]%Z []) 0%Z).
Definition bounded_check (N n K : nat) (x : nat -> sample) (t : Qc) : bool :=
  forallb (fun v => forallb (fun j => (v =? j) || forallb (fun C => memb v C || negb (qltb (qabs (fstat N K (hd_resid (pinv0 N) x C v) (x j))) t)) (arrangements (n - 2) (seq 0 n))) (seq 0 n)) (seq 0 n).
Lemma bounded_by_check : forall N n K x t, bounded_check N n K x t = true ->
  forall v C j u, v < n -> j < n -> v <> j -> NoDup C -> ~ In v C -> (forall q, In q C -> q < n) -> length C + 2 <= n ->
    residual_on N x C v u -> (t <= qabs (moment_stat N K u (x j)))%Qc.
Proof.
  intros N n K x t H v C j u Hv Hj D ND NI HC L HR. unfold bounded_check in H. rewrite forallb_forall in H. specialize (H v ltac:(apply in_seq; lia)).
  rewrite forallb_forall in H. specialize (H j ltac:(apply in_seq; lia)). rewrite (proj2 (Nat.eqb_neq v j) D) in H. cbn [orb] in H. rewrite forallb_forall in H.
  specialize (H C). assert (IC : In C (arrangements (n - 2) (seq 0 n))) by (apply arrangements_In; [exact ND|intros q Hq; apply in_seq; specialize (HC q Hq); lia|lia]).
  specialize (H IC). apply orb_prop in H. destruct H as [H|H]; [apply memb_In in H; contradiction|]. apply negb_true_iff, qltb_nlt in H.
  replace (moment_stat N K u (x j)) with (fstat N K (hd_resid (pinv0 N) x C v) (x j)); [exact H|].
  unfold fstat. cbv zeta. apply moment_stat_ext; [|intros; apply tab_eq; assumption]. intros r Hr. rewrite tab_eq by exact Hr.
  apply (residual_unique N x C v); [apply resid_spec; [apply pinv0_normal|exact ND]|exact HR|exact Hr].
Qed.
Example C168_example_large : exists c0, (0 < c0)%Qc /\ forall c, (c0 <= c)%Qc -> data_order 6 (pinv0 6) 4 (fun j r => c * three j r)%Qc (fun l => l) 3 (qf 1 2) 3 = Ok [0; 1; 2].
Proof.
  apply (C168_large_numbers_refuted 6 (pinv0 6) 4 three (fun l => l) 3 (qf 1 2) 3 1%Qc); [intro; apply Permutation_refl|apply pinv0_normal|lia|reflexivity|].
  apply bounded_by_check. vm_compute. reflexivity.
Qed.
(** the same data as given, in units ten times as large, and in units that make the numbers a hundred times as large *)
Example C168_example_orders : data_order 6 (pinv0 6) 4 three (fun l => l) 3 (qf 1 2) 3 = Ok [2; 0; 1] /\
  data_order 6 (pinv0 6) 4 (fun j r => qf 1 10 * three j r)%Qc (fun l => l) 3 (qf 1 2) 3 = Ok [2; 0; 1] /\
  data_order 6 (pinv0 6) 4 (fun j r => qz 100 * three j r)%Qc (fun l => l) 3 (qf 1 2) 3 = Ok [0; 1; 2].
Proof. split; [vm_compute; reflexivity|]. split; vm_compute; reflexivity. Qed.
Example C168_example_hypothesis : forall v j, v < 3 -> j < 3 -> v <> j -> (qabs (moment_stat 6 4 (three v) (three j)) <= qz 100000)%Qc /\ (qf 1 10 ^ 6 * qabs (moment_stat 6 4 (three v) (three j)) <= qz 100000)%Qc.
Proof. intros v j Hv Hj D. destruct v as [|[|[|v]]]; try lia; destruct j as [|[|[|j]]]; try lia; split; vm_compute; discriminate. Qed.

(** C169, refuted.  With two columns the unit of one of them decides: whenever neither statistic is zero, either order
    is obtained by a suitable unit of the second column. *)
Theorem C169_unit_of_one_column_refuted :
  forall N pinv K Y enum J alpha, 1 <= K -> moment_stat N K (Y 0) (Y 1) <> 0%Qc -> moment_stat N K (Y 1) (Y 0) <> 0%Qc ->
  exists c1 c2, (0 < c1)%Qc /\ (0 < c2)%Qc /\
    data_order N pinv K (fun j r => if j =? 1 then (c1 * Y 1%nat r)%Qc else Y j r) enum J alpha 2 = Ok [1; 0] /\
    data_order N pinv K (fun j r => if j =? 1 then (c2 * Y 1%nat r)%Qc else Y j r) enum J alpha 2 = Ok [0; 1].
Proof.
  intros N pinv K Y enum J alpha HK HP HQ. destruct (one_unit N pinv K Y enum J alpha HK HP HQ) as (c1 & c2 & P1 & P2 & E1 & E2). exists c1, c2.
  split; [exact P1|]. split; [exact P2|]. rewrite <- E1, <- E2, !order_two. split; reflexivity.
Qed.
Print Assumptions C169_unit_of_one_column_refuted.
Example C169_example : moment_stat 6 4 (three 0) (three 1) <> 0%Qc /\ moment_stat 6 4 (three 1) (three 0) <> 0%Qc.
Proof. split; intro Z; apply (f_equal this) in Z; vm_compute in Z; discriminate Z. Qed.
(** C169, refuted.  The columns are not centred: x1 = 2 x0 + e with independent errors is ordered correctly, and
    incorrectly after adding 2 to x0, although the model is then x1 = 2 (x0 - 2) + e. *)
Definition tworows : nat -> sample := fun i r => let x0 := bit_error (fun _ => 1%Z) 0 r in match i with 0 => x0 | 1 => (qz 2 * x0 + bit_error (fun _ => 1%Z) 1 r)%Qc | _ => 0%Qc end.
Theorem C169_origin_refuted :
  exists N B e x a, exact_sample N 2 B e x /\ faithful N 2 4 B x /\ edge_of 2 B 0 1 /\ forall pinv enum J alpha,
    data_order N pinv 4 x enum J alpha 2 = Ok [0; 1] /\ data_order N pinv 4 (fun j r => if j =? 0 then (x j r + a)%Qc else x j r) enum J alpha 2 = Ok [1; 0].
Proof.
  exists 4, (zmat [[]; [2]]%Z), (bit_error (fun _ => 1%Z)), tworows, (qz 2).
  assert (E : edge_of 2 (zmat [[]; [2]]%Z) 0 1) by (repeat split; try lia; intro Z; apply (f_equal this) in Z; vm_compute in Z; discriminate Z).
  split; [apply sample_check; [lia|vm_compute; reflexivity|vm_compute; reflexivity|]; apply bit_independent; [lia|vm_compute; reflexivity]|].
  split.
  - apply (faithful_by_check 4 2 4 _ tworows ex_nd); [|vm_compute; reflexivity].
    intros v q Hv Hq Nv A. unfold ex_nd. apply in_seq. destruct (Nat.lt_ge_cases q v) as [L|L]; [lia|]. exfalso. apply A.
    assert (v = 0) as -> by lia. assert (q = 1) as -> by lia. apply Relation_Operators.t_step. exact E.
  - split; [exact E|]. intros pinv enum J alpha. rewrite !order_two. split; vm_compute; reflexivity.
Qed.
Print Assumptions C169_origin_refuted.
(** C169, the part that holds: on an exact sample the first two variables are right in any units. *)
Theorem C169_exact_sample_partial :
  forall N n K B e x c pinv enum J alpha, exact_sample N n B e x -> 1 <= K -> faithful N n K B x -> normal_equations N pinv ->
  (forall l, Permutation (enum l) l) -> 2 <= n -> (forall i, c i <> 0%Qc) ->
  exists a b rest, data_order N pinv K (fun j r => c j * x j r)%Qc enum J alpha n = Ok (a :: b :: rest) /\ is_order n (a :: b :: rest) /\
    (forall p, ~ edge_of n B p a) /\ (forall p, edge_of n B p b -> p = a).
Proof.
  intros N n K B e x c pinv enum J alpha M HK F NE HE Hn Hc.
  destruct (C166_first_two N n K (unit_B B c) (unit_e e c) (unit_x x c) pinv enum J alpha (unit_sample N n B e x c Hc M) HK (unit_faithful N n B x c Hc K HK F) NE HE Hn) as (a & b & rest & E & HO & H1 & H2).
  exists a, b, rest. split; [exact E|]. split; [exact HO|]. split.
  - intros p P. apply (H1 p). apply (unit_edge n B c Hc). exact P.
  - intros p P. apply H2. apply (unit_edge n B c Hc). exact P.
Qed.
Print Assumptions C169_exact_sample_partial.
Example C169_example_units : data_order 16 (pinv0 16) 4 (fun j r => nth j [qz 5; qf (-1) 3; qz 7; qf 1 2] 1 * exx j r)%Qc (fun l => l) 3 (qf 1 2) 4 = Ok [0; 1; 3; 2].
Proof. vm_compute. reflexivity. Qed.

(** C170, refuted.  With K = 2, which the constructor accepts, all statistics are zero: the order is that of the
    columns, whatever the data. *)
Theorem C170_degree_two_refuted :
  forall N pinv Y enum J alpha n, (forall l, Permutation (enum l) l) -> data_order N pinv 2 Y enum J alpha n = Ok (seq 0 n).
Proof. exact order_degree_two. Qed.
Print Assumptions C170_degree_two_refuted.
(** C170, refuted.  The same with K = 1 and centred columns. *)
Theorem C170_degree_one_refuted :
  forall N pinv Y enum J alpha n, (forall l, Permutation (enum l) l) -> (forall j, j < n -> mean N (Y j) = 0%Qc) -> data_order N pinv 1 Y enum J alpha n = Ok (seq 0 n).
Proof. exact order_degree_one. Qed.
Print Assumptions C170_degree_one_refuted.
(** C170, the part that holds: every other degree uses the data.  These two columns are put in the opposite order. *)
Definition wide (i r : nat) : Qc := qz (nth r (nth i [[2; -1; -1; 0]; [1; 1; -1; -1]]%Z []) 0%Z).
Lemma mean_four : forall f, mean 4 f = ((f 0%nat + f 1%nat + f 2%nat + f 3%nat) * qf 1 4)%Qc.
Proof. intro f. unfold mean, sumn, sumf. cbn [seq map qsum fold_right]. replace (qf 1 4) with (/ qn 4)%Qc by (apply Qc_is_canon; vm_compute; reflexivity). unfold Qcdiv. ring. Qed.
Lemma wide_first : forall k, moment_stat 4 (S (S k)) (wide 0) (wide 1) = ((qz 2 ^ k - qz (-1) ^ k) * qf 1 4)%Qc.
Proof.
  intro k. unfold moment_stat. rewrite !mean_four. unfold wide. cbn [Nat.sub nth Qcpower].
  replace (qz 0) with 0%Qc by (apply Qc_is_canon; vm_compute; reflexivity). replace (qz 1) with 1%Qc by (apply Qc_is_canon; vm_compute; reflexivity).
  set (a := (qz 2 ^ k)%Qc). set (b := (qz (-1) ^ k)%Qc). replace (qz 2) with (1 + 1)%Qc by (apply Qc_is_canon; vm_compute; reflexivity). replace (qz (-1)) with (- (1))%Qc by (apply Qc_is_canon; vm_compute; reflexivity).
  assert (F : (qf 1 4 * (1 + 1 + 1 + 1) = 1)%Qc) by (apply Qc_is_canon; vm_compute; reflexivity). set (h := qf 1 4) in *. clearbody a b h.
  transitivity ((a - b) * h * (h * (1 + 1 + 1 + 1)))%Qc; [ring|rewrite F; ring].
Qed.
Lemma sign_pow : forall k, (qz (-1) ^ k = 1 \/ qz (-1) ^ k = qz (-1))%Qc.
Proof. induction k as [|k [IH|IH]]; [left; reflexivity|right|left]; cbn [Qcpower]; rewrite IH; apply Qc_is_canon; vm_compute; reflexivity. Qed.
Lemma wide_second : forall k, moment_stat 4 (S (S k)) (wide 1) (wide 0) = 0%Qc.
Proof.
  intro k. unfold moment_stat. rewrite !mean_four. unfold wide. cbn [Nat.sub nth Qcpower].
  assert (O : forall k, (qz 1 ^ k = 1)%Qc) by (intro m; induction m as [|m IH]; [reflexivity|cbn [Qcpower]; rewrite IH; apply Qc_is_canon; vm_compute; reflexivity]).
  rewrite O. destruct (sign_pow k) as [-> | ->]; apply Qc_is_canon; vm_compute; reflexivity.
Qed.
Theorem C170_other_degrees_partial :
  exists N Y, (forall j, j < 2 -> mean N (Y j) = 0%Qc) /\ forall K pinv enum J alpha, 3 <= K -> data_order N pinv K Y enum J alpha 2 = Ok [1; 0].
Proof.
  exists 4, wide. split.
  - intros j Hj. destruct j as [|[|j]]; [apply Qc_is_canon; vm_compute; reflexivity|apply Qc_is_canon; vm_compute; reflexivity|lia].
  - intros K pinv enum J alpha HK. destruct K as [|[|[|k]]]; try lia. rewrite order_two, wide_first, wide_second.
    assert (P : (0 < qabs ((qz 2 ^ S k - qz (-1) ^ S k) * qf 1 4))%Qc).
    { apply qabs_pos. intro Z. assert (G : (1 < qz 2 ^ S k)%Qc).
      { clear. induction k as [|k IH]; [reflexivity|]. cbn [Qcpower] in *. set (a := (qz 2 * qz 2 ^ k)%Qc) in *. clearbody a. replace (qz 2 * a)%Qc with (a + a)%Qc by (replace (qz 2) with (1 + 1)%Qc by (apply Qc_is_canon; vm_compute; reflexivity); ring). qclra. }
      assert (D : (qz 2 ^ S k - qz (-1) ^ S k = 0)%Qc) by (destruct (Qcmult_integral _ _ Z) as [D|D]; [exact D|apply (f_equal this) in D; vm_compute in D; discriminate D]).
      assert (L : (qz (-1) ^ S k <= 1)%Qc) by (destruct (sign_pow (S k)) as [-> | ->]; vm_compute; discriminate). clear Z. qclra. }
    replace (qltb _ _) with true; [reflexivity|]. symmetry. apply qltb_lt. replace (qabs 0) with 0%Qc by (symmetry; apply qabs_0; reflexivity). unfold qmin.
    replace (qltb 0 (qz 100000)) with true by (vm_compute; reflexivity). destruct (qltb _ (qz 100000)); [exact P|reflexivity].
Qed.
Print Assumptions C170_other_degrees_partial.
Example C170_example : data_order 16 (pinv0 16) 2 exx (fun l => l) 3 (qf 1 2) 4 = Ok [0; 1; 2; 3] /\
  data_order 16 (pinv0 16) 2 (fun j => exx (3 - j)) (fun l => l) 3 (qf 1 2) 4 = Ok [0; 1; 2; 3] /\ data_order 16 (pinv0 16) 4 (fun j => exx (3 - j)) (fun l => l) 3 (qf 1 2) 4 = Ok [3; 2; 0; 1].
Proof. split; [vm_compute; reflexivity|]. split; vm_compute; reflexivity. Qed.

(** C171.  The order depends on the rows only through averages: reordering the rows, repeating all of them equally
    often, or another solver of the normal equations, leaves it unchanged. *)
Theorem C171_rows :
  forall N N' (s : nat -> nat) pinv pinv' K Y enum J alpha n, (forall l, Permutation (enum l) l) -> normal_equations N pinv -> normal_equations N' pinv' ->
  0 < N -> 0 < N' -> (forall r, r < N' -> s r < N) -> (forall h : nat -> Qc, mean N' (fun r => h (s r)) = mean N h) ->
  data_order N' pinv' K (fun j r => Y j (s r)) enum J alpha n = data_order N pinv K Y enum J alpha n.
Proof. exact order_rows. Qed.
Print Assumptions C171_rows.
Theorem C171_permuted_rows :
  forall N (s : nat -> nat) pinv K Y enum J alpha n, (forall l, Permutation (enum l) l) -> normal_equations N pinv -> 0 < N -> Permutation (map s (seq 0 N)) (seq 0 N) ->
  data_order N pinv K (fun j r => Y j (s r)) enum J alpha n = data_order N pinv K Y enum J alpha n.
Proof.
  intros N s pinv K Y enum J alpha n HE NE HN P. apply order_rows; try assumption.
  - intros r Hr. assert (I : In (s r) (seq 0 N)) by (apply (Permutation_in _ P); apply in_map; apply in_seq; lia). apply in_seq in I. lia.
  - intro h. unfold mean. f_equal. unfold sumn. rewrite <- (sumf_perm _ h _ _ P). unfold sumf. rewrite map_map. reflexivity.
Qed.
Print Assumptions C171_permuted_rows.
Lemma repeated_mean : forall m N (h : nat -> Qc), 0 < N -> sumn (m * N) (fun r => h (r mod N)) = (qn m * sumn N h)%Qc.
Proof.
  intros m N h HN. induction m as [|m IH]; [unfold sumn, sumf; cbn; replace (qn 0) with 0%Qc by reflexivity; ring|].
  rewrite qn_S. replace (S m * N) with (m * N + N) by lia. unfold sumn in *. rewrite seq_app. unfold sumf in *. rewrite map_app, qsum_app, IH. rewrite Nat.add_0_l.
  replace (map (fun r => h (r mod N)) (seq (m * N) N)) with (map h (seq 0 N)); [ring|].
  replace (seq (m * N) N) with (map (fun r => r + m * N) (seq 0 N)).
  - rewrite map_map. apply map_ext_in. intros r Hr. apply in_seq in Hr. rewrite Nat.mod_add, Nat.mod_small by lia. reflexivity.
  - clear. assert (G : forall b k a, map (fun r => r + b) (seq a k) = seq (a + b) k) by (intro b; induction k as [|k IH]; intro a; [reflexivity|cbn [seq map]; rewrite IH; reflexivity]). apply G.
Qed.
Theorem C171_repeated_rows :
  forall N m pinv pinv' K Y enum J alpha n, (forall l, Permutation (enum l) l) -> normal_equations N pinv -> normal_equations (m * N) pinv' -> 0 < N -> 0 < m ->
  data_order (m * N) pinv' K (fun j r => Y j (r mod N)) enum J alpha n = data_order N pinv K Y enum J alpha n.
Proof.
  intros N m pinv pinv' K Y enum J alpha n HE NE NE' HN Hm. apply order_rows; try assumption; [nia|intros; apply Nat.mod_upper_bound; lia|].
  intro h. unfold mean. rewrite (repeated_mean m N h HN), qn_mult. field. split; apply qn_nonzero; assumption.
Qed.
Print Assumptions C171_repeated_rows.
Example C171_example : data_order 16 (pinv0 16) 4 (fun j r => exx j (15 - r)) (fun l => l) 3 (qf 1 2) 4 = Ok [0; 1; 3; 2] /\
  data_order 32 (pinv0 32) 4 (fun j r => exx j (r mod 16)) (fun l => l) 3 (qf 1 2) 4 = Ok [0; 1; 3; 2].
Proof.
  split.
  - rewrite C171_permuted_rows; [vm_compute; reflexivity|intro; apply Permutation_refl|apply pinv0_normal|lia|]. exact (Permutation_sym (Permutation_rev (seq 0 16))).
  - rewrite (C171_repeated_rows 16 2 (pinv0 16) (pinv0 32)); [vm_compute; reflexivity|intro; apply Permutation_refl|apply pinv0_normal|apply pinv0_normal|lia|lia].
Qed.
