(** * CAM-UV on data: bound on the explanatory variables, direct causes (C110, C182, C183) *)
From Coq Require Import Reals Arith List Lia Lra Bool Permutation QArith Qcanon.
From Verif Require Import Prelude Lib LibR Loop SpecMeasure SpecResit SpecCam SpecCAMUV ModelRCD ModelCAMUV ModelCamData ProofKernelMI ProofResitData ProofResitData2 ProofCAMUV3 ProofCamData ProofCamData2 ProofCamData3 Props_CAMUV Props_ResitData.
Import ListNotations.
Open Scope R_scope.

(** C110, with the order of the search: larger sets are used only in passes that begin when the smaller ones are used up. *)
Theorem C110_smaller_sets_first : forall d maxnum hsic thr pk ind value iter P B, (forall l, Permutation (iter l) l) ->
  cam_fit d maxnum hsic thr pk ind value iter = Ok (P, B) ->
  let forbidden a b := match pk with None => False | Some l => In (a, b) l end in
  exists Q, found_in_order d hsic thr forbidden ind value iter (Nat.max 2 maxnum) Q /\ pruned d ind Q P.
Proof.
  intros d maxnum hsic thr pk ind value iter P B IP E forb. unfold cam_fit in E. destruct (maxnum =? 0)%nat; [discriminate|]. unfold find_parents in E.
  destruct (loop _ _ _) as [s|Q] eqn:EL; [discriminate|]. injection E as <- _. exists Q. split; [exact (loop_found d maxnum hsic thr pk ind value iter IP _ Q EL)|apply ProofCAMUV2.prune_pruned; exact value].
Qed.
Print Assumptions C110_smaller_sets_first.

(** ** C182 *)
Lemma loop_same : forall (S T : Type) (f g : S -> S + T) (Inv : S -> Prop), (forall s, Inv s -> f s = g s) -> (forall s s', Inv s -> f s = inl s' -> Inv s') ->
  forall k s, Inv s -> loop f k s = loop g k s /\ (forall s', loop f k s = inl s' -> Inv s').
Proof.
  intros S T f g Inv E I k. induction k as [|k IH]; intros s Hs; cbn [loop]; [split; [apply E; exact Hs|intros s' H; exact (I s s' Hs H)]|].
  destruct (IH s Hs) as [A B]. rewrite <- A. destruct (loop f k s) as [s1|r]; [|split; [reflexivity|discriminate]].
  exact (IH s1 (B s1 eq_refl)).
Qed.
(** C182, refuted.  Full statement: num_explanatory_vals is the maximum number of explanatory variables.  The values 1 and 2 always give
    the same result (the size of the tested sets, which includes the child, starts at 2 and is compared afterwards). *)
Theorem C182_one_is_two_refuted : forall d hsic thr pk ind value iter, cam_fit d 1 hsic thr pk ind value iter = cam_fit d 2 hsic thr pk ind value iter.
Proof.
  intros d hsic thr pk ind value iter. unfold cam_fit. cbn [Nat.eqb]. change (cam_top d 2) with (cam_top d 1). unfold find_parents.
  destruct (loop_same _ _ (cam_step d 1 hsic thr pk ind value iter (neighborhoods d ind)) (cam_step d 2 hsic thr pk ind value iter (neighborhoods d ind)) (fun st => (2 <= snd st)%nat)) with (k := S (Nat.log2 (cam_top d 1))) (s := (no_sets, 2%nat)) as [E _].
  - intros [P t] Ht. cbn [snd] in Ht. unfold cam_step. destruct (fold_left _ _ _) as [P' ch]. destruct ch; [reflexivity|]. replace (1 <? S t)%nat with true by (symmetry; apply Nat.ltb_lt; lia). replace (2 <? S t)%nat with true by (symmetry; apply Nat.ltb_lt; lia). reflexivity.
  - intros [P t] s' Ht E. cbn [snd] in Ht. unfold cam_step in E. destruct (fold_left _ _ _) as [P' ch]. destruct ch; [injection E as <-; cbn; lia|]. destruct (1 <? S t)%nat; [discriminate|]. injection E as <-. cbn. lia.
  - cbn. lia.
  - rewrite E. reflexivity.
Qed.
Print Assumptions C182_one_is_two_refuted.

(** ** C183 *)
(** An effect that is a sum of functions of m independent causes plus noise, exact regressions and tests, functions that are not constant, and a
    cause that does not look like an effect of the variable it causes, whichever of the other contributions are removed from it:
    CAM-UV reports exactly the direct causes, for every number of causes and whatever num_explanatory_vals. *)
Theorem C183_independent_causes_right : forall reg hsic_p alpha iter maxnum n m f U X, (0 < n)%nat -> (1 <= m)%nat -> (1 <= maxnum)%nat -> (0 <= alpha)%Qc ->
  (forall l, Permutation (iter l) l) -> exact_gam reg -> exact_p_value alpha hsic_p ->
  mutually_independent n (S m) U ->
  (forall i s, (i < m)%nat -> (s < n)%nat -> X i s = U i s) ->
  (forall s, (s < n)%nat -> X m s = rsum m (fun i => f i (U i s)) + U m s) ->
  (forall i, (i < m)%nat -> exists s t, (s < n)%nat /\ (t < n)%nat /\ f i (U i s) <> f i (U i t)) ->
  (forall i Q h, (i < m)%nat -> NoDup Q -> (forall x, In x Q -> (x < m)%nat) -> ~ In i Q -> additive_mean n 1 (values X [m]) (X i) h ->
     ~ independent n (residual_of X [m] i h) (fun s => rsum m (fun j => if existsb (Nat.eqb j) Q then 0 else f j (U j s)) + U m s)) ->
  exists P B, camuv_data reg hsic_p alpha n X iter maxnum (S m) = Ok (P, B) /\
    forall i j, (i <= m)%nat -> (j <= m)%nat -> B i j = Some (if (i =? m) && (j <? m) then 1%Qc else 0%Qc)%nat.
Proof.
  intros reg hp alpha iter maxnum n m f U X Hn Hm HX H0 IP HR HP MI EX EY HD HW. unfold camuv_data. apply star_found; try assumption.
  - intros i j Hi Hj N. exact (causes_independent reg hp alpha n m U X Hn Hm HP MI EX i j Hi Hj N).
  - intros Q i. apply (effect_dependent reg hp alpha n m f U X Hn Hm HR HP MI EX EY HD Q i).
  - intros A qs. apply (value_effect reg hp alpha n m f U X Hn Hm HR HP MI EX EY A qs).
  - intros i Q. apply (value_cause reg hp alpha n m f U X Hn Hm HR HP MI EX EY HW i Q).
Qed.
Print Assumptions C183_independent_causes_right.

(** *** An exact additive regressor exists *)
Section Projection.
  Variables (n L : nat) (v : nat -> list R).
  Hypothesis Hn : (0 < n)%nat.
  Fixpoint projection (ws : list (list R -> R)) (y : nat -> R) : list R -> R :=
    match ws with
    | [] => fun _ => 0
    | w :: ws =>
        let zy := projection ws y in
        let zw := projection ws (fun s => w (v s)) in
        let den := average n (fun s => (w (v s) - zw (v s)) * (w (v s) - zw (v s))) in
        if Req_EM_T den 0 then zy
        else fun l => zy l + average n (fun s => (y s - zy (v s)) * (w (v s) - zw (v s))) / den * (w l - zw l)
    end.
  Definition additive_form (h : list R -> R) : Prop := exists hk : nat -> R -> R, forall w, length w = L -> h w = rsum L (fun k => hk k (nth k w 0)).
  Lemma form_zero : additive_form (fun _ => 0).
  Proof. exists (fun _ _ => 0). intros w _. symmetry. apply rsum_0. reflexivity. Qed.
  Lemma form_comb : forall h h' h'' c, additive_form h -> additive_form h' -> additive_form h'' -> additive_form (fun l => h l + c * (h' l - h'' l)).
  Proof.
    intros h h' h'' c [a A] [a' A'] [a'' A'']. exists (fun k x => a k x + c * (a' k x - a'' k x)). intros w Hw. rewrite (A w Hw), (A' w Hw), (A'' w Hw).
    rewrite rsum_plus, rsum_scal, rsum_minus. ring.
  Qed.
  Lemma projection_form : forall ws y, (forall w, In w ws -> additive_form w) -> additive_form (projection ws y).
  Proof.
    induction ws as [|w ws IH]; intros y H; [exact form_zero|]. cbn [projection]. assert (A : forall y, additive_form (projection ws y)) by (intro y'; apply IH; intros w' Hw; apply H; right; exact Hw).
    destruct (Req_EM_T _ 0); [apply A|]. apply form_comb; [apply A|apply H; left; reflexivity|apply A].
  Qed.
  Lemma projection_orthogonal : forall ws y w, In w ws -> average n (fun s => (y s - projection ws y (v s)) * w (v s)) = 0.
  Proof.
    induction ws as [|w0 ws IH]; intros y w H; [destruct H|]. cbn [projection]. set (zy := projection ws y). set (zw := projection ws (fun s => w0 (v s))). set (den := average n (fun s => (w0 (v s) - zw (v s)) * (w0 (v s) - zw (v s)))).
    (* the new direction is orthogonal to the projections on the old ones *)
    assert (O : forall y y' , average n (fun s => (y s - projection ws y (v s)) * projection ws y' (v s)) = 0).
    { intros y1. assert (G : forall us, (forall u, In u us -> average n (fun s => (y1 s - projection ws y1 (v s)) * u (v s)) = 0) -> forall y', average n (fun s => (y1 s - projection ws y1 (v s)) * projection us y' (v s)) = 0).
      { induction us as [|u us IHu]; intros Hu y'; cbn [projection]; [rewrite (average_ext n _ (fun _ => 0)) by (intros; ring); apply average_const; exact Hn|].
        assert (Hu' : forall u0, In u0 us -> average n (fun s => (y1 s - projection ws y1 (v s)) * u0 (v s)) = 0) by (intros; apply Hu; right; assumption).
        destruct (Req_EM_T _ 0); [apply IHu; exact Hu'|]. set (c := _ / _). rewrite (average_ext n _ (fun s => (y1 s - projection ws y1 (v s)) * projection us y' (v s) + (c * ((y1 s - projection ws y1 (v s)) * u (v s)) + - c * ((y1 s - projection ws y1 (v s)) * projection us (fun s => u (v s)) (v s))))) by (intros; ring).
        rewrite !average_plus, !average_scal, IHu, IHu by exact Hu'. rewrite (Hu u (or_introl eq_refl)). ring. }
      intro y'. apply G. intros u Hu. apply IH. exact Hu. }
    destruct (Req_EM_T den 0) as [Z|NZ].
    - destruct H as [<-|H]; [|apply IH; exact H].
      assert (W : forall s, (s < n)%nat -> w0 (v s) - zw (v s) = 0) by (intros s Hs; apply (average_zero_sq n (fun s => w0 (v s) - zw (v s)) Hn); [|exact Hs]; rewrite <- Z; apply average_ext; intros; ring).
      rewrite (average_ext n _ (fun s => (y s - zy (v s)) * zw (v s))) by (intros s Hs; replace (w0 (v s)) with (zw (v s)) by (pose proof (W s Hs); lra); reflexivity). apply O.
    - set (c := average n (fun s => (y s - zy (v s)) * (w0 (v s) - zw (v s))) / den).
      destruct H as [<-|H].
      + rewrite (average_ext n _ (fun s => (y s - zy (v s)) * (w0 (v s) - zw (v s)) + (- c * ((w0 (v s) - zw (v s)) * (w0 (v s) - zw (v s))) + ((y s - zy (v s)) * zw (v s) + - c * ((w0 (v s) - zw (v s)) * zw (v s)))))) by (intros; ring).
        rewrite !average_plus, !average_scal. fold den. pose proof (O y (fun s => w0 (v s))) as O1. pose proof (O (fun s => w0 (v s)) (fun s => w0 (v s))) as O2. cbv beta in O2. fold zy zw in O1. fold zw in O2. rewrite O1, O2. unfold c. field. exact NZ.
      + rewrite (average_ext n _ (fun s => (y s - zy (v s)) * w (v s) + - c * ((w0 (v s) - zw (v s)) * w (v s)))) by (intros; ring).
        rewrite average_plus, average_scal. unfold zy. rewrite (IH y w H). unfold zw. rewrite (IH (fun s => w0 (v s)) w H). ring.
  Qed.
End Projection.
Definition column_indicator (v : nat -> list R) (k t : nat) (l : list R) : R := if Req_EM_T (nth k l 0) (nth k (v t) 0) then 1 else 0.
Definition least_squares_gam (n : nat) (v : nat -> list R) (y : nat -> R) : list R -> R :=
  projection n v (flat_map (fun k => map (column_indicator v k) (seq 0 n)) (seq 0 (length (v 0%nat)))) y.
Example C183_example_regressor : exact_gam least_squares_gam.
Proof.
  intros n L v y Hn HL Hv. unfold least_squares_gam. rewrite (Hv 0%nat Hn). set (ws := flat_map _ _).
  assert (Iw : forall k t, (k < L)%nat -> (t < n)%nat -> In (column_indicator v k t) ws) by (intros k t Hk Ht; unfold ws; apply in_flat_map; exists k; split; [apply in_seq; lia|apply in_map, in_seq; lia]).
  split.
  - apply projection_form. intros w Hw. unfold ws in Hw. apply in_flat_map in Hw. destruct Hw as (k & Hk & Hw). apply in_seq in Hk. apply in_map_iff in Hw. destruct Hw as (t & <- & Ht).
    exists (fun i x => if (i =? k)%nat then (if Req_EM_T x (nth k (v t) 0) then 1 else 0) else 0). intros w Lw. symmetry. rewrite (rsum_single L _ k ltac:(lia)); [rewrite Nat.eqb_refl; reflexivity|].
    intros i _ N. apply Nat.eqb_neq in N. rewrite N. reflexivity.
  - intros k g Hk. set (r := fun s => y s - projection n v ws y (v s)). set (u := fun s => nth k (v s) 0).
    set (cnt := fun a => rsum n (fun s => if Req_EM_T (u s) a then 1 else 0)).
    rewrite (average_ext n _ (fun s => rsum n (fun t => g (u t) / cnt (u t) * (r s * column_indicator v k t (v s))))).
    + rewrite (average_rsum n n (fun t s => g (u t) / cnt (u t) * (r s * column_indicator v k t (v s)))). apply rsum_0. intros t Ht. rewrite average_scal. unfold r.
      rewrite (projection_orthogonal n v Hn ws y (column_indicator v k t) (Iw k t Hk Ht)). ring.
    + intros s Hs. fold (u s). fold (r s). rewrite <- (spread_over Req_EM_T n u g s Hs) at 1. rewrite <- rsum_scal. apply rsum_ext. intros t Ht. unfold column_indicator. fold (u s) (u t). unfold cnt. destruct (Req_EM_T (u s) (u t)); unfold Rdiv; ring.
Qed.

(** *** The eight rows x2 = x0 + x1 + e of C180 meet the hypotheses: here CAM-UV is right where RESIT is not. *)
Lemma sum_rows_backwards : forall i h, (i < 2)%nat -> additive_mean 8 1 (values sum_rows [2%nat]) (sum_rows i) h -> forall s, (s < 8)%nat -> h (values sum_rows [2%nat] s) = sum_rows 2 s / 3.
Proof.
  intros i h Hi M s Hs. assert (M' : additive_mean 8 1 (values sum_rows [2%nat]) (sum_rows i) (fun l => nth 0 l 0 / 3)).
  { split; [exists (fun _ x => x / 3); intros w _; cbn [rsum]; ring|]. intros k g Hk. replace k with 0%nat by lia. do 2 (destruct i as [|i]; [unfold average, values; cbn; field|]). lia. }
  rewrite (additive_mean_unique 8 1 (values sum_rows [2%nat]) (sum_rows i) h _ ltac:(lia) ltac:(reflexivity) M M' s Hs). reflexivity.
Qed.
Example C183_example_hypotheses :
  (forall i, (i < 2)%nat -> exists s t, (s < 8)%nat /\ (t < 8)%nat /\ bits i s <> bits i t) /\
  (forall i Q h, (i < 2)%nat -> NoDup Q -> (forall x, In x Q -> (x < 2)%nat) -> ~ In i Q -> additive_mean 8 1 (values sum_rows [2%nat]) (sum_rows i) h ->
     ~ independent 8 (residual_of sum_rows [2%nat] i h) (fun s => rsum 2 (fun j => if existsb (Nat.eqb j) Q then 0 else bits j s) + bits 2 s)).
Proof.
  split.
  - intros i Hi. exists 0%nat, 3%nat. split; [lia|]. split; [lia|]. do 2 (destruct i as [|i]; [cbn; lra|]). lia.
  - intros i Q h Hi ND HQ Ni M I. pose proof (sum_rows_backwards i h Hi M) as E.
    assert (QQ : Q = [] \/ Q = [1 - i]%nat).
    { destruct Q as [|a [|b Q]]; [left; reflexivity|right|exfalso].
      - f_equal. pose proof (HQ a (or_introl eq_refl)). assert (a <> i) by (intros ->; apply Ni; left; reflexivity). lia.
      - pose proof (HQ a (or_introl eq_refl)). pose proof (HQ b (or_intror (or_introl eq_refl))). assert (a <> i) by (intros ->; apply Ni; left; reflexivity). assert (b <> i) by (intros ->; apply Ni; right; left; reflexivity).
        assert (a = b) by lia. subst b. inversion ND as [|? ? Na _]; subst. apply Na. left. reflexivity. }
    pose proof (I (fun r => r * r) (fun x => x * x)) as C. pose proof (I (fun r => r) (fun x => x)) as C1. unfold residual_of, average in C, C1. cbn [rsum] in C, C1. rewrite !E in C, C1 by lia. clear E M I ND HQ Ni.
    destruct QQ as [-> | ->]; do 2 (destruct i as [|i]; [cbn in C, C1; lra|]); lia.
Qed.
Example C183_example_fit : forall iter, (forall l, Permutation (iter l) l) ->
  exists P B, camuv_data least_squares_gam deciding_p_value (qf 1 20) 8 sum_rows iter 1 3 = Ok (P, B) /\
    forall i j, (i <= 2)%nat -> (j <= 2)%nat -> B i j = Some (if (i =? 2) && (j <? 2) then 1%Qc else 0%Qc)%nat.
Proof.
  intros iter IP. destruct C183_example_hypotheses as [A B].
  apply (C183_independent_causes_right least_squares_gam deciding_p_value (qf 1 20) iter 1 8 2 (fun _ x => x) bits sum_rows); try lia; try assumption.
  - apply Qclt_le_weak. apply qltb_lt. vm_compute. reflexivity.
  - exact C183_example_regressor.
  - exact C180_example_p_value.
  - exact bits_independent.
  - intros i s Hi Hs. do 2 (destruct i as [|i]; [reflexivity|]). lia.
  - intros s Hs. do 8 (destruct s as [|s]; [cbn; lra|]). lia.
Qed.
(** C182, refuted in the other direction: with num_explanatory_vals=1 two explanatory variables are reported. *)
Theorem C182_more_than_the_maximum_refuted : exists n (X : nat -> nat -> R) reg hsic_p alpha, exact_gam reg /\ exact_p_value alpha hsic_p /\
  forall iter, (forall l, Permutation (iter l) l) -> exists P B, camuv_data reg hsic_p alpha n X iter 1 3 = Ok (P, B) /\ B 2%nat 0%nat = Some 1%Qc /\ B 2%nat 1%nat = Some 1%Qc.
Proof.
  exists 8%nat, sum_rows, least_squares_gam, deciding_p_value, (qf 1 20). split; [exact C183_example_regressor|]. split; [exact C180_example_p_value|].
  intros iter IP. destruct (C183_example_fit iter IP) as (P & B & E & H). exists P, B. split; [exact E|]. split; rewrite H by lia; reflexivity.
Qed.
Print Assumptions C182_more_than_the_maximum_refuted.

(** *** x0 -> x1, x0 -> x2, x1 -> x2 *)
Definition tri_rows (j s : nat) : R := nth s (match j with O => [0; 1; 0; 1; 0; 1; 0; 1] | S O => [0; 1; 1; 2; 0; 1; 1; 2] | _ => [0; 1; 0; 3; 1; 2; 1; 4] end) 0.
Definition poly (c : list R) (x : R) : R := fold_right (fun a r => a + x * r) 0 c.
Definition tri_fit (c : nat) (A : list nat) (l : list R) : R :=
  match c, A with
  | 0%nat, [1%nat] => poly [0; 1 / 2] (nth 0 l 0)
  | 0%nat, [2%nat] => poly [0; - 7 / 12; 103 / 72; - 7 / 12; 5 / 72] (nth 0 l 0)
  | 1%nat, [0%nat] => poly [1 / 2; 1] (nth 0 l 0)
  | 1%nat, [2%nat] => poly [1 / 2; 19 / 24; - 167 / 144; 5 / 8; - 13 / 144] (nth 0 l 0)
  | 1%nat, _ => poly [1 / 2; 1 / 2] (nth 0 l 0) + poly [0; 13 / 12; - 15 / 8; 11 / 12; - 1 / 8] (nth 1 l 0)
  | 2%nat, [0%nat] => poly [1 / 2; 2] (nth 0 l 0)
  | 2%nat, _ => poly [1 / 2; - 1 / 2; 1] (nth 0 l 0)
  | _, _ => 0
  end.
Definition tri_cases : list (nat * list nat) := [(0, [1]); (0, [2]); (1, [0]); (1, [2]); (1, [0; 2]); (2, [0]); (2, [1])]%nat.
Lemma tri_fits : forall c A, In (c, A) tri_cases -> additive_mean 8 (length A) (values tri_rows A) (tri_rows c) (tri_fit c A).
Proof.
  intros c A H. repeat (destruct H as [H|H]; [injection H as <- <-; split|]); try destruct H.
  all: try (match goal with |- exists hk, forall w, _ -> tri_fit ?c ?A w = _ => exists (fun _ x => tri_fit c A [x]) end; intros w _; cbn; ring).
  all: try (intros k g Hk; cbn [length] in Hk; replace k with 0%nat by lia; unfold average, values; cbn; field).
  - exists (fun k x => if (k =? 0)%nat then poly [1 / 2; 1 / 2] x else poly [0; 13 / 12; - 15 / 8; 11 / 12; - 1 / 8] x). intros w _. cbn. ring.
  - intros k g Hk. cbn [length] in Hk. do 2 (destruct k as [|k]; [unfold average, values; cbn; field|]). lia.
Qed.

Definition tri_residual (c : nat) (A : list nat) (s : nat) : R := match A with [] => tri_rows c s | _ => tri_rows c s - tri_fit c A (values tri_rows A s) end.
Lemma tri_residuals : forall reg c A, exact_gam reg -> A = [] \/ In (c, A) tri_cases -> forall s, (s < 8)%nat -> gam_residual reg 8 tri_rows c A s = tri_residual c A s.
Proof.
  intros reg c A HR H s Hs. destruct A as [|a A]; [reflexivity|]. destruct H as [H|H]; [discriminate|]. pose proof (tri_fits c _ H) as F. set (A' := a :: A) in *.
  assert (Lv : forall t, (t < 8)%nat -> length (values tri_rows A' t) = length A') by (intros; unfold values; apply map_length).
  change (gam_residual reg 8 tri_rows c A' s) with (tri_rows c s - reg 8%nat (values tri_rows A') (tri_rows c) (values tri_rows A' s)).
  change (tri_residual c A' s) with (tri_rows c s - tri_fit c A' (values tri_rows A' s)). f_equal. f_equal.
  apply (additive_mean_unique 8 (length A') (values tri_rows A') (tri_rows c)); [lia|exact Lv|apply HR; [lia|cbn; lia|exact Lv]|exact F|exact Hs].
Qed.
Lemma tri_dependent : forall reg c A d B f g, exact_gam reg -> (A = [] \/ In (c, A) tri_cases) -> (B = [] \/ In (d, B) tri_cases) ->
  average 8 (fun s => f (tri_residual c A s) * g (tri_residual d B s)) <> average 8 (fun s => f (tri_residual c A s)) * average 8 (fun s => g (tri_residual d B s)) ->
  ~ independent 8 (gam_residual reg 8 tri_rows c A) (gam_residual reg 8 tri_rows d B).
Proof.
  intros reg c A d B f g HR HA HB N I. apply N. pose proof (tri_residuals reg c A HR HA) as EA. pose proof (tri_residuals reg d B HR HB) as EB.
  rewrite <- (average_ext 8 (fun s => f (gam_residual reg 8 tri_rows c A s) * g (gam_residual reg 8 tri_rows d B s))) by (intros s Hs; rewrite EA, EB by exact Hs; reflexivity). rewrite I. f_equal; apply average_ext; intros s Hs; rewrite ?EA, ?EB by exact Hs; reflexivity.
Qed.
(** C183, refuted.  Full statement: with exact regressions and tests CAM-UV reports exactly the direct causes when no variable is hidden.
    x0 -> x1 -> x2 and x0 -> x2, all noises independent, eight rows: the edge x0 -> x1 is found, and from then on no set of variables that contains
    both is tested; both pairs with x2 are reported as having a hidden common cause or intermediate variable, whatever num_explanatory_vals. *)
Theorem C183_triangle_refuted : exists (X U : nat -> nat -> R), mutually_independent 8 3 U /\
  (forall s, (s < 8)%nat -> X 0%nat s = U 0%nat s /\ X 1%nat s = X 0%nat s + U 1%nat s /\ X 2%nat s = X 1%nat s * (X 1%nat s - 1) + X 0%nat s + U 2%nat s) /\
  forall reg hsic_p alpha iter maxnum, exact_gam reg -> exact_p_value alpha hsic_p -> (0 <= alpha)%Qc -> (forall l, Permutation (iter l) l) -> (1 <= maxnum)%nat ->
  exists P B, camuv_data reg hsic_p alpha 8 X iter maxnum 3 = Ok (P, B) /\ B 1%nat 0%nat = Some 1%Qc /\
    B 2%nat 0%nat = None /\ B 0%nat 2%nat = None /\ B 2%nat 1%nat = None /\ B 1%nat 2%nat = None.
Proof.
  exists tri_rows, bits. split; [exact bits_independent|]. split.
  - intros s Hs. do 8 (destruct s as [|s]; [cbn; lra|]). lia.
  - intros reg hp alpha iter maxnum HR HP H0 IP HX.
    assert (Hn : (0 < 8)%nat) by lia.
    assert (NI : forall i A j B, ~ independent 8 (gam_residual reg 8 tri_rows i A) (gam_residual reg 8 tri_rows j B) -> cam_ind reg hp alpha 8 tri_rows i A j B = false).
    { intros i A j B N. destruct (cam_ind reg hp alpha 8 tri_rows i A j B) eqn:E; [|reflexivity]. exfalso. apply N. exact (proj1 (ind_iff reg hp alpha 8 tri_rows Hn HP i A j B) E). }
    assert (NV : forall c A d B, ~ independent 8 (gam_residual reg 8 tri_rows c A) (gam_residual reg 8 tri_rows d B) -> exists q, cam_value reg hp 8 tri_rows c A [(d, B)] = Some q /\ ~ (alpha < q)%Qc).
    { intros c A d B N. destruct (value_iff reg hp alpha 8 tri_rows Hn HP c A [(d, B)]) as (q & E & Z). exists q. split; [exact E|]. intro C. apply N. apply Z in C.
      apply (independent_comp 8 (gam_residual reg 8 tri_rows c A) _ (fun x => x) (fun l => nth 0 l 0) _ _ C); reflexivity. }
    assert (D : forall f g c A d B, (A = [] \/ In (c, A) tri_cases) -> (B = [] \/ In (d, B) tri_cases) ->
      average 8 (fun s => f (tri_residual c A s) * g (tri_residual d B s)) <> average 8 (fun s => f (tri_residual c A s)) * average 8 (fun s => g (tri_residual d B s)) ->
      ~ independent 8 (gam_residual reg 8 tri_rows c A) (gam_residual reg 8 tri_rows d B)) by (intros; eapply tri_dependent; eassumption).
    pose (one := fun x : R => x). pose (two := fun x : R => x * x).
    destruct (tri_found alpha maxnum (cam_ind reg hp alpha 8 tri_rows) (cam_value reg hp 8 tri_rows) iter H0 IP HX) as (P & B & E & R).
    + apply NI, (D one one); [cbn; tauto..|]. unfold average, tri_residual, one; cbn; lra.
    + apply NI, (D one one); [cbn; tauto..|]. unfold average, tri_residual, one; cbn; lra.
    + apply NI, (D one one); [cbn; tauto..|]. unfold average, tri_residual, one; cbn; lra.
    + apply NI, (D one one); [cbn; tauto..|]. unfold average, tri_residual, one; cbn; lra.
    + apply NI, (D one one); [cbn; tauto..|]. unfold average, tri_residual, values, one; cbn; lra.
    + destruct (value_iff reg hp alpha 8 tri_rows Hn HP 1 [0%nat] [(0%nat, [])]) as (q & Eq & Z). exists q. split; [exact Eq|]. apply Z.
      apply (independent_comp 8 (bits 1) (bits 0) (fun x => x - 1 / 2) (fun x => [x])).
      * intros f g. unfold average. cbn. field.
      * intros s Hs. rewrite (tri_residuals reg 1 [0%nat] HR) by (cbn; tauto || exact Hs). do 8 (destruct s as [|s]; [unfold tri_residual, values; cbn; lra|]). lia.
      * reflexivity.
    + apply NV, (D two two); [cbn; tauto..|]. unfold average, tri_residual, values, two; cbn; lra.
    + apply NV, (D two one); [cbn; tauto..|]. unfold average, tri_residual, values, two, one; cbn; lra.
    + apply NV, (D two one); [cbn; tauto..|]. unfold average, tri_residual, values, two, one; cbn; lra.
    + apply NV, (D two one); [cbn; tauto..|]. unfold average, tri_residual, values, two, one; cbn; lra.
    + apply NV, (D two one); [cbn; tauto..|]. unfold average, tri_residual, values, two, one; cbn; lra.
    + apply NV, (D two two); [cbn; tauto..|]. unfold average, tri_residual, values, two; cbn; lra.
    + apply NV, (D one one); [cbn; tauto..|]. unfold average, tri_residual, values, one; cbn; lra.
    + exists P, B. split; [exact E|]. tauto.
Qed.
Print Assumptions C183_triangle_refuted.
(** The search on the eight rows of C183, with the order of the sets. *)
Example C110_example_order : forall iter, (forall l, Permutation (iter l) l) ->
  exists P B Q, camuv_data least_squares_gam deciding_p_value (qf 1 20) 8 sum_rows iter 1 3 = Ok (P, B) /\
    found_in_order 3 true (qf 1 20) (fun _ _ => False) (cam_ind least_squares_gam deciding_p_value (qf 1 20) 8 sum_rows) (cam_value least_squares_gam deciding_p_value 8 sum_rows) iter 2 Q /\ Q 2%nat 0%nat = true /\ Q 2%nat 1%nat = true.
Proof.
  intros iter IP. destruct (C183_example_fit iter IP) as (P & B & E & H). destruct (C110_smaller_sets_first _ _ _ _ _ _ _ _ _ _ IP E) as (Q & F & Pr). exists P, B, Q. split; [exact E|]. split; [exact F|].
  pose proof (H 2%nat 0%nat ltac:(lia) ltac:(lia)) as H20. pose proof (H 2%nat 1%nat ltac:(lia) ltac:(lia)) as H21. cbn in H20, H21.
  assert (PB : forall i j, B i j = Some 1%Qc -> P i j = true).
  { intros i j Z. unfold camuv_data, cam_fit in E. cbn [Nat.eqb] in E. destruct (find_parents _ _ _ _ _ _ _ _ _) as [P0|]; [|discriminate]. injection E as -> EB. rewrite <- EB in Z. unfold cam_adjacency in Z.
    destruct (cam_confounded _ _ _ _ _ _); [discriminate|]. destruct (P i j); [reflexivity|discriminate]. }
  split; apply Pr, PB; assumption.
Qed.
