(** * Property theorems: CAMUV and MultiGroupCAMUV with the F-correlation and several explanatory variables. *)
From Coq Require Import List Arith Lia Bool ZArith QArith Qcanon Permutation.
From Verif Require Import Prelude Spec Lib Loop ModelRCD ProofRCD ModelCAMUV ProofCAMUV SpecCAMUV ProofCAMUV2 ModelMGCamuv
  ModelCamFcorr ProofCamFcorr.
Import ListNotations.
Open Scope nat_scope.

(** ** C207 *)
(** The F-correlation of a column with a block is defined for a block of one column only. *)
Theorem C207_blocks_raise :
  forall n b, 2 <= n -> 1 <= b ->
  (f_correlation_shape n 1 n b = Ok tt <-> b = 1) /\
  (f_correlation_shape n 1 n b = Err ValueError <-> 2 <= b).
Proof.
  intros n b Hn Hb. unfold f_correlation_shape. rewrite Nat.eqb_refl. cbn [negb].
  rewrite cholesky_shape_spec by lia. cbn [Nat.eqb bind]. rewrite cholesky_shape_spec by lia.
  destruct (Nat.eqb_spec b 1); split; split; intro; try lia; try discriminate; try reflexivity.
Qed.
Print Assumptions C207_blocks_raise.
(** 50 samples against two columns raise, against one they do not; different numbers of samples raise. *)
Example C207_blocks_example :
  f_correlation_shape 50 1 50 2 = Err ValueError /\ f_correlation_shape 50 1 50 1 = Ok tt /\
  squared_dist_shape (49, 2) (1, 2) = Ok (98, 2) /\ f_correlation_shape 50 1 49 1 = Err ValueError.
Proof. repeat split; vm_compute; reflexivity. Qed.

Lemma fcorr_one : forall n single c A q, 2 <= n -> fcorr_value n single c A [q] = Ok (single c A [q]).
Proof.
  intros n single c A q Hn. unfold fcorr_value. cbn [length].
  rewrite (proj2 (proj1 (C207_blocks_raise n 1 Hn (le_n 1))) eq_refl). reflexivity.
Qed.
Lemma fcorr_many : forall n single c A qs, 2 <= n -> 2 <= length qs -> fcorr_value n single c A qs = Err ValueError.
Proof.
  intros n single c A qs Hn L. unfold fcorr_value.
  rewrite (proj2 (proj2 (C207_blocks_raise n (length qs) Hn ltac:(lia))) L). reflexivity.
Qed.
Lemma mgc_fold_one : forall D samples test c A q Xs mx, (forall X, In X Xs -> 2 <= samples X) ->
  foldM (fun mx X => let* f := fcorr_value (samples X) (test X) c A [q] in Ok (if nltb mx f then f else mx)) Xs mx =
  Ok (fold_left (fun mx f => if nltb mx f then f else mx) (map (fun X : D => test X c A [q]) Xs) mx).
Proof.
  intros D samples test c A q Xs. induction Xs as [|X Xs IH]; intros mx H; [reflexivity|]. cbn [foldM map fold_left].
  rewrite fcorr_one by (apply H; left; reflexivity). cbn [bind]. apply IH. intros; apply H; right; assumption.
Qed.
Lemma mgc_many : forall D samples test c A qs (Xs : list D), (forall X, In X Xs -> 2 <= samples X) -> Xs <> [] ->
  2 <= length qs -> mgc_value D samples test Xs c A qs = Err ValueError.
Proof.
  intros D samples test c A qs [|X Xs] H NE L; [congruence|]. unfold mgc_value. cbn [foldM].
  rewrite fcorr_many; [reflexivity|apply H; left; reflexivity|exact L].
Qed.

(** What both classes share: [value] raises for more than one column. *)
Lemma fit_large : forall d maxnum thr pk ind value total iter, (forall l, Permutation (iter l) l) ->
  (forall c A q, value c A [q] = Ok (total c A [q])) -> (forall c A qs, 2 <= length qs -> value c A qs = Err ValueError) ->
  3 <= maxnum ->
  let forbidden a b := match pk with None => False | Some l => In (a, b) l end in
  exists Q P B, cam_fit_e d 2 false thr pk ind value iter = Ok (P, B) /\
    discovered d false thr forbidden ind total iter 2 Q /\
    (forall K c, var_set d 2 K -> ~ establishes d false thr forbidden ind total iter Q K c) /\ pruned d ind Q P /\
    let bad := exists c p q, c < d /\ p < d /\ q < d /\ c <> p /\ c <> q /\ p <> q /\
        neighbours d ind c p /\ neighbours d ind c q /\ ~ forbidden p c /\ ~ forbidden q c /\
        (forall a b, In a [c; p; q] -> In b [c; p; q] -> a <> b -> Q a b = false) in
    (bad /\ cam_fit_e d maxnum false thr pk ind value iter = Err ValueError \/
     ~ bad /\ cam_fit_e d maxnum false thr pk ind value iter = Ok (P, B)).
Proof.
  intros d maxnum thr pk ind value total iter IP O M Hm forb.
  assert (cam_top d 2 < 2 ^ S (Nat.log2 (cam_top d 2))) as HK by (apply Nat.log2_spec; unfold cam_top; lia).
  assert (cam_top d maxnum < 2 ^ S (Nat.log2 (cam_top d maxnum))) as HK' by (apply Nat.log2_spec; unfold cam_top; lia).
  destruct (cam_terminates d 2 false thr pk ind total iter IP _ HK) as [Q EQ].
  destruct (search_stops d false thr pk ind value total iter IP O M 2 _ HK) as [r Er].
  destruct (search_stops d false thr pk ind value total iter IP O M maxnum _ HK') as [r' Er'].
  destruct (search_result d false thr pk ind value total iter IP O M 2 2 _ _ Q r (le_n 2) EQ Er) as [A _].
  destruct (search_result d false thr pk ind value total iter IP O M maxnum 2 _ _ Q r' (le_n 2) EQ Er') as [_ [B1 B2]].
  destruct (loop_disc d 2 false thr pk ind total iter IP _ _ EQ) as [D X].
  set (P := prune d ind Q). exists Q, P, (cam_adjacency P (cam_confounded d ind (neighborhoods d ind) P)).
  split; [|split; [|split; [|split]]].
  - unfold cam_fit_e. cbn [Nat.eqb]. cbn beta in Er. rewrite Er, (A (le_n 2)). reflexivity.
  - exact D.
  - intros K c V. apply (X 2 K c); [unfold top; cbn; lia|exact V].
  - apply prune_pruned. exact total.
  - cbn zeta.
    assert ((exists c p q, c < d /\ p < d /\ q < d /\ c <> p /\ c <> q /\ p <> q /\
        neighbours d ind c p /\ neighbours d ind c q /\ ~ forb p c /\ ~ forb q c /\
        (forall a b, In a [c; p; q] -> In b [c; p; q] -> a <> b -> Q a b = false)) <-> triple d pk ind Q) as T.
    { split; intros [c [p [q H]]]; exists c, p, q.
      - destruct H as [H1 [H2 [H3 [H4 [H5 [H6 [H7 [H8 [H9 [H10 H11]]]]]]]]]]. repeat (split; [assumption|]).
        split; [apply neighbours_iff; exact H7|]. split; [apply neighbours_iff; exact H8|]. split; [|exact H11].
        apply check_pk_iff; [exact d|exact ind|exact total|]. intros x [<-|[<-|[]]]; assumption.
      - destruct H as [H1 [H2 [H3 [H4 [H5 [H6 [H7 [H8 [H9 H10]]]]]]]]]. repeat (split; [assumption|]).
        split; [apply neighbours_iff; exact H7|]. split; [apply neighbours_iff; exact H8|].
        pose proof (proj1 (check_pk_iff d pk ind total _ _) H9) as C.
        split; [apply (C p); left; reflexivity|]. split; [apply (C q); right; left; reflexivity|exact H10]. }
    unfold cam_fit_e. rewrite (proj2 (Nat.eqb_neq maxnum 0)) by lia. cbn beta in Er'. rewrite Er'.
    destruct (triple_dec d false thr pk ind value total iter IP M Q) as [Y|Y].
    + left. split; [apply T; exact Y|]. rewrite (B1 Hm Y). reflexivity.
    + right. split; [intro Z; apply Y, T, Z|]. rewrite (B2 Hm Y). reflexivity.
Qed.

(** Up to two explanatory variables the fit returns, and it is the fit of the other CAM-UV theorems.
    Full claim: for every num_explanatory_vals; it fails from three on. *)
Theorem C207_up_to_two_partial :
  forall n d maxnum ind_corr pk single iter, 2 <= n -> (forall l, Permutation (iter l) l) -> 1 <= maxnum <= 2 ->
  let ind i A j B := nltb (single i A [(j, B)]) (Some ind_corr) in
  camuv_fcorr n d maxnum ind_corr pk single iter = cam_fit d maxnum false ind_corr pk ind single iter /\
  exists P B, camuv_fcorr n d maxnum ind_corr pk single iter = Ok (P, B).
Proof.
  intros n d maxnum ind_corr pk single iter Hn IP [H1 H2] ind.
  assert (camuv_fcorr n d maxnum ind_corr pk single iter = cam_fit d maxnum false ind_corr pk ind single iter) as E.
  { apply (fit_small d maxnum false); [exact IP|intros; apply fcorr_one; exact Hn|intros; apply fcorr_many; assumption|exact H2]. }
  split; [exact E|]. rewrite E. unfold cam_fit. rewrite (proj2 (Nat.eqb_neq maxnum 0)) by lia.
  destruct (cam_terminates d maxnum false ind_corr pk ind single iter IP (S (Nat.log2 (cam_top d maxnum)))) as [P EP].
  - apply Nat.log2_spec. unfold cam_top. lia.
  - unfold find_parents. rewrite EP. eauto.
Qed.
Print Assumptions C207_up_to_two_partial.

(** From three on the parameter never has an effect other than an exception: the fit raises exactly if, among
    the parents [Q] found from pairs, three variables have no parent among each other and one of them depends on
    the two others, neither of which prior knowledge excludes as its cause; otherwise the answer is that of two. *)
Theorem C207_three_or_more :
  forall n d maxnum ind_corr pk single iter, 2 <= n -> (forall l, Permutation (iter l) l) -> 3 <= maxnum ->
  let ind i A j B := nltb (single i A [(j, B)]) (Some ind_corr) in
  let forbidden a b := match pk with None => False | Some l => In (a, b) l end in
  exists Q P B, camuv_fcorr n d 2 ind_corr pk single iter = Ok (P, B) /\
    discovered d false ind_corr forbidden ind single iter 2 Q /\
    (forall K c, var_set d 2 K -> ~ establishes d false ind_corr forbidden ind single iter Q K c) /\ pruned d ind Q P /\
    let bad := exists c p q, c < d /\ p < d /\ q < d /\ c <> p /\ c <> q /\ p <> q /\
        neighbours d ind c p /\ neighbours d ind c q /\ ~ forbidden p c /\ ~ forbidden q c /\
        (forall a b, In a [c; p; q] -> In b [c; p; q] -> a <> b -> Q a b = false) in
    (bad /\ camuv_fcorr n d maxnum ind_corr pk single iter = Err ValueError \/
     ~ bad /\ camuv_fcorr n d maxnum ind_corr pk single iter = Ok (P, B)).
Proof.
  intros n d maxnum ind_corr pk single iter Hn IP Hm ind forb.
  exact (fit_large d maxnum ind_corr pk ind (fcorr_value n single) single iter IP
           (fun c A q => fcorr_one n single c A q Hn) (fun c A qs => fcorr_many n single c A qs Hn) Hm).
Qed.
Print Assumptions C207_three_or_more.
Theorem C207_no_effect :
  forall n d maxnum ind_corr pk single iter, 2 <= n -> (forall l, Permutation (iter l) l) -> 3 <= maxnum ->
  camuv_fcorr n d maxnum ind_corr pk single iter = Err ValueError \/
  camuv_fcorr n d maxnum ind_corr pk single iter = camuv_fcorr n d 2 ind_corr pk single iter.
Proof.
  intros n d maxnum ind_corr pk single iter Hn IP Hm.
  destruct (C207_three_or_more n d maxnum ind_corr pk single iter Hn IP Hm) as [Q [P [B [E2 [_ [_ [_ [[_ E]|[_ E]]]]]]]]].
  - left. exact E.
  - right. congruence.
Qed.
Print Assumptions C207_no_effect.

(** The same for several data sets. *)
Lemma check_list_nonempty : forall D features (Xs : list D) d, check_X_list D features (Some Xs) = Ok d -> Xs <> [].
Proof. intros D features [|X Xs] d H; [discriminate|discriminate]. Qed.
Theorem C207_several_data_sets :
  forall (D : Type) samples features test maxnum ind_corr pk iter (Xs : list D),
  (forall l, Permutation (iter l) l) -> (forall X, In X Xs -> 2 <= samples X) ->
  (1 <= maxnum <= 2 -> mgc_fcorr D samples features test maxnum ind_corr pk iter (Some Xs) =
     mgc_fit D features test (fun q => q) (fun _ _ => None) maxnum false ind_corr pk iter (Some Xs)) /\
  (3 <= maxnum ->
     mgc_fcorr D samples features test maxnum ind_corr pk iter (Some Xs) = Err ValueError \/
     mgc_fcorr D samples features test maxnum ind_corr pk iter (Some Xs) =
     mgc_fcorr D samples features test 2 ind_corr pk iter (Some Xs)).
Proof.
  intros D samples features test maxnum ind_corr pk iter Xs IP HS.
  unfold mgc_fcorr, mgc_fit. destruct (check_X_list D features (Some Xs)) as [d|e] eqn:C.
  2:{ cbn [bind]. split; intro; auto. }
  assert (NE := check_list_nonempty _ _ _ _ C). cbn [bind].
  set (ind := fun i A j B => nltb (largest (map (fun X => test X i A [(j, B)]) Xs)) (Some ind_corr)).
  set (total := fun c A qs => largest (map (fun X => test X c A qs) Xs)).
  assert (forall c A q, mgc_value D samples test Xs c A [q] = Ok (total c A [q])) as O.
  { intros c A q. apply mgc_fold_one. exact HS. }
  assert (forall c A qs, 2 <= length qs -> mgc_value D samples test Xs c A qs = Err ValueError) as M.
  { intros c A qs L. apply mgc_many; assumption. }
  split; intro Hm.
  - exact (fit_small d maxnum false ind_corr pk ind (mgc_value D samples test Xs) total iter IP O M (proj2 Hm)).
  - destruct (fit_large d maxnum ind_corr pk ind (mgc_value D samples test Xs) total iter IP O M Hm)
      as [Q [P [B [E2 [_ [_ [_ [[_ E]|[_ E]]]]]]]]].
    + left. exact E.
    + right. rewrite E, E2. reflexivity.
Qed.
Print Assumptions C207_several_data_sets.

(** Three variables driven by one hidden variable: every residual stays correlated (0.8 > ind_corr = 0.5). *)
Definition all_dependent (_ : nat) (_ : list nat) (_ : list (nat * list nat)) : num := Some (qf 4 5).
Theorem C207_every_number_refuted :
  exists d maxnum ind_corr single, forall n, 2 <= n -> forall iter, (forall l, Permutation (iter l) l) ->
  3 <= maxnum <= d /\
  (exists P B, camuv_fcorr n d 2 ind_corr None single iter = Ok (P, B)) /\
  camuv_fcorr n d maxnum ind_corr None single iter = Err ValueError.
Proof.
  exists 3, 3, (qf 1 2), all_dependent. intros n Hn iter IP. split; [lia|].
  split; [apply (C207_up_to_two_partial n 3 2 (qf 1 2) None all_dependent iter Hn IP); lia|].
  destruct (C207_three_or_more n 3 3 (qf 1 2) None all_dependent iter Hn IP (le_n 3))
    as [Q [P [B [_ [D [_ [_ [[_ E]|[NB _]]]]]]]]]; [exact E|].
  exfalso. apply NB.
  assert (forall a b, Q a b = false) as Q0.
  { induction D as [Q H|Q Q' K t c D IH T V Es H]; [exact H|]. exfalso.
    destruct Es as [_ [_ [Bt _]]]. unfold beats, score, all_dependent in Bt.
    apply qltb_lt in Bt. vm_compute in Bt. discriminate. }
  exists 0, 1, 2. repeat split; try lia; try tauto.
  - left. split; [lia|]. vm_compute. reflexivity.
  - left. split; [lia|]. vm_compute. reflexivity.
  - intros a b _ _ _. apply Q0.
Qed.
Print Assumptions C207_every_number_refuted.
Definition outcome (d : nat) (r : result (sets * mat num)) :=
  match r with
  | Ok (_, B) => Ok (map (fun i => map (fun j => option_map this (B i j)) (seq 0 d)) (seq 0 d))
  | Err e => Err e
  end.
(** With two: three confounded pairs.  With three: an exception. *)
Example C207_example :
  outcome 3 (camuv_fcorr 50 3 2 (qf 1 2) None all_dependent (fun l => l)) =
    Ok [[Some 0; None; None]; [None; Some 0; None]; [None; None; Some 0]]%Q /\
  outcome 3 (camuv_fcorr 50 3 3 (qf 1 2) None all_dependent (fun l => l)) = Err ValueError /\
  (** every cause excluded by prior knowledge: no exception *)
  outcome 3 (camuv_fcorr 50 3 3 (qf 1 2) (Some [(0, 1); (0, 2); (1, 0); (2, 1)]) all_dependent (fun l => l)) =
    Ok [[Some 0; None; None]; [None; Some 0; None]; [None; None; Some 0]]%Q /\
  outcome 3 (mgc_fcorr nat (fun X => X) (fun _ => Some 3) (fun _ => all_dependent) 3 (qf 1 2) None (fun l => l) (Some [50; 60])) =
    Err ValueError /\
  outcome 3 (mgc_fcorr nat (fun X => X) (fun _ => Some 3) (fun _ => all_dependent) 2 (qf 1 2) None (fun l => l) (Some [50; 60])) =
    Ok [[Some 0; None; None]; [None; Some 0; None]; [None; None; Some 0]]%Q.
Proof. repeat split; vm_compute; reflexivity. Qed.
