(** * Proofs: BottomUpParceLiNGAM on the same data in other units *)
From Coq Require Import List Arith Bool ZArith QArith Qcanon Lia Permutation.
From Verif Require Import Prelude Spec SpecPop SpecRCDPop SpecUnits Lib LibMat ProofPop ModelParce ModelParcePop ProofUnits ProofRCDUnits.
From Verif Require ModelDirect.
Import ListNotations.
Open Scope nat_scope.

Lemma combine_sub_NoDup : forall (f : nat * nat -> bool) xs m, NoDup xs -> NoDup (map fst (filter f (combine xs m))) /\ incl (map fst (filter f (combine xs m))) xs.
Proof.
  intros f. induction xs as [|x xs IH]; intros m ND; [split; [constructor|intros y []]|]. destruct m as [|v m]; [split; [constructor|intros y []]|].
  inversion ND as [|? ? NI ND']; subst. destruct (IH m ND') as [A B]. cbn [combine filter]. destruct (f (x, v)); cbn [map fst].
  - split; [constructor; [intro Q; apply NI, B, Q|exact A]|]. intros y [<-|Hy]; [left; reflexivity|right; apply B, Hy].
  - split; [exact A|]. intros y Hy. right. apply B, Hy.
Qed.
Lemma drop_ne_NoDup : forall xs m U, NoDup xs -> drop_ne (fun i => i) xs m = Ok U -> NoDup U.
Proof.
  intros xs m U ND. unfold drop_ne. destruct m as [|v [|w m]].
  - destruct (_ =? _); [|discriminate]. intro E. injection E as <-. apply combine_sub_NoDup. exact ND.
  - intro E. injection E as <-. apply NoDup_filter. exact ND.
  - destruct (_ =? _); [|discriminate]. intro E. injection E as <-. apply combine_sub_NoDup. exact ND.
Qed.

Section Congruence.
  Variables (h h' : nat -> list nat -> nat -> num * num) (f f' : nat -> list nat -> nat -> num).
  Variables (m2log : Qc -> Qc) (sf : ext -> nat -> num) (thr ind_corr : Qc) (mode : indep).
  Hypothesis HH : forall t ps i, NoDup ps -> h t ps i = h' t ps i.
  Hypothesis FF : forall t ps i, NoDup ps -> f t ps i = f' t ps i.
  Lemma fisher_same : forall t ps mx, NoDup ps -> fisher_hsic_test h m2log sf t ps mx = fisher_hsic_test h' m2log sf t ps mx.
  Proof.
    intros t ps mx ND. unfold fisher_hsic_test.
    assert (L : forall is s, fisher_loop h m2log t ps mx s is = fisher_loop h' m2log t ps mx s is).
    { induction is as [|i is IH]; intro s; [reflexivity|]. cbn [fisher_loop]. rewrite (HH t ps i ND). cbv zeta. destruct (ext_lt _ _); [reflexivity|apply IH]. }
    destruct ps as [|i [|k ps]]; [rewrite L; reflexivity|rewrite (HH t [i] i ND); reflexivity|rewrite L; reflexivity].
  Qed.
  Lemma fcorr_same : forall t ps, NoDup ps -> f_correlation f t ps = f_correlation f' t ps.
  Proof.
    intros t ps ND. unfold f_correlation.
    assert (L : fold_left (fun mx i => let c := ext_of (f t ps i) in if ext_lt mx c then c else mx) ps (Fin 0) = fold_left (fun mx i => let c := ext_of (f' t ps i) in if ext_lt mx c then c else mx) ps (Fin 0)).
    { apply fold_ext_in. intros a b _. rewrite (FF t ps b ND). reflexivity. }
    destruct ps as [|i [|k ps]]; [exact L|rewrite (FF t [i] i ND); reflexivity|exact L].
  Qed.
  Lemma setdiff_NoDup : forall a b, NoDup a -> NoDup (setdiff a b).
  Proof. intros. apply NoDup_filter. assumption. Qed.
  Lemma find_same : forall Uc U, NoDup Uc -> NoDup U -> find_exo_vec h f m2log sf mode Uc U = find_exo_vec h' f' m2log sf mode Uc U.
  Proof.
    intros Uc U NC NU. unfold find_exo_vec.
    assert (L : fold_left (exo_step h f m2log sf mode Uc) Uc ([], PInf, PInf) = fold_left (exo_step h' f' m2log sf mode Uc) Uc ([], PInf, PInf)).
    { apply fold_ext_in. intros [[e v] mx] j _. unfold exo_step. rewrite fisher_same, fcorr_same by (apply setdiff_NoDup; exact NC). reflexivity. }
    destruct Uc as [|c [|d Uc]]; [rewrite L; reflexivity| |rewrite L; reflexivity]. rewrite fisher_same, fcorr_same by (apply setdiff_NoDup; exact NU). reflexivity.
  Qed.
  Lemma candidates_NoDup : forall po U, NoDup U -> NoDup (parce_candidates po U).
  Proof. intros [[|p l]|] U H; cbn; try exact H. apply NoDup_filter. exact H. Qed.
  Lemma search_same : forall fuel po U K, NoDup U -> search_order h f m2log sf thr ind_corr mode fuel po U K = search_order h' f' m2log sf thr ind_corr mode fuel po U K.
  Proof.
    induction fuel as [|fuel IH]; intros po U K ND; [reflexivity|]. cbn [search_order]. rewrite find_same by (try apply candidates_NoDup; exact ND).
    destruct (find_exo_vec h' f' m2log sf mode (parce_candidates po U) U) as [m ev]. destruct (is_reject _ _ _ ev); [reflexivity|].
    destruct (drop_ne (fun i => i) U m) as [U'|] eqn:E; [|reflexivity]. cbn [bind]. pose proof (drop_ne_NoDup _ _ _ ND E) as ND'.
    destruct (match po with None => Ok None | Some l => bind (drop_ne snd l m) (fun l' => Ok (Some l')) end); [|reflexivity]. cbn [bind]. destruct (_ <=? 1); [reflexivity|]. apply IH. exact ND'.
  Qed.
  Lemma parce_fit_same : forall lasso n pk ok, parce_fit h f m2log sf thr ind_corr mode lasso n pk ok = parce_fit h' f' m2log sf thr ind_corr mode lasso n pk ok.
  Proof.
    intros lasso n pk ok. unfold parce_fit. destruct (match pk with None => _ | Some _ => _ end) as [po|]; [|reflexivity]. cbn [bind]. destruct (n =? 1); [reflexivity|].
    rewrite search_same by apply seq_NoDup. reflexivity.
  Qed.
End Congruence.

Lemma centred_units : forall N s a X X', 0 < N -> rearranges N s -> same_data N s a X X' -> same_data N s a (centred N X) (centred N X').
Proof.
  intros N s a X X' HN HS SD i. split; [apply SD|]. destruct (SD i) as (_ & b & H). exists (a i * mean N (X i) + b - mean N (X' i))%Qc. intros r Hr. unfold centred. rewrite (H r Hr). ring.
Qed.

(** The matrix, with regression coefficients in the new units. *)
Section Scaled.
  Variables (a : nat -> Qc).
  Definition in_units_mat (B B' : mat num) : Prop := forall i j, B' i j = option_map (fun b => a i * b / a j)%Qc (B i j).
  Lemma upd2_units : forall B B' i j v, in_units_mat B B' -> in_units_mat (upd2 B i j v) (upd2 B' i j (option_map (fun b => a i * b / a j)%Qc v)).
  Proof. intros B B' i j v H p q. unfold upd2. destruct ((p =? i) && (q =? j)) eqn:E; [|apply H]. apply andb_true_iff in E. destruct E as [E1 E2]. apply Nat.eqb_eq in E1, E2. subst. reflexivity. Qed.
  Lemma fold_units : forall A (f f' : mat num -> A -> mat num) l B B', (forall B B' x, in_units_mat B B' -> in_units_mat (f B x) (f' B' x)) -> in_units_mat B B' -> in_units_mat (fold_left f l B) (fold_left f' l B').
  Proof. intros A f f'. induction l as [|x l IH]; intros B B' H R; [exact R|]. cbn. apply IH; [exact H|]. apply H. exact R. Qed.
  Variables (lasso lasso' : list nat -> nat -> nat -> num).
  Hypothesis LL : forall ps t p, lasso' ps t p = option_map (fun b => a t * b / a p)%Qc (lasso ps t p).
  Lemma write_row_units : forall t ps B B', in_units_mat B B' -> in_units_mat (ModelDirect.write_row lasso t ps B) (ModelDirect.write_row lasso' t ps B').
  Proof.
    intros t ps B B' H. unfold ModelDirect.write_row. destruct ps as [|p ps]; [exact H|]. intros i j. destruct (Nat.eqb_spec i t) as [->|]; cbn [andb]; [|apply H]. destruct (memb j (p :: ps)); [apply LL|apply H].
  Qed.
  Lemma rows_units : forall pk rest before B B', in_units_mat B B' -> in_units_mat (parce_rows lasso pk before rest B) (parce_rows lasso' pk before rest B').
  Proof.
    intros pk. induction rest as [|it rest IH]; intros before B B' H; [exact H|]. cbn [parce_rows]. apply IH. destruct before as [|b before]; [exact H|]. destruct it as [t|l]; [|exact H]. apply write_row_units. exact H.
  Qed.
  Lemma nan_units : forall B B' x y, in_units_mat B B' -> in_units_mat (nan_pair B x y) (nan_pair B' x y).
  Proof. intros B B' x y H. unfold nan_pair. apply (upd2_units _ _ _ _ None), (upd2_units _ _ _ _ None), H. Qed.
  Lemma block_units : forall l B B', in_units_mat B B' -> in_units_mat (nan_block l B) (nan_block l B').
  Proof. induction l as [|x l IH]; intros B B' H; [exact H|]. cbn [nan_block]. apply IH. apply fold_units; [|exact H]. intros C C' y R. apply nan_units. exact R. Qed.
  Lemma adjacency_units : forall pk order, in_units_mat (parce_adjacency lasso pk order) (parce_adjacency lasso' pk order).
  Proof.
    intros pk order. unfold parce_adjacency. apply fold_units; [intros B B' it H; destruct it; [exact H|apply block_units; exact H]|]. apply rows_units. intros i j. cbn. f_equal. unfold Qcdiv. ring.
  Qed.
End Scaled.
