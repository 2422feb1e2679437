(** * Proofs about the data utilities *)
From Coq Require Import List Arith Bool ZArith QArith Qcanon Lia Permutation Ascii String DecimalString DecimalNat.
From Verif Require Import Prelude Spec SpecDirect SpecPop SpecUtil Lib LibMat ModelDirect ProofDirect ProofDirect2 ProofPop ProofPop2 ModelUtil.
From Verif Require ProofHsic.
Import ListNotations.
Open Scope nat_scope.

(** ** Combinations of columns *)
Definition coef_at (ps : list nat) (cs : list Qc) (p : nat) : Qc :=
  match index_of p ps with Some k => nth k cs 0%Qc | None => 0%Qc end.
Lemma combination_sumf : forall ps cs (x : nat -> sample) r, NoDup ps -> length cs = length ps ->
  combination cs (map x ps) r = sumf ps (fun p => coef_at ps cs p * x p r)%Qc.
Proof.
  induction ps as [|p ps IH]; intros cs x r ND L; [destruct cs; [reflexivity|discriminate]|]. destruct cs as [|c cs]; [discriminate|].
  inversion ND as [|? ? N1 N2]; subst. cbn [map]. change (c * x p r + combination cs (map x ps) r = coef_at (p :: ps) (c :: cs) p * x p r + sumf ps (fun q => coef_at (p :: ps) (c :: cs) q * x q r))%Qc.
  rewrite (IH cs x r N2) by (cbn in L; lia). f_equal.
  - unfold coef_at. cbn [index_of]. rewrite Nat.eqb_refl. reflexivity.
  - apply sumf_ext. intros q Hq. f_equal. unfold coef_at. cbn [index_of]. destruct (Nat.eqb_spec p q) as [->|]; [contradiction|].
    destruct (index_of q ps); reflexivity.
Qed.
Lemma cov_shift : forall N (x : sample) b z, cov N (fun r => x r + b)%Qc z = cov N x z.
Proof.
  intros N x b z. rewrite cov_plus. replace (cov N (fun _ => b) z) with 0%Qc; [ring|].
  destruct N as [|N']; [unfold cov, sumn, sumf; cbn; unfold Qcdiv; ring|].
  unfold cov. rewrite sumn_zero; [unfold Qcdiv; ring|]. intros r Hr. replace (mean (S N') (fun _ => b)) with b; [ring|].
  unfold mean. rewrite ProofHsic.sumn_const. field. apply qn_nonzero. lia.
Qed.
Lemma mean_minus : forall N (x y : sample), mean N (fun r => x r - y r)%Qc = (mean N x - mean N y)%Qc.
Proof. intros N x y. rewrite (mean_ext N _ (fun r => 1 * x r + (-(1)) * y r)%Qc) by (intros; ring). rewrite mean_lin. ring. Qed.
Lemma cov_combination : forall N cs cols z, (forall c, In c cols -> cov N c z = 0%Qc) -> cov N (combination cs cols) z = 0%Qc.
Proof.
  intros N cs. induction cs as [|a cs IH]; intros cols z H.
  - rewrite (cov_ext N _ (fun _ => 0%Qc) z z); [apply cov_zero|intros; reflexivity|intros; reflexivity].
  - destruct cols as [|c cols]; [rewrite (cov_ext N _ (fun _ => 0%Qc) z z); [apply cov_zero|intros; reflexivity|intros; reflexivity]|].
    rewrite (cov_ext N _ (fun r => a * c r + combination cs cols r)%Qc z z); [|intros; reflexivity|intros; reflexivity].
    rewrite cov_plus, cov_scal, (H c (or_introl eq_refl)), (IH cols z); [ring|]. intros d Hd. apply H. right. exact Hd.
Qed.
Lemma sq_sum_zero : forall N (f : nat -> Qc), sumn N (fun r => f r * f r)%Qc = 0%Qc -> forall r, r < N -> f r = 0%Qc.
Proof.
  intros N f H r Hr. assert (Q : (f r * f r = 0)%Qc).
  { apply (sumf_nonneg_zero nat (fun r => f r * f r)%Qc (seq 0 N)); [intros; apply Qcsq_nonneg|exact H|apply in_seq; lia]. }
  apply Qcmult_integral in Q. destruct Q; assumption.
Qed.
Lemma var_zero_const : forall N x, 0 < N -> var N x = 0%Qc -> forall r, r < N -> x r = mean N x.
Proof.
  intros N x HN V r Hr. unfold var, cov in V.
  assert (S : sumn N (fun r => (x r - mean N x) * (x r - mean N x))%Qc = 0%Qc).
  { replace (sumn N (fun r => (x r - mean N x) * (x r - mean N x)))%Qc with ((sumn N (fun r => (x r - mean N x) * (x r - mean N x)) / qn N) * qn N)%Qc; [rewrite V; ring|].
    field. apply qn_nonzero. exact HN. }
  pose proof (sq_sum_zero N (fun r => x r - mean N x)%Qc S r Hr) as Q. cbn beta in Q. replace (x r) with ((x r - mean N x) + mean N x)%Qc by ring. rewrite Q. ring.
Qed.
(** A fit of something already uncorrelated with the columns predicts nothing. *)
Lemma fit_of_residual : forall N cols y cs b, 0 < N -> ls_fit N cols y cs b -> mean N y = 0%Qc -> (forall c, In c cols -> cov N y c = 0%Qc) ->
  forall r, r < N -> (combination cs cols r + b = 0)%Qc.
Proof.
  intros N cols y cs b HN (L & M & C) MY CY r Hr. set (p := fun r => (combination cs cols r + b)%Qc).
  assert (PC : forall c, In c cols -> cov N p c = 0%Qc).
  { intros c Hc. specialize (C c Hc). rewrite cov_minus in C. rewrite (CY c Hc) in C. fold p in C. replace (cov N p c) with (0 - (0 - cov N p c))%Qc by ring. rewrite C. ring. }
  assert (V : var N p = 0%Qc).
  { unfold var. unfold p at 1. rewrite cov_shift. apply cov_combination. intros c Hc. rewrite cov_sym. apply PC. exact Hc. }
  assert (MP : mean N p = 0%Qc). { rewrite mean_minus in M. fold p in M. rewrite MY in M. replace (mean N p) with (0 - (0 - mean N p))%Qc by ring. rewrite M. ring. }
  change (p r = 0%Qc). rewrite (var_zero_const N p HN V r Hr). exact MP.
Qed.
(** A column fitted on itself (and others) leaves nothing. *)
Lemma fit_of_column : forall N cols y cs b, 0 < N -> ls_fit N cols y cs b -> In y cols ->
  forall r, r < N -> (y r - (combination cs cols r + b) = 0)%Qc.
Proof.
  intros N cols y cs b HN (L & M & C) I r Hr. set (res := fun r => (y r - (combination cs cols r + b))%Qc) in *.
  assert (V : var N res = 0%Qc).
  { unfold var. unfold res at 1. rewrite cov_minus, cov_shift, cov_combination; [rewrite cov_sym, (C y I); ring|]. intros c Hc. rewrite cov_sym. apply C. exact Hc. }
  change (res r = 0%Qc). rewrite (var_zero_const N res HN V r Hr). exact M.
Qed.

(** ** The loop of remove_effect *)
Lemma remove_fold : forall lr cols fs X cs0, NoDup fs -> (forall f, In f fs -> ~ In f cols) ->
  let st := fold_left (remove_step lr cols) fs (X, cs0) in
  (forall v, ~ In v fs -> fst st v = X v) /\
  (forall f r, In f fs -> fst st f r = (X f r - predicted (lr (map X cols) (X f)) (map X cols) r)%Qc) /\
  snd st = cs0 ++ map (fun f => (f, fst (lr (map X cols) (X f)))) fs.
Proof.
  intros lr cols fs. induction fs as [|f fs IH]; intros X cs0 ND HF; cbv zeta; cbn [fold_left].
  - split; [reflexivity|]. split; [intros f r []|]. rewrite app_nil_r. reflexivity.
  - inversion ND as [|? ? N1 N2]; subst. cbn [remove_step].
    set (rs := (fun r => (X f r - predicted (lr (map X cols) (X f)) (map X cols) r)%Qc) : sample). set (X1 := fun v => if v =? f then rs else X v).
    specialize (IH X1 (cs0 ++ [(f, fst (lr (map X cols) (X f)))]) N2 (fun g Hg => HF g (or_intror Hg))). cbv zeta in IH. destruct IH as (I1 & I2 & I3).
    assert (MC : map X1 cols = map X cols).
    { apply map_ext_in. intros q Hq. unfold X1. destruct (Nat.eqb_spec q f) as [->|]; [exfalso; apply (HF f (or_introl eq_refl)); exact Hq|reflexivity]. }
    assert (XF : forall g, In g fs -> X1 g = X g) by (intros g Hg; unfold X1; destruct (Nat.eqb_spec g f) as [->|]; [contradiction|reflexivity]).
    split; [|split].
    + intros v Hv. rewrite I1 by (intro Q; apply Hv; right; exact Q). unfold X1. destruct (Nat.eqb_spec v f) as [->|]; [exfalso; apply Hv; left; reflexivity|reflexivity].
    + intros g r [<-|Hg].
      * rewrite I1 by exact N1. unfold X1. rewrite Nat.eqb_refl. reflexivity.
      * transitivity (X1 g r - predicted (lr (map X1 cols) (X1 g)) (map X1 cols) r)%Qc; [exact (I2 g r Hg)|]. rewrite MC, (XF g Hg). reflexivity.
    + etransitivity; [exact I3|]. cbn [map]. rewrite <- app_assoc. cbn [app]. f_equal. f_equal. apply map_ext_in. intros g Hg. rewrite MC, (XF g Hg). reflexivity.
Qed.
Lemma py_columns_ok : forall p rem, Forall (fun z => (0 <= z < Z.of_nat p)%Z) rem -> py_columns p rem = Ok (map Z.to_nat rem).
Proof.
  intros p rem H. induction H as [|z rem Hz _ IH]; [reflexivity|]. cbn [py_columns map]. unfold py_column.
  rewrite (proj2 (Z.leb_le 0 z)), (proj2 (Z.ltb_lt z _)) by lia. cbn [andb bind]. rewrite IH. reflexivity.
Qed.
Lemma py_columns_err : forall p rem, Exists (fun z => (z < - Z.of_nat p \/ Z.of_nat p <= z)%Z) rem -> py_columns p rem = Err IndexError.
Proof.
  intros p rem H. assert (G : forall z e, py_column p z = Err e -> e = IndexError).
  { intros z e Q. unfold py_column in Q. destruct (_ && _); [discriminate|]. destruct (_ && _); congruence. }
  induction H as [z rem Hz|z rem _ IH]; cbn [py_columns].
  - assert (Q : py_column p z = Err IndexError); [|rewrite Q; reflexivity]. unfold py_column.
    destruct (Z.leb_spec 0 z), (Z.ltb_spec z (Z.of_nat p)); cbn [andb]; try lia; destruct (Z.ltb_spec z 0), (Z.leb_spec 0 (z + Z.of_nat p)); cbn [andb]; try lia; reflexivity.
  - destruct (py_column p z) as [i|e] eqn:E; cbn [bind]; [rewrite IH; reflexivity|]. rewrite (G _ _ E). reflexivity.
Qed.

(** ** Selection and scattering *)
Lemma select_length_le : forall A mask (l : list A), length (select mask l) <= length l.
Proof. intros A mask. induction mask as [|b mask IH]; intros [|x l]; cbn; try lia. specialize (IH l). destruct b; cbn; lia. Qed.
Lemma scatter_length : forall mask vals, length (scatter mask vals) = length mask.
Proof. induction mask as [|[|] mask IH]; intros vals; cbn; [reflexivity| |rewrite IH; reflexivity]. destruct vals; cbn; rewrite IH; reflexivity. Qed.
Lemma scatter_off : forall mask vals k, nth k mask false = false -> nth k (scatter mask vals) 0%Qc = 0%Qc.
Proof.
  induction mask as [|[|] mask IH]; intros vals [|k] H; cbn in *; try reflexivity; try discriminate.
  - destruct vals; cbn; apply IH; exact H.
  - apply IH; exact H.
Qed.
Lemma select_scatter : forall A mask (l : list A) vals, length mask = length l -> length vals = length (select mask l) -> select mask (scatter mask vals) = vals.
Proof.
  intros A. induction mask as [|b mask IH]; intros [|x l] vals L V; try discriminate; [destruct vals; [reflexivity|discriminate]|]. cbn in L.
  destruct b; cbn [select] in V; cbn [scatter].
  - destruct vals as [|v vals]; [discriminate|]. cbn [select]. f_equal. apply (IH l); [lia|cbn in V; lia].
  - cbn [select]. apply (IH l); [lia|exact V].
Qed.
Lemma select_In : forall A mask (l : list A) d x, length mask = length l ->
  (In x (select mask l) <-> exists k, k < length l /\ nth k l d = x /\ nth k mask false = true).
Proof.
  intros A. induction mask as [|b mask IH]; intros [|y l] d x L; try discriminate; [cbn; split; [intros []|intros (k & K & _); lia]|].
  cbn in L. cbn [select]. split.
  - intro I. assert (C : (b = true /\ y = x) \/ In x (select mask l)) by (destruct b; [destruct I; auto|auto]). destruct C as [[-> ->]|C].
    + exists 0. split; [cbn; lia|]. split; reflexivity.
    + apply (IH l d x) in C; [|lia]. destruct C as (k & K1 & K2 & K3). exists (S k). split; [cbn; lia|]. auto.
  - intros ([|k] & K1 & K2 & K3); cbn in K1, K2, K3.
    + subst. left. reflexivity.
    + assert (I : In x (select mask l)) by (apply (IH l d x); [lia|]; exists k; split; [lia|auto]). destruct b; [right|]; exact I.
Qed.
Lemma select_NoDup : forall A mask (l : list A), NoDup l -> NoDup (select mask l).
Proof.
  intros A. induction mask as [|b mask IH]; intros [|y l] ND; cbn [select]; try constructor. inversion ND as [|? ? N1 N2]; subst. specialize (IH l N2).
  destruct b; [|exact IH]. constructor; [|exact IH]. intro I. apply N1. clear - I. revert l I. induction mask as [|b mask IH]; intros [|z l] I; cbn in I; try destruct I.
  destruct b; [destruct I as [->|I]; [left; reflexivity|right; apply IH; exact I]|right; apply IH; exact I].
Qed.
(** The coefficient of a selected predictor is that of the second regression. *)
Lemma coef_scatter : forall mask ps vals p, NoDup ps -> length mask = length ps -> length vals = length (select mask ps) -> In p (select mask ps) ->
  coef_at ps (scatter mask vals) p = coef_at (select mask ps) vals p.
Proof.
  induction mask as [|b mask IH]; intros [|y ps] vals p ND L V I; try discriminate; [destruct I|]. inversion ND as [|? ? N1 N2]; subst. cbn in L.
  assert (SUB : forall q, In q (select mask ps) -> In q ps). { intros q Q. apply (select_In _ mask ps 0 q) in Q; [|lia]. destruct Q as (k & K & <- & _). apply nth_In. exact K. }
  destruct b; cbn [select scatter] in *.
  - destruct vals as [|v vals]; [discriminate|]. unfold coef_at. cbn [index_of]. destruct (Nat.eqb_spec y p) as [->|NE]; [reflexivity|].
    destruct I as [->|I]; [contradiction|]. specialize (IH ps vals p N2 ltac:(lia) ltac:(cbn in V; lia) I). unfold coef_at in IH.
    destruct (index_of p ps), (index_of p (select mask ps)); exact IH.
  - unfold coef_at at 1. cbn [index_of]. destruct (Nat.eqb_spec y p) as [->|NE]; [exfalso; apply N1, SUB; exact I|].
    specialize (IH ps vals p N2 ltac:(lia) V I). unfold coef_at in IH at 1. destruct (index_of p ps); exact IH.
Qed.
Lemma coef_at_off : forall ps cs p k, NoDup ps -> nth k ps 0 = p -> k < length ps -> coef_at ps cs p = nth k cs 0%Qc.
Proof.
  induction ps as [|y ps IH]; intros cs p k ND E K; [cbn in K; lia|]. inversion ND as [|? ? N1 N2]; subst. unfold coef_at. destruct k as [|k]; cbn [nth index_of].
  - rewrite Nat.eqb_refl. reflexivity.
  - cbn in K. destruct (Nat.eqb_spec y (nth k ps 0)) as [->|NE]; [exfalso; apply N1, nth_In; lia|].
    specialize (IH (tl cs) (nth k ps 0) k N2 eq_refl ltac:(lia)). unfold coef_at in IH. destruct (index_of (nth k ps 0) ps); cbn [option_map].
    + destruct cs; [destruct k; destruct n; cbn in IH |- *; try exact IH; reflexivity|exact IH].
    + destruct cs; [destruct k; reflexivity|exact IH].
Qed.
Lemma ls_fit_least_squares : forall N (x : nat -> sample) y ps cs b, NoDup ps -> ls_fit N (map x ps) y cs b -> least_squares N x y ps (coef_at ps cs).
Proof.
  intros N x y ps cs b ND (L & M & C) q Hq. rewrite map_length in L. specialize (C (x q) (in_map x ps q Hq)).
  rewrite (cov_ext N _ (fun r => (y r - sumf ps (fun p => coef_at ps cs p * x p r)) + - b)%Qc _ (x q)) in C.
  - rewrite cov_shift in C. exact C.
  - intros r Hr. rewrite (combination_sumf ps cs x r ND L). ring.
  - intros; reflexivity.
Qed.
Lemma filter_id : forall A (f : A -> bool) l, (forall x, In x l -> f x = true) -> filter f l = l.
Proof. intros A f l. induction l as [|y l IH]; intro H; [reflexivity|]. cbn. rewrite (H y (or_introl eq_refl)). f_equal. apply IH. intros x I. apply H. right. exact I. Qed.

(** ** The selection *)
Lemma selection_spec : forall lr lars std pow X ps t mask N, fits_exactly N lr ->
  (forall cols y c, lars cols y = Ok c -> length c = length cols) ->
  lasso_selection lr lars std pow X ps t = Ok mask ->
  exists w c, ps <> [] /\ w = map (fun c => pow (qabs c)) (fst (lr (map (fun p => std (X p)) ps) (std (X t)))) /\
    lars (map (fun wz => fun r => (snd wz r * fst wz)%Qc) (combine w (map (fun p => std (X p)) ps))) (std (X t)) = Ok c /\
    length w = length ps /\ length c = length ps /\ length mask = length ps /\
    forall k, k < length ps -> (nth k mask false = true <-> nth k c 0%Qc <> 0%Qc /\ nth k w 0%Qc <> 0%Qc).
Proof.
  intros lr lars std pow X ps t mask N HL LL H. unfold lasso_selection in H. destruct ps as [|p0 ps0] eqn:EP; [discriminate|]. rewrite <- EP in *.
  assert (NE : ps <> []) by (rewrite EP; discriminate). clear p0 ps0 EP.
  set (Z := map (fun p => std (X p)) ps) in *. set (w := map (fun c => pow (qabs c)) (fst (lr Z (std (X t))))) in *.
  destruct (lars _ (std (X t))) as [c|] eqn:E; [|discriminate]. cbn [bind] in H. injection H as <-. exists w, c. split; [exact NE|]. split; [reflexivity|]. split; [exact E|].
  assert (LZ : length Z = length ps) by apply map_length.
  assert (LW : length w = length ps). { unfold w. rewrite map_length. destruct (HL Z (std (X t))) as (L & _); [destruct ps; [congruence|discriminate]|]. rewrite L. exact LZ. }
  assert (LC : length c = length ps). { rewrite (LL _ _ _ E), map_length, combine_length. lia. }
  split; [exact LW|]. split; [exact LC|]. split; [rewrite map_length, combine_length; lia|].
  intros k Hk. set (g := fun cw : Qc * Qc => qltb 0 (qabs (fst cw * snd cw))). replace (nth k (map g (combine c w)) false) with (nth k (map g (combine c w)) (g (0%Qc, 0%Qc))) by (f_equal; vm_compute; reflexivity). rewrite map_nth. unfold g.
  rewrite combine_nth by lia. cbn [fst snd]. rewrite qltb_lt, qabs_pos. split.
  - intro Q. split; intro Z0; apply Q; rewrite Z0; ring.
  - intros [Q1 Q2] Z0. apply Qcmult_integral in Z0. tauto.
Qed.
Lemma no_selection : forall mask, existsb (fun b => b) mask = false -> forall A (l : list A), select mask l = [].
Proof.
  induction mask as [|b mask IH]; intros H A l; [destruct l; reflexivity|]. cbn in H. apply orb_false_iff in H. destruct H as [-> H]. destruct l as [|x l]; [reflexivity|]. cbn. apply IH. exact H.
Qed.
Lemma some_selection : forall mask, existsb (fun b => b) mask = true -> forall A (l : list A), length mask = length l -> select mask l <> [].
Proof.
  induction mask as [|b mask IH]; intros H A l L; [discriminate|]. destruct l as [|x l]; [discriminate|]. cbn in H, L. destruct b; cbn; [discriminate|]. apply IH; [exact H|lia].
Qed.
Lemma none_nth : forall mask k, existsb (fun b => b) mask = false -> nth k mask false = false.
Proof. induction mask as [|b mask IH]; intros [|k] H; try reflexivity; cbn in *; apply orb_false_iff in H; destruct H as [H1 H2]; [exact H1|apply IH; exact H2]. Qed.
Lemma nth_repeat0 : forall k m, nth k (repeat 0%Qc m) 0%Qc = 0%Qc.
Proof. intros k m. revert k. induction m as [|m IH]; intros [|k]; cbn; try reflexivity. apply IH. Qed.
Lemma mean_const : forall N b, 0 < N -> mean N (fun _ => b) = b.
Proof. intros N b H. unfold mean. rewrite ProofHsic.sumn_const. field. apply qn_nonzero. exact H. Qed.
Lemma precedes_cons : forall l y q p, precedes (y :: l) q p <-> (q = y /\ In p l) \/ precedes l q p.
Proof.
  intros l y q p. split.
  - intros ([|z l1] & l2 & l3 & E); cbn in E; injection E as -> E.
    + left. split; [reflexivity|]. rewrite E. apply in_app_iff. right. left. reflexivity.
    + right. exists l1, l2, l3. exact E.
  - intros [[-> I]|P]; [apply (precedes_app_cross [y] l y p); [left; reflexivity|exact I]|apply (precedes_app_r l [y]); exact P].
Qed.
Lemma precedes_filter : forall (f : nat -> bool) l q p, precedes (filter f l) q p -> precedes l q p.
Proof.
  intros f l q p. induction l as [|y l IH]; intro P; [exact P|]. cbn in P. apply precedes_cons. destruct (f y); [|auto].
  apply precedes_cons in P. destruct P as [[-> I]|P]; [|auto]. left. split; [reflexivity|]. apply filter_In in I. apply I.
Qed.
Lemma select_sub : forall A mask (l : list A) p, In p (select mask l) -> In p l.
Proof.
  intros A mask. induction mask as [|m mask IH]; intros [|z l] p Q; cbn in Q; try destruct Q.
  destruct m; [destruct Q as [->|Q]; [left; reflexivity|right; apply IH; exact Q]|right; apply IH; exact Q].
Qed.
Lemma precedes_select : forall mask l q p, precedes (select mask l) q p -> precedes l q p.
Proof.
  induction mask as [|m mask IH]; intros l q p P; [destruct (precedes_In _ _ _ P) as [[] _]|]. destruct l as [|y l]; [destruct (precedes_In _ _ _ P) as [[] _]|].
  cbn in P. apply precedes_cons. destruct m; [|auto]. apply precedes_cons in P. destruct P as [[-> I]|P]; [|auto]. left. split; [reflexivity|]. apply select_sub in I. exact I.
Qed.

(** ** Least-squares fits exist: orthogonalisation column by column *)
Definition sub_scaled (a : Qc) (us vs : list Qc) : list Qc := map (fun uv => (fst uv - a * snd uv)%Qc) (combine us vs).
Fixpoint gram (N : nat) (cols : list sample) (y : sample) : list Qc :=
  match cols with
  | [] => []
  | c :: cols =>
      let cc := gram N cols c in let cy := gram N cols y in
      let rc := fun r => (c r - combination cc cols r)%Qc in let ry := fun r => (y r - combination cy cols r)%Qc in
      let a := (cov N ry rc / var N rc)%Qc in
      a :: sub_scaled a cy cc
  end.
Definition gram_lr (N : nat) (cols : list sample) (y : sample) : list Qc * Qc :=
  (gram N cols y, (mean N y - mean N (combination (gram N cols y) cols))%Qc).
Lemma gram_length : forall N cols y, length (gram N cols y) = length cols.
Proof. intros N cols. induction cols as [|c cols IH]; intro y; [reflexivity|]. cbn [gram length]. unfold sub_scaled. rewrite map_length, combine_length, !IH. lia. Qed.
Lemma combination_sub : forall a cols us vs r, length us = length cols -> length vs = length cols ->
  combination (sub_scaled a us vs) cols r = (combination us cols r - a * combination vs cols r)%Qc.
Proof.
  intros a cols. induction cols as [|c cols IH]; intros us vs r LU LV.
  - destruct us, vs; try discriminate. cbn. ring.
  - destruct us as [|u us], vs as [|v vs]; try discriminate. cbn in LU, LV.
    change (combination (sub_scaled a (u :: us) (v :: vs)) (c :: cols) r) with ((u - a * v) * c r + combination (sub_scaled a us vs) cols r)%Qc.
    change (combination (u :: us) (c :: cols) r) with (u * c r + combination us cols r)%Qc. change (combination (v :: vs) (c :: cols) r) with (v * c r + combination vs cols r)%Qc.
    rewrite IH by lia. ring.
Qed.
Lemma cov_combination_r : forall N cs cols z, (forall c, In c cols -> cov N z c = 0%Qc) -> cov N z (combination cs cols) = 0%Qc.
Proof. intros N cs cols z H. rewrite cov_sym. apply cov_combination. intros c Hc. rewrite cov_sym. apply H. exact Hc. Qed.
Lemma cov_minus_r : forall N z x y, cov N z (fun r => x r - y r)%Qc = (cov N z x - cov N z y)%Qc.
Proof. intros. rewrite cov_sym, cov_minus, (cov_sym N x z), (cov_sym N y z). reflexivity. Qed.
Lemma gram_orthogonal : forall N cols y, 0 < N -> forall c, In c cols -> cov N (fun r => y r - combination (gram N cols y) cols r)%Qc c = 0%Qc.
Proof.
  intros N cols y HN. revert y. induction cols as [|c cols IH]; intros y d Hd; [destruct Hd|].
  set (cc := gram N cols c). set (cy := gram N cols y).
  set (rc := fun r => (c r - combination cc cols r)%Qc). set (ry := fun r => (y r - combination cy cols r)%Qc). set (a := (cov N ry rc / var N rc)%Qc).
  assert (RES : forall r, (y r - combination (gram N (c :: cols) y) (c :: cols) r = ry r - a * rc r)%Qc).
  { intro r. change (combination (gram N (c :: cols) y) (c :: cols) r) with (a * c r + combination (sub_scaled a cy cc) cols r)%Qc.
    rewrite combination_sub by (apply gram_length). unfold ry, rc. ring. }
  rewrite (cov_ext N _ (fun r => ry r - a * rc r)%Qc d d) by (intros; auto). rewrite cov_minus, cov_scal.
  destruct Hd as [<-|Hd]; [|unfold ry, rc, cy, cc; rewrite !IH by exact Hd; ring].
  assert (C : forall z, (forall e, In e cols -> cov N z e = 0%Qc) -> cov N z c = cov N z rc).
  { intros z Hz. unfold rc. rewrite cov_minus_r, cov_combination_r by exact Hz. ring. }
  rewrite (C ry) by (intros e He; apply IH; exact He). rewrite (C rc) by (intros e He; apply IH; exact He). fold (var N rc).
  destruct (Qc_eq_dec (var N rc) 0) as [Z|Z].
  - rewrite Z. rewrite cov_sym, (var_zero N rc ry HN Z). ring.
  - unfold a. field. exact Z.
Qed.
Lemma gram_fits : forall N, 0 < N -> fits_exactly N (gram_lr N).
Proof.
  intros N HN cols y _. unfold gram_lr. cbn [fst snd]. split; [apply gram_length|]. split.
  - rewrite (mean_ext N _ (fun r => y r - combination (gram N cols y) cols r - (mean N y - mean N (combination (gram N cols y) cols)))%Qc) by (intros; ring).
    rewrite (mean_minus N (fun r => y r - combination (gram N cols y) cols r)%Qc (fun _ => mean N y - mean N (combination (gram N cols y) cols))%Qc), mean_minus, mean_const by exact HN. ring.
  - intros c Hc. rewrite (cov_ext N _ (fun r => (y r - combination (gram N cols y) cols r) + - (mean N y - mean N (combination (gram N cols y) cols)))%Qc c c) by (intros; ring).
    rewrite cov_shift. apply gram_orthogonal; assumption.
Qed.
