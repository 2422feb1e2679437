(** * C229-C231: what visualize_nonlinear_causal_effect draws *)
From Coq Require Import List Arith Lia Bool ZArith QArith Qcanon.
From Verif Require Import Prelude Lib ModelViz.
From Verif Require ProofTools.
Import ListNotations.
Open Scope nat_scope.

Lemma cls_eqb_eq : forall a b, cls_eqb a b = true <-> a = b.
Proof. intros [a|] [b|]; cbn; try (split; congruence). rewrite Nat.eqb_eq. split; congruence. Qed.
Lemma known_in : forall c l, existsb (cls_eqb c) l = true <-> In c l.
Proof. intros c l. rewrite existsb_exists. split; [intros (x & H & E); apply cls_eqb_eq in E; subst; exact H|intro H; exists c; split; [exact H|apply cls_eqb_eq; reflexivity]]. Qed.
Lemma seen_in : forall x l, existsb (qeqb x) l = true <-> In x l.
Proof. intros c l. rewrite existsb_exists. split; [intros (x & H & E); apply qeqb_eq in E; subst; exact H|intro H; exists c; split; [exact H|apply qeqb_eq; reflexivity]]. Qed.
Lemma firsts_nodup : forall l seen, NoDup l -> (forall x, In x l -> ~ In x seen) -> firsts seen l = l.
Proof.
  induction l as [|x l IH]; intros seen ND H; [reflexivity|]. cbn [firsts]. inversion ND as [|? ? NI ND']; subst. destruct (existsb (qeqb x) seen) eqn:E; [apply seen_in in E; exfalso; apply (H x (or_introl eq_refl) E)|].
  f_equal. apply IH; [exact ND'|]. intros y Hy [<-|Hs]; [exact (NI Hy)|exact (H y (or_intror Hy) Hs)].
Qed.
Lemma keys_nodup : forall l, NoDup l -> keys l = l.
Proof. intros l H. apply firsts_nodup; [exact H|intros x _ []]. Qed.
Lemma firsts_length : forall l seen, length (firsts seen l) <= length l.
Proof. induction l as [|x l IH]; intro seen; [reflexivity|]. cbn [firsts]. destruct (existsb _ _); cbn; [specialize (IH seen); lia|specialize (IH (x :: seen)); lia]. Qed.
Lemma firsts_short : forall l seen, length (firsts seen l) = length l -> NoDup l /\ forall x, In x l -> ~ In x seen.
Proof.
  induction l as [|x l IH]; intros seen H; [split; [constructor|intros ? []]|]. cbn [firsts] in H. destruct (existsb (qeqb x) seen) eqn:E; cbn in H; [pose proof (firsts_length l seen); lia|].
  destruct (IH (x :: seen) ltac:(lia)) as [N H']. split; [constructor; [intro Hx; apply (H' x Hx); left; reflexivity|exact N]|]. intros y [<-|Hy]; [intro Q; apply seen_in in Q; congruence|intro Q; apply (H' y Hy); right; exact Q].
Qed.
Lemma keys_short : forall l, ~ NoDup l -> length (keys l) < length l.
Proof. intros l H. pose proof (firsts_length l []) as L. unfold keys. destruct (Nat.eq_dec (length (firsts [] l)) (length l)) as [E|D]; [exfalso; apply H; exact (proj1 (firsts_short _ _ E))|lia]. Qed.

Section Draw.
  Variables (classes : list cls) (positions : list Qc) (percentile_of : list Qc -> Qc -> Qc).
  (** The estimator of a run knows only classes of the data, each once. *)
  Definition run_ok (r : run) : Prop := NoDup (r_classes r) /\ incl (r_classes r) classes.
  (** The values of class [c] at position [p]: one of each run whose estimator knows the class. *)
  Definition values (rs : list run) (c : cls) (p : Qc) : list Qc := map (fun r => r_value r p c) (filter (fun r => existsb (cls_eqb c) (r_classes r)) rs).
  Lemma classes_spec : forall r p cs i, NoDup cs -> incl cs classes -> exists i', add_classes classes r p cs i = Ok i' /\
    forall c q, i' c q = if qeqb p q && existsb (cls_eqb c) cs then i c q ++ [r_value r q c] else i c q.
  Proof.
    intros r p. induction cs as [|a cs IH]; intros i ND HI; [exists i; split; [reflexivity|intros c q; cbn; rewrite andb_false_r; reflexivity]|].
    inversion ND as [|? ? NI ND']; subst. cbn [add_classes]. rewrite (proj2 (known_in a classes)) by (apply HI; left; reflexivity).
    destruct (IH (append i a p (r_value r p a)) ND' (fun x Hx => HI x (or_intror Hx))) as (i' & -> & H). exists i'. split; [reflexivity|]. intros c q. rewrite H. unfold append. cbn [existsb].
    destruct (qeqb p q) eqn:EP; [|rewrite !andb_false_r; reflexivity]. apply qeqb_eq in EP. subst q. rewrite !andb_true_r. cbn [andb]. destruct (cls_eqb a c) eqn:EA.
    - apply cls_eqb_eq in EA. subst c. rewrite (proj2 (cls_eqb_eq a a) eq_refl). cbn [orb]. destruct (existsb (cls_eqb a) cs) eqn:EX; [apply known_in in EX; contradiction|reflexivity].
    - assert (EA' : cls_eqb c a = false) by (apply Bool.not_true_iff_false; intro Q; apply cls_eqb_eq in Q; subst; rewrite (proj2 (cls_eqb_eq a a) eq_refl) in EA; discriminate). rewrite EA'. reflexivity.
  Qed.
  Lemma positions_spec : forall r ps i, run_ok r -> NoDup ps -> exists i', add_positions classes r ps i = Ok i' /\
    forall c q, i' c q = if existsb (qeqb q) ps && existsb (cls_eqb c) (r_classes r) then i c q ++ [r_value r q c] else i c q.
  Proof.
    intros r. induction ps as [|p ps IH]; intros i OK ND; [exists i; split; reflexivity|]. inversion ND as [|? ? NI ND']; subst. cbn [add_positions]. destruct OK as [O1 O2].
    destruct (classes_spec r p (r_classes r) i O1 O2) as (i1 & -> & H1). cbn [bind]. destruct (IH i1 (conj O1 O2) ND') as (i' & -> & H). exists i'. split; [reflexivity|]. intros c q. rewrite H, H1. cbn [existsb].
    destruct (qeqb p q) eqn:EP.
    - apply qeqb_eq in EP. subst q. rewrite (proj2 (qeqb_eq p p) eq_refl). cbn [orb andb]. destruct (existsb (qeqb p) ps) eqn:EX; [apply seen_in in EX; contradiction|]. reflexivity.
    - assert (EP' : qeqb q p = false) by (apply Bool.not_true_iff_false; intro Q; apply qeqb_eq in Q; subst; rewrite (proj2 (qeqb_eq p p) eq_refl) in EP; discriminate). rewrite EP'. reflexivity.
  Qed.
  Lemma positions_total : forall r ps i, run_ok r -> exists i', add_positions classes r ps i = Ok i'.
  Proof.
    intros r. induction ps as [|p ps IH]; intros i OK; [exists i; reflexivity|]. cbn [add_positions]. destruct OK as [O1 O2]. destruct (classes_spec r p (r_classes r) i O1 O2) as (i1 & -> & _). cbn [bind]. apply IH. split; assumption.
  Qed.
  Lemma runs_total : forall rs i, (forall r, In r rs -> run_ok r) -> exists i', add_runs classes positions rs i = Ok i'.
  Proof. induction rs as [|r rs IH]; intros i H; [exists i; reflexivity|]. cbn [add_runs]. destruct (positions_total r positions i (H r (or_introl eq_refl))) as [i1 ->]. cbn [bind]. apply IH. intros x Hx. apply H. right. exact Hx. Qed.
  Lemma runs_spec : forall rs i, (forall r, In r rs -> run_ok r) -> NoDup positions -> exists i', add_runs classes positions rs i = Ok i' /\ forall c q, In q positions -> i' c q = i c q ++ values rs c q.
  Proof.
    induction rs as [|r rs IH]; intros i H ND; [exists i; split; [reflexivity|intros; rewrite app_nil_r; reflexivity]|]. cbn [add_runs]. destruct (positions_spec r positions i (H r (or_introl eq_refl)) ND) as (i1 & -> & H1). cbn [bind].
    destruct (IH i1 (fun x Hx => H x (or_intror Hx)) ND) as (i' & -> & H2). exists i'. split; [reflexivity|]. intros c q Hq. rewrite (H2 c q Hq), H1. rewrite (proj2 (seen_in q positions) Hq). unfold values. cbn [filter andb].
    destruct (existsb (cls_eqb c) (r_classes r)); [cbn [map]; rewrite <- app_assoc; reflexivity|reflexivity].
  Qed.
  Lemma percentile_once : forall qs per (f : Qc -> Qc), NoDup qs -> In per qs -> flat_map (fun q => if qeqb q per then [f q] else []) qs = [f per].
  Proof.
    induction qs as [|q qs IH]; intros per f ND HI; [destruct HI|]. inversion ND as [|? ? NI ND']; subst. cbn [flat_map]. destruct (qeqb q per) eqn:E.
    - apply qeqb_eq in E. subst q. cbn [app]. f_equal. clear - NI. induction qs as [|x qs IH]; [reflexivity|]. cbn [flat_map]. destruct (qeqb x per) eqn:E; [apply qeqb_eq in E; subst; exfalso; apply NI; left; reflexivity|]. apply IH. intro H. apply NI. right. exact H.
    - cbn [app]. apply IH; [exact ND'|]. destruct HI as [->|HI]; [rewrite (proj2 (qeqb_eq per per) eq_refl) in E; discriminate|exact HI].
  Qed.
  Lemma flat_single : forall (A B : Type) (f : A -> B) l, flat_map (fun x => [f x]) l = map f l.
  Proof. intros A B f l. induction l as [|x l IH]; [reflexivity|]. cbn. rewrite IH. reflexivity. Qed.
  Lemma combine_self : forall (f : Qc -> Qc) l, combine l (map f l) = map (fun p => (p, f p)) l.
  Proof. intros f l. induction l as [|x l IH]; [reflexivity|]. cbn. rewrite IH. reflexivity. Qed.
  Lemma line_distinct : forall qs i c per, NoDup qs -> In per qs -> line positions percentile_of qs i c per = map (fun p => percentile_of (i c p) per) (keys positions).
  Proof. intros qs i c per NQ HP. unfold line. transitivity (flat_map (fun p => [percentile_of (i c p) per]) (keys positions)); [|apply flat_single]. apply flat_map_ext. intro p. apply (percentile_once qs per (fun q => percentile_of (i c p) q) NQ HP). Qed.

  (** ** C229 *)
  (** Distinct positions and percentiles: for every class and percentile the line through the percentiles of the collected values. *)
  Theorem C229_lines : forall qs rs, NoDup positions -> NoDup qs -> (forall r, In r rs -> run_ok r) ->
    visualize classes positions percentile_of qs rs = Ok (map (fun c => (c, map (fun q => (q, map (fun p => (p, percentile_of (values rs c p) q)) positions)) qs)) classes).
  Proof.
    intros qs rs NP NQ OK. unfold visualize, calculate. destruct (runs_spec rs (fun _ _ => []) OK NP) as (i & -> & HI). cbn [bind].
    assert (L : forall c ps, incl ps qs -> plot_lines positions percentile_of qs i c ps = Ok (map (fun q => (q, map (fun p => (p, percentile_of (values rs c p) q)) positions)) ps)).
    { intros c. induction ps as [|q ps IH]; intro H; [reflexivity|]. cbn [plot_lines]. rewrite (line_distinct qs i c q NQ (H q (or_introl eq_refl))), (keys_nodup positions NP), map_length, Nat.eqb_refl.
      rewrite IH by (intros x Hx; apply H; right; exact Hx). cbn [bind map]. rewrite combine_self. do 3 f_equal. apply map_ext_in. intros p Hp. rewrite (HI c p Hp). reflexivity. }
    assert (G : forall cs, plot_classes positions percentile_of qs i cs = Ok (map (fun c => (c, map (fun q => (q, map (fun p => (p, percentile_of (values rs c p) q)) positions)) qs)) cs)).
    { induction cs as [|c cs IH]; [reflexivity|]. cbn [plot_classes]. rewrite (keys_nodup qs NQ), (L c qs (incl_refl qs)). cbn [bind]. rewrite IH. reflexivity. }
    apply G.
  Qed.
  (** A position given twice: ValueError. *)
  Theorem C229_repeated_position_refuted : forall qs rs, ~ NoDup positions -> NoDup qs -> qs <> [] -> classes <> [] -> (forall r, In r rs -> run_ok r) ->
    visualize classes positions percentile_of qs rs = Err ValueError.
  Proof.
    intros qs rs NP NQ HQ HC OK. unfold visualize, calculate. destruct (runs_total rs (fun _ _ => []) OK) as [i ->]. cbn [bind]. destruct classes as [|c cs]; [congruence|]. cbn [plot_classes]. rewrite (keys_nodup qs NQ). destruct qs as [|q qs]; [congruence|].
    cbn [plot_lines]. rewrite (line_distinct (q :: qs) i c q NQ (or_introl eq_refl)), map_length. pose proof (keys_short positions NP) as L. rewrite (proj2 (Nat.eqb_neq _ _)) by lia. reflexivity.
  Qed.
End Draw.
Print Assumptions C229_lines.
Print Assumptions C229_repeated_position_refuted.
(** The default positions are distinct exactly if the cause is not constant; the effect of a constant cause cannot be drawn. *)
Theorem C229_default_positions : forall lo hi, NoDup (default_positions lo hi) <-> lo <> hi.
Proof.
  intros lo hi. split.
  - intros ND ->. cbn [default_positions seq map] in ND. inversion ND as [|? ? NI _]; subst. apply NI. left. f_equal. replace (hi - hi)%Qc with 0%Qc by ring. unfold Qcdiv. ring.
  - intro D. unfold default_positions. generalize (seq_NoDup 10 0). generalize (seq 0 10). intros l ND. induction l as [|k l IH]; [constructor|]. inversion ND as [|? ? NI ND']; subst. cbn [map]. constructor; [|apply IH; exact ND'].
    intro H. apply in_map_iff in H. destruct H as (j & E & Hj). apply NI. replace k with j; [exact Hj|].
    assert (N : ((hi - lo) / qn 9 <> 0)%Qc). { intro Z. apply D. assert (Q : (hi - lo = (hi - lo) / qn 9 * qn 9)%Qc) by (unfold Qcdiv; rewrite <- Qcmult_assoc, (Qcmult_comm (/ qn 9)), Qcmult_inv_r by discriminate; ring). rewrite Z in Q. replace hi with (lo + (hi - lo))%Qc by ring. rewrite Q. ring. }
    assert (M : (qn j * ((hi - lo) / qn 9) = qn k * ((hi - lo) / qn 9))%Qc). { transitivity ((lo + qn j * ((hi - lo) / qn 9)) - lo)%Qc; [ring|]. rewrite E. ring. }
    assert (QE : qn j = qn k). { apply (f_equal (fun x => x * / ((hi - lo) / qn 9))%Qc) in M. rewrite <- !Qcmult_assoc, !Qcmult_inv_r, !Qcmult_1_r in M by exact N. exact M. }
    apply ProofTools.qn_inj. exact QE.
Qed.
Print Assumptions C229_default_positions.
Theorem C229_constant_cause_refuted : forall classes percentile_of qs rs q, NoDup qs -> qs <> [] -> classes <> [] -> (forall r, In r rs -> run_ok classes r) ->
  visualize classes (default_positions q q) percentile_of qs rs = Err ValueError.
Proof. intros classes perc qs rs q NQ HQ HC OK. apply C229_repeated_position_refuted; try assumption. intro ND. apply C229_default_positions in ND. congruence. Qed.
Print Assumptions C229_constant_cause_refuted.

(** ** C230 *)
(** One value of every run whose estimator knows the class, so all of them for a continuous effect. *)
Theorem C230_counts : forall classes positions rs c p, NoDup positions -> In p positions -> (forall r, In r rs -> run_ok classes r) ->
  exists i, calculate classes positions rs = Ok i /\ length (i c p) = length (filter (fun r => existsb (cls_eqb c) (r_classes r)) rs) /\
    ((forall r, In r rs -> In c (r_classes r)) -> i c p = map (fun r => r_value r p c) rs).
Proof.
  intros classes positions rs c p ND HP OK. destruct (runs_spec classes positions rs (fun _ _ => []) OK ND) as (i & E & H). exists i. split; [exact E|]. rewrite (H c p HP). cbn [app]. split; [unfold values; apply map_length|].
  intro A. unfold values. f_equal. clear - A. induction rs as [|r rs IH]; [reflexivity|]. cbn [filter]. rewrite (proj2 (known_in c (r_classes r))) by (apply A; left; reflexivity). f_equal. apply IH. intros x Hx. apply A. right. exact Hx.
Qed.
Print Assumptions C230_counts.
(** A resample without the class contributes no value instead of probability zero: it is left out of the percentiles. *)
Theorem C230_missing_class_refuted : forall classes positions r rs c p, NoDup positions -> In p positions -> (forall x, In x (r :: rs) -> run_ok classes x) -> ~ In c (r_classes r) ->
  exists i i', calculate classes positions (r :: rs) = Ok i /\ calculate classes positions rs = Ok i' /\ i c p = i' c p /\ length (i c p) < length (r :: rs).
Proof.
  intros classes positions r rs c p ND HP OK NC. destruct (runs_spec classes positions (r :: rs) (fun _ _ => []) OK ND) as (i & E & H). destruct (runs_spec classes positions rs (fun _ _ => []) (fun x Hx => OK x (or_intror Hx)) ND) as (i' & E' & H').
  exists i, i'. split; [exact E|]. split; [exact E'|]. rewrite (H c p HP), (H' c p HP). cbn [app]. unfold values. cbn [filter]. destruct (existsb (cls_eqb c) (r_classes r)) eqn:Q; [apply known_in in Q; contradiction|]. split; [reflexivity|]. rewrite map_length. cbn [length].
  assert (FL : forall (f : run -> bool) l, length (filter f l) <= length l) by (intros f l; induction l as [|x l IH]; [reflexivity|]; cbn; destruct (f x); cbn; lia). specialize (FL (fun r => existsb (cls_eqb c) (r_classes r)) rs). lia.
Qed.
Print Assumptions C230_missing_class_refuted.

(** ** C231 *)
Theorem C231_accepted : forall n g, check_result n g = Ok tt <-> g = GBoot \/ g = GArray n n.
Proof.
  intros n [|r c|r c|]; cbn [check_result]; try (split; [try discriminate; intros _; left; reflexivity|intros [H|H]; try discriminate; reflexivity]).
  destruct (Nat.eqb_spec r n) as [->|D]; cbn [andb]; [destruct (Nat.eqb_spec c n) as [->|D]|]; (split; [try discriminate; intros _; right; reflexivity|]); intros [H|H]; try discriminate; try reflexivity; injection H; intros; congruence.
Qed.
(** An adjacency matrix given as nested lists, as documented, raises AttributeError. *)
Theorem C231_nested_lists_refuted : forall n, check_result n (GNested n n) = Err AttributeError.
Proof. reflexivity. Qed.
Theorem C231_percentiles : forall p l, check_percentiles p = Ok l <-> (p = PDefault /\ l = [qz 95; qz 50; qz 5]) \/ (p = PList l /\ length l = 3 /\ forall x, In x l -> (0 <= x)%Qc /\ (x <= qz 100)%Qc).
Proof.
  intros [|m|] l; cbn [check_percentiles].
  - split; [intro H; injection H as <-; left; split; reflexivity|intros [[_ ->]|[H _]]; [reflexivity|discriminate]].
  - destruct (Nat.eqb_spec (length m) 3) as [E|D]; cbn [negb]; [|split; [discriminate|intros [[H _]|(H & L & _)]; [discriminate|injection H as <-; contradiction]]].
    destruct (forallb (fun x => qleb 0 x && qleb x (qz 100)) m) eqn:F.
    + split; [intro H; injection H as <-; right; split; [reflexivity|split; [exact E|]]; intros x Hx; rewrite forallb_forall in F; specialize (F x Hx); apply andb_true_iff in F; destruct F as [F1 F2]; apply qleb_le in F1; apply qleb_le in F2; split; assumption|intros [[H _]|(H & _)]; [discriminate|injection H as <-; reflexivity]].
    + split; [discriminate|]. intros [[H _]|(H & _ & A)]; [discriminate|]. injection H as <-. exfalso. rewrite <- Bool.not_true_iff_false in F. apply F. apply forallb_forall. intros x Hx. destruct (A x Hx) as [A1 A2]. apply andb_true_iff. split; apply qleb_le; assumption.
  - split; [discriminate|intros [[H _]|(H & _)]; discriminate].
Qed.
(** A tuple of three percentiles, as documented, raises TypeError. *)
Theorem C231_tuple_refuted : check_percentiles POther = Err TypeError.
Proof. reflexivity. Qed.
Print Assumptions C231_accepted.
Print Assumptions C231_percentiles.

(** ** Examples: two classes; the second resample has only class 0.  The "percentile" of the example is the mean. *)
Definition mean_of (l : list Qc) (_ : Qc) : Qc := (qsum l / qn (length l))%Qc.
Definition run1 : run := {| r_classes := [Some 0; Some 1]; r_value := fun p c => qf 1 2 |}.
Definition run2 : run := {| r_classes := [Some 0]; r_value := fun p c => 1%Qc |}.
Example C229_example : run_ok [Some 0; Some 1] run1 /\ run_ok [Some 0; Some 1] run2 /\ NoDup [1%Qc; qz 2] /\
  match visualize [Some 0; Some 1] [1%Qc; qz 2] mean_of [qz 50] [run1; run2] with
  | Ok [(Some 0, [(_, l0)]); (Some 1, [(_, l1)])] => (map (fun x => this (snd x)) l0, map (fun x => this (snd x)) l1) = ([3 # 4; 3 # 4], [1 # 2; 1 # 2])%Q
  | _ => False
  end /\ visualize [Some 0; Some 1] [1%Qc; 1%Qc] mean_of [qz 50] [run1; run2] = Err ValueError.
Proof.
  split; [split; [repeat constructor; cbn; intuition discriminate|intros x H; exact H]|]. split; [split; [repeat constructor; intros []|intros x [<-|[]]; left; reflexivity]|].
  split; [repeat constructor; cbn; [intros [H|[]]; discriminate|tauto]|]. split; vm_compute; reflexivity.
Qed.
(** Class 1 has probability 1/2 in one resample and 0 in the other; the value reported is 1/2, not 1/4. *)
Example C230_example : ~ In (Some 1) (r_classes run2) /\ match calculate [Some 0; Some 1] [1%Qc] [run2; run1] with Ok i => this (mean_of (i (Some 1) 1%Qc) 0%Qc) = (1 # 2)%Q /\ this (mean_of [0%Qc; qf 1 2] 0%Qc) = (1 # 4)%Q | Err _ => False end.
Proof. split; [intros [H|[]]; discriminate|]. vm_compute. split; reflexivity. Qed.
Example C231_example : check_result 3 (GArray 3 3) = Ok tt /\ check_result 3 (GArray 3 2) = Err TypeError /\ check_percentiles (PList [0%Qc; qz 50; qz 101]) = Err TypeError /\ check_percentiles (PList [0%Qc; qz 50; qz 100]) = Ok [0%Qc; qz 50; qz 100].
Proof. repeat split. Qed.
