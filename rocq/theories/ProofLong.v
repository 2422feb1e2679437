(** * Proofs about the LongitudinalLiNGAM model. *)
From Coq Require Import List Arith Lia Bool ZArith QArith Qcanon Permutation Relations.
From Verif Require Import Prelude Spec Lib LibMat ModelPaths SpecPaths ProofPaths ProofTotal ModelVAR ProofVAR ModelLong.
Import ListNotations.
Open Scope nat_scope.

Lemma sumn_add : forall a b f, sumn (a + b) f = (sumn a f + sumn b (fun k => f (a + k)%nat))%Qc.
Proof.
  intros a b f. induction b as [|b IH].
  - rewrite Nat.add_0_r. change (sumn 0 (fun k => f (a + k)%nat)) with 0%Qc. ring.
  - replace (a + S b) with (S (a + b)) by lia. rewrite !sumn_S, IH. ring.
Qed.
Lemma sumn_blocks : forall L p f, sumn (L * p) f = sumn L (fun l => sumn p (fun j => f (l * p + j))).
Proof.
  induction L as [|L IH]; intros p f; [reflexivity|].
  rewrite sumn_S, <- IH. replace (S L * p) with (L * p + p) by lia. apply sumn_add.
Qed.

Lemma long_structural : forall reg lingam p L X t s i, L <= t -> i < p ->
  sumn p (fun j => msub midn (B_t reg lingam p L X t) i j * N_t reg p L X t j s)%Qc =
  (X t s i - sumn p (fun j => B_t reg lingam p L X t i j * X t s j)
     - sumn L (fun l => sumn p (fun j => B_tau reg lingam p L X t l i j * X (t - L + l)%nat s j)))%Qc.
Proof.
  intros reg lingam p L X t s i Ht Hi. set (B := B_t reg lingam p L X t).
  assert (HN : forall j, N_t reg p L X t j s =
     (X t s j - sumn L (fun l => sumn p (fun q => M_tau reg p L X t l j q * X (t - L + l)%nat s q)))%Qc).
  { intro j. unfold N_t. f_equal. rewrite sumn_blocks. apply sumn_ext. intros l Hl. apply sumn_ext. intros q Hq.
    unfold M_tau, lag_stack. destruct (div_mod_unique p l q Hq) as [E1 E2]. rewrite (Nat.mul_comm l p), E1, E2. reflexivity. }
  rewrite (sumn_ext p _ (fun j => msub midn B i j * (X t s j - sumn L (fun l => sumn p (fun q => M_tau reg p L X t l j q * X (t - L + l)%nat s q))))%Qc)
    by (intros; rewrite HN; reflexivity).
  pose proof (structural p B (map (M_tau reg p L X t) (seq 0 L)) (X t s) (fun k q => X (t - L + k)%nat s q) i Hi) as S.
  rewrite map_length, seq_length in S.
  assert (NT : forall k, k < L -> nth k (map (M_tau reg p L X t) (seq 0 L)) zmat = M_tau reg p L X t k).
  { intros k Hk. rewrite (nth_indep _ zmat (M_tau reg p L X t 0)) by (rewrite map_length, seq_length; exact Hk).
    rewrite (map_nth (M_tau reg p L X t)). rewrite seq_nth by exact Hk. reflexivity. }
  rewrite (sumn_ext p _ (fun j => msub midn B i j * (X t s j - sumn L (fun k => sumn p (fun l => nth k (map (M_tau reg p L X t) (seq 0 L)) zmat j l * X (t - L + k)%nat s l))))%Qc).
  - rewrite S. f_equal. apply sumn_ext. intros k Hk. rewrite (NT k Hk). reflexivity.
  - intros j _. f_equal. f_equal. apply sumn_ext. intros k Hk. rewrite (NT k Hk). reflexivity.
Qed.

(** ** Prior knowledge matrix *)
Lemma block_range' : forall p b r, 0 < p -> ((b * p <=? r) && (r <? (b + 1) * p)) = (r / p =? b).
Proof. intros p b r H. rewrite <- (block_range p b r H). f_equal; f_equal; lia. Qed.
Lemma pk_block_spec : forall p A row col m r c, 0 < p ->
  pk_block p A row col m r c =
  if (r / p =? row) && (c / p =? col)
  then let a := A (r mod p) (c mod p) in if (a =? 0)%Z then 0%Z else if (a =? 1)%Z then 1%Z else m r c
  else m r c.
Proof.
  intros p A row col m r c Hp. unfold pk_block.
  replace ((row * p <=? r) && (r <? (row + 1) * p) && (col * p <=? c) && (c <? (col + 1) * p))
    with (((row * p <=? r) && (r <? (row + 1) * p)) && ((col * p <=? c) && (c <? (col + 1) * p)))
    by (rewrite !andb_assoc; reflexivity).
  rewrite !block_range' by exact Hp.
  destruct (Nat.eqb_spec (r / p) row) as [Er|]; [|reflexivity]. destruct (Nat.eqb_spec (c / p) col) as [Ec|]; [|reflexivity].
  cbn [andb]. pose proof (Nat.div_mod r p ltac:(lia)). pose proof (Nat.div_mod c p ltac:(lia)). rewrite Er in *. rewrite Ec in *.
  replace (r - row * p) with (r mod p) by lia. replace (c - col * p) with (c mod p) by lia. reflexivity.
Qed.
Definition pk_val (a d : Z) : Z := if (a =? 0)%Z then 0%Z else if (a =? 1)%Z then 1%Z else d.
Lemma pk_inner_spec : forall p (A : nat -> mat Z) t taus m r c, 0 < p -> NoDup taus ->
  fold_left (fun m tau => if t <? tau then m else pk_block p (A tau) t (t - tau) m) taus m r c =
  if (r / p =? t) && (c / p <=? t) && memb (t - c / p) taus
  then pk_val (A (t - c / p) (r mod p) (c mod p)) (m r c) else m r c.
Proof.
  intros p A t taus. induction taus as [|tau taus IH]; intros m r c Hp ND; cbn [fold_left].
  - cbn. rewrite andb_false_r. reflexivity.
  - apply NoDup_cons_iff in ND. destruct ND as [Hn ND]. rewrite IH by assumption. cbn [memb existsb].
    assert (M : (if t <? tau then m else pk_block p (A tau) t (t - tau) m) r c =
                if (r / p =? t) && (c / p <=? t) && (t - c / p =? tau) then pk_val (A tau (r mod p) (c mod p)) (m r c) else m r c).
    { destruct (Nat.ltb_spec t tau) as [Hlt|Hge].
      - destruct (Nat.eqb_spec (t - c / p) tau); [lia|]. rewrite andb_false_r. reflexivity.
      - rewrite pk_block_spec by exact Hp. destruct (Nat.eqb_spec (r / p) t); [|reflexivity]. cbn [andb].
        destruct (Nat.eqb_spec (c / p) (t - tau)) as [E1|E1].
        + destruct (Nat.leb_spec (c / p) t); [|lia]. destruct (Nat.eqb_spec (t - c / p) tau); [|lia]. reflexivity.
        + destruct (Nat.leb_spec (c / p) t); [|reflexivity]. destruct (Nat.eqb_spec (t - c / p) tau); [lia|]. reflexivity. }
    rewrite M. destruct ((r / p =? t) && (c / p <=? t)); [|reflexivity]. cbn [andb].
    destruct (Nat.eqb_spec (t - c / p) tau) as [E|E]; cbn [orb]; [|reflexivity].
    rewrite E. destruct (memb tau taus) eqn:Mb; [apply memb_In in Mb; contradiction|].
    reflexivity.
Qed.
Lemma long_pk_spec : forall p L T A t s i j, i < p -> j < p -> t < T -> s < T ->
  long_pk p L T A (t * p + i) (s * p + j) =
  if (s <=? t) && (t - s <=? L)
  then (let a := A t (t - s) i j in if (a =? 0)%Z then 0%Z else if (a =? 1)%Z then 1%Z else (-1)%Z) else 0%Z.
Proof.
  intros p L T A t s i j Hi Hj Ht Hs.
  assert (Hp : 0 < p) by lia.
  destruct (div_mod_unique p t i Hi) as [R1 R2]. destruct (div_mod_unique p s j Hj) as [C1 C2].
  rewrite (Nat.mul_comm p t) in R1, R2. rewrite (Nat.mul_comm p s) in C1, C2.
  set (r := t * p + i) in *. set (c := s * p + j) in *.
  assert (W : pk_window p L T r c = if (s <=? t) && (t - s <=? L) then (-1)%Z else 0%Z).
  { unfold pk_window. rewrite R1. destruct (Nat.ltb_spec t T); [|lia]. cbn [andb].
    destruct (Nat.leb_spec s t); destruct (Nat.leb_spec (t - s) L); cbn [andb].
    - destruct (Nat.leb_spec ((t + 1) * p - p * (L + 1)) c); [|subst c; nia]. destruct (Nat.ltb_spec c ((t + 1) * p)); [reflexivity|subst c; nia].
    - destruct (Nat.leb_spec ((t + 1) * p - p * (L + 1)) c); [subst c; nia|]. reflexivity.
    - destruct (Nat.ltb_spec c ((t + 1) * p)); [subst c; nia|]. rewrite andb_false_r. reflexivity.
    - destruct (Nat.ltb_spec c ((t + 1) * p)); [subst c; nia|]. rewrite andb_false_r. reflexivity. }
  unfold long_pk.
  assert (G : forall ts m, NoDup ts ->
    fold_left (fun m t => fold_left (fun m tau => if t <? tau then m else pk_block p (A t tau) t (t - tau) m) (seq 0 (L + 1)) m) ts m r c =
    if memb t ts && ((s <=? t) && (t - s <=? L)) then pk_val (A t (t - s) i j) (m r c) else m r c).
  { induction ts as [|t' ts IH]; intros m ND; cbn [fold_left]; [reflexivity|].
    apply NoDup_cons_iff in ND. destruct ND as [Hn ND]. rewrite IH by exact ND.
    rewrite pk_inner_spec by (try exact Hp; apply seq_NoDup). rewrite R1, C1, R2, C2. cbn [memb existsb].
    destruct (Nat.eqb_spec t t') as [->|E]; cbn [andb orb].
    - destruct (memb t' ts) eqn:Mb; [apply memb_In in Mb; contradiction|]. cbn [andb].
      assert (MM : memb (t' - s) (seq 0 (L + 1)) = (t' - s <=? L)).
      { destruct (Nat.leb_spec (t' - s) L); [apply memb_In; apply in_seq; lia|].
        apply memb_notIn. intro Z. apply in_seq in Z. lia. }
      rewrite MM. reflexivity.
    - reflexivity. }
  rewrite G by apply seq_NoDup. assert (Mt : memb t (seq 0 T) = true) by (apply memb_In; apply in_seq; lia).
  rewrite Mt, W. cbn [andb]. destruct ((s <=? t) && (t - s <=? L)); reflexivity.
Qed.

(** ** Orders extracted from the global order *)
Lemma min_list_spec : forall l m, In m l -> (forall x, In x l -> m <= x) -> min_list l = m.
Proof.
  intros l m Hm H. unfold min_list. destruct l as [|x l]; [contradiction|]. cbn [hd].
  assert (G : forall l a, m <= a -> (forall x, In x l -> m <= x) -> (a = m \/ In m l) -> fold_left Nat.min l a = m).
  { clear. induction l as [|y l IH]; intros a Ha Hl D; cbn [fold_left].
    - destruct D as [D|[]]; exact D.
    - apply IH; [pose proof (Hl y (or_introl eq_refl)); lia|intros; apply Hl; right; assumption|].
      destruct D as [->|[->|D]]; [left; pose proof (Hl y (or_introl eq_refl)); lia|left; lia|right; exact D]. }
  apply G; [apply H; left; reflexivity|assumption|right; exact Hm].
Qed.
Lemma filter_precedes : forall (f : nat -> bool) l a b, f a = true -> f b = true -> precedes l a b -> precedes (filter f l) a b.
Proof.
  intros f l a b Ha Hb (l1 & l2 & l3 & ->). exists (filter f l1), (filter f l2), (filter f l3).
  rewrite filter_app. cbn [filter]. rewrite Ha. rewrite filter_app. cbn [filter]. rewrite Hb. reflexivity.
Qed.
Lemma map_precedes : forall (f : nat -> nat) l a b, precedes l a b -> precedes (map f l) (f a) (f b).
Proof.
  intros f l a b (l1 & l2 & l3 & ->). exists (map f l1), (map f l2), (map f l3).
  rewrite map_app. cbn [map]. rewrite map_app. reflexivity.
Qed.
Lemma long_order_pk_spec : forall p T order t, 0 < p -> t < T -> is_order (T * p) order ->
  is_order p (long_order_pk p order t) /\
  forall i j, i < p -> j < p -> precedes order (t * p + i) (t * p + j) -> precedes (long_order_pk p order t) i j.
Proof.
  intros p T order t Hp Ht HO.
  assert (ND : NoDup order) by (eapply Permutation_NoDup; [symmetry; exact HO|apply seq_NoDup]).
  assert (HI : forall x, In x order <-> x < T * p).
  { intro x. split; intro H.
    - apply (Permutation_in _ HO) in H. apply in_seq in H. lia.
    - apply (Permutation_in _ (Permutation_sym HO)). apply in_seq. lia. }
  set (o := filter (fun x => (t * p <=? x) && (x <? (t + 1) * p)) order).
  assert (Ho : forall x, In x o <-> t * p <= x < (t + 1) * p).
  { intro x. unfold o. rewrite filter_In, HI. rewrite andb_true_iff, Nat.leb_le, Nat.ltb_lt. nia. }
  assert (Hm : min_list o = t * p).
  { apply min_list_spec; [apply Ho; nia|]. intros x Hx. apply Ho in Hx. lia. }
  assert (NDo : NoDup o) by (apply NoDup_filter; exact ND).
  unfold long_order_pk. fold o. rewrite Hm. split.
  - apply NoDup_Permutation.
    + assert (G : forall l, (forall x, In x l -> t * p <= x) -> NoDup l -> NoDup (map (fun v => v - t * p) l)).
      { clear. induction l as [|x l IH]; intros H ND; cbn [map]; [constructor|]. apply NoDup_cons_iff in ND. destruct ND as [N1 N2].
        constructor; [|apply IH; [intros; apply H; right; assumption|exact N2]].
        intro Z. apply in_map_iff in Z. destruct Z as [y [E Hy]]. pose proof (H y (or_intror Hy)). pose proof (H x (or_introl eq_refl)).
        assert (x = y) by lia. subst. contradiction. }
      apply G; [intros x Hx; apply Ho in Hx; lia|exact NDo].
    + apply seq_NoDup.
    + intro x. rewrite in_map_iff, in_seq. split.
      * intros [y [<- Hy]]. apply Ho in Hy. lia.
      * intros Hx. exists (t * p + x). split; [lia|]. apply Ho. lia.
  - intros i j Hi Hj Pr. pose proof (filter_precedes (fun x => (t * p <=? x) && (x <? (t + 1) * p)) order (t * p + i) (t * p + j)) as F.
    assert (B1 : forall k, k < p -> ((t * p <=? t * p + k) && (t * p + k <? (t + 1) * p)) = true).
    { intros k Hk. apply andb_true_iff. rewrite Nat.leb_le, Nat.ltb_lt. lia. }
    specialize (F (B1 i Hi) (B1 j Hj) Pr). apply (map_precedes (fun v => v - t * p)) in F. fold o in F.
    replace (t * p + i - t * p) with i in F by lia. replace (t * p + j - t * p) with j in F by lia. exact F.
Qed.

(** ** Unrolled matrix *)
Lemma long_expansion_spec : forall p L adj from_t n_t i j a b, i < n_t -> j < n_t -> a < p -> b < p ->
  long_expansion p L adj from_t n_t (p * i + a) (p * j + b) =
  if (j <=? i) && (i - j <=? L) then adj (i + from_t) (i - j) a b else Some 0%Qc.
Proof.
  intros p L adj from_t n_t i j a b Hi Hj Ha Hb. assert (Hp : 0 < p) by lia.
  destruct (div_mod_unique p i a Ha) as [R1 R2]. destruct (div_mod_unique p j b Hb) as [C1 C2].
  set (r := p * i + a) in *. set (c := p * j + b) in *. unfold long_expansion.
  assert (In1 : forall i' js E,
    fold_left (fun E j => if i' <? j then E else if L <? i' - j then E
      else fun r c => if (p * i' <=? r) && (r <? p * i' + p) && (p * j <=? c) && (c <? p * j + p)
                      then adj (i' + from_t) (i' - j) (r - p * i') (c - p * j) else E r c) js E r c =
    if (i =? i') && memb j js && ((j <=? i) && (i - j <=? L)) then adj (i + from_t) (i - j) a b else E r c).
  { intros i' js. induction js as [|j' js IH]; intro E; cbn [fold_left].
    - cbn. rewrite andb_false_r. reflexivity.
    - rewrite IH. cbn [memb existsb].
      assert (M : (if i' <? j' then E else if L <? i' - j' then E
        else fun r c => if (p * i' <=? r) && (r <? p * i' + p) && (p * j' <=? c) && (c <? p * j' + p)
                      then adj (i' + from_t) (i' - j') (r - p * i') (c - p * j') else E r c) r c =
        if (i =? i') && (j =? j') && ((j <=? i) && (i - j <=? L)) then adj (i + from_t) (i - j) a b else E r c).
      { destruct (Nat.eqb_spec i i') as [<-|Ni]; destruct (Nat.eqb_spec j j') as [<-|Nj]; cbn [andb].
        - destruct (Nat.ltb_spec i j); destruct (Nat.leb_spec j i); try lia; [reflexivity|].
          destruct (Nat.ltb_spec L (i - j)); destruct (Nat.leb_spec (i - j) L); try lia; cbn [andb]; [reflexivity|].
          subst r c. destruct (Nat.leb_spec (p * i) (p * i + a)); [|lia]. destruct (Nat.ltb_spec (p * i + a) (p * i + p)); [|lia].
          destruct (Nat.leb_spec (p * j) (p * j + b)); [|lia]. destruct (Nat.ltb_spec (p * j + b) (p * j + p)); [|lia].
          cbn [andb]. f_equal; lia.
        - destruct (i <? j'); [reflexivity|]. destruct (L <? i - j'); [reflexivity|].
          rewrite <- andb_assoc. rewrite (block_range p j' c Hp), C1. destruct (Nat.eqb_spec j j'); [congruence|].
          rewrite andb_false_r. reflexivity.
        - destruct (i' <? j); [reflexivity|]. destruct (L <? i' - j); [reflexivity|].
          rewrite (block_range p i' r Hp), R1. destruct (Nat.eqb_spec i i'); [congruence|]. reflexivity.
        - destruct (i' <? j'); [reflexivity|]. destruct (L <? i' - j'); [reflexivity|].
          rewrite (block_range p i' r Hp), R1. destruct (Nat.eqb_spec i i'); [congruence|]. reflexivity. }
      rewrite M. destruct (i =? i'); [|reflexivity]. cbn [andb]. destruct (j =? j'); cbn [orb andb]; [|reflexivity].
      destruct (memb j js); cbn [andb]; destruct ((j <=? i) && (i - j <=? L)); reflexivity. }
  assert (G : forall is E,
    fold_left (fun E i => fold_left (fun E j => if i <? j then E else if L <? i - j then E
      else fun r c => if (p * i <=? r) && (r <? p * i + p) && (p * j <=? c) && (c <? p * j + p)
                      then adj (i + from_t) (i - j) (r - p * i) (c - p * j) else E r c) (seq 0 n_t) E) is E r c =
    if memb i is && ((j <=? i) && (i - j <=? L)) then adj (i + from_t) (i - j) a b else E r c).
  { induction is as [|i' is IH]; intro E; cbn [fold_left]; [reflexivity|].
    rewrite IH, In1. cbn [memb existsb].
    assert (Mj : memb j (seq 0 n_t) = true) by (apply memb_In; apply in_seq; lia). rewrite Mj, andb_true_r.
    destruct (i =? i'); cbn [orb andb]; [|reflexivity].
    destruct (memb i is); cbn [andb]; destruct ((j <=? i) && (i - j <=? L)); reflexivity. }
  rewrite G. assert (Mi : memb i (seq 0 n_t) = true) by (apply memb_In; apply in_seq; lia). rewrite Mi. reflexivity.
Qed.

Lemma div_mod_eq : forall p r, 0 < p -> r = p * (r / p) + r mod p /\ r mod p < p.
Proof. intros p r H. split; [apply Nat.div_mod; lia|apply Nat.mod_upper_bound; lia]. Qed.
Lemma long_edge : forall p L adj from_t n_t u v, 0 < p ->
  edge_of (p * n_t) (denan (long_expansion p L adj from_t n_t)) u v ->
  u / p <= v / p /\ v / p < n_t /\ v / p - u / p <= L /\
  nan_to_num (adj (v / p + from_t) (v / p - u / p) (v mod p) (u mod p)) <> 0%Qc.
Proof.
  intros p L adj from_t n_t u v Hp [Hv [Hu E]].
  destruct (div_mod_eq p u Hp) as [Eu Mu]. destruct (div_mod_eq p v Hp) as [Ev Mv].
  assert (Bu : u / p < n_t) by (apply Nat.div_lt_upper_bound; lia).
  assert (Bv : v / p < n_t) by (apply Nat.div_lt_upper_bound; lia).
  unfold denan in E. rewrite Eu, Ev in E. rewrite long_expansion_spec in E by assumption.
  destruct (Nat.leb_spec (u / p) (v / p)); cbn [andb] in E; [|exfalso; apply E; reflexivity].
  destruct (Nat.leb_spec (v / p - u / p) L); cbn [andb] in E; [|exfalso; apply E; reflexivity].
  repeat split; assumption.
Qed.
Lemma long_acyclic : forall p L adj from_t n_t, 0 < p ->
  (forall t, from_t <= t -> t < from_t + n_t -> acyclic (edge_of p (denan (adj t 0)))) ->
  acyclic (edge_of (p * n_t) (denan (long_expansion p L adj from_t n_t))).
Proof.
  intros p L adj from_t n_t Hp HA v C.
  assert (G : forall a b, clos_trans nat (edge_of (p * n_t) (denan (long_expansion p L adj from_t n_t))) a b ->
     a / p <= b / p /\ b / p < n_t /\
     (a / p = b / p -> clos_trans nat (edge_of p (denan (adj (b / p + from_t) 0))) (a mod p) (b mod p))).
  { intros a b H. induction H as [a b H|a b c H1 IH1 H2 IH2].
    - destruct (long_edge _ _ _ _ _ _ _ Hp H) as [Q1 [Q2 [Q3 Q4]]]. split; [exact Q1|]. split; [exact Q2|]. intro E.
      apply t_step. rewrite E, Nat.sub_diag in Q4. split; [apply Nat.mod_upper_bound; lia|]. split; [apply Nat.mod_upper_bound; lia|exact Q4].
    - destruct IH1 as [P1 [P2 P3]]. destruct IH2 as [P4 [P5 P6]]. split; [lia|]. split; [exact P5|]. intro E.
      assert (E1 : a / p = b / p) by lia. assert (E2 : b / p = c / p) by lia. specialize (P3 E1). specialize (P6 E2).
      rewrite E2 in P3. eapply t_trans; eassumption. }
  destruct (G v v C) as [_ [B Q]]. eapply (HA (v / p + from_t)); [lia|lia|apply Q; reflexivity].
Qed.

Lemma long_effect2_spec : forall p L adj orders from_t f to_t g, from_t <= to_t -> f < p -> g < p ->
  (to_t = from_t -> f <> g /\ In (Some f) (orders from_t) /\ In (Some g) (orders from_t)) ->
  (forall t, from_t <= t -> t <= to_t -> acyclic (edge_of p (denan (adj t 0)))) ->
  let n_t := to_t - from_t + 1 in
  exists e, long_effect2 p L adj orders from_t (Some f) to_t (Some g) = Ok (Some e) /\
    forall E T, (forall i j a b, i < n_t -> j < n_t -> a < p -> b < p ->
        E (p * i + a)%nat (p * j + b)%nat =
        (if (j <=? i) && (i - j <=? L) then nan_to_num (adj (i + from_t) (i - j) a b) else 0%Qc)) ->
      meq (p * n_t) (mmul (p * n_t) (msub midn E) T) midn ->
      e = T (p * (to_t - from_t) + g) f.
Proof.
  intros p L adj orders from_t f to_t g Ht Hf Hg Hs HA n_t. unfold long_effect2.
  assert (Hp : 0 < p) by lia.
  assert (OM : forall x l, In (Some x) l -> opt_mem (Some x) l = true).
  { intros x l H. apply existsb_exists. exists (Some x). split; [exact H|apply Nat.eqb_refl]. }
  assert (C : (to_t =? from_t) && negb (opt_mem (Some f) (orders to_t) && opt_mem (Some g) (orders from_t)) = false).
  { destruct (Nat.eqb_spec to_t from_t) as [E|]; [|reflexivity]. destruct (Hs E) as [_ [I1 I2]].
    rewrite E. rewrite (OM _ _ I1), (OM _ _ I2). reflexivity. }
  rewrite C. cbn zeta. fold n_t.
  assert (N2 : 2 <= p * n_t).
  { unfold n_t. destruct (Nat.eq_dec to_t from_t) as [E|E]; [destruct (Hs E) as [NE _]; nia|nia]. }
  destruct (Nat.ltb_spec (p * n_t) 2); [lia|].
  set (Ex := long_expansion p L adj from_t n_t).
  assert (AC : acyclic (edge_of (p * n_t) (denan Ex))).
  { apply long_acyclic; [exact Hp|]. intros t H1 H2. apply HA; unfold n_t in H2; lia. }
  destruct (total_effect_spec (p * n_t) Ex f (p * (to_t - from_t) + g)) as [e [Ee [_ [U _]]]].
  { exact N2. } { unfold n_t. nia. } { unfold n_t. nia. }
  { destruct (Nat.eq_dec to_t from_t) as [E|E]; [destruct (Hs E) as [NE _]; rewrite E, Nat.sub_diag; lia|nia]. }
  { exact AC. }
  exists e. split; [exact Ee|]. intros E T HE HT. apply U. intros r c Hr Hc. rewrite <- (HT r c Hr Hc).
  apply mmul_ext; [|reflexivity]. intros k Hk. unfold msub. f_equal. unfold denan, Ex.
  destruct (div_mod_eq p r Hp) as [Er Mr]. destruct (div_mod_eq p k Hp) as [Ek Mk].
  assert (Br : r / p < n_t) by (apply Nat.div_lt_upper_bound; lia).
  assert (Bk : k / p < n_t) by (apply Nat.div_lt_upper_bound; lia).
  rewrite Er, Ek. rewrite long_expansion_spec by assumption. rewrite HE by assumption.
  destruct ((k / p <=? r / p) && (r / p - k / p <=? L)); reflexivity.
Qed.

(** ** The bootstrap loop *)
Lemma effects_of_ok : forall p L adj orders from_t from targets,
  (forall to_t to_, In (to_t, to_) targets -> exists e, long_effect2 p L adj orders from_t from to_t to_ = Ok e) ->
  exists es, effects_of p L adj orders from_t from targets = Ok es /\
    forall x, In x es <-> exists to_t to_ e, In (to_t, to_) targets /\
      long_effect2 p L adj orders from_t from to_t to_ = Ok e /\ x = (to_t, to_, (from_t, from), e).
Proof.
  intros p L adj orders from_t from targets. induction targets as [|[to_t to_] r IH]; intro H; cbn [effects_of].
  - exists []. split; [reflexivity|]. intro x. split; [intros []|intros (a & b & e & [] & _)].
  - destruct (H to_t to_ (or_introl eq_refl)) as [e E]. rewrite E. cbn [bind].
    destruct IH as [es [Es Hes]]; [intros; apply H; right; assumption|]. rewrite Es. cbn [bind].
    eexists. split; [reflexivity|]. intro x. split.
    + intros [<-|Hx]; [exists to_t, to_, e; repeat split; [left; reflexivity|exact E]|].
      apply Hes in Hx. destruct Hx as (a & b & e' & I & E' & ->). exists a, b, e'. repeat split; [right; exact I|exact E'].
    + intros (a & b & e' & [I|I] & E' & ->); [injection I as <- <-; left; rewrite E in E'; injection E' as <-; reflexivity|].
      right. apply Hes. exists a, b, e'. repeat split; assumption.
Qed.
Definition targets_of (orders : nat -> list (option nat)) (T from_t : nat) (rest : list (option nat)) :=
  map (fun to_ : option nat => (from_t, to_)) rest ++
  flat_map (fun to_t => map (fun to_ : option nat => (to_t, to_)) (orders to_t)) (seq (from_t + 1) (T - (from_t + 1))).
Lemma targets_In : forall orders T from_t rest to_t to_, In (to_t, to_) (targets_of orders T from_t rest) <->
  (to_t = from_t /\ In to_ rest) \/ (from_t < to_t < T /\ In to_ (orders to_t)).
Proof.
  intros. unfold targets_of. rewrite in_app_iff, in_map_iff, in_flat_map. split.
  - intros [[x [E H]]|[t [Ht H]]]; [injection E as -> ->; left; split; [reflexivity|exact H]|].
    apply in_map_iff in H. destruct H as [x [E H]]. injection E as -> ->. apply in_seq in Ht. right. split; [lia|exact H].
  - intros [[-> H]|[Ht H]]; [left; exists to_; split; [reflexivity|exact H]|].
    right. exists to_t. split; [apply in_seq; lia|]. apply in_map_iff. exists to_. split; [reflexivity|exact H].
Qed.
Lemma effects_from_ok : forall p L adj orders T from_t order,
  (forall from rest to_t to_, (exists l, order = l ++ from :: rest) -> In (to_t, to_) (targets_of orders T from_t rest) ->
     exists e, long_effect2 p L adj orders from_t from to_t to_ = Ok e) ->
  exists es, effects_from p L adj orders T from_t order = Ok es /\
    forall x, In x es <-> exists l from rest to_t to_ e, order = l ++ from :: rest /\ In (to_t, to_) (targets_of orders T from_t rest) /\
      long_effect2 p L adj orders from_t from to_t to_ = Ok e /\ x = (to_t, to_, (from_t, from), e).
Proof.
  intros p L adj orders T from_t order. induction order as [|from rest IH]; intro H; cbn [effects_from].
  - exists []. split; [reflexivity|]. intro x. split; [intros []|]. intros (l & f & r & a & b & e & E & _). destruct l; discriminate.
  - fold (targets_of orders T from_t rest).
    destruct (effects_of_ok p L adj orders from_t from (targets_of orders T from_t rest)) as [es [Es Hes]].
    { intros a b I. eapply H; [exists []; reflexivity|exact I]. }
    rewrite Es. cbn [bind]. destruct IH as [es' [Es' Hes']].
    { intros f r a b [l ->] I. eapply H; [exists (from :: l); reflexivity|exact I]. }
    rewrite Es'. cbn [bind]. eexists. split; [reflexivity|]. intro x. rewrite in_app_iff. split.
    + intros [Hx|Hx].
      * apply Hes in Hx. destruct Hx as (a & b & e & I & E & ->). exists [], from, rest, a, b, e. repeat split; assumption.
      * apply Hes' in Hx. destruct Hx as (l & f & r & a & b & e & -> & I & E & ->). exists (from :: l), f, r, a, b, e. repeat split; assumption.
    + intros (l & f & r & a & b & e & EO & I & E & ->). destruct l as [|y l]; injection EO as <- EO.
      * subst r. left. apply Hes. exists a, b, e. repeat split; assumption.
      * right. apply Hes'. exists l, f, r, a, b, e. repeat split; assumption.
Qed.
Lemma effects_all_ok : forall p L adj orders T times,
  (forall from_t l from rest to_t to_, In from_t times -> orders from_t = l ++ from :: rest ->
     In (to_t, to_) (targets_of orders T from_t rest) ->
     exists e, long_effect2 p L adj orders from_t from to_t to_ = Ok e) ->
  exists es, effects_all p L adj orders T times = Ok es /\
    forall x, In x es <-> exists from_t l from rest to_t to_ e, In from_t times /\ orders from_t = l ++ from :: rest /\
      In (to_t, to_) (targets_of orders T from_t rest) /\
      long_effect2 p L adj orders from_t from to_t to_ = Ok e /\ x = (to_t, to_, (from_t, from), e).
Proof.
  intros p L adj orders T times. induction times as [|t times IH]; intro H; cbn [effects_all].
  - exists []. split; [reflexivity|]. intro x. split; [intros []|]. intros (ft & l & f & r & a & b & e & [] & _).
  - destruct (effects_from_ok p L adj orders T t (orders t)) as [es [Es Hes]].
    { intros f r a b [l E] I. eapply H; [left; reflexivity|exact E|exact I]. }
    rewrite Es. cbn [bind]. destruct IH as [es' [Es' Hes']].
    { intros ft l f r a b It E I. eapply H; [right; exact It|exact E|exact I]. }
    rewrite Es'. cbn [bind]. eexists. split; [reflexivity|]. intro x. rewrite in_app_iff. split.
    + intros [Hx|Hx].
      * apply Hes in Hx. destruct Hx as (l & f & r & a & b & e & E0 & I & E & ->). exists t, l, f, r, a, b, e.
        repeat split; try assumption. left; reflexivity.
      * apply Hes' in Hx. destruct Hx as (ft & l & f & r & a & b & e & It & E0 & I & E & ->). exists ft, l, f, r, a, b, e.
        repeat split; try assumption. right; exact It.
    + intros (ft & l & f & r & a & b & e & [It|It] & E0 & I & E & ->).
      * subst ft. left. apply Hes. exists l, f, r, a, b, e. repeat split; assumption.
      * right. apply Hes'. exists ft, l, f, r, a, b, e. repeat split; assumption.
Qed.

(** From time points with real orders everything succeeds. *)
Lemma long_boot_ok : forall p L adj orders T start (ord : nat -> list nat),
  (forall t, start <= t -> t < T -> orders t = map Some (ord t) /\ is_order p (ord t) /\ acyclic (edge_of p (denan (adj t 0)))) ->
  exists es, long_boot_effects p L adj orders T start = Ok es /\
    forall x, In x es <-> exists from_t from to_t to_ e, start <= from_t /\ from_t <= to_t /\ to_t < T /\ from < p /\ to_ < p /\
      (to_t = from_t -> precedes (ord from_t) from to_) /\
      long_effect2 p L adj orders from_t (Some from) to_t (Some to_) = Ok e /\ x = (to_t, Some to_, (from_t, Some from), e).
Proof.
  intros p L adj orders T start ord H. unfold long_boot_effects.
  assert (BD : forall t x, start <= t -> t < T -> In x (orders t) -> exists v, x = Some v /\ v < p /\ In v (ord t)).
  { intros t x H1 H2 Hx. destruct (H t H1 H2) as [E [O _]]. rewrite E in Hx. apply in_map_iff in Hx. destruct Hx as [v [<- Hv]].
    exists v. split; [reflexivity|]. split; [|exact Hv]. apply (Permutation_in _ O) in Hv. apply in_seq in Hv. lia. }
  assert (ND : forall t, start <= t -> t < T -> NoDup (ord t)).
  { intros t H1 H2. destruct (H t H1 H2) as [_ [O _]]. eapply Permutation_NoDup; [symmetry; exact O|apply seq_NoDup]. }
  assert (SP : forall t l f r, start <= t -> t < T -> orders t = l ++ Some f :: r ->
     exists l' r', ord t = l' ++ f :: r' /\ r = map Some r').
  { intros t l f r H1 H2 E. destruct (H t H1 H2) as [E' _]. rewrite E' in E. apply map_eq_app in E.
    destruct E as (l1 & l2 & -> & E1 & E2). destruct l2 as [|y l2]; [discriminate|]. cbn [map] in E2. injection E2 as E2 E3. subst y.
    exists l1, l2. split; [reflexivity|symmetry; exact E3]. }
  assert (Main : forall ft f tt g, start <= ft -> ft <= tt -> tt < T -> f < p -> g < p ->
     (tt = ft -> precedes (ord ft) f g) -> exists e, long_effect2 p L adj orders ft (Some f) tt (Some g) = Ok e).
  { intros ft f tt g H1 H2 H3 Hf Hg HP.
    destruct (long_effect2_spec p L adj orders ft f tt g H2 Hf Hg) as [e [E _]].
    - intro Et. specialize (HP Et). pose proof (ND ft H1 ltac:(lia)) as N. destruct (H ft H1 ltac:(lia)) as [Eo _].
      split; [intro Z; subst g; eapply precedes_irrefl; eassumption|]. apply precedes_In in HP.
      rewrite Eo. split; apply in_map; tauto.
    - intros t Ha Hb. apply H; lia.
    - exists (Some e). exact E. }
  destruct (effects_all_ok p L adj orders T (seq start (T - start))) as [es [Es Hes]].
  { intros ft l f r tt g It E I. apply in_seq in It.
    destruct (BD ft f) as [f' [-> [Hf If]]]; [lia|lia|rewrite E; apply in_or_app; right; left; reflexivity|].
    destruct (SP ft l f' r) as (l' & r' & E1 & E2); [lia|lia|exact E|].
    apply (proj1 (targets_In _ _ _ _ _ _)) in I. destruct I as [[-> I]|[I1 I]].
    - rewrite E2 in I. apply in_map_iff in I. destruct I as [g' [<- Ig]].
      apply Main; try lia; [|intros _; rewrite E1].
      + assert (Z : In g' (ord ft)) by (rewrite E1; apply in_or_app; right; right; exact Ig).
        destruct (H ft ltac:(lia) ltac:(lia)) as [_ [O _]]. apply (Permutation_in _ O) in Z. apply in_seq in Z. lia.
      + apply in_split in Ig. destruct Ig as (r1 & r2 & ->). exists l', r1, r2. reflexivity.
    - destruct (BD tt g) as [g' [-> [Hg Ig]]]; [lia|lia|exact I|]. apply Main; try lia. }
  exists es. split; [exact Es|]. intro x. rewrite Hes. split.
  - intros (ft & l & f & r & tt & g & e & It & E & I & Ee & ->). apply in_seq in It.
    destruct (BD ft f) as [f' [-> [Hf If]]]; [lia|lia|rewrite E; apply in_or_app; right; left; reflexivity|].
    destruct (SP ft l f' r) as (l' & r' & E1 & E2); [lia|lia|exact E|].
    apply (proj1 (targets_In _ _ _ _ _ _)) in I. destruct I as [[-> I]|[I1 I]].
    + rewrite E2 in I. apply in_map_iff in I. destruct I as [g' [<- Ig]].
      exists ft, f', ft, g', e. repeat split; try lia; try assumption.
      * assert (Z : In g' (ord ft)) by (rewrite E1; apply in_or_app; right; right; exact Ig).
        destruct (H ft ltac:(lia) ltac:(lia)) as [_ [O _]]. apply (Permutation_in _ O) in Z. apply in_seq in Z. lia.
      * intros _. rewrite E1. apply in_split in Ig. destruct Ig as (r1 & r2 & ->). exists l', r1, r2. reflexivity.
    + destruct (BD tt g) as [g' [-> [Hg Ig]]]; [lia|lia|exact I|]. exists ft, f', tt, g', e. repeat split; try lia; assumption.
  - intros (ft & f & tt & g & e & H1 & H2 & H3 & Hf & Hg & HP & Ee & ->).
    destruct (H ft H1 ltac:(lia)) as [Eo [O _]].
    destruct (Nat.eq_dec tt ft) as [->|Nt].
    + destruct (HP eq_refl) as (l1 & l2 & l3 & E1). exists ft, (map Some l1), (Some f), (map Some (l2 ++ g :: l3)), ft, (Some g), e.
      split; [apply in_seq; lia|]. split; [rewrite Eo, E1; rewrite map_app; reflexivity|].
      split; [|split; [exact Ee|reflexivity]]. apply targets_In. left. split; [reflexivity|]. apply in_map. apply in_or_app. right. left. reflexivity.
    + assert (If : In f (ord ft)) by (eapply Permutation_in; [symmetry; exact O|apply in_seq; lia]).
      apply in_split in If. destruct If as (l1 & l2 & E1). exists ft, (map Some l1), (Some f), (map Some l2), tt, (Some g), e.
      split; [apply in_seq; lia|]. split; [rewrite Eo, E1; rewrite map_app; reflexivity|].
      split; [|split; [exact Ee|reflexivity]]. apply targets_In. right. split; [lia|].
      destruct (H tt ltac:(lia) H3) as [Eo' [O' _]]. rewrite Eo'. apply in_map. eapply Permutation_in; [symmetry; exact O'|apply in_seq; lia].
Qed.

(** A time point whose order consists of NaN makes the loop fail. *)
Lemma long_effect2_nan : forall p L adj orders ft tt g, 2 <= p * (tt - ft + 1) ->
  (tt = ft -> In None (orders ft) /\ opt_mem g (orders ft) = true) ->
  long_effect2 p L adj orders ft None tt g = Err TypeError.
Proof.
  intros p L adj orders ft tt g H2 Hs. unfold long_effect2.
  assert (C : (tt =? ft) && negb (opt_mem None (orders tt) && opt_mem g (orders ft)) = false).
  { destruct (Nat.eqb_spec tt ft) as [->|]; [|reflexivity]. destruct (Hs eq_refl) as [I1 I2]. rewrite I2.
    assert (Z : opt_mem None (orders ft) = true) by (apply existsb_exists; exists None; split; [exact I1|reflexivity]).
    rewrite Z. reflexivity. }
  rewrite C. cbn zeta. destruct (Nat.ltb_spec (p * (tt - ft + 1)) 2); [lia|reflexivity].
Qed.
Lemma long_boot_nan : forall p L adj orders T, 1 <= p -> 2 <= T -> 2 <= p \/ (3 <= T /\ orders 2 <> []) ->
  orders 1 = repeat None p ->
  long_boot_effects p L adj orders T 1 = Err TypeError.
Proof.
  intros p L adj orders T Hp HT HD HO. unfold long_boot_effects.
  destruct T as [|[|T]]; [lia|lia|]. cbn [Nat.sub seq effects_all]. rewrite HO.
  destruct p as [|p]; [lia|]. cbn [repeat effects_from]. fold (targets_of orders (S (S T)) 1 (repeat None p)).
  assert (G : effects_of (S p) L adj orders 1 None (targets_of orders (S (S T)) 1 (repeat None p)) = Err TypeError); [|rewrite G; reflexivity].
  assert (O1 : orders 1 = None :: repeat None p) by (rewrite HO; reflexivity).
  destruct p as [|p].
  - destruct HD as [HD|[HD HN]]; [lia|]. destruct T as [|T]; [lia|]. unfold targets_of. cbn [repeat map app].
    replace (seq (1 + 1) (S (S (S T)) - (1 + 1))) with (2 :: seq 3 T) by (cbn; f_equal).
    cbn [flat_map]. destruct (orders 2) as [|g o2]; [congruence|]. cbn [map app effects_of].
    rewrite long_effect2_nan; [reflexivity|lia|intro; lia].
  - unfold targets_of. cbn [repeat map app effects_of]. rewrite long_effect2_nan; [reflexivity|lia|].
    intros _. rewrite O1. split; [left; reflexivity|reflexivity].
Qed.
