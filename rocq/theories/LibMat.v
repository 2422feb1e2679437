(** * Matrix algebra over Qc, walks and powers. *)
From Coq Require Import List Arith Lia Bool ZArith QArith Qcanon Permutation Relations.
From Verif Require Import Prelude Spec SpecPaths Lib.
Import ListNotations.
Open Scope nat_scope.

Lemma sumn_plus : forall n f g, sumn n (fun k => f k + g k)%Qc = (sumn n f + sumn n g)%Qc.
Proof. intros. apply sumf_plus. Qed.
Lemma sumn_minus : forall n f g, sumn n (fun k => f k - g k)%Qc = (sumn n f - sumn n g)%Qc.
Proof. intros. apply sumf_minus. Qed.
Lemma sumn_scal : forall n c f, sumn n (fun k => c * f k)%Qc = (c * sumn n f)%Qc.
Proof. intros. apply sumf_scal. Qed.
Lemma sumn_scal_r : forall n c f, sumn n (fun k => f k * c)%Qc = (sumn n f * c)%Qc.
Proof. intros. apply sumf_scal_r. Qed.
Lemma sumn_swap : forall n m f,
  sumn n (fun i => sumn m (fun j => f i j)) = sumn m (fun j => sumn n (fun i => f i j)).
Proof. intros. apply sumf_swap. Qed.
Lemma sumn_shift : forall n f, sumn (S n) f = (f 0%nat + sumn n (fun k => f (S k)))%Qc.
Proof.
  intros n f. unfold sumn. cbn [seq]. rewrite sumf_cons. f_equal.
  rewrite <- seq_shift, sumf_map. reflexivity.
Qed.

Lemma mmul_ext : forall n A A' B B' i j,
  (forall k, k < n -> A i k = A' i k) -> (forall k, k < n -> B k j = B' k j) ->
  mmul n A B i j = mmul n A' B' i j.
Proof.
  intros. unfold mmul. apply sumn_ext. intros k Hk. rewrite H, H0 by exact Hk. reflexivity.
Qed.
Lemma mmul_assoc : forall n A B C i j, mmul n (mmul n A B) C i j = mmul n A (mmul n B C) i j.
Proof.
  intros. unfold mmul.
  transitivity (sumn n (fun k => sumn n (fun l => A i l * B l k * C k j))%Qc).
  - apply sumn_ext. intros k _. rewrite <- sumn_scal_r. reflexivity.
  - rewrite sumn_swap. apply sumn_ext. intros l _. rewrite <- sumn_scal. apply sumn_ext.
    intros k _. ring.
Qed.
Lemma mmul_id_l : forall n A i j, i < n -> mmul n midn A i j = A i j.
Proof.
  intros n A i j Hi. unfold mmul, midn. rewrite (sumn_single n _ i Hi).
  - rewrite Nat.eqb_refl. ring.
  - intros k Hk D. destruct (Nat.eqb_spec i k); [congruence|ring].
Qed.
Lemma mmul_id_r : forall n A i j, j < n -> mmul n A midn i j = A i j.
Proof.
  intros n A i j Hj. unfold mmul, midn. rewrite (sumn_single n _ j Hj).
  - rewrite Nat.eqb_refl. ring.
  - intros k Hk D. destruct (Nat.eqb_spec k j); [congruence|ring].
Qed.
Lemma mmul_msub_l : forall n A B C i j,
  mmul n (msub A B) C i j = (mmul n A C i j - mmul n B C i j)%Qc.
Proof.
  intros. unfold mmul, msub. rewrite <- sumn_minus. apply sumn_ext. intros k _. ring.
Qed.
Lemma mmul_msub_r : forall n A B C i j,
  mmul n A (msub B C) i j = (mmul n A B i j - mmul n A C i j)%Qc.
Proof.
  intros. unfold mmul, msub. rewrite <- sumn_minus. apply sumn_ext. intros k _. ring.
Qed.
Lemma mmul_madd_l : forall n A B C i j,
  mmul n (madd A B) C i j = (mmul n A C i j + mmul n B C i j)%Qc.
Proof.
  intros. unfold mmul, madd. rewrite <- sumn_plus. apply sumn_ext. intros k _. ring.
Qed.
Lemma mmul_madd_r : forall n A B C i j,
  mmul n A (madd B C) i j = (mmul n A B i j + mmul n A C i j)%Qc.
Proof.
  intros. unfold mmul, madd. rewrite <- sumn_plus. apply sumn_ext. intros k _. ring.
Qed.

Lemma mpow_S_r : forall n A k i j, i < n -> j < n ->
  mpow n A (S k) i j = mmul n (mpow n A k) A i j.
Proof.
  intros n A. induction k as [|k IH]; intros i j Hi Hj.
  - cbn [mpow]. rewrite mmul_id_l, mmul_id_r by assumption. reflexivity.
  - change (mpow n A (S (S k)) i j) with (mmul n A (mpow n A (S k)) i j).
    rewrite (mmul_ext n A A (mpow n A (S k)) (mmul n (mpow n A k) A)); [|reflexivity|].
    + rewrite <- mmul_assoc. reflexivity.
    + intros l Hl. apply IH; assumption.
Qed.

(** Partial sums of the geometric series. *)
Definition geom (n : nat) (A : mat Qc) (m : nat) : mat Qc := fun i j => sumn m (fun k => mpow n A k i j).

Lemma mmul_geom : forall n A m i j, mmul n A (geom n A m) i j = sumn m (fun k => mpow n A (S k) i j).
Proof.
  intros. unfold mmul, geom.
  transitivity (sumn n (fun k => sumn m (fun t => A i k * mpow n A t k j))%Qc).
  - apply sumn_ext. intros k _. rewrite sumn_scal. reflexivity.
  - rewrite sumn_swap. reflexivity.
Qed.
Lemma geom_mmul : forall n A m i j, i < n -> j < n ->
  mmul n (geom n A m) A i j = sumn m (fun k => mpow n A (S k) i j).
Proof.
  intros n A m i j Hi Hj. unfold mmul, geom.
  transitivity (sumn n (fun k => sumn m (fun t => mpow n A t i k * A k j))%Qc).
  - apply sumn_ext. intros k _. rewrite sumn_scal_r. reflexivity.
  - rewrite sumn_swap. apply sumn_ext. intros t _. symmetry. apply mpow_S_r; assumption.
Qed.
Lemma geom_telescope : forall (f : nat -> Qc) m,
  (sumn m f - sumn m (fun k => f (S k)))%Qc = (f 0%nat - f m)%Qc.
Proof.
  intros f. induction m as [|m IH].
  - unfold sumn. cbn. ring.
  - rewrite !sumn_S. transitivity ((sumn m f - sumn m (fun k => f (S k))) + f m - f (S m))%Qc; [ring|].
    rewrite IH. ring.
Qed.
Lemma geom_inverse_l : forall n A m i j, i < n ->
  mmul n (msub midn A) (geom n A m) i j = (midn i j - mpow n A m i j)%Qc.
Proof.
  intros n A m i j Hi. rewrite mmul_msub_l, mmul_id_l, mmul_geom by exact Hi.
  apply (geom_telescope (fun k => mpow n A k i j)).
Qed.
Lemma geom_inverse_r : forall n A m i j, i < n -> j < n ->
  mmul n (geom n A m) (msub midn A) i j = (midn i j - mpow n A m i j)%Qc.
Proof.
  intros n A m i j Hi Hj. rewrite mmul_msub_r, mmul_id_r, geom_mmul by assumption.
  apply (geom_telescope (fun k => mpow n A k i j)).
Qed.

(** ** Walks of a given length *)
Fixpoint walks (n : nat) (E : nat -> nat -> bool) (k a b : nat) : list (list nat) :=
  match k with
  | 0 => if a =? b then [[a]] else []
  | S k' => flat_map (fun c => map (cons a) (walks n E k' c b)) (filter (E a) (seq 0 n))
  end.

Lemma NoDup_flat_map : forall A B (f : A -> list B) l, NoDup l ->
  (forall x, In x l -> NoDup (f x)) ->
  (forall x y z, In x l -> In y l -> In z (f x) -> In z (f y) -> x = y) ->
  NoDup (flat_map f l).
Proof.
  intros A B f. induction l as [|x l IH]; intros ND H1 H2; [constructor|].
  apply NoDup_cons_iff in ND. destruct ND as [Hx ND]. cbn. apply NoDup_app_iff'. split; [|split].
  - apply H1. left. reflexivity.
  - apply IH; [exact ND|intros; apply H1; right; assumption|].
    intros y y' z Hy Hy'. apply H2; right; assumption.
  - intros z Hz Hz'. apply in_flat_map in Hz'. destruct Hz' as [y [Hy Hz']].
    assert (x = y) by (eapply H2; [left; reflexivity|right; exact Hy|exact Hz|exact Hz']).
    subst y. contradiction.
Qed.

Lemma walks_hd : forall n E k a b p, In p (walks n E k a b) -> hd_error p = Some a.
Proof.
  intros n E [|k] a b p H; cbn in H.
  - destruct (a =? b); destruct H as [<-|[]] || destruct H. reflexivity.
  - apply in_flat_map in H. destruct H as [c [_ H]]. apply in_map_iff in H.
    destruct H as [q [<- _]]. reflexivity.
Qed.
Lemma walks_NoDup : forall n E k a b, NoDup (walks n E k a b).
Proof.
  intros n E. induction k as [|k IH]; intros a b; cbn.
  - destruct (a =? b); [constructor; [intros []|constructor]|constructor].
  - apply NoDup_flat_map.
    + apply NoDup_filter, seq_NoDup.
    + intros c _. apply FinFun.Injective_map_NoDup; [|apply IH]. intros x y H. congruence.
    + intros x y z _ _ H1 H2. apply in_map_iff in H1. apply in_map_iff in H2.
      destruct H1 as [p [<- Hp]]. destruct H2 as [q [Q Hq]]. inversion Q. subst q.
      apply walks_hd in Hp. apply walks_hd in Hq. congruence.
Qed.

Lemma last_dflt : forall (q : list nat) d d', q <> [] -> last q d = last q d'.
Proof.
  induction q as [|a q IH]; intros d d' H; [congruence|].
  destruct q as [|b q]; [reflexivity|]. change (last (b :: q) d = last (b :: q) d').
  apply IH. discriminate.
Qed.
Definition rel_of (n : nat) (E : nat -> nat -> bool) : graph :=
  fun a b => a < n /\ b < n /\ E a b = true.
Lemma walks_In : forall n E k a b p, a < n ->
  (In p (walks n E k a b) <-> walk_from_to (rel_of n E) a b p /\ length p = S k).
Proof.
  intros n E. induction k as [|k IH]; intros a b p Ha; cbn [walks].
  - split.
    + destruct (Nat.eqb_spec a b) as [->|D]; [intros [<-|[]]|intros []].
      repeat split. discriminate.
    + intros [[H [L [_ _]]] Hl]. destruct p as [|x [|y p]]; cbn in *; try lia.
      assert (Q1 : x = a) by congruence. assert (Q2 : a = b) by congruence.
      rewrite Q1, Q2, Nat.eqb_refl. left. reflexivity.
  - rewrite in_flat_map. split.
    + intros [c [Hc Hp]]. apply filter_In in Hc. destruct Hc as [Hc Ec]. apply in_seq in Hc.
      apply in_map_iff in Hp. destruct Hp as [q [<- Hq]]. apply IH in Hq; [|lia].
      destruct Hq as [[H [L [NE W]]] Hl]. destruct q as [|x q]; [congruence|].
      cbn in H. assert (x = c) by congruence. subst x. split; [|cbn in *; lia].
      split; [reflexivity|]. split.
      { change (last (c :: q) a = b). rewrite <- L. apply last_dflt. discriminate. }
      split; [discriminate|]. cbn. split; [|exact W]. repeat split; try lia. exact Ec.
    + intros [[H [L [NE W]]] Hl]. destruct p as [|x [|c q]]; [discriminate|cbn in Hl; lia|].
      cbn in H. assert (x = a) by congruence. subst x. cbn in W. destruct W as [[_ [Hc Ec]] W].
      exists c. split.
      * apply filter_In. split; [apply in_seq; lia|exact Ec].
      * apply in_map. apply IH; [exact Hc|]. split; [|cbn in *; lia].
        split; [reflexivity|]. split.
        { rewrite <- L. change (last (a :: c :: q) a) with (last (c :: q) a).
          apply last_dflt. discriminate. }
        split; [discriminate|exact W].
Qed.

Definition nzb (B : mat Qc) (a b : nat) : bool := negb (qeqb (B b a) 0%Qc).
Lemma rel_of_nzb : forall n B a b, rel_of n (nzb B) a b <-> edge_of n B a b.
Proof.
  intros. unfold rel_of, edge_of, nzb. rewrite negb_true_iff, qeqb_neq. tauto.
Qed.

Lemma sumf_filter_zero : forall A (p : A -> bool) (f : A -> Qc) l,
  (forall x, In x l -> p x = false -> f x = 0%Qc) -> sumf (filter p l) f = sumf l f.
Proof.
  intros A p f. induction l as [|x l IH]; intro H; [reflexivity|]. cbn [filter].
  rewrite sumf_cons. rewrite <- IH by (intros; apply H; [right; assumption|assumption]).
  destruct (p x) eqn:E; [rewrite sumf_cons; reflexivity|].
  rewrite (H x (or_introl eq_refl) E). ring.
Qed.

(** The entry [b,a] of the k-th power is the sum of the weights of the walks a -> b
    with k edges. *)
Lemma walks_sum : forall n B k a b, a < n -> b < n ->
  sumf (walks n (nzb B) k a b) (walk_weight B) = mpow n B k b a.
Proof.
  intros n B. induction k as [|k IH]; intros a b Ha Hb.
  - cbn [walks mpow]. unfold midn. rewrite (Nat.eqb_sym b a). destruct (a =? b).
    + unfold sumf. cbn. ring.
    + reflexivity.
  - rewrite mpow_S_r by assumption. cbn [walks]. rewrite sumf_flat_map.
    rewrite sumf_filter_zero.
    + unfold mmul, sumn. apply sumf_ext. intros c Hc. apply in_seq in Hc. rewrite sumf_map.
      rewrite <- IH by lia. rewrite <- sumf_scal_r. apply sumf_ext. intros p Hp.
      apply walks_hd in Hp. destruct p as [|x p]; [discriminate|]. cbn in Hp.
      assert (x = c) by congruence. subst x. cbn [walk_weight]. ring.
    + intros c _ E. rewrite sumf_map. apply sumf_zero. intros p Hp. apply walks_hd in Hp.
      destruct p as [|x p]; [discriminate|]. cbn in Hp. assert (x = c) by congruence. subst x.
      unfold nzb in E. apply negb_false_iff, qeqb_eq in E. cbn [walk_weight]. rewrite E. ring.
Qed.

(** ** Acyclic matrices are nilpotent *)
Lemma acyclic_walk_NoDup : forall E p, acyclic E -> walk E p -> NoDup p.
Proof.
  intros E p A W. destruct (ListDec.NoDup_dec Nat.eq_dec p) as [D|D]; [exact D|].
  destruct (walk_repeat_cycle E p W D) as [v [_ C]]. exfalso. exact (A v C).
Qed.
Lemma walk_edge_bound : forall n B p, walk (edge_of n B) p -> 2 <= length p ->
  forall v, In v p -> v < n.
Proof.
  intros n B p. induction p as [|a p IH]; intros W L v Hv; [contradiction|].
  destruct p as [|b p]; [cbn in L; lia|]. cbn in W. destruct W as [[Hb [Ha _]] W].
  destruct Hv as [<-|Hv]; [exact Ha|]. destruct p as [|c p].
  - destruct Hv as [<-|[]]. exact Hb.
  - apply IH; [exact W|cbn; lia|exact Hv].
Qed.
Lemma NoDup_bounded : forall n (p : list nat), NoDup p -> (forall v, In v p -> v < n) -> length p <= n.
Proof.
  intros n p ND H. rewrite <- (seq_length n 0). apply NoDup_incl_length; [exact ND|].
  intros v Hv. apply in_seq. specialize (H v Hv). lia.
Qed.
Lemma walk_mono : forall (E E' : graph) p, (forall a b, E a b -> E' a b) -> walk E p -> walk E' p.
Proof.
  intros E E' p H. induction p as [|a p IH]; intro W; [exact I|]. destruct p as [|b p]; [exact I|].
  cbn in *. destruct W. split; [apply H; assumption|apply IH; assumption].
Qed.

Lemma acyclic_nilpotent : forall n B k i j, acyclic (edge_of n B) -> i < n -> j < n -> n <= k ->
  mpow n B k i j = 0%Qc.
Proof.
  intros n B k i j A Hi Hj Hk. rewrite <- (walks_sum n B k j i Hj Hi).
  destruct (walks n (nzb B) k j i) as [|p l] eqn:E; [reflexivity|]. exfalso.
  assert (Hp : In p (walks n (nzb B) k j i)) by (rewrite E; left; reflexivity).
  apply walks_In in Hp; [|exact Hj]. destruct Hp as [[_ [_ [_ W]]] L].
  apply (walk_mono _ (edge_of n B)) in W; [|intros a b; apply rel_of_nzb].
  assert (length p <= n); [|lia].
  apply NoDup_bounded; [eapply acyclic_walk_NoDup; eassumption|].
  apply (walk_edge_bound n B); [exact W|lia].
Qed.

Lemma acyclic_pow_diag : forall n B k i, acyclic (edge_of n B) -> i < n ->
  mpow n B (S k) i i = 0%Qc.
Proof.
  intros n B k i A Hi. rewrite <- (walks_sum n B (S k) i i Hi Hi).
  destruct (walks n (nzb B) (S k) i i) as [|p l] eqn:E; [reflexivity|]. exfalso.
  assert (Hp : In p (walks n (nzb B) (S k) i i)) by (rewrite E; left; reflexivity).
  apply walks_In in Hp; [|exact Hi]. destruct Hp as [[H [L [_ W]]] Hl].
  apply (walk_mono _ (edge_of n B)) in W; [|intros a b; apply rel_of_nzb].
  pose proof (acyclic_walk_NoDup _ _ A W) as ND.
  destruct p as [|x [|y p]]; [discriminate|cbn in Hl; lia|]. cbn in H.
  assert (x = i) by congruence. subst x. apply NoDup_cons_iff in ND. destruct ND as [ND _].
  apply ND. change (last (y :: p) i = i) in L. rewrite <- L at 1.
  generalize (@app_removelast_last _ (y :: p) i ltac:(discriminate)). intro Q.
  rewrite Q at 2. apply in_or_app. right. left. reflexivity.
Qed.

(** ** Inverse of I - B *)
Definition neumann (n : nat) (B : mat Qc) : mat Qc := geom n B n.

Lemma neumann_inv_l : forall n B, acyclic (edge_of n B) ->
  meq n (mmul n (msub midn B) (neumann n B)) midn.
Proof.
  intros n B A i j Hi Hj. unfold neumann. rewrite geom_inverse_l by exact Hi.
  rewrite acyclic_nilpotent by (try assumption; lia). ring.
Qed.
Lemma neumann_inv_r : forall n B, acyclic (edge_of n B) ->
  meq n (mmul n (neumann n B) (msub midn B)) midn.
Proof.
  intros n B A i j Hi Hj. unfold neumann. rewrite geom_inverse_r by assumption.
  rewrite acyclic_nilpotent by (try assumption; lia). ring.
Qed.
Lemma right_inverse_unique : forall n B T, acyclic (edge_of n B) ->
  meq n (mmul n (msub midn B) T) midn -> meq n T (neumann n B).
Proof.
  intros n B T A H i j Hi Hj.
  rewrite <- (mmul_id_l n T i j Hi).
  rewrite (mmul_ext n midn (mmul n (neumann n B) (msub midn B)) T T i j);
    [|intros; symmetry; apply neumann_inv_r; assumption|reflexivity].
  rewrite mmul_assoc. rewrite (mmul_ext n _ (neumann n B) _ midn);
    [apply mmul_id_r; exact Hj|reflexivity|intros; apply H; assumption].
Qed.
Lemma left_inverse_unique : forall n B T, acyclic (edge_of n B) ->
  meq n (mmul n T (msub midn B)) midn -> meq n T (neumann n B).
Proof.
  intros n B T A H i j Hi Hj.
  rewrite <- (mmul_id_r n T i j Hj).
  rewrite (mmul_ext n T T midn (mmul n (msub midn B) (neumann n B)) i j);
    [|reflexivity|intros; symmetry; apply neumann_inv_l; assumption].
  rewrite <- mmul_assoc. rewrite (mmul_ext n _ midn _ (neumann n B));
    [apply mmul_id_l; exact Hi|intros; apply H; assumption|reflexivity].
Qed.
(** Recursion T = I + B T, and unit diagonal. *)
Lemma neumann_rec : forall n B i j, acyclic (edge_of n B) -> i < n -> j < n ->
  neumann n B i j = (midn i j + sumn n (fun k => B i k * neumann n B k j))%Qc.
Proof.
  intros n B i j A Hi Hj. pose proof (neumann_inv_l n B A i j Hi Hj) as H.
  rewrite mmul_msub_l, mmul_id_l in H by exact Hi. rewrite <- H. unfold mmul. ring.
Qed.
Lemma neumann_diag : forall n B i, acyclic (edge_of n B) -> i < n -> neumann n B i i = 1%Qc.
Proof.
  intros n B i A Hi. unfold neumann, geom. destruct n as [|n]; [lia|].
  rewrite sumn_shift. cbn [mpow]. unfold midn at 1. rewrite Nat.eqb_refl.
  rewrite sumn_zero; [ring|]. intros k _. apply acyclic_pow_diag; assumption.
Qed.
