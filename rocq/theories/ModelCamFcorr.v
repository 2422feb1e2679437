(** * Model of the F-correlation of blocks (lingam/utils/_f_correlation.py) as lingam/camuv.py and
      lingam/multi_group_camuv.py call it, and of the search when a test raises.

    Only the shapes of the arrays are modelled here; the number itself is that of ModelFcorr.v when there is
    one column, and an oracle in the search.  A shape is (rows, columns). *)
From Coq Require Import List Arith Lia Bool ZArith QArith Qcanon.
From Verif Require Import Prelude Loop ModelRCD ModelCAMUV ModelMGCamuv.
Import ListNotations.
Open Scope nat_scope.

(** A [for] loop whose body may raise *)
Fixpoint foldM {A B : Type} (f : A -> B -> result A) (l : list B) (a : A) : result A :=
  match l with
  | [] => Ok a
  | x :: r => let* a' := f a x in foldM f r a'
  end.

Definition shape := (nat * nat)%type.
(** numpy: one axis of two arrays combined elementwise *)
Definition bc_axis (a b : nat) : result nat :=
  if a =? b then Ok a else if a =? 1 then Ok b else if b =? 1 then Ok a else Err ValueError.
Definition bc (s t : shape) : result shape :=
  let* r := bc_axis (fst s) (fst t) in
  let* c := bc_axis (snd s) (snd t) in
  Ok (r, c).
(** numpy: [target[...] = value] with a value of shape s; only axes of length one are repeated *)
Definition assign (target s : shape) : result unit :=
  if ((fst s =? fst target) || (fst s =? 1)) && ((snd s =? snd target) || (snd s =? 1)) then Ok tt
  else Err ValueError.
(** np.tile(array of shape s, (a, b)) *)
Definition tile (s : shape) (a b : nat) : shape := (fst s * a, snd s * b).
(** a.reshape(-1, 1) *)
Definition column (s : shape) : shape := (fst s * snd s, 1).

(** 81-88 [_squared_dist] *)
Definition squared_dist_shape (x y : shape) : result shape :=
  let* xy := bc (column x) y in                                    (* 85 *)
  let xx := tile (column x) 1 (fst y) in                           (* 83, 86 *)
  let yy := tile y (fst xx) 1 in                                   (* 84, 87 *)
  let* s := bc xx yy in
  bc s xy.                                                         (* 88 *)
(** 99-121 [_incomplete_cholesky], first round (i = 0) on n rows and m columns: the distances of the remaining
    rows from the first (114) are written into one column of G (120).  A later round (118) writes an array of the
    same number of columns. *)
Definition cholesky_shape (n m : nat) : result unit :=
  let* dist := squared_dist_shape (n - 1, m) (1, m) in
  assign (n - 1, 1) dist.
(** 31-56 [f_correlation] of a block of n rows and a columns with one of n' rows and b columns *)
Definition f_correlation_shape (n a n' b : nat) : result unit :=
  if negb (n' =? n) then Err ValueError                            (* 35-36 *)
  else let* _ := cholesky_shape n a in cholesky_shape n b.

Section Search.
  Variables (d maxnum : nat) (hsic : bool) (thr : Qc).
  Variable pk : option (list (nat * nat)).
  Variable ind : nat -> list nat -> nat -> list nat -> bool.        (* tests of two columns *)
  Variable value : nat -> list nat -> list (nat * list nat) -> result num.
  Variable iter : list nat -> list nat.

  (** camuv.py 241-256: one candidate child; [value] may raise *)
  Definition child_visit (N P : sets) (vs : list nat) (st : num * option nat) (c : nat) : result (num * option nat) :=
    let '(prev, best) := st in
    let ps := remove_nat c vs in
    if check_pk pk ps c then Ok st
    else if negb (check_correlation N c ps) then Ok st
    else let* v := value c (elems d (fun x => memb x ps || P c x)) (map (fun q => (q, elems d (P q))) ps) in
         Ok (if better hsic v prev then (v, Some c) else st).
  (** 235-263 [_get_child] *)
  Definition get_child_e (N P : sets) (vs : list nat) : result (option nat * bool) :=
    let* st := foldM (child_visit N P vs) (iter vs) (Some (if hsic then 0%Qc else 1%Qc), None) in
    Ok (snd st, if hsic then nltb (Some thr) (fst st) else nltb (fst st) (Some thr)).
  (** 180-201 *)
  Definition cam_visit_e (N : sets) (st : sets * bool) (vs : list nat) : result (sets * bool) :=
    let '(P, changed) := st in
    if negb (not_identified P vs) then Ok st
    else let* ch := get_child_e N P vs in
         match ch with
         | (Some c, true) =>
             let ps := remove_nat c vs in
             if negb (dependent_without d ind P ps c) then Ok st
             else Ok (absorb P c ps, match ps with [] => changed | _ => true end)
         | _ => Ok st
         end.
  (** 177-208 *)
  Definition cam_step_e (N : sets) (st : sets * nat) : (sets * nat) + result sets :=
    let '(P, t) := st in
    match foldM (cam_visit_e N) (combs t (seq 0 d)) (P, false) with
    | Err e => inr (Err e)
    | Ok (P', changed) =>
        if changed then inl (P', 2)
        else if maxnum <? S t then inr (Ok P') else inl (P', S t)
    end.
  (** 74-115 [fit]; the rest of the search and the confounded pairs test two columns only *)
  Definition cam_fit_e : result (sets * mat num) :=
    if maxnum =? 0 then Err ValueError                              (* 56-57 *)
    else match loop (cam_step_e (neighborhoods d ind)) (S (Nat.log2 (cam_top d maxnum))) (no_sets, 2) with
         | inl _ => Err OutOfFuel
         | inr (Err e) => Err e
         | inr (Ok P) => let P' := prune d ind P in
                         Ok (P', cam_adjacency P' (cam_confounded d ind (neighborhoods d ind) P'))
         end.
End Search.

(** camuv.py 147-155, 'fcorr' on n samples: [single c A q] is the F-correlation of two columns *)
Definition fcorr_value (n : nat) (single : nat -> list nat -> list (nat * list nat) -> num)
    (c : nat) (A : list nat) (qs : list (nat * list nat)) : result num :=
  let* _ := f_correlation_shape n 1 n (length qs) in
  Ok (single c A qs).
(** camuv.py [CAMUV(independence='fcorr').fit] *)
Definition camuv_fcorr (n d maxnum : nat) (ind_corr : Qc) (pk : option (list (nat * nat)))
    (single : nat -> list nat -> list (nat * list nat) -> num) (iter : list nat -> list nat) : result (sets * mat num) :=
  cam_fit_e d maxnum false ind_corr pk
    (fun i A j B => nltb (single i A [(j, B)]) (Some ind_corr)) (fcorr_value n single) iter.

(** multi_group_camuv.py 187-193: the largest F-correlation of the data sets, computed one after the other *)
Section MultiGroup.
  Variable D : Type.
  Variable samples : D -> nat.
  Variable features : D -> option nat.
  Variable test : D -> nat -> list nat -> list (nat * list nat) -> num.
  Definition mgc_value (Xs : list D) (c : nat) (A : list nat) (qs : list (nat * list nat)) : result num :=
    foldM (fun mx X => let* f := fcorr_value (samples X) (test X) c A qs in
                       Ok (if nltb mx f then f else mx)) Xs (Some 0%Qc).
  (** multi_group_camuv.py 90-122 [MultiGroupCAMUV(independence='fcorr').fit] *)
  Definition mgc_fcorr (maxnum : nat) (ind_corr : Qc) (pk : option (list (nat * nat))) (iter : list nat -> list nat)
      (Xs : option (list D)) : result (sets * mat num) :=
    let* d := check_X_list D features Xs in
    let l := match Xs with Some l => l | None => [] end in
    cam_fit_e d maxnum false ind_corr pk 
      (fun i A j B => nltb (largest (map (fun X => test X i A [(j, B)]) l)) (Some ind_corr)) (mgc_value l) iter.
End MultiGroup.
