(** * The LongitudinalLiNGAM object over time, also when calls fail (lingam/longitudinal_lingam.py 60-257, 294-301, 372-402)

    The computations of a fit are in ModelLong.v; here a fit is a parameter that may raise, and every call returns the object it leaves
    behind, with the shapes it remembers. *)
From Coq Require Import List Arith Bool ZArith QArith Qcanon.
From Verif Require Import Prelude Spec ModelDirect ModelLongResult.
Import ListNotations.
Open Scope nat_scope.

(** A data set of the list as check_array sees it: its shape, or None if it is rejected with ValueError. *)
Record dataset := { d_shape : option (nat * nat); d_value : mat Qc }.
(** The results of a fit: the number of time points, rows and columns of its data, _adjacency_matrices, _causal_orders and (without prior
    knowledge) _residuals. *)
Record long_fitted := { lf_T : nat; lf_n : nat; lf_p : nat; lf_adj : nat -> nat -> mat num; lf_orders : nat -> list (option nat); lf_resid : option (nat -> mat num) }.
(** The object: _T, (_n, _p) and the results. *)
Record long_obj := { lo_T : option nat; lo_np : option (nat * nat); lo_fit : option long_fitted }.
(** 47-52 *)
Definition long_new : long_obj := {| lo_T := None; lo_np := None; lo_fit := None |}.

Section Object.
  (** The shape of the prior knowledge (None: none given), 53-58; n_lags. *)
  Variable pk_shape : option (nat * nat * nat * nat).
  Variable lags : nat.
  (** 94-113 or 120-190: the matrices, the orders and the residuals of N rows and p columns at T times, or an exception *)
  Variable estimate : nat -> nat -> nat -> list dataset -> result ((nat -> nat -> mat num) * (nat -> list (option nat)) * (nat -> mat num)).

  (** 86-89, 222-225: all data sets have the shape of the first *)
  Definition same_shapes (np : nat * nat) (xs : list dataset) : bool :=
    forallb (fun x => match d_shape x with Some s => (fst s =? fst np) && (snd s =? snd np) | None => false end) xs.
  (** 76-89 and 212-225: the checks; the object remembers T, then the shape of the first data set *)
  Definition check_list (o : long_obj) (xs : list dataset) : long_obj * result (nat * nat) :=
    match xs with
    | [] | [_] => (o, Err ValueError)                                                                      (* 79-80 *)
    | x :: _ =>
        match d_shape x with
        | None => ({| lo_T := Some (length xs); lo_np := lo_np o; lo_fit := lo_fit o |}, Err ValueError)     (* 82-83 *)
        | Some np =>
            let o' := {| lo_T := Some (length xs); lo_np := Some np; lo_fit := lo_fit o |} in               (* 82-84 *)
            if same_shapes np xs then (o', Ok np) else (o', Err ValueError)
        end
    end.
  (** 60-192 [fit] *)
  Definition long_fit_call (o : long_obj) (xs : list dataset) : long_obj * result unit :=
    match check_list o xs with
    | (o1, Err e) => (o1, Err e)
    | (o1, Ok (n, p)) =>
        let T := length xs in
        let store r := match r with
          | Err e => (o1, Err e)
          | Ok (adj, orders, resid) =>
              ({| lo_T := lo_T o1; lo_np := lo_np o1;
                  lo_fit := Some {| lf_T := T; lf_n := n; lf_p := p; lf_adj := adj; lf_orders := orders;
                                    lf_resid := match pk_shape with None => Some resid | Some _ => None end |} |}, Ok tt)
          end in
        match pk_shape with
        | None => store (estimate T n p xs)
        | Some (a, b, c, d) => if (a =? T) && (b =? lags + 1) && (c =? p) && (d =? p) then store (estimate T n p xs) else (o1, Err ValueError)   (* 115-118 *)
        end
    end.
  (** 194-257 [bootstrap] (matrices only); [resampled k]: the lists of resampled data sets *)
  Fixpoint boot_fits (o : long_obj) (resampled : list (list dataset)) : long_obj * result (list (nat -> nat -> mat num)) :=
    match resampled with
    | [] => (o, Ok [])
    | xs :: rest =>
        match long_fit_call o xs with
        | (o1, Err e) => (o1, Err e)
        | (o1, Ok _) =>
            match lo_fit o1 with
            | None => (o1, Err TypeError)                                                                   (* 240; not reached *)
            | Some f => match boot_fits o1 rest with (o2, Ok l) => (o2, Ok (lf_adj f :: l)) | (o2, Err e) => (o2, Err e) end
            end
        end
    end.
  Definition long_bootstrap_call (o : long_obj) (xs : list dataset) (resampled : list (list dataset)) : long_obj * result (list (nat -> nat -> mat num)) :=
    match check_list o xs with (o1, Err e) => (o1, Err e) | (o1, Ok _) => boot_fits o1 resampled end.
  Fixpoint long_fits (o : long_obj) (calls : list (list dataset)) : long_obj :=
    match calls with [] => o | xs :: rest => long_fits (fst (long_fit_call o xs)) rest end.

  (** 296, 386: numpy assigns a block of a rows and b columns to one of n rows and p columns *)
  Definition fits_block (a b n p : nat) : bool := ((a =? n) || (a =? 1)) && ((b =? p) || (b =? 1)).
  Definition spread (a i : nat) : nat := if a =? 1 then 0 else i.
  (** 372-402 [get_error_independence_p_values]; [junk]: the memory np.empty leaves uninitialised (383) *)
  Definition long_errors (junk : nat -> nat -> nat -> num) (f : long_fitted) (R : nat -> mat num) (t i s : nat) : num :=
    if t <? lf_T f then long_error_col (lf_p f) (lf_adj f t 0) (R t) (spread (lf_p f) i) (spread (lf_n f) s) else junk t i s.
  Definition long_p_values_call (pv : nat -> (nat -> num) -> (nat -> num) -> num) (junk : nat -> nat -> nat -> num) (o : long_obj) : result (nat -> mat num) :=
    match lo_T o, lo_np o with
    | Some T, Some (n, p) =>
        match lo_fit o with
        | None => Err AttributeError                                                                       (* 384: no _residuals *)
        | Some f =>
            match lf_resid f with
            | None => Err AttributeError
            | Some R =>
                if negb (fits_block (lf_n f) (lf_p f) n p) then Err ValueError                              (* 386 at t = 0 *)
                else if T <? lf_T f then Err IndexError                                                     (* 386 at t = T *)
                else Ok (fun t => if t =? 0 then fun _ _ => None
                                  else error_independence_p_values (fun i j => pv n (long_errors junk f R t i) (long_errors junk f R t j)) p)
            end
        end
    | _, _ => Err AttributeError
    end.
  (** 295-296, 299-301 of estimate_total_effect: joining data of [a] rows and [b] columns at each time *)
  Definition join_call (o : long_obj) (a b : nat) : result unit :=
    match lo_np o with
    | None => Err AttributeError
    | Some (n, p) => if fits_block a b n p then Ok tt else Err ValueError
    end.
End Object.
