(** * The CausalEffect object over time (lingam/causal_effect.py 22-79, 81-105)

    The constructor only stores its argument (34-36); the matrix and the order are read at the first query (41-42) and kept.  Between the
    queries the caller may fit the LiNGAM object again or change the array or list that was passed. *)
From Coq Require Import List Arith Bool ZArith QArith Qcanon.
From Verif Require Import Prelude ModelOrder ModelEffect.
Import ListNotations.
Open Scope nat_scope.

(** What was passed to the constructor *)
Inductive ce_source := LingamObject | Array | ListOfLists.
(** [cw_order], [cw_B]: causal_order_ and adjacency_matrix_ of the LiNGAM object at this moment, or the present content of the array or list
    (then there is no order).  [cw_seen]: _causal_order and _B; the matrix is None when _B is the caller's array itself. *)
Record ce_world := { cw_order : list nat; cw_B : mat Qc; cw_seen : option (list nat * option (mat Qc)) }.
(** fit of the LiNGAM object (it stores new objects: direct_lingam.py 115, base.py 158), or assignment to the array or list *)
Definition ce_change (w : ce_world) (K : list nat) (B : mat Qc) : ce_world := {| cw_order := K; cw_B := B; cw_seen := cw_seen w |}.
(** 38-79 [_check_init_params]; a list is copied by np.array (51), an array is not (49) *)
Definition ce_check (n : nat) (src : ce_source) (w : ce_world) : result ce_world :=
  match cw_seen w with
  | Some _ => Ok w
  | None =>
      let* seen := match src with
                   | LingamObject => Ok (cw_order w, Some (cw_B w))                                   (* 44-47 *)
                   | Array => let* K := ce_order n (fun i j => Some (cw_B w i j)) in Ok (K, None)
                   | ListOfLists => let* K := ce_order n (fun i j => Some (cw_B w i j)) in Ok (K, Some (cw_B w))
                   end in
      Ok {| cw_order := cw_order w; cw_B := cw_B w; cw_seen := Some seen |}
  end.
(** A query: the object afterwards and the effects of setting variable iv to v (81-105) *)
Definition ce_query (n : nat) (src : ce_source) (w : ce_world) (En : nat -> Qc) (iv : nat) (v : Qc) : ce_world * result (nat -> Qc) :=
  match ce_check n src w with
  | Err e => (w, Err e)
  | Ok w' => (w', match cw_seen w' with
                  | Some (K, B) => Ok (propagated n (match B with Some B => B | None => cw_B w' end) K En iv v)
                  | None => Err TypeError
                  end)
  end.
