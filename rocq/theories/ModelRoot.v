(** * Model of lingam/utils/__init__.py: calculate_distance_from_root_nodes (1015-1075) *)
From Coq Require Import List Arith Bool ZArith QArith Qcanon.
From Verif Require Import Prelude Spec.
Import ListNotations.
Open Scope nat_scope.

(** networkx.single_source_shortest_path_length, level by level (the early exit once all nodes have
    been seen only saves time). *)
Definition visit (st : list nat * list nat) (w : nat) : list nat * list nat :=
  if memb w (fst st) then st else (w :: fst st, snd st ++ [w]).
Fixpoint bfs (fuel : nat) (adj : nat -> list nat) (seen this : list nat) (level : nat) : list (nat * nat) :=
  match this with
  | [] => []
  | _ :: _ =>
      map (fun v => (v, level)) this ++
      match fuel with
      | 0 => []
      | S fuel => let '(seen, next) := fold_left visit (flat_map adj this) (seen, []) in
                  bfs fuel adj seen next (S level)
      end
  end.
(** 1053: from_numpy_array of the transposed matrix: v -> w when A[w, v] is not 0 *)
Definition succs (n : nat) (A : mat Qc) (v : nat) : list nat := filter (fun w => negb (qeqb (A w v) 0)) (seq 0 n).
Definition path_lengths (n : nat) (A : mat Qc) (s : nat) : list (nat * nat) := bfs n (succs n A) [s] [s] 0.

(** 1045-1049: np.isclose(row sum, 0) is |sum| <= 1e-8 *)
Definition root_list (n : nat) (A : mat Qc) : list nat :=
  filter (fun i => qleb (qabs (sumn n (fun j => A i j))) (qf 1 100000000)) (seq 0 n).
Definition min_list (l : list nat) : option nat :=
  match l with [] => None | x :: l => Some (fold_left Nat.min l x) end.
(** 1056-1063: for every node the smallest distance from a root; no row for a node no root reaches *)
Definition node_dist (n : nat) (A : mat Qc) (v : nat) : option nat :=
  min_list (flat_map (fun r => map snd (filter (fun vd => fst vd =? v) (path_lengths n A r))) (root_list n A)).
Definition within (m : option nat) (d : nat) : bool := match m with None => true | Some m => d <=? m end.
(** 1063-1067 *)
Definition dist_series (n : nat) (A : mat Qc) (m : option nat) : list (nat * nat) :=
  flat_map (fun v => match node_dist n A v with Some d => if within m d then [(v, d)] else [] | None => [] end) (seq 0 n).
Fixpoint uniq (l : list nat) : list nat :=
  match l with [] => [] | x :: l => x :: filter (fun y => negb (y =? x)) (uniq l) end.
(** 1015-1075; NaN entries of the matrix are replaced by 0 (1042) *)
Definition root_distances (n : nat) (A0 : mat num) (m : option nat) : result (list (nat * list nat)) :=
  if n <? 2 then Err ValueError                                                              (* 1031-1036 *)
  else if match m with Some 0 => true | _ => false end then Err ValueError                   (* 1040-1041 *)
  else
    let A := fun i j => nan_to_num (A0 i j) in
    match root_list n A with
    | [] => Err ValueError                                                                   (* 1050-1051 *)
    | _ => let s := dist_series n A m in
           Ok (map (fun d => (d, map fst (filter (fun vd => snd vd =? d) s))) (uniq (map snd s)))  (* 1069-1073 *)
    end.
