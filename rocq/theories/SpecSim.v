(** * What the simulator should compute (no loops): the changed graph and the equations. *)
From Coq Require Import List Arith Bool ZArith QArith Qcanon Permutation.
From Verif Require Import Prelude Spec ModelSim.
Import ListNotations.
Open Scope nat_scope.

(** The parents of a variable after the changes. *)
Definition new_parents (im : impl) (changes : list (nat * change)) (v : nat) : list nat :=
  match lookup v changes with Some c => ch_parents c | None => parents_of (im_n im) (im_graph im) v end.
Definition new_model (tr : nat -> trained) (changes : list (nat * change)) (v : nat) : option predictor :=
  match lookup v changes with Some c => ch_model c | None => tr_model (tr v) end.
Definition new_error (tr : nat -> trained) (exog : list (nat * (bool * column))) (shuffle : option (list nat)) (v : nat) : option column :=
  let e := match lookup v exog with None => tr_resid (tr v) | Some be => Some (snd be) end in
  match shuffle with Some idx => option_map (fun e => map (fun k => nth k e 0%Qc) idx) e | None => e end.


(** Edges of the changed graph. *)
Definition new_edge (im : impl) (changes : list (nat * change)) (u v : nat) : Prop :=
  u < im_n im /\ v < im_n im /\
  match lookup v changes with Some c => In u (ch_parents c) | None => im_graph im v u <> 0%Qc end.

(** ** The equations *)
(** The value of variable [v] given the columns [s] of the others. *)
Definition equation (N : nat) (parents : list nat) (model : option predictor) (discrete : bool)
    (data : column) (error : option column) (s : nat -> column) (v : nat) : Prop :=
  match parents with
  | [] => if discrete then s v = data else error = Some (s v)
  | _ => exists m, model = Some m /\
      (if discrete then s v = predict N m (map s parents)
       else exists e, error = Some e /\ s v = vadd (predict N m (map s parents)) e)
  end.
Definition solution (im : impl) (tr : nat -> trained) changes exog shuffle (s : nat -> column) (v : nat) : Prop :=
  equation (im_N im) (new_parents im changes v) (new_model tr changes v) (im_discrete im v) (im_data im v)
    (new_error tr exog shuffle v) s v.

Record good_changes (im : impl) (changes : list (nat * change)) : Prop := {
  gc_nodup : NoDup (map fst changes);
  gc_check : check_changes im changes = true }.
Record good_exog (im : impl) (exog : list (nat * (bool * column))) : Prop := {
  ge_nodup : NoDup (map fst exog);
  ge_check : check_exog im exog = true;
  ge_array : forall v b e, lookup v exog = Some (b, e) -> b = true }.


Definition good_shuffle (im : impl) (shuffle : option (list nat)) : Prop :=
  match shuffle with Some idx => Permutation idx (seq 0 (im_N im)) | None => True end.
