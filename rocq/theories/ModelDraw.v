(** * Model of lingam/utils/__init__.py: print_causal_directions, print_dagc (49-95), make_dot (222-418),
    make_dot_highlight (421-747)

    A drawing is the list of the statements of the DOT source in the order in which they are added.
    Not modelled: colours, fonts and margins; formatting of numbers (a label is the number itself).
    networkx: all simple paths and all simple cycles are function parameters; the exceptions that only
    networkx raises (non-square matrix, unknown node) are represented by [RuntimeError]. *)
From Coq Require Import List Arith Bool ZArith QArith Qcanon Ascii String DecimalString.
From Verif Require Import Prelude Spec ModelRoot.
Import ListNotations.
Open Scope nat_scope.
Notation length := List.length.

(** f"x{i}" *)
Definition default_name (i : nat) : string := String "x"%char (NilEmpty.string_of_uint (Nat.to_uint i)).
(** [names[i]] for a list *)
Definition get_name (names : list string) (i : nat) : result string :=
  match nth_error names i with Some s => Ok s | None => Err IndexError end.
(** labels[i] if labels else f"x{i}" (65-68, 91-94) *)
Definition shown (labels : option (list string)) (i : nat) : result string :=
  match labels with
  | Some ((_ :: _) as l) => get_name l i
  | _ => Ok (default_name i)
  end.

Fixpoint mapM {A B} (f : A -> result B) (l : list A) : result (list B) :=
  match l with
  | [] => Ok []
  | x :: l => let* y := f x in let* ys := mapM f l in Ok (y :: ys)
  end.

(** ** Printing.  A printed line "<to> <--- <from> <sign> (<percent>%)" is its four parts.
    A row of the table: from, to, sign if the table has signs, count. *)
Definition sign_text (s : option Z) : string :=
  match s with None => ""%string | Some z => if (0 <? z)%Z then "(b>0)"%string else "(b<0)"%string end.
(** 63-68 *)
Definition print_directions (rows : list (nat * nat * option Z * nat)) (n_sampling : nat) (labels : option (list string))
    : result (list (string * string * string * Qc)) :=
  mapM (fun r => let '(fr, to, s, co) := r in
    let* t := shown labels to in let* f := shown labels fr in
    if n_sampling =? 0 then Err ZeroDivisionError
    else Ok (t, f, sign_text s, qn (100 * co) / qn n_sampling)%Qc) rows.
(** 85-94 *)
Definition print_dagc (dags : list (list (nat * nat * option Z) * nat)) (n_sampling : nat) (labels : option (list string))
    : result (list (Qc * list (string * string * string))) :=
  mapM (fun d =>
    if n_sampling =? 0 then Err ZeroDivisionError
    else
      let* es := mapM (fun r => let '(fr, to, s) := r in
        let* t := shown labels to in let* f := shown labels fr in Ok (t, f, sign_text s)) (fst d) in
      Ok (qn (100 * snd d) / qn n_sampling, es)%Qc) dags.

(** ** make_dot *)
Inductive stmt : Type :=
| SNode (name : string) (on_path is_end : bool)
| SEdge (tail head : string) (coef : Qc) (on_path on_cycle : bool)
| SPredNode (name : string)
| SPredEdge (tail head : string) (label : num)
| SSameRank (names : list string)
| SUnknown (tail head : string).

(** The argument [path]: absent, not a tuple, or a tuple of integers. *)
Inductive path_arg : Type := NoPath | NotTuple | PathTuple (l : list Z).
(** The drawn model of a prediction: coefficients, importances or indices only (374-406). *)
Inductive pred_kind : Type := PCoefs (l : list num) | PImportance (l : list num) | PIndices.

(** 295-306: a valid path as its two end points *)
Definition check_path (n : nat) (path : path_arg) (color_ok : bool) : result (option (nat * nat)) :=
  match path with
  | NoPath => Ok None
  | NotTuple => Err TypeError                                                         (* 296-297 *)
  | PathTuple (a :: b :: _) =>
      if negb color_ok then Err ValueError                                            (* 298-299 *)
      else
        let inside z := (0 <=? z)%Z && (z <=? Z.of_nat n)%Z in                        (* 303-306: max_val is included *)
        if inside a && inside b then Ok (Some (Z.to_nat a, Z.to_nat b)) else Err ValueError
  | PathTuple _ => Err TypeError
  end.
(** Positions of an r x c matrix in row-major order (np.where). *)
Definition positions (r c : nat) : list (nat * nat) := list_prod (seq 0 r) (seq 0 c).
Definition edge_mem (e : nat * nat) (l : list (nat * nat)) : bool :=
  existsb (fun x => (fst x =? fst e) && (snd x =? snd e)) l.
(** zip(p, p[1:]) *)
Definition path_pairs (p : list nat) : list (nat * nat) := combine p (tl p).
(** zip(c, np.roll(c, -1)) *)
Definition cycle_pairs (c : list nat) : list (nat * nat) := combine c (tl c ++ [hd 0 c]).
Definition str_mem (s : string) (l : list string) : bool := existsb (String.eqb s) l.

Section Dot.
  (** nx.all_simple_paths(G, s, t) and nx.simple_cycles(G); [G a b] is the edge a -> b *)
  Variable all_simple_paths : nat -> (nat -> nat -> bool) -> nat -> nat -> list (list nat).
  Variable simple_cycles : nat -> (nat -> nat -> bool) -> list (list nat).

  (** 312: idx *)
  Definition drawn (A : mat num) (limit : Qc) (i j : nat) : bool := qltb limit (qabs (nan_to_num (A i j))).
  (** 321-324: the edges of all simple paths between the end points *)
  Definition path_edges (n : nat) (G : nat -> nat -> bool) (ends : option (nat * nat)) : result (list (nat * nat)) :=
    match ends with
    | None => Ok []
    | Some (s, t) => if (s <? n) && (t <? n) then Ok (flat_map path_pairs (all_simple_paths n G s t))
                     else Err RuntimeError                                            (* NodeNotFound *)
    end.
  (** 344-352 *)
  Definition node_stmts (names : list string) (pn : list string) (ends : option (nat * nat)) : result (list stmt) :=
    mapM (fun nm =>
      match ends with
      | None => Ok (SNode nm false false)
      | Some (s, t) => let* a := get_name names s in let* b := get_name names t in
                       Ok (SNode nm (str_mem nm pn) (String.eqb nm a || String.eqb nm b))
      end) names.
  (** 355-364 *)
  Definition edge_stmts (r c : nat) (A : mat num) (limit : Qc) (names : list string) (pe : list (nat * nat)) (ce : list (nat * nat))
      : result (list stmt) :=
    mapM (fun e => let '(to, from) := e in
      let* f := get_name names from in let* t := get_name names to in
      Ok (SEdge f t (nan_to_num (A to from)) (edge_mem (from, to) pe) (edge_mem (from, to) ce)))
      (filter (fun e => drawn A limit (fst e) (snd e)) (positions r c)).
  (** 367-406 *)
  Definition pred_stmts (names : list string) (limit : Qc) (target : string) (pred : option (list nat * pred_kind)) : result (list stmt) :=
    match pred with
    | None => Ok []
    | Some (idx, k) =>
        let draw fl := mapM (fun e => let* f := get_name names (fst e) in Ok (SPredEdge f target (snd e))) fl in
        let* es := match k with
                   | PCoefs l => draw (filter (fun e => match snd e with Some q => qltb limit (qabs q) | None => false end) (combine idx l))
                   | PImportance l => draw (combine idx l)
                   | PIndices => draw (map (fun i => (i, None)) idx)
                   end in
        Ok (SPredNode target :: es)
    end.
  (** 409-416: NaN entries of the lower triangle (np.tril), double-headed; the order of the nodes of the
      subgraph is that of a set *)
  Definition unknown_positions (r c : nat) (A : mat num) : list (nat * nat) :=
    filter (fun e => (snd e <=? fst e) && match A (fst e) (snd e) with None => true | _ => false end) (positions r c).
  Definition unknown_stmts (r c : nat) (A : mat num) (names : list string) : result (list stmt) :=
    let us := unknown_positions r c A in
    let* same := mapM (get_name names) (uniq (map fst us ++ map snd us)) in
    let* es := mapM (fun e => let* f := get_name names (snd e) in let* t := get_name names (fst e) in Ok (SUnknown f t)) us in
    Ok (SSameRank same :: es).

  (** 273-418; [r], [c]: shape of the matrix; [color_ok]: path_color is None or a colour *)
  Definition make_dot (r c : nat) (A : mat num) (labels : option (list string)) (limit : Qc)
      (pred : option (list nat * pred_kind)) (target : string) (path : path_arg) (color_ok detect ignore_shape : bool)
      : result (list stmt) :=
    if (r =? 0) || (c =? 0) then Err ValueError                                       (* 273: check_array *)
    else if negb ignore_shape && negb (r =? c) then Err ValueError                    (* 274-275 *)
    else if match labels with Some l => negb (c =? length l) | None => false end then Err ValueError  (* 276-280 *)
    else if match pred with
            | Some (idx, PCoefs l) | Some (idx, PImportance l) => negb (length idx =? length l)
            | _ => false end then Err ValueError                                      (* 281-293 *)
    else
      let* ends := check_path r path color_ok in                                      (* 295-306 *)
      let G := fun a b => drawn A limit b a in
      if match ends with None => detect | Some _ => true end && negb (r =? c) then Err RuntimeError  (* 315-316: networkx *)
      else
        let* pe := path_edges r G ends in                                             (* 321-324 *)
        let names := match labels with Some ((_ :: _) as l) => l | _ => map default_name (seq 0 r) end in  (* 343 *)
        let* pn := mapM (get_name names) (uniq (map fst pe ++ map snd pe)) in         (* 326-330 *)
        let ce := if detect then flat_map cycle_pairs (simple_cycles r G) else [] in  (* 333-338 *)
        let* ns := node_stmts names pn ends in
        let* es := edge_stmts r c A limit names pe ce in
        let* ps := pred_stmts names limit target pred in
        let* us := unknown_stmts r c A names in
        Ok (ns ++ es ++ ps ++ us).

  (** ** make_dot_highlight: the clusters, and the nodes and edges drawn in them.
      A node is drawn once for every cluster it belongs to; a cluster is its distance from the target
      ([None]: the cluster "others"). *)
  (** 538-540: entries below the limit are deleted *)
  Definition limited (A : mat Qc) (limit : option Qc) : mat Qc :=
    fun i j => match limit with Some l => if qltb (qabs (A i j)) l then 0%Qc else A i j | None => A i j end.
  (** 543, 724: np.isclose(x, 0) is |x| <= 1e-8 *)
  Definition present (A : mat Qc) (i j : nat) : bool := qltb (qf 1 100000000) (qabs (A i j)).
  (** 545-553: distances along the edges, without the start; [cut]: largest distance *)
  Definition distances (n : nat) (adj : nat -> list nat) (s : nat) (cut : option nat) : list (nat * nat) :=
    filter (fun vd => within cut (snd vd) && negb (fst vd =? s)) (bfs n adj [s] [s] 0).
  Definition children (n : nat) (A : mat Qc) (v : nat) : list nat := filter (fun w => present A w v) (seq 0 n).
  Definition parents (n : nat) (A : mat Qc) (v : nat) : list nat := filter (fun w => present A v w) (seq 0 n).
  (** 558: nodes without any edge *)
  Definition isolates (n : nat) (A : mat Qc) : list nat :=
    filter (fun v => match children n A v, parents n A v with [], [] => true | _, _ => false end) (seq 0 n).
  (** 567-584: the clusters of a node, in the order 0, others, descendants, ancestors *)
  Definition copies (dsc anc : list (nat * nat)) (others : list nat) (target : nat) (v : nat) : list (option Z) :=
    (if v =? target then [Some 0%Z] else []) ++
    (if memb v others then [None] else []) ++
    map (fun vd => Some (Z.of_nat (snd vd))) (filter (fun vd => fst vd =? v) dsc) ++
    map (fun vd => Some (- Z.of_nat (snd vd))%Z) (filter (fun vd => fst vd =? v) anc).
  (** 611-622, 654: the height of a cluster; [level_index]: position of a distance among those that occur *)
  Definition level_index (d : nat) (dists : list nat) : nat := length (filter (fun x => x <? d) (uniq dists)).
  Definition height (dsc anc : list (nat * nat)) (vmargin : Qc) (d : option Z) : Qc :=
    match d with
    | None => 0%Qc
    | Some z =>
        if (0 <? z)%Z then (- (qn (level_index (Z.to_nat z) (map snd dsc) + 1) * vmargin))%Qc          (* 615-617 *)
        else if (z <? 0)%Z then (qn (level_index (Z.to_nat (- z)) (map snd anc) + 1) * vmargin)%Qc     (* 620-622 *)
        else 0%Qc
    end.
  (** 671: Python's == between an index and a name is False *)
  Inductive pyval : Type := PInt (n : nat) | PStr (s : string).
  Definition py_eqb (a b : pyval) : bool :=
    match a, b with PInt x, PInt y => x =? y | PStr x, PStr y => String.eqb x y | _, _ => false end.
  Record highlight := {
    h_copies : nat -> list (option Z);                                      (* clusters in which a node is drawn *)
    h_height : option Z -> Qc;                                              (* height of a cluster *)
    h_coloured : nat -> bool;                                               (* node coloured as part of the path *)
    h_edges : list (nat * option Z * (nat * option Z) * Qc * bool * bool)   (* tail, head, coefficient, on path, on cycle *)
  }.
  (** 482-747; [A0] may contain NaN, which check_array rejects *)
  Definition make_dot_highlight (n : nat) (A0 : mat num) (target : Z) (labels : option (list string)) (max_dsc max_anc : option Z)
      (limit : option Qc) (draw_others detect : bool) (path : path_arg) (color_ok : bool) (vmargin hmargin : Qc) : result highlight :=
    if (n <? 2) || existsb (fun e => match A0 (fst e) (snd e) with None => true | _ => false end) (positions n n)
    then Err ValueError                                                                (* 483-491 *)
    else if negb ((0 <=? target) && (target <? Z.of_nat n))%Z then Err ValueError      (* 493-500 *)
    else if match labels with Some l => negb (length l =? n) | None => false end then Err ValueError   (* 505-507 *)
    else if match max_dsc with Some z => (z <? 0)%Z | None => false end then Err ValueError            (* 509-510 *)
    else if match max_anc with Some z => (z <? 0)%Z | None => false end then Err ValueError            (* 512-513 *)
    else
      let* ends := check_path n path color_ok in                                       (* 523-533 *)
      if qltb vmargin 1 || qltb hmargin 1 then Err ValueError                          (* 535-536 *)
      else
      let A := limited (fun i j => nan_to_num (A0 i j)) limit in
      let G := fun a b => present A b a in
      let tg := Z.to_nat target in
      let dsc := distances n (children n A) tg (option_map Z.to_nat max_dsc) in
      let anc := distances n (parents n A) tg (option_map Z.to_nat max_anc) in
      let iso := isolates n A in
      let oth := filter (fun v => negb (memb v (map fst dsc) || memb v (map fst anc) || memb v iso || (v =? tg))) (seq 0 n) in  (* 559-565 *)
      let* pe := path_edges n G ends in                                                (* 586-592 *)
      let names := match labels with Some l => l | None => map default_name (seq 0 n) end in
      let* pn := mapM (get_name names) (uniq (map fst pe ++ map snd pe)) in            (* 594-595 *)
      let others := oth ++ iso in                                                      (* 572 *)
      let cp := copies dsc anc (if draw_others then others else []) tg in              (* 630-633 *)
      let ce := if detect then flat_map cycle_pairs (simple_cycles n G) else [] in     (* 712-717 *)
      let es := filter (fun e => G (snd e) (fst e)) (positions n n) in                 (* 724 *)
      let kept := filter (fun e => draw_others || negb (memb (snd e) others || memb (fst e) others)) es in  (* 726-730 *)
      Ok {| h_copies := cp;
            h_height := height dsc anc vmargin;
            h_coloured := fun v => existsb (py_eqb (PInt v)) (map PStr pn);            (* 671 *)
            h_edges := flat_map (fun e => flat_map (fun ct => map (fun ch =>
                         (snd e, ct, (fst e, ch), A (fst e) (snd e), edge_mem (snd e, fst e) pe, edge_mem (snd e, fst e) ce))
                         (cp (fst e))) (cp (snd e))) kept |}.                          (* 732-745 *)
End Dot.
