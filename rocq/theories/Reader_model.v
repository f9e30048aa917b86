(** Model of common/mesh_reader.py and common/mesh_partitioner.py. *)
From mathcomp Require Import all_ssreflect all_algebra.
From Verif Require Import PyDict_model GS_model Premesh_model.
Set Implicit Arguments.
Unset Strict Implicit.
Unset Printing Implicit Defensive.
Import GRing.Theory.
Local Open Scope ring_scope.

(** ** What meshio returns.  Only the cell types used are distinguished; each
    periodic relation is (entity dimension, (slave, master) node pairs). *)
Inductive ctype := Line | Quad | Hexahedron.
Definition ctype_eqb (a b : ctype) : bool :=
  match a, b with Line, Line | Quad, Quad | Hexahedron, Hexahedron => true | _, _ => false end.
Lemma ctype_eqP : Equality.axiom ctype_eqb.
Proof. by case; case; constructor. Qed.
Definition ctype_eqMixin := EqMixin ctype_eqP.
Canonical ctype_eqType := EqType ctype ctype_eqMixin.

Record gmesh (F : Type) := GMesh {
  gm_points : seq (seq F);
  gm_cells : seq (ctype * seq (seq int));
  gm_periodic : seq (nat * seq (int * int)) }.

Inductive rd_error := RdValueError | RdKeyError | RdIndexError.

(** [_NODE_ORDERING_PERMUTATIONS], l.40-44 *)
Definition ordering_permutation (ndim : nat) : seq nat :=
  match ndim with
  | 1 => [:: 0; 1] | 2 => [:: 0; 3; 1; 2] | 3 => [:: 0; 4; 3; 7; 1; 5; 2; 6] | _ => [::]
  end%N.

(** [d.update(dict(pairs))] *)
Definition dict_update (d pairs : seq (int * int)) : seq (int * int) :=
  foldl (fun d kv => dset d kv.1 kv.2) d pairs.
(** l.60-65 *)
Definition src_tgt_mapping (periodic : seq (nat * seq (int * int))) (ndim : nat) : seq (int * int) :=
  foldl (fun d r => if (r.1 != ndim.-1)%N then d else dict_update d (dict_update [::] r.2)) [::] periodic.

(** l.69: [{1: 'line', 2: 'quad'}[ndim - 1]] *)
Definition facet_elem_type (ndim : nat) : option ctype :=
  match ndim with 2 => Some Line | 3 => Some Quad | _ => None end%N.

(** [_get_periodic_links], l.47-75 *)
Definition get_periodic_links (cells : seq (ctype * seq (seq int))) (periodic : seq (nat * seq (int * int)))
  (ndim : nat) : rd_error + seq link :=
  let mapping := src_tgt_mapping periodic ndim in
  match facet_elem_type ndim with
  | None => inl RdKeyError
  | Some t =>
    match dget cells t with
    | None => inl RdKeyError
    | Some facets =>
      let links := [seq (f, [seq odflt 0 (dget mapping x) | x <- f])
                     | f <- facets & all (fun x => isSome (dget mapping x)) f] in
      (* np.stack of an empty list raises *)
      if links is [::] then inl RdValueError else inr links
    end
  end.

(** [cells[:, perm]] for rows of equal width *)
Definition take_columns (cells : seq (seq int)) (perm : seq nat) : rd_error + seq (seq int) :=
  if all (fun row => all (fun p => p < size row)%N perm) cells
  then inr [seq [seq nth 0 row p | p <- perm] | row <- cells] else inl RdIndexError.

Definition elem_type (ndim : nat) : option ctype :=
  match ndim with 1 => Some Line | 2 => Some Quad | 3 => Some Hexahedron | _ => None end%N.

(** [read], l.78-114, after [meshio.read]; points have at least [ndim] columns,
    of which the first [ndim] are kept.  [Premesh.create] accepts elements with
    [2 ^ ndim] columns, which is what [take_columns] returns. *)
Definition read (F : ringType) (L : Type) (ndim : nat) (mesh : gmesh F) : rd_error + premesh [zmodType of 'rV[F]_ndim] L :=
  if ndim \notin [:: 1; 2; 3]%N then inl RdValueError else
  let coords := [seq \row_(j < ndim) nth 0 pt j | pt <- gm_points mesh] in
  match elem_type ndim with
  | None => inl RdKeyError
  | Some t =>
    match dget (gm_cells mesh) t with
    | None => inl RdValueError
    | Some cells =>
      match take_columns cells (ordering_permutation ndim) with
      | inl e => inl e
      | inr elements =>
        if gm_periodic mesh is [::] then inr (Premesh coords elements [::] None None)
        else match get_periodic_links (gm_cells mesh) (gm_periodic mesh) ndim with
             | inl e => inl e
             | inr links => inr (Premesh coords elements [::] (Some links) None)
             end
      end
    end
  end.

(** ** common/mesh_partitioner.py *)
Definition edge := (int * int)%type.
(** l.43-45: edges (element, num_elements + node) *)
Definition graph_edges (elements : seq (seq int)) : seq edge :=
  flatten [seq [seq (Posz e, Posz (size elements) + i) | i <- nth [::] elements e] | e <- iota 0 (size elements)].
(** adjacency of an [nx.Graph]: neighbours in insertion order *)
Definition neighbors (g : seq edge) (v : int) : seq int :=
  undup (flatten [seq (if ed.1 == v then [:: ed.2] else [::]) ++ (if ed.2 == v then [:: ed.1] else [::]) | ed <- g]).
Definition in_graph (g : seq edge) (v : int) : bool := has (fun ed => (ed.1 == v) || (ed.2 == v)) g.

(** One level of [nx.single_source_shortest_path_length]: returns the set seen
    and the next level in order of discovery. *)
Definition visit (st : seq int * seq int) (w : int) : seq int * seq int :=
  if w \in st.1 then st else (w :: st.1, rcons st.2 w).
Definition next_level (g : seq edge) (seen level : seq int) : seq int * seq int :=
  foldl (fun st v => foldl visit st (neighbors g v)) (seen, [::]) level.
Fixpoint bfs (g : seq edge) (k dist : nat) (seen level : seq int) : seq (int * nat) :=
  [seq (v, dist) | v <- level] ++
  if k is k'.+1 then
    if level is [::] then [::]
    else let st := next_level g seen level in bfs g k' dist.+1 st.1 st.2
  else [::].
(** [None] is [NodeNotFound]. *)
Definition shortest_path_lengths (g : seq edge) (source : int) (cutoff : nat) : option (seq (int * nat)) :=
  if in_graph g source then Some (bfs g cutoff 0 [:: source] [:: source]) else None.

(** l.47-50 *)
Definition adjacency_of (elements : seq (seq int)) (source : nat) : option (seq int) :=
  match shortest_path_lengths (graph_edges elements) (Posz source) 2 with
  | None => None
  | Some paths => Some [seq td.1 | td <- paths & td.2 == 2%N]
  end.
Fixpoint all_some (T : Type) (s : seq (option T)) : option (seq T) :=
  match s with
  | [::] => Some [::]
  | None :: _ => None
  | Some x :: s' => if all_some s' is Some r then Some (x :: r) else None
  end.
Definition adjlist (elements : seq (seq int)) : option (seq (seq int)) :=
  all_some [seq adjacency_of elements s | s <- iota 0 (size elements)].

(** [partition], l.22-53; [part_graph] stands for [pymetis.part_graph]. *)
Definition partition (V : zmodType) (L : Type) (part_graph : nat -> seq (seq int) -> seq nat)
  (pm : premesh V L) (num_partitions : nat) : option (premesh V L) :=
  match adjlist (pm_elements pm) with
  | None => None
  | Some adj => Some (Premesh (pm_coords pm) (pm_elements pm) (pm_groups pm) (pm_links pm)
                              (Some (part_graph num_partitions adj)))
  end.
