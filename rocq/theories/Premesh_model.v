(** Model of core/premesh.py (finalize) and of the per-device operations of
    core/mesh.py.  A node coordinate is one value of a commutative group (a
    coordinate column, or a coordinate vector: the code maps over columns).
    Reference gridpoints are left out: they are only stored (and their number
    checked against the element width, mesh.py l.107-118). *)
From mathcomp Require Import all_ssreflect all_algebra.
From Verif Require Import GS_model.
Set Implicit Arguments.
Unset Strict Implicit.
Unset Printing Implicit Defensive.
Import GRing.Theory.
Local Open Scope ring_scope.

Section Premesh.
Variables (V : zmodType) (L : Type).

(** premesh.py l.37-71.  Facets of a group are lists of node ids. *)
Record premesh := Premesh {
  pm_coords : seq V;
  pm_elements : seq (seq int);
  pm_groups : seq (L * seq (seq int));
  pm_links : option (seq link);
  pm_parts : option (seq nat)
}.

(** mesh.py l.75-88, as seen by one device *)
Record mesh := Mesh {
  m_coords : seq V;
  m_elements : seq (seq int);
  m_node_indices : seq int;
  m_masks : seq (L * seq bool);
  m_gi : option (seq int);
  m_ui : option (seq int)
}.

(** premesh.py [_mask], l.31-34 *)
Definition mask_of (facets : seq (seq int)) (node_indices : seq int) : seq bool :=
  [seq i \in flatten facets | i <- node_indices].

(** premesh.py [finalize], l.152-168 *)
Definition finalize_serial (pm : premesh) : mesh :=
  let node_indices := [seq unique_index (pm_links pm) (Posz k) | k <- iota 0 (size (pm_coords pm))] in
  let gu := exchange_indices_serial node_indices in
  Mesh (pm_coords pm) (pm_elements pm) node_indices
       [seq (g.1, mask_of g.2 node_indices) | g <- pm_groups pm]
       (Some gu.1) (Some gu.2).

(** [vmap(gather(indices=element_indices), in_axes=-1)(self.elements)], l.176-178:
    rows of the element array, all sentinels where the index is a sentinel. *)
Definition gather_elements (elements : seq (seq int)) (row : seq int) : seq (seq int) :=
  [seq if i != SENT then nth [::] elements (py_index (size elements) i)
       else nseq (size (head [::] elements)) SENT | i <- row].

(** [self.node_coords[node_indices]], l.217: numpy indexing, so the sentinel -1
    reads the last node. *)
Definition take_coords (coords : seq V) (idx : seq int) : seq V := [seq at_ coords i | i <- idx].

Inductive fin_error := ValueError | NotImplementedError.

(** premesh.py [finalize], l.170-222; one mesh per device.  [axis_name] is only
    tested for being non-empty. *)
Definition finalize_parts (pm : premesh) (parts : seq nat) (axis_name : bool) : fin_error + seq mesh :=
  if ~~ axis_name then inl ValueError else
  let element_indices := group_by_partitions parts in
  let elements := [seq gather_elements (pm_elements pm) row | row <- element_indices] in
  let nl := get_local_elements elements in
  let node_indices := [seq [seq unique_index (pm_links pm) i | i <- r] | r <- nl.1] in
  match exchange_indices_parts node_indices with
  | None => inl NotImplementedError
  | Some gis =>
    inr [seq Mesh (take_coords (pm_coords pm) x.1.1) x.1.2 x.1.1
                  [seq (g.1, mask_of g.2 x.1.1) | g <- pm_groups pm] (Some x.2) None
        | x <- zip (zip node_indices nl.2) gis]
  end.

Definition finalize (pm : premesh) (axis_name : bool) : fin_error + seq mesh :=
  if pm_parts pm is Some ps then finalize_parts pm ps axis_name else inr [:: finalize_serial pm].

(** ** mesh.py *)
(** l.141-143 *)
Definition num_nodes (m : mesh) : nat := size (m_coords m).
(** [gather], l.155-160; [None] is the ValueError for a wrong shape. *)
Definition mesh_gather (m : mesh) (u : seq V) : option (seq (seq V)) :=
  if size u == num_nodes m then Some [seq gather 0 u e | e <- m_elements m] else None.
(** [scatter], l.165-168 *)
Definition mesh_scatter (m : mesh) (ul : seq (seq V)) : seq V :=
  scatter (flatten ul) (flatten (m_elements m)) (num_nodes m).
(** [element_coords], l.170-172 *)
Definition element_coords (m : mesh) : option (seq (seq V)) := mesh_gather m (m_coords m).
(** [exchange], l.174-179, without axis and on all devices of the axis *)
Definition mesh_exchange (m : mesh) (u : seq V) : seq V := exchange u (m_gi m) (m_ui m).
Definition meshes_exchange (ms : seq mesh) (us : seq (seq V)) : seq (seq V) :=
  exchange_dist us [seq odflt [::] (m_gi m) | m <- ms]
                (if ms is m :: _ then m_ui m else None).
End Premesh.
