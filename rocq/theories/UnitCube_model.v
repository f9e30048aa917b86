(** Model of common/premesh_commons.py.  Coordinates are exact (any field). *)
From mathcomp Require Import all_ssreflect all_algebra.
From Verif Require Import PyDict_model Facet_model GS_model Premesh_model.
Set Implicit Arguments.
Unset Strict Implicit.
Unset Printing Implicit Defensive.
Import GRing.Theory.
Local Open Scope ring_scope.

(** [list(more_itertools.pairwise(np.arange(n + 1)))], l.44-45 *)
Definition pairwise_arange (n : nat) : seq (seq nat) := [seq [:: i; i.+1] | i <- iota 0 n].
(** [dim_to_elem], l.46-50 *)
Definition dim_to_elem (n : nat) (t : fdt) : seq (seq nat) :=
  match t with FIRST => [:: [:: 0]] | INNER => pairwise_arange n | LAST => [:: [:: n]] end%N.
(** [_unit_cube_facet_elements], l.28-64; [ravel_multi_index] is [flat] (the
    indices are in range). *)
Definition unit_cube_facet_elements (n : nat) (facet : seq fdt) : seq (seq int) :=
  [seq [seq Posz (flat n.+1 multi_idx) | multi_idx <- cart element_tuple]
    | element_tuple <- cart [seq dim_to_elem n t | t <- facet]].

(** l.105-110: the lists appended to [axis_to_facets[axis]] in order *)
Definition facet_axis (facet : seq fdt) : nat :=
  if FIRST \in facet then index FIRST facet else index LAST facet.
Definition axis_to_facets (n d axis : nat) : seq (seq (seq int)) :=
  [seq unit_cube_facet_elements n f | f <- get_facet_types d (Some d.-1) & facet_axis f == axis].

(** l.114-121.  [np.array(axis_to_facets[axis]).transpose((1, 0, 2))] is the list
    of pairs (facet of the first list, facet of the second list). *)
Definition links_of_axis (n d axis : nat) : seq link :=
  zip (nth [::] (axis_to_facets n d axis) 0) (nth [::] (axis_to_facets n d axis) 1).
Definition cube_links (n d : nat) (periodic_dims : seq nat) : seq link :=
  flatten [seq links_of_axis n d axis | axis <- iota 0 d & axis \in periodic_dims].
Definition cube_boundary (n d : nat) (periodic_dims : seq nat) : seq (seq int) :=
  flatten [seq flatten (axis_to_facets n d axis) | axis <- iota 0 d & axis \notin periodic_dims].

(** ** Partition arrays: shape and row-major data *)
Definition nd_indices (shape : seq nat) : seq (seq nat) := cart [seq iota 0 s | s <- shape].
Definition ravel (shape i : seq nat) : nat := foldl (fun a si => a * si.1 + si.2)%N 0%N (zip shape i).
Record ndarray := NdArray { nd_shape : seq nat; nd_data : seq nat }.
Definition nd_get (a : ndarray) (i : seq nat) : nat := nth 0%N (nd_data a) (ravel (nd_shape a) i).
(** [np.repeat(a, repeats=r, axis=axis)] *)
Definition np_repeat (a : ndarray) (r axis : nat) : ndarray :=
  let shape := set_nth 0%N (nd_shape a) axis (nth 0 (nd_shape a) axis * r)%N in
  NdArray shape [seq nd_get a (set_nth 0%N i axis (nth 0 i axis %/ r)%N) | i <- nd_indices shape].

Inductive cube_error := IndexError | ZeroDivisionError | AssertionError | ReshapeError.
(** l.130-138 *)
Fixpoint repeat_axes (n : nat) (axes : seq nat) (a : ndarray) : cube_error + ndarray :=
  if axes is axis :: axes' then
    if (size (nd_shape a) <= axis)%N then inl IndexError
    else let s := nth 0%N (nd_shape a) axis in
    if s == 0%N then inl ZeroDivisionError
    else if (n %% s != 0)%N then inl AssertionError
    else repeat_axes n axes' (np_repeat a (n %/ s) axis)
  else inr a.
Definition cube_partitions (n d : nat) (num_elements : nat) (a : ndarray) : cube_error + seq nat :=
  match repeat_axes n (iota 0 d) a with
  | inl e => inl e
  | inr a' => if foldr muln 1%N (nd_shape a') == num_elements then inr (nd_data a') else inl ReshapeError
  end.

Section Mesh.
Variables (F : fieldType) (d : nat) (L : Type) (boundary : L).

(** [np.linspace(a, b, num)], l.95 *)
Definition linspace (a b : F) (num : nat) : seq F :=
  [seq a + i%:R * ((b - a) / num.-1%:R) | i <- iota 0 num].
(** l.96-97 *)
Definition cube_coords (n : nat) (a b : F) : seq 'rV[F]_d :=
  [seq \row_j nth 0 c j | c <- cart (nseq d (linspace a b n.+1))].

(** [unit_cube_mesh], l.67-145 (for [n >= 1], [d >= 1]; the other arguments of
    [Premesh.create] take their defaults) *)
Definition unit_cube_mesh (n : nat) (a b : F) (periodic_dims : seq nat) (partitions : option ndarray)
  : cube_error + premesh [zmodType of 'rV[F]_d] L :=
  let elements := unit_cube_facet_elements n (nseq d INNER) in
  let bf := cube_boundary n d periodic_dims in
  let groups := if flatten bf != [::] then [:: (boundary, bf)] else [::] in
  let links := cube_links n d periodic_dims in
  let olinks := if links != [::] then Some links else None in
  match partitions with
  | None => inr (Premesh (cube_coords n a b) elements groups olinks None)
  | Some p =>
      match cube_partitions n d (size elements) p with
      | inl e => inl e
      | inr ps => inr (Premesh (cube_coords n a b) elements groups olinks (Some ps))
      end
  end.
End Mesh.
