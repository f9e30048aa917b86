(** Model of core/mesh_refiner.py.  Node ids are integers with -1 for an
    unassigned slot; an element with [m] points per axis is the flattened array
    of its [m ^ n] ids.  A node coordinate vector is an element of a module over
    a commutative ring (exact arithmetic).  The 1-D interpolation matrix is a
    parameter [M1] (row: gridpoint, column: corner); interpolation.py is
    modelled elsewhere. *)
From mathcomp Require Import all_ssreflect all_algebra.
From Verif Require Import PyDict_model Facet_model GS_model Premesh_model.
Set Implicit Arguments.
Unset Strict Implicit.
Unset Printing Implicit Defensive.
Import GRing.Theory.
Local Open Scope ring_scope.

Inductive rerror := RTypeError | RKeyError | RValueError.

Section Refiner.
Variables (R : comRingType) (V : lmodType R) (L : Type).
(** [n] = premesh.ndim, [m] = gridpoints_1d.num_points,
    [cont] = gridpoints_1d.is_continuous() *)
Variables (n m : nat) (cont : bool) (M1 : nat -> nat -> R).

(** [_node_coords] and [_inner_facets_mapping], l.92-105 *)
Record rstate := RState {
  rs_coords : seq V;
  rs_map : seq (seq int * (seq int * seq int))
}.

(** [_dim_to_orderings_mapping], l.107-115 *)
Definition dim_orderings (k : nat) : option (seq (seq nat * seq nat)) :=
  if (1 <= k < n)%N then Some (get_orderings_mapping k (m - 2)) else None.
(** With one gridpoint, [num_points_1d = -1]: [np.arange((-1) ** 2).reshape([-1, -1])]
    raises in the constructor when dimension 2 is in range(1, ndim). *)
Definition init_error : bool := (m == 1)%N && (3 <= n)%N.

(** [_add_nodes], l.120-126 *)
Definition add_nodes (s : rstate) (cs : seq V) : rstate * seq int :=
  (RState (rs_coords s ++ cs) (rs_map s), [seq Posz k | k <- iota (size (rs_coords s)) (size cs)]).

(** [_add_facets], l.132-141: assignment to the interior slice, per element *)
Definition write_slots (slots : seq int) (ps : seq (seq nat)) (vals : seq int) : seq int :=
  foldl (fun sl pv => set_nth SENT sl (flat m pv.1) pv.2) slots (zip ps vals).
Definition add_facets (ft : seq fdt) (rows targets : seq (seq int)) : seq (seq int) :=
  [seq write_slots tr.1 (slice_positions m true ft) tr.2 | tr <- zip targets rows].

(** Body of the deduplication loop, l.200-218, with the permutation of l.220-224
    applied.  [oc]: the coordinates of the interior nodes of the facet, or None;
    subscripting None is the TypeError.  [facet.index(k)] cannot fail since both
    facets have the same sorted ids. *)
Definition refine_one (s : rstate) (k : nat) (facet : seq int) (oc : option (seq V))
  : rerror + (rstate * seq int) :=
  let key := sort <=%R facet in
  match dget (rs_map s) key with
  | None =>
      if oc is Some cs then
        let (s', ids) := add_nodes s cs in
        inr (RState (rs_coords s') (dset (rs_map s') key (facet, ids)),
             [seq nth SENT ids p | p <- iota 0 (size ids)])
      else inl RTypeError
  | Some (orient, ids) =>
      let okey := [seq index x facet | x <- orient] in
      if dim_orderings k is Some o then
        if dget o okey is Some perm then inr (s, [seq nth SENT ids p | p <- perm]) else inl RKeyError
      else inl RKeyError
  end.

Fixpoint refine_each (s : rstate) (k : nat) (fs : seq (seq int)) (ocs : seq (option (seq V)))
  : rerror + (rstate * seq (seq int)) :=
  match fs, ocs with
  | f :: fs', oc :: ocs' =>
      match refine_one s k f oc with
      | inl e => inl e
      | inr (s', row) =>
          match refine_each s' k fs' ocs' with
          | inl e => inl e
          | inr (s'', rows) => inr (s'', row :: rows)
          end
      end
  | _, _ => inr (s, [::])
  end.

(** One iteration of the loop over facet types, l.166-226.  [tcs]: for each facet
    the flattened array of node coordinates, or None. *)
Definition refine_type (facets : seq (seq int)) (tcs : seq (option (seq V)))
  (st : rstate * seq (seq int)) (ft : seq fdt) : rerror + (rstate * seq (seq int)) :=
  let (s, targets) := st in
  let curr := [seq nd_take SENT 2 f (slice_positions 2 false ft) | f <- facets] in
  let k := facet_dim ft in
  if k == 0%N then inr (s, add_facets ft curr targets)
  else
    let fcs := [seq omap (fun tc => nd_take 0 m tc (slice_positions m true ft)) oc | oc <- tcs] in
    if (k == n) && all isSome fcs then
      let (s', ids) := add_nodes s (flatten (pmap id fcs)) in
      inr (s', add_facets ft (reshape (nseq (size facets) ((m - 2) ^ k)%N) ids) targets)
    else
      match refine_each s k curr fcs with
      | inl e => inl e
      | inr (s', rows) => inr (s', add_facets ft rows targets)
      end.

Fixpoint refine_types (facets : seq (seq int)) (tcs : seq (option (seq V)))
  (st : rstate * seq (seq int)) (fts : seq (seq fdt)) : rerror + (rstate * seq (seq int)) :=
  if fts is ft :: fts' then
    match refine_type facets tcs st ft with
    | inl e => inl e
    | inr st' => refine_types facets tcs st' fts'
    end
  else inr st.

(** [_refine_facets], l.143-229 *)
Definition refine_facets (s : rstate) (facets : seq (seq int)) (d : nat) (tcs : seq (option (seq V)))
  : rerror + (rstate * seq (seq int)) :=
  refine_types facets tcs (s, nseq (size facets) (nseq (m ^ d)%N SENT)) (all_facet_types d).

(** einsum with [kron(M1, ..., M1)], l.233-237 *)
Definition kron_entry (i c : seq nat) : R := foldr (fun p a => M1 p.1 p.2 * a) 1 (zip i c).
Definition element_coords (coords : seq V) (e : seq int) : seq V :=
  [seq foldr (fun c a => kron_entry i c *: at_ coords (nth SENT e (flat 2 c)) + a) 0 (grid 2 n) | i <- grid m n].

(** [_refine_elements], l.231-251 *)
Definition refine_elements (coords : seq V) (elements : seq (seq int)) : rerror + (rstate * seq (seq int)) :=
  let tcs := [seq element_coords coords e | e <- elements] in
  if ~~ cont then
    let (s, ids) := add_nodes (RState [::] [::]) (flatten tcs) in
    inr (s, reshape (nseq (size elements) (m ^ n)%N) ids)
  else refine_facets (RState coords [::]) elements n [seq Some tc | tc <- tcs].

(** Groups, l.260-268: no coordinates are passed *)
Definition refine_plain (s : rstate) (facets : seq (seq int)) : rerror + (rstate * seq (seq int)) :=
  refine_facets s facets n.-1 (nseq (size facets) None).
Fixpoint refine_groups (s : rstate) (gs : seq (L * seq (seq int))) : rerror + (rstate * seq (L * seq (seq int))) :=
  if gs is (l, facets) :: gs' then
    if size (flatten facets) == 0%N then inl RValueError
    else match refine_plain s facets with
         | inl e => inl e
         | inr (s', f') =>
             match refine_groups s' gs' with
             | inl e => inl e
             | inr (s'', r) => inr (s'', (l, f') :: r)
             end
         end
  else inr (s, [::]).

(** Periodic links, l.270-279 *)
Definition refine_links (s : rstate) (ls : seq link) : rerror + (rstate * seq link) :=
  match refine_plain s [seq l.1 | l <- ls] with
  | inl e => inl e
  | inr (s', a) =>
      match refine_plain s' [seq l.2 | l <- ls] with
      | inl e => inl e
      | inr (s'', b) => inr (s'', zip a b)
      end
  end.

(** [refine], l.253-287 *)
Definition refine (pm : premesh V L) : rerror + premesh V L :=
  if init_error then inl RValueError else
  match refine_elements (pm_coords pm) (pm_elements pm) with
  | inl e => inl e
  | inr (s, elements) =>
      match (if cont then refine_groups s (pm_groups pm) else inr (s, [::])) with
      | inl e => inl e
      | inr (s', groups) =>
          match pm_links pm, cont with
          | Some ls, true =>
              match refine_links s' ls with
              | inl e => inl e
              | inr (_, links) => inr (Premesh (rs_coords s) elements groups (Some links) (pm_parts pm))
              end
          | _, _ => inr (Premesh (rs_coords s) elements groups None (pm_parts pm))
          end
      end
  end.

(** [refine_premesh], l.35-57 *)
Definition refine_premesh (order : nat) (pm : premesh V L) : rerror + premesh V L :=
  if order != 1%N then inl RValueError else refine pm.
End Refiner.
