(** Specification vocabulary for mesh refinement. *)
From mathcomp Require Import all_ssreflect all_algebra.
From Verif Require Import PyDict_model Facet_model Facet_spec GS_model.
Set Implicit Arguments.
Unset Strict Implicit.
Unset Printing Implicit Defensive.
Import GRing.Theory.
Local Open Scope ring_scope.

(** Corner ids of the facet of type [ft] of a first-order element. *)
Definition facet (e : seq int) (ft : seq fdt) : seq int := nd_take SENT 2 e (slice_positions 2 false ft).

(** A first-order mesh: every element lists [2 ^ n] different valid node ids. *)
Definition mesh_ok (n N : nat) (els : seq (seq int)) : Prop :=
  forall e, e \in els ->
    [/\ size e = (2 ^ n)%N, uniq e & forall x, x \in e -> exists2 j, (j < N)%N & x = Posz j].

(** Two listings of the same corners differ by a symmetry of the cube. *)
Definition oriented (k : nat) (F F' : seq int) : Prop :=
  exists2 g, sym_ok k g & F' = [seq nth SENT F p | p <- sym_table 2 k g].

(** Elements that share the corners of a facet list them in orders that differ
    by a symmetry of the facet (elements meet along whole facets). *)
Definition conforming (n : nat) (els : seq (seq int)) : Prop :=
  forall e e' ft ft', e \in els -> e' \in els -> size ft = n -> size ft' = n ->
    (0 < facet_dim ft < n)%N ->
    perm_eq (facet e ft) (facet e' ft') -> oriented (facet_dim ft) (facet e ft) (facet e' ft').

(** The positions of two listings of the same ids are exchanged: what [F'] has
    at [i], [F] has at [j] implies the same with [i] and [j] swapped.  All
    listings related by flips of axes or by swapping two axes are of this kind,
    quarter turns are not. *)
Definition mutual (F F' : seq int) : Prop :=
  forall i j, (i < size F)%N -> (j < size F)%N ->
    nth SENT F' i = nth SENT F j -> nth SENT F' j = nth SENT F i.

(** Every pair of elements that share a facet of dimension between 1 and [n - 1]
    list its corners with exchanged positions; the same for a given facet [F]
    (of a group or a link) and its own facets. *)
Definition exchanging (n : nat) (els : seq (seq int)) : Prop :=
  forall e e' ft ft', e \in els -> e' \in els -> size ft = n -> size ft' = n ->
    (0 < facet_dim ft < n)%N -> perm_eq (facet e ft) (facet e' ft') -> mutual (facet e ft) (facet e' ft').
Definition exchanging_facet (n : nat) (els : seq (seq int)) (F : seq int) : Prop :=
  forall e ft2 ft, e \in els -> size ft2 = n.-1 -> size ft = n -> (0 < facet_dim ft2)%N ->
    perm_eq (facet F ft2) (facet e ft) -> mutual (facet F ft2) (facet e ft).

(** [F] lists the corners of a codimension-1 facet of an element, in an order
    that differs from the element's by a symmetry. *)
Definition is_element_facet (n : nat) (els : seq (seq int)) (F : seq int) : Prop :=
  exists j ft, [/\ (j < size els)%N, size ft = n, facet_dim ft = n.-1 &
                   oriented n.-1 (facet (nth [::] els j) ft) F].

(** Multilinear interpolation of the corner coordinates [X] of a [k]-dimensional
    cube at the gridpoint with multi-index [i]; [w x c] is the weight of end [c]
    at gridpoint [x] of the segment. *)
Definition multilinear (R : comRingType) (V : lmodType R) (w : nat -> nat -> R) (k : nat)
  (X : nat -> V) (i : seq nat) : V :=
  \sum_(c <- grid 2 k) (\prod_(b < k) w (nth 0%N i b) (nth 0%N c b)) *: X (flat 2 c).

(** What the proofs need of the weights: the end gridpoints are the ends of the
    segment and the gridpoints are symmetric. *)
Definition weights_ok (R : comRingType) (m : nat) (w : nat -> nat -> R) : Prop :=
  [/\ w 0%N 0%N = 1, w 0%N 1%N = 0, w m.-1 0%N = 0, w m.-1 1%N = 1 &
      forall x c, (x < m)%N -> (c < 2)%N -> w (m.-1 - x)%N c = w x (1 - c)%N].
