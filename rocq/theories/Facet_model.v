(** Model of common/facet_util.py. *)
From mathcomp Require Import all_ssreflect.
From Verif Require Import PyDict_model.
Set Implicit Arguments.
Unset Strict Implicit.
Unset Printing Implicit Defensive.

(** [FacetDimType], l.45-50 *)
Inductive fdt := FIRST | LAST | INNER.
Definition fdt_eqb (a b : fdt) : bool :=
  match a, b with FIRST, FIRST | LAST, LAST | INNER, INNER => true | _, _ => false end.
Lemma fdt_eqP : Equality.axiom fdt_eqb.
Proof. by case; case; constructor. Qed.
Definition fdt_eqMixin := EqMixin fdt_eqP.
Canonical fdt_eqType := EqType fdt fdt_eqMixin.

(** [slice_from_facet_type], l.53-75: the positions selected along one axis of
    length [m >= 1]; an integer index drops the axis, which is invisible in the
    flattened result. *)
Definition axis_positions (m : nat) (interior_nodes_only : bool) (t : fdt) : seq nat :=
  match t with
  | FIRST => [:: 0]
  | LAST => [:: m.-1]
  | INNER => if interior_nodes_only then iota 1 (m - 2) else iota 0 m
  end.
Definition slice_positions (m : nat) (interior_nodes_only : bool) (ft : seq fdt) : seq (seq nat) :=
  cart [seq axis_positions m interior_nodes_only t | t <- ft].

(** [get_facet_types], l.78-92; enumeration order of the enum is FIRST, LAST, INNER *)
Definition facet_dim (ft : seq fdt) : nat := count_mem INNER ft.
Definition all_facet_types (ndim : nat) : seq (seq fdt) := cart (nseq ndim [:: FIRST; LAST; INNER]).
Definition get_facet_types (ndim : nat) (facet_ndim : option nat) : seq (seq fdt) :=
  if facet_ndim is Some k then [seq f <- all_facet_types ndim | facet_dim f == k]
  else all_facet_types ndim.

(** [itertools.permutations(l)] for a list of distinct values *)
Fixpoint permutations_n (n : nat) (l : seq nat) : seq (seq nat) :=
  if n is n'.+1 then flatten [seq [seq x :: p | p <- permutations_n n' (rem x l)] | x <- l]
  else [:: [::]].
Definition py_permutations (l : seq nat) : seq (seq nat) := permutations_n (size l) l.

(** [more_itertools.powerset(l)]: combinations of size 0, 1, ... *)
Fixpoint combinations (r : nat) (l : seq nat) : seq (seq nat) :=
  match r, l with
  | 0, _ => [:: [::]]
  | r'.+1, [::] => [::]
  | r'.+1, x :: l' => [seq x :: c | c <- combinations r' l'] ++ combinations r l'
  end.
Definition powerset (l : seq nat) : seq (seq nat) :=
  flatten [seq combinations r l | r <- iota 0 (size l).+1].

(** numpy on arrays of shape [[m] * d], given flattened.
    [a.transpose(perm)]: [out[i] = a[j]] with [j[perm[k]] = i[k]]. *)
Definition np_transpose (m d : nat) (perm : seq nat) (a : seq nat) : seq nat :=
  nd_take 0 m a [seq [seq nth 0 i (index b perm) | b <- iota 0 d] | i <- grid m d].
(** [np.flip(a, axes)] *)
Definition np_flip (m d : nat) (axes : seq nat) (a : seq nat) : seq nat :=
  nd_take 0 m a [seq [seq if k \in axes then m.-1 - nth 0 i k else nth 0 i k | k <- iota 0 d] | i <- grid m d].

(** [get_orderings_mapping], l.95-143 *)
Definition ordered (m d : nat) (perm axes : seq nat) : seq nat :=
  np_flip m d axes (np_transpose m d perm (iota 0 (m ^ d))).
Definition get_orderings_mapping (ndim num_points_1d : nat) : seq (seq nat * seq nat) :=
  foldl (fun o pa => dset o (ordered 2 ndim pa.1 pa.2) (ordered num_points_1d ndim pa.1 pa.2)) [::]
        [seq (perm, axes) | perm <- py_permutations (iota 0 ndim), axes <- powerset (iota 0 ndim)].
