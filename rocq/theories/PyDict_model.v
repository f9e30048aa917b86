(** Python dicts as association lists in insertion order, and row-major
    multi-dimensional index arithmetic shared by the mesh models. *)
From mathcomp Require Import all_ssreflect.
Set Implicit Arguments.
Unset Strict Implicit.
Unset Printing Implicit Defensive.

Section Dict.
Variables (K : eqType) (A : Type).
Implicit Type d : seq (K * A).

(** [d.get(k)] *)
Fixpoint dget d (k : K) : option A :=
  if d is kv :: d' then (if kv.1 == k then Some kv.2 else dget d' k) else None.

(** [d[k] = v]: an existing key keeps its place, a new one goes to the end. *)
Fixpoint dset d (k : K) (v : A) : seq (K * A) :=
  if d is kv :: d' then (if kv.1 == k then (k, v) :: d' else kv :: dset d' k v) else [:: (k, v)].

Definition dkeys d : seq K := [seq kv.1 | kv <- d].
End Dict.

(** [itertools.product] of a list of lists, last factor fastest. *)
Fixpoint cart (A : Type) (ls : seq (seq A)) : seq (seq A) :=
  if ls is l :: ls' then flatten [seq [seq x :: r | r <- cart ls'] | x <- l] else [:: [::]].

(** Multi-indices of an array of shape [[m] * n] in row-major order, and the
    offset of a multi-index in the flattened array. *)
Definition grid (m n : nat) : seq (seq nat) := cart (nseq n (iota 0 m)).
Definition flat (m : nat) (i : seq nat) : nat := foldl (fun a x => a * m + x) 0 i.

(** Flattened [e[p]] for a list of multi-indices [p]. *)
Definition nd_take (A : Type) (x0 : A) (m : nat) (e : seq A) (ps : seq (seq nat)) : seq A :=
  [seq nth x0 e (flat m p) | p <- ps].
