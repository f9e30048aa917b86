(** Model of [transfer_perm] in niles/train.py, l.51-60, and of its use in [get_tke],
    l.68-69.  Arithmetic is exact. *)
From mathcomp Require Import all_ssreflect all_algebra.
Set Implicit Arguments.
Unset Strict Implicit.
Unset Printing Implicit Defensive.
Import Order.TTheory GRing.Theory Num.Theory.
Local Open Scope ring_scope.

Section Transfer.
Variables (F : realFieldType) (d : nat).
Notation point := 'rV[F]_d.
(** The square of the Euclidean distance, in which [KDTree.query] is nearest *)
Definition sqdist (x y : point) : F := \sum_j (x 0 j - y 0 j) ^+ 2.
(** [scipy.spatial.KDTree(source).query(x)]: the index of a nearest point.  Which one
    among several nearest points depends on the tree, so [query] is arbitrary up to this. *)
Definition nearest (query : seq point -> point -> nat) : Prop :=
  forall source x, (0 < size source)%N ->
    (query source x < size source)%N /\
    forall i, (i < size source)%N -> sqdist (nth 0 source (query source x)) x <= sqdist (nth 0 source i) x.
Variable query : seq point -> point -> nat.
Definition transfer_perm (source target : seq point) : seq nat := [seq query source x | x <- target].
End Transfer.
(** [u_flat[first_order_perm]], l.69 *)
Definition permuted (V : zmodType) (u : seq V) (perm : seq nat) : seq V := [seq nth 0 u i | i <- perm].
