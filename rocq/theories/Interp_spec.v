(** Small vocabulary for polynomials on 1D nodes, independent of the model. *)
From mathcomp Require Import all_ssreflect all_algebra.
Set Implicit Arguments.
Unset Strict Implicit.
Unset Printing Implicit Defensive.
Import GRing.Theory.
Local Open Scope ring_scope.

Section Spec.
Variable F : fieldType.
(** The product of the differences from node [k] to all other nodes. *)
Definition node_product (xs : seq F) (k : nat) : F :=
  \prod_(j < size xs | j != k :> nat) (nth 0 xs k - nth 0 xs j).
(** [ws] is a nonzero common multiple of the barycentric weights
    [1 / node_product xs k]. *)
Definition barycentric (ws xs : seq F) : Prop :=
  size ws = size xs /\
  exists2 c : F, c != 0 & forall k, (k < size xs)%N -> nth 0 ws k * node_product xs k = c.

(** The integral of a polynomial over [-1, 1] through its primitive. *)
Definition primitive (p : {poly F}) : {poly F} :=
  \poly_(i < (size p).+1) (if i is j.+1 then p`_j / j.+1%:R else 0).
Definition integral (p : {poly F}) : F := (primitive p).[1] - (primitive p).[-1].

(** A quadrature rule applied to a polynomial. *)
Definition quad (xs ws : seq F) (p : {poly F}) : F :=
  \sum_(k < size xs) nth 0 ws k * p.[nth 0 xs k].

(** A function on d-dimensional points: a sum of products of one-variable
    polynomials, as (coefficient, list of d polynomials). *)
Definition tpoly := seq (F * seq {poly F}).
Definition teval (f : tpoly) (x : seq F) : F :=
  \sum_(t <- f) t.1 * \prod_(px <- zip t.2 x) px.1.[px.2].
(** Its partial derivative in direction [k]. *)
Definition tderiv (k : nat) (f : tpoly) : tpoly :=
  [seq (t.1, [seq if j == k then (nth 0 t.2 j)^`() else nth 0 t.2 j | j <- iota 0 (size t.2)]) | t <- f].
(** Degree less than [n] in each of the [d] variables. *)
Definition tdeg (d n : nat) (f : tpoly) : bool :=
  all (fun t => (size t.2 == d) && all (fun p : {poly F} => (size p <= n)%N) t.2) f.
End Spec.
