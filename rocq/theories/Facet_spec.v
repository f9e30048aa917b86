(** Symmetries of the n-dimensional cube: a permutation of the axes followed by
    reversal of some of them.  Axis [b] of the image reads axis [s_b] of the
    argument, reversed if [f_b]. *)
From mathcomp Require Import all_ssreflect.
From Verif Require Import PyDict_model.
Set Implicit Arguments.
Unset Strict Implicit.
Unset Printing Implicit Defensive.

Definition sym : Type := (seq nat * seq bool)%type.
Definition sym_ok (d : nat) (g : sym) : bool := perm_eq g.1 (iota 0 d) && (size g.2 == d).

(** Action on multi-indices of a grid with [m] points per axis. *)
Definition rev_if (m : nat) (f : bool) (x : nat) : nat := if f then m.-1 - x else x.
Definition act (m : nat) (g : sym) (i : seq nat) : seq nat :=
  [seq rev_if m sf.2 (nth 0 i sf.1) | sf <- zip g.1 g.2].

(** The re-ordering of the [m ^ d] nodes: entry at [i] is the node at [act i]. *)
Definition sym_table (m d : nat) (g : sym) : seq nat := [seq flat m (act m g i) | i <- grid m d].
