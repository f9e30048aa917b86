(** Specification vocabulary for the uniform mesh of a cube. *)
From mathcomp Require Import all_ssreflect all_algebra.
From Verif Require Import PyDict_model Facet_model GS_model.
Set Implicit Arguments.
Unset Strict Implicit.
Unset Printing Implicit Defensive.

(** Pointwise sum of multi-indices. *)
Definition addv (c k : seq nat) : seq nat := [seq x.1 + x.2 | x <- zip c k].
(** The node with grid position [i], out of [n + 1] positions per axis. *)
Definition node (n : nat) (i : seq nat) : int := Posz (flat n.+1 i).
(** The corners of cell [c] in lexicographic order. *)
Definition cell (n : nat) (c : seq nat) : seq int := [seq node n (addv c k) | k <- grid 2 (size c)].
(** Put [s] at axis [axis]. *)
Definition ins (axis s : nat) (l : seq nat) : seq nat := take axis l ++ s :: drop axis l.
(** The corners of cell [c] of the side of the cube where coordinate [axis] is [s]. *)
Definition side_cell (n axis s : nat) (c : seq nat) : seq int :=
  [seq node n (ins axis s (addv c k)) | k <- grid 2 (size c)].
(** Number of cells that touch position [x] of an axis with [n] cells. *)
Definition touching (n x : nat) : nat := (0 < x) + (x < n).
(** Entry [i] of an array with the given shape and row-major data. *)
Definition entry (shape data i : seq nat) : nat :=
  nth 0 data (foldl (fun a si => a * si.1 + si.2) 0 (zip shape i)).
