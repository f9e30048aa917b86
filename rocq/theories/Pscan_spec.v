(** Specification of scans and reductions over the devices of an axis. *)
From Coq Require Import List.
Import ListNotations.

(** [op] is associative on [ok] values with two-sided identity [e]. *)
Record monoid_on {V} (ok : V -> Prop) (op : V -> V -> V) (e : V) : Prop := {
  m_ok_e : ok e;
  m_ok_op : forall x y, ok x -> ok y -> ok (op x y);
  m_assoc : forall x y z, ok x -> ok y -> ok z -> op x (op y z) = op (op x y) z;
  m_unit_l : forall x, ok x -> op e x = x;
  m_unit_r : forall x, ok x -> op x e = x }.

(** Device [i] gets e op x_0 op ... op x_{i-1}, in device order. *)
Definition exclusive_prefix {V} (op : V -> V -> V) (e : V) (xs : list V) (i : nat) : V :=
  fold_left op (firstn i xs) e.
Definition exclusive_scan {V} (op : V -> V -> V) (e : V) (xs : list V) : list V :=
  map (exclusive_prefix op e xs) (seq 0 (length xs)).
(** Every device gets x_0 op ... op x_{P-1}. *)
Definition full_reduction {V} (op : V -> V -> V) (e : V) (xs : list V) : list V :=
  repeat (fold_left op xs e) (length xs).
