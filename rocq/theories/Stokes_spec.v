(** What the Stokes theorems assume of the refined meshes, and the words they are
    stated in. *)
From mathcomp Require Import all_ssreflect all_algebra.
From Verif Require Import PyDict_model GS_model Interp_model Interp_spec FES_model Premesh_model Stokes_model.
Set Implicit Arguments.
Unset Strict Implicit.
Unset Printing Implicit Defensive.
Import Order.TTheory GRing.Theory Num.Theory.
Local Open Scope ring_scope.

Section Family.
Variables (R : rcfType) (d : nat) (L : eqType).
Notation rmesh := (Premesh_model.mesh [zmodType of 'rV[R]_d] L).

(** The reference points of the tensor grid [g], listed in the order of the nodes
    of an element. *)
Definition grid_point (g : nodes1d R) (n : nat) : seq R := nth [::] (cart (nseq d (nd_values g))) n.

(** Mesh [rm] has [K] elements; element [e] is the image of the reference cube
    under [F e] and its nodes are the images of the points of the grid [g]. *)
Record mesh_on (K : nat) (F : nat -> 'I_d -> tpoly R) (n : nat) (g : nodes1d R) (rm : rmesh) : Prop := MeshOn {
  mo_elements : size (m_elements rm) = K;
  mo_rows : all (fun el => size el == (n ^ d)%N) (m_elements rm);
  mo_nodes : forall e k, (e < K)%N -> (k < n ^ d)%N ->
    exists2 x, (x < size (m_coords rm))%N &
      nth 0 (nth [::] (m_elements rm) e) k = Posz x /\
      nth 0 (m_coords rm) x = \row_j teval (F e j) (grid_point g k);
  mo_used : forall x, (x < size (m_coords rm))%N -> Posz x \in flatten (m_elements rm);
  mo_masks : all (fun gm => size gm.2 == size (m_coords rm)) (m_masks rm);
  mo_indices : size (m_node_indices rm) = size (m_coords rm);
  mo_gi : m_gi rm = Some (exchange_indices_serial (m_node_indices rm)).1;
  mo_ui : m_ui rm = Some (exchange_indices_serial (m_node_indices rm)).2;
  (** nodes with the same index belong to the same groups *)
  mo_consistent : forall gm k j, gm \in m_masks rm -> (k < size (m_coords rm))%N -> (j < size (m_coords rm))%N ->
    nth 0 (m_node_indices rm) k = nth 0 (m_node_indices rm) j -> nth false gm.2 k = nth false gm.2 j;
  (** elements of a discontinuous mesh share nothing *)
  mo_discontinuous : ~~ is_continuous g -> uniq (m_node_indices rm) }.

(** Refining to any grid gives meshes of the same [K] multilinear elements. *)
Record mesh_family (refined : nodes1d R -> ierror + rmesh) (K : nat) (F : nat -> 'I_d -> tpoly R) : Prop := MeshFamily {
  mf_dim : (0 < d)%N;
  mf_some : (0 < K)%N;
  mf_multilinear : forall e j, (e < K)%N -> tdeg d 2 (F e j);
  mf_mesh : forall n t g rm, (0 < n)%N -> nodes1d_create R n t = inr g -> refined g = inr rm -> mesh_on K F n g rm }.

(** The Jacobian matrix of an element at a reference point. *)
Definition jacobian_at (F : 'I_d -> tpoly R) (x : seq R) : 'M[R]_d := \matrix_(i, j) teval (tderiv i (F j)) x.
(** The elements are not turned inside out: the Jacobian determinant is positive
    on the reference cube. *)
Definition oriented_elements (K : nat) (F : nat -> 'I_d -> tpoly R) : Prop :=
  forall e x, (e < K)%N -> size x = d -> all (fun y => -1 <= y <= 1) x -> 0 < \det (jacobian_at (F e) x).
End Family.
