(** The words the theorems on [solve_poisson] are stated in. *)
From mathcomp Require Import all_ssreflect all_algebra.
From Verif Require Import PyDict_model GS_model GS_props Interp_model FES_model FES_props2 CG_model Stokes_model Poisson_model.
Set Implicit Arguments.
Unset Strict Implicit.
Unset Printing Implicit Defensive.
Import Order.TTheory GRing.Theory Num.Theory.
Local Open Scope ring_scope.

Section Spec.
Variables (R : rcfType) (d : nat) (eps : R) (inv : 'M[R]_d -> 'M[R]_d) (L : eqType).
Notation mesh := (FES_model.mesh R d).
Notation fespace := (fespace R d).

(** The value of the nodal vector [u] at node [n] of element [e]; padding nodes have the
    value 0. *)
Definition elem_val (m : mesh) (u : seq R) (e n : nat) : R :=
  if nth 0 (nth [::] (m_elements m) e) n is Posz k then nth 0 u k else 0.
(** [a(u, v)] and [l(u, v)] of the docstring, with the quadrature of the space. *)
Definition energy (fs : fespace) (u v : seq R) : R :=
  integrate fs (fun e q => \sum_(j < d)
    nth 0 (phys_grad fs e (elem_val (fs_mesh fs) u e) q) j * nth 0 (phys_grad fs e (elem_val (fs_mesh fs) v e) q) j).
Definition l2 (fs : fespace) (u v : seq R) : R :=
  integrate fs (fun e q => at_quad eps (fs_mesh fs) (evalpoints fs) (elem_val (fs_mesh fs) u e) q *
                           at_quad eps (fs_mesh fs) (evalpoints fs) (elem_val (fs_mesh fs) v e) q).

(** Node [i] is in a group with a Dirichlet condition. *)
Definition on_dirichlet (masks : seq (L * seq bool)) (bc : bcs R L) (i : nat) : bool :=
  has (fun b => (if b.2.1 is DIRICHLET then true else false) && (if dget masks b.1 is Some mk then nth false mk i else false)) bc.
(** A condition the function accepts. *)
Definition accepted (masks : seq (L * seq bool)) (b : L * (bctype * bcvalue R)) : bool :=
  homogeneous b.2.2 && (if b.2.1 is DIRICHLET then isSome (dget masks b.1) else true).

(** A mesh as [Mesh.create] makes it: at least two gridpoints per direction, node
    numbers in range. *)
Definition mesh_ok (m : mesh) (masks : seq (L * seq bool)) : Prop :=
  [/\ (0 < d)%N, exists n t, (1 < n)%N /\ nodes1d_create R n t = inr (m_grid m) /\ m_per_element m = (n ^ d)%N,
      proper m & all (fun gm => size gm.2 == num_nodes m) masks].
(** The space the function creates. *)
Definition space_of (m : mesh) (fs : fespace) : Prop :=
  exists2 quad, quadrature_create R (quadrature_points m) GAUSS_LEGENDRE = inr quad & fespace_create eps inv m quad = inr fs.
(** The elements are not degenerate or turned inside out at the quadrature points. *)
Definition oriented (fs : fespace) : Prop := forall e q,
  (e < num_elements (fs_mesh fs))%N -> (q < num_quad fs)%N -> 0 < fs_jacdets fs e q.

(** Two nodes joined by a chain of elements. *)
Inductive joined (m : mesh) : nat -> nat -> Prop :=
| Joined_refl i : joined m i i
| Joined_step el i j k : el \in m_elements m -> Posz i \in el -> Posz j \in el -> joined m j k -> joined m i k.
(** One number per node, zero at the Dirichlet nodes. *)
Definition admissible (m : mesh) (masks : seq (L * seq bool)) (bc : bcs R L) (v : seq R) : Prop :=
  size v = num_nodes m /\ forall i, (i < num_nodes m)%N -> on_dirichlet masks bc i -> nth 0 v i = 0.
(** The Galerkin equations (2). *)
Definition weak_solution (fs : fespace) (masks : seq (L * seq bool)) (bc : bcs R L) (f u : seq R) : Prop :=
  admissible (fs_mesh fs) masks bc u /\
  forall v, admissible (fs_mesh fs) masks bc v -> energy fs u v = l2 fs f v.
End Spec.
