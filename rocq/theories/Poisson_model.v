(** Model of examples/poisson.py: [solve_poisson].  Numbers are exact.
    [jax.scipy.sparse.linalg.cg] is taken to be the same iteration as linalg/cg.py
    ([CG_model.cg]) without preconditioner and with the documented stopping rule;
    l.162 passes no limit, so it is ten times the number of unknowns. *)
From mathcomp Require Import all_ssreflect all_algebra.
From Verif Require Import PyDict_model GS_model Interp_model FES_model CG_model TimeCoef_model Stokes_model.
Set Implicit Arguments.
Unset Strict Implicit.
Unset Printing Implicit Defensive.
Import Order.TTheory GRing.Theory Num.Theory.
Local Open Scope ring_scope.

Inductive perror := PNotImplemented | PKeyError | PValueError | PInterp of ierror.

Section Poisson.
Variables (R : rcfType) (d : nat) (eps : R) (inv : 'M[R]_d -> 'M[R]_d) (L : eqType).
Notation mesh := (FES_model.mesh R d).
Notation fespace := (fespace R d).

(** [BCValue], l.36: [np.isscalar] is false for arrays and callables.  (A string
    is a scalar for numpy, but not equal to 0.) *)
Inductive bcvalue := BScalar of R | BOther.
Definition bcs : Type := seq (L * (bctype * bcvalue)).
(** l.125 *)
Definition homogeneous (v : bcvalue) : bool := if v is BScalar x then x == 0 else false.
(** [with_bc], l.119-130.  Masks have one entry per node (C20). *)
Fixpoint interior_mask (masks : seq (L * seq bool)) (bc : bcs) (acc : seq R) : perror + seq R :=
  match bc with
  | [::] => inr acc
  | (g, (ty, v)) :: bc' =>
      if ~~ homogeneous v then inl PNotImplemented
      else match ty with
           | DIRICHLET =>
               if dget masks g is Some mk
               then interior_mask masks bc' (vmul acc [seq 1 - (b : bool)%:R | b <- mk])
               else inl PKeyError
           | NEUMANN => interior_mask masks bc' acc
           end
  end.
Definition num_nodes (m : mesh) : nat := size (m_coords m).
Definition with_bc (m : mesh) (masks : seq (L * seq bool)) (bc : bcs) (w : seq R) : perror + seq R :=
  match interior_mask masks bc (nseq (num_nodes m) 1) with
  | inl e => inl e
  | inr mask => inr (vmul w mask)
  end.

(** [l] and [a], l.133-137 *)
Definition l_form : form R d := fun _ vs => vval (arg vs 0) 0 * vval (arg vs 1) 0.
Definition a_form : form R d := fun _ vs => suml d (fun j => vval (arg vs 0) j.+1 * vval (arg vs 1) j.+1).
(** [A] and [B], l.141-154; the shape check is that of [Mesh.gather], core/mesh.py
    l.155-160 *)
Definition operator (fs : fespace) (fm : form R d) (masks : seq (L * seq bool)) (bc : bcs) (u : seq R) : perror + seq R :=
  let m := fs_mesh fs in
  if size u != num_nodes m then inl PValueError
  else match nodal_create fs KScalar (Some (gather_scalar m u)) with
       | inl e => inl (PInterp e)
       | inr f =>
           match local_covector eps fs fm [:: QNodal f; QNodal (Nodal fs KScalar None)] with
           | inl e => inl (PInterp e)
           | inr b => with_bc m masks bc (scatter_scalar m b)
           end
       end.
(** l.112-114; [mesh.order] is one less than the number of gridpoints (core/mesh.py
    l.123), and [Nodes1D] has at least one *)
Definition quadrature_points (m : mesh) : nat := ((nd_num_points (m_grid m)).-1 + d.+1 %/ 2)%N.

(** [solve_poisson], l.49-164.  An error of [A] inside the solver ([operator_ok]
    in [Poisson_props] shows there is none) would give an empty array here. *)
Definition solve_poisson (m : mesh) (masks : seq (L * seq bool)) (forcing : seq R) (bc : bcs) (rtol atol : R) :
    perror + result R (tree R) :=
  match quadrature_create R (quadrature_points m) GAUSS_LEGENDRE with
  | inl e => inl (PInterp e)
  | inr quad =>
    match fespace_create eps inv m quad with
    | inl e => inl (PInterp e)
    | inr fs =>
      match operator fs l_form masks bc forcing with
      | inl e => inl e
      | inr b =>
          let A u := if operator fs a_form masks bc u is inr w then w else [::] in
          inr (cg (map A) [:: b] None rtol atol None None (@jnp_vdot R))
      end
    end
  end.
End Poisson.
