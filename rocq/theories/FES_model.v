(** Model of core/fespace.py: finite element spaces, integration, gradients of
    nodal functions and local covectors.  Arrays are functions of their indices
    next to their extents; numbers are exact. *)
From mathcomp Require Import all_ssreflect all_algebra.
From Verif Require Import GS_model Interp_model.
Set Implicit Arguments.
Unset Strict Implicit.
Unset Printing Implicit Defensive.
Import Order.TTheory GRing.Theory Num.Theory.
Local Open Scope ring_scope.

(** [sum(f(0), ..., f(n-1))] *)
Definition suml (R : zmodType) (n : nat) (f : nat -> R) : R := foldr (fun i s => f i + s) 0 (iota 0 n).
Definition getr (T : Type) (x : ierror + seq T) : seq T := if x is inr s then s else [::].

Section FES.
Variables (R : rcfType) (d : nat).
(** [np.finfo(dtype).eps] *)
Variable eps : R.
(** [jnp.linalg.inv]; what it does to a singular matrix is left open *)
Variable inv : 'M[R]_d -> 'M[R]_d.

(** core/mesh.py: the fields used here.  [gather_scatter.gather] is modelled in
    [GS_model]. *)
Record mesh := Mesh { m_coords : seq 'rV[R]_d; m_elements : seq (seq int); m_per_element : nat; m_grid : nodes1d R }.
Definition num_elements (m : mesh) : nat := size (m_elements m).
(** [Mesh.create], l.90-131, with gridpoints given; [elements] is an array, so
    all rows have [elements.shape[-1]] entries *)
Definition mesh_create (coords : seq 'rV[R]_d) (elements : seq (seq int)) (per_element : nat) (grid : nodes1d R) : ierror + mesh :=
  if per_element != (nd_num_points grid ^ d)%N then inl IValueError
  else inr (Mesh coords elements per_element grid).
(** [element_coords], l.173-175 *)
Definition element_coords (m : mesh) (e n : nat) : 'rV[R]_d :=
  nth 0 (gather 0 (m_coords m) (nth [::] (m_elements m) e)) n.

(** [FiniteElementSpace], l.240-297 *)
Record fespace := FES {
  fs_mesh : mesh;
  fs_quad : quadrature1d R;
  fs_invjacs : nat -> nat -> 'M[R]_d;
  fs_jacdets : nat -> nat -> R;
  fs_quad_coords : nat -> nat -> 'rV[R]_d }.
Definition evalpoints (fs : fespace) : nodes1d R := qd_nodes (fs_quad fs).
Definition num_quad (fs : fespace) : nat := (qd_num_points (fs_quad fs) ^ d)%N.

(** Values of a nodal function [u] (one number per node of the element) at the
    quadrature points, and its reference derivatives there. *)
Definition node_list (m : mesh) (u : nat -> R) : seq R := [seq u n | n <- iota 0 (m_per_element m)].
Definition at_quad (m : mesh) (evals : nodes1d R) (u : nat -> R) (q : nat) : R :=
  nth 0 (getr (interpolate eps d (m_grid m) evals (node_list m u))) q.
Definition ref_grad (m : mesh) (evals : nodes1d R) (u : nat -> R) (q i : nat) : R :=
  nth 0 (nth [::] (getr (interpolate_grad d (m_grid m) evals (node_list m u))) i) q.

(** [FiniteElementSpace.create], l.299-347: 'mnj,qni->mqij'.  The two calls of
    the interpolator fail for all elements or for none. *)
Definition jacobian (m : mesh) (gs : seq (seq (seq R))) (e q : nat) : 'M[R]_d :=
  \matrix_(i, j) suml (m_per_element m)
    (fun n => element_coords m e n 0 j * nth 0 (nth [::] (nth [::] gs i) q) n).
Definition fespace_create (m : mesh) (quad : quadrature1d R) : ierror + fespace :=
  let evals := qd_nodes quad in
  match interpolate eps d (m_grid m) evals (node_list m (fun=> 0)), interpolation_matrix_grad d (m_grid m) evals with
  | inl e, _ | inr _, inl e => inl e
  | inr _, inr gs =>
      inr (FES m quad (fun e q => inv (jacobian m gs e q)) (fun e q => \det (jacobian m gs e q))
             (fun e q => \row_j at_quad m evals (fun n => element_coords m e n 0 j) q))
  end.

(** [integrate], l.381-403, of a q-function given by its values on the elements'
    quadrature points: 'mq,mq,q->'. *)
Definition integrate (fs : fespace) (w : nat -> nat -> R) : R :=
  let qw := getr (weights_nd (fs_quad fs) d) in
  suml (num_elements (fs_mesh fs)) (fun e =>
    suml (num_quad fs) (fun q => w e q * fs_jacdets fs e q * nth 0 qw q)).

(** ** Nodal functions, l.72-216 *)
Inductive kind := KScalar | KScalarGrad | KVector | KVectorGrad.
(** [value_shape] and the number of components *)
Definition value_shape (k : kind) : seq nat := match k with KScalar | KScalarGrad => [::] | _ => [:: d] end.
Definition components (k : kind) : nat := match k with KScalar | KScalarGrad => 1 | _ => d end.
(** Local values with their shape; the value axes are flattened. *)
Record larray := LArray { la_elements : nat; la_nodes : nat; la_value_shape : seq nat; la_data : nat -> nat -> nat -> R }.
(** [fespace], [value_shape] and [u_local] *)
Record nodal := Nodal { nf_space : fespace; nf_kind : kind; nf_local : option larray }.
(** [NodalQFunction.__init__], l.101-114 *)
Definition nodal_create (fs : fespace) (k : kind) (u : option larray) : ierror + nodal :=
  match u with
  | None => inr (Nodal fs k None)
  | Some a =>
      if (la_elements a != num_elements (fs_mesh fs)) || (la_nodes a != m_per_element (fs_mesh fs))
         || (la_value_shape a != value_shape k)
      then inl IValueError else inr (Nodal fs k (Some a))
  end.

(** Component [c] of the local values as a function of the node. *)
Definition comp (a : larray) (e c : nat) : nat -> R := fun n => la_data a e n c.
(** 'mqi,mqji->mqj' *)
Definition phys_grad (fs : fespace) (e : nat) (u : nat -> R) (q : nat) : seq R :=
  [seq suml d (fun i => ref_grad (fs_mesh fs) (evalpoints fs) u q i *
                        (if insub i is Some i' then fs_invjacs fs e q j i' else 0)) | j <- enum 'I_d].
(** [_evaluate] of the four classes, at one quadrature point.  A gradient of a
    vector is listed row by row, 'mqik,mqji->mqjk': row [j] holds the derivatives
    of all components in direction [j]. *)
Definition value_list (fs : fespace) (a : larray) (k : nat) (e q : nat) : seq R :=
  [seq at_quad (fs_mesh fs) (evalpoints fs) (comp a e c) q | c <- iota 0 k].
Definition grad_list (fs : fespace) (a : larray) (k : nat) (e q : nat) : seq R :=
  flatten [seq [seq nth 0 (phys_grad fs e (comp a e c) q) j | c <- iota 0 k] | j <- iota 0 d].
(** What a form sees of one argument at one point: [f(x)] and, for the functions
    [grad] accepts (l.222-231), [grad(f)(x)]. *)
Definition evaluate_nodal (fs : fespace) (k : kind) (a : larray) (e q : nat) : seq R :=
  match k with
  | KScalar | KVector => value_list fs a (components k) e q ++ grad_list fs a (components k) e q
  | KScalarGrad | KVectorGrad => grad_list fs a (components k) e q
  end.

(** Arguments of a form: nodal functions, or jax functions of the coordinate
    with whatever derivatives jax computes for them. *)
Inductive qfun := QNodal of nodal | QCoord of ('rV[R]_d -> seq R).
Definition is_input (f : qfun) : bool := if f is QNodal (Nodal _ _ None) then true else false.
(** [dataclasses.replace(f, u_local=v) if _is_input(f) else f], l.455-457; the
    shape check of [__init__] is in [local_covector] *)
Definition replace_dual (v : larray) (f : qfun) : qfun :=
  if f is QNodal (Nodal fs k None) then QNodal (Nodal fs k (Some v)) else f.
(** A nodal function is evaluated with the interpolator and the Jacobians of its
    own space, a function of the coordinate at the points of [fs]. *)
Definition evaluate_fun (fs : fespace) (f : qfun) (e q : nat) : seq R :=
  match f with
  | QNodal (Nodal fs' k (Some a)) => evaluate_nodal fs' k a e q
  | QNodal (Nodal _ _ None) => [::]
  | QCoord g => g (fs_quad_coords fs e q)
  end.
(** The assertions of l.134-166 *)
Definition compatible (fs : fespace) (f : qfun) : bool :=
  if f is QNodal (Nodal fs' _ _) then
    (num_elements (fs_mesh fs') == num_elements (fs_mesh fs)) && (num_quad fs' == num_quad fs)
  else true.
(** A form: the value of the resulting q-function at [x] depends on the values and
    first derivatives of the arguments at [x].  (Second derivatives of nodal
    functions are not available in the code either.) *)
Definition form : Type := 'rV[R]_d -> seq (seq R) -> R.
Definition form_integral (fs : fespace) (fm : form) (funs : seq qfun) : R :=
  integrate fs (fun e q => fm (fs_quad_coords fs e q) [seq evaluate_fun fs f e q | f <- funs]).

(** [local_covector], l.405-471.  [jax.linear_transpose(f, primal)(1.)] is the
    array of the values of [f] on the unit vectors (what jax documents for a
    linear [f]). *)
Definition unit_local (E N : nat) (sh : seq nat) (e n c : nat) : larray :=
  LArray E N sh (fun e' n' c' => ((e' == e) && (n' == n) && (c' == c))%:R).
Definition input_kind (funs : seq qfun) : kind :=
  if [seq f <- funs | is_input f] is QNodal (Nodal _ k _) :: _ then k else KScalar.
Definition input_space (fs : fespace) (funs : seq qfun) : fespace :=
  if [seq f <- funs | is_input f] is QNodal (Nodal fs' _ _) :: _ then fs' else fs.
Definition local_covector (fs : fespace) (fm : form) (funs : seq qfun) : ierror + larray :=
  if count is_input funs != 1%N then inl IValueError
  else
    let E := num_elements (fs_mesh fs) in
    let N := m_per_element (fs_mesh fs) in
    let sh := value_shape (input_kind funs) in
    if (num_elements (fs_mesh (input_space fs funs)) != E) || (m_per_element (fs_mesh (input_space fs funs)) != N)
    then inl IValueError
    else if ~~ all (compatible fs) funs then inl IAssertion
    else
    inr (LArray E N sh (fun e n c =>
           form_integral fs fm [seq replace_dual (unit_local E N sh e n c) f | f <- funs])).
End FES.
