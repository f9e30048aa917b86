(** Model of navier_stokes/navier_stokes.py l.73-482: the Stokes operators and one
    time step, on one device.  A velocity field (num_nodes, ndim) is the list of
    its components, a pressure field a list; shapes are assumed right (the
    theorems state them).  Numbers are exact; [1 / 0] (inf in the code) never
    occurs under the hypotheses of the theorems. *)
From mathcomp Require Import all_ssreflect all_algebra.
From Verif Require Import PyDict_model GS_model Premesh_model Interp_model FES_model CG_model TimeCoef_model.
Set Implicit Arguments.
Unset Strict Implicit.
Unset Printing Implicit Defensive.
Import Order.TTheory GRing.Theory Num.Theory.
Local Open Scope ring_scope.

(** [BCType], l.82-85 *)
Inductive bctype := DIRICHLET | NEUMANN.
Inductive serror := SKeyError | SValueError | SIndexError | SInterp of ierror | SNotFinite.

Section Mask.
Variables (R : rcfType) (L : eqType) (BCV : Type).
Definition vmul (a b : seq R) : seq R := map2 *%R a b.
(** [dirichlet_bc], l.88-95; a mask that is not in the dict is a KeyError *)
Fixpoint mask_loop (masks : seq (L * seq bool)) (bcs : seq (L * (bctype * BCV))) (acc : seq R) : serror + seq R :=
  match bcs with
  | [::] => inr acc
  | (g, (DIRICHLET, _)) :: bcs' =>
      if dget masks g is Some mk then mask_loop masks bcs' (vmul acc [seq 1 - (b : bool)%:R | b <- mk]) else inl SKeyError
  | (_, (NEUMANN, _)) :: bcs' => mask_loop masks bcs' acc
  end.
Definition dirichlet_bc (num_nodes : nat) (masks : seq (L * seq bool)) (bcs : seq (L * (bctype * BCV))) : serror + seq R :=
  mask_loop masks bcs (nseq num_nodes 1).
End Mask.

Section Stokes.
Variables (R : rcfType) (d : nat) (eps : R) (inv : 'M[R]_d -> 'M[R]_d).
Variables (L : eqType) (BCV : Type).
Notation fespace := (fespace R d).
Notation larray := (larray R).
Notation field := (seq R).
Notation vfield := (seq (seq R)).

(** core/mesh.py [gather], [scatter] (l.155-168) on local arrays indexed by
    element, node and component *)
Definition gather_comp (m : FES_model.mesh R d) (u : field) (e n : nat) : R :=
  nth 0 (gather 0 u (nth [::] (FES_model.m_elements m) e)) n.
Definition scatter_comp (m : FES_model.mesh R d) (b : nat -> nat -> R) : field :=
  scatter [seq b e n | e <- iota 0 (num_elements m), n <- iota 0 (m_per_element m)]
    (flatten (FES_model.m_elements m)) (size (FES_model.m_coords m)).
Definition gather_scalar (m : FES_model.mesh R d) (p : field) : larray :=
  LArray (num_elements m) (m_per_element m) [::] (fun e n _ => gather_comp m p e n).
Definition scatter_scalar (m : FES_model.mesh R d) (b : larray) : field := scatter_comp m (fun e n => la_data b e n 0).
Definition gather_vector (m : FES_model.mesh R d) (u : vfield) : larray :=
  LArray (num_elements m) (m_per_element m) [:: d] (fun e n c => gather_comp m (nth [::] u c) e n).
Definition scatter_vector (m : FES_model.mesh R d) (b : larray) : vfield :=
  [seq scatter_comp m (fun e n => la_data b e n c) | c <- iota 0 d].

(** Forms.  The entries of a vector argument are its [d] components followed by
    the gradient, row by row: entry [d + (j * d + c)] is the derivative of
    component [c] in direction [j]. *)
Definition vval (v : seq R) (c : nat) : R := nth 0 v c.
Definition vgrad (v : seq R) (j c : nat) : R := nth 0 v (d + (j * d + c)).
Definition arg (vs : seq (seq R)) (i : nat) : seq R := nth [::] vs i.
(** l.138: [u(x) * v(x)] *)
Definition pmass : form R d := fun _ vs => vval (arg vs 0) 0 * vval (arg vs 1) 0.
(** l.232: einsum 'ij,ij->' *)
Definition vstiff : form R d := fun _ vs =>
  suml d (fun i => suml d (fun j => vgrad (arg vs 0) i j * vgrad (arg vs 1) i j)).
(** l.241: vdot *)
Definition vmass : form R d := fun _ vs => suml d (fun c => vval (arg vs 0) c * vval (arg vs 1) c).
(** l.250: einsum 'i,ij,j->' *)
Definition vconv : form R d := fun _ vs =>
  suml d (fun i => suml d (fun j => vval (arg vs 0) i * vgrad (arg vs 1) i j * vval (arg vs 2) j)).
(** l.328, 336: [div(v)(x) * q(x)]; [div] is the trace of the gradient
    (core/fespace.py l.244-248) *)
Definition divq : form R d := fun _ vs => suml d (fun j => vgrad (arg vs 0) j j) * vval (arg vs 1) 0.

(** A local covector; on an error (none for spaces made by [create], see
    [Stokes_proofs]) an array of zeros. *)
Definition covector (fs : fespace) (fm : form R d) (funs : seq (qfun R d)) : larray :=
  if local_covector eps fs fm funs is inr b then b else LArray 0 0 [::] (fun _ _ _ => 0).
Definition fun_of (fs : fespace) (k : kind) (u : option larray) : qfun R d := QNodal (Nodal fs k u).

(** [StokesPressure], l.98-148, with the exchange indices of its mesh *)
Record pressure := Pressure { p_space : fespace; p_gi : option (seq int); p_ui : option (seq int) }.
Definition p_mesh (p : pressure) := fs_mesh (p_space p).
Definition p_gather (pr : pressure) (p : field) : larray := gather_scalar (p_mesh pr) p.
Definition p_scatter (pr : pressure) (b : larray) : field := scatter_scalar (p_mesh pr) b.
Definition p_B (pr : pressure) (p : field) : field :=
  p_scatter pr (covector (p_space pr) pmass
    [:: fun_of (p_space pr) KScalar (Some (p_gather pr p)); fun_of (p_space pr) KScalar None]).
Definition p_exchange (pr : pressure) (p : field) : field := exchange p (p_gi pr) (p_ui pr).

(** [StokesVelocity], l.151-257 *)
Record velocity := Velocity {
  v_space : fespace; v_overint : fespace; v_mask : field; v_qqt : field;
  v_gi : option (seq int); v_ui : option (seq int) }.
Definition v_mesh (v : velocity) := fs_mesh (v_space v).
Definition v_gather (v : velocity) (u : vfield) : larray := gather_vector (v_mesh v) u.
Definition v_scatter (v : velocity) (b : larray) : vfield := scatter_vector (v_mesh v) b.
Definition v_exchange (v : velocity) (u : vfield) : vfield := [seq exchange c (v_gi v) (v_ui v) | c <- u].
(** [interior_mask * u] *)
Definition v_masked (v : velocity) (u : vfield) : vfield := [seq vmul (v_mask v) c | c <- u].
Definition A_local (v : velocity) (u : larray) : larray :=
  covector (v_space v) vstiff [:: fun_of (v_space v) KVector (Some u); fun_of (v_space v) KVector None].
Definition B_local (v : velocity) (u : larray) : larray :=
  covector (v_space v) vmass [:: fun_of (v_space v) KVector (Some u); fun_of (v_space v) KVector None].
Definition C_local (v : velocity) (u : larray) : larray :=
  covector (v_overint v) vconv
    [:: fun_of (v_overint v) KVector (Some u); fun_of (v_overint v) KVector (Some u); fun_of (v_overint v) KVector None].
Definition v_C (v : velocity) (u : vfield) : vfield := v_masked v (v_scatter v (C_local v (v_gather v u))).

(** [StokesSEM], l.260-348 *)
Record sem := Sem { s_velocity : velocity; s_pressure : pressure; s_mass : vfield }.

(** [refine_premesh(premesh, gridpoints_1d).finalize()] as an oracle: the mesh
    refined to the given gridpoints.  [Refiner_model] and [Premesh_model] are
    models of the two functions. *)
Variable refined : nodes1d R -> ierror + Premesh_model.mesh [zmodType of 'rV[R]_d] L.
Definition fe_mesh (rm : Premesh_model.mesh [zmodType of 'rV[R]_d] L) (g : nodes1d R) : ierror + FES_model.mesh R d :=
  mesh_create (Premesh_model.m_coords rm) (Premesh_model.m_elements rm)
    (size (head [::] (Premesh_model.m_elements rm))) g.
Definition ibind (A B : Type) (x : ierror + A) (f : A -> serror + B) : serror + B :=
  match x with inl e => inl (SInterp e) | inr a => f a end.
Definition sbind (A B : Type) (x : serror + A) (f : A -> serror + B) : serror + B :=
  match x with inl e => inl e | inr a => f a end.

(** [StokesPressure.create], l.103-124; [order - 1] below 0 has no nodes either *)
Definition pressure_create (quad : quadrature1d R) (order : nat) : serror + pressure :=
  ibind (nodes1d_create R (order - 1) GAUSS_LEGENDRE) (fun g =>
  ibind (refined g) (fun rm =>
  ibind (fe_mesh rm g) (fun m =>
  ibind (fespace_create eps inv m quad) (fun fs =>
  inr (Pressure fs (m_gi rm) (m_ui rm)))))).
(** [StokesVelocity.create], l.161-205 *)
Definition velocity_create (order : nat) (bcs : seq (L * (bctype * BCV))) (overint : nat) : serror + velocity :=
  ibind (nodes1d_create R order.+1 GAUSS_LOBATTO_LEGENDRE) (fun g =>
  ibind (refined g) (fun rm =>
  ibind (fe_mesh rm g) (fun m =>
  ibind (quadrature_from_nodes g) (fun quad =>
  ibind (fespace_create eps inv m quad) (fun fs =>
  sbind (dirichlet_bc R (size (FES_model.m_coords m)) (m_masks rm) bcs) (fun mask =>
  ibind (nodes1d_create R (nd_num_points g + overint) GAUSS_LOBATTO_LEGENDRE) (fun og =>
  ibind (quadrature_from_nodes og) (fun oquad =>
  ibind (fespace_create eps inv m oquad) (fun ofs =>
  inr (Velocity fs ofs mask (scatter_comp m (fun _ _ => 1)) (m_gi rm) (m_ui rm))))))))))).
(** [StokesSEM.create], l.268-305 *)
Definition ones_local (v : velocity) : larray := LArray (num_elements (v_mesh v)) (m_per_element (v_mesh v)) [:: d] (fun _ _ _ => 1).
Definition sem_create (premesh_order order : nat) (bcs : seq (L * (bctype * BCV))) (overint : nat) : serror + sem :=
  if premesh_order != 1%N then inl SValueError else
  ibind (quadrature_create R order.+1 GAUSS_LOBATTO_LEGENDRE) (fun quad =>
  sbind (pressure_create quad order) (fun pr =>
  sbind (velocity_create order bcs overint) (fun v =>
  inr (Sem v pr (v_scatter v (B_local v (ones_local v))))))).

(** l.307-348 *)
Definition B (s : sem) (u : vfield) : vfield := map2 (@vmul R) (v_masked (s_velocity s) (s_mass s)) u.
Definition vinv (a : field) : field := [seq 1 / x | x <- a].
Definition Bi (s : sem) (u : vfield) : vfield :=
  map2 (@vmul R) [seq vinv c | c <- v_exchange (s_velocity s) (s_mass s)] (v_exchange (s_velocity s) u).
Definition A (s : sem) (u : vfield) : vfield :=
  let v := s_velocity s in v_masked v (v_scatter v (A_local v (v_gather v u))).
Definition D_local (s : sem) (u : larray) : larray :=
  covector (p_space (s_pressure s)) divq
    [:: fun_of (v_space (s_velocity s)) KVector (Some u); fun_of (p_space (s_pressure s)) KScalar None].
Definition Dt_local (s : sem) (p : larray) : larray :=
  covector (v_space (s_velocity s)) divq
    [:: fun_of (v_space (s_velocity s)) KVector None; fun_of (p_space (s_pressure s)) KScalar (Some p)].
Definition D (s : sem) (u : vfield) : field := p_scatter (s_pressure s) (D_local s (v_gather (s_velocity s) u)).
Definition Dt (s : sem) (p : field) : vfield :=
  v_masked (s_velocity s) (v_scatter (s_velocity s) (Dt_local s (p_gather (s_pressure s) p))).
(** [Q], l.340-343, with the coefficient already computed *)
Definition Q (s : sem) (dt beta : R) (u : vfield) : vfield := tree_scale (dt / beta) (Bi s u).
Definition E (s : sem) (dt beta : R) (p : field) : field := D s (Q s dt beta (Dt s p)).

(** [_pressure_project_out_nullspace], l.73-79 *)
Definition project_out (s : sem) (p : field) : field :=
  let pr := s_pressure s in
  let w := p_exchange pr p in
  let q := [seq (1 : R) | _ <- p] in
  let c := jnp_vdot q (p_B pr w) / jnp_vdot q (p_B pr q) in
  map2 (fun x y => x - y) w [seq c * x | x <- q].

(** [filter], l.460-482 *)
Definition filter_one (g low : nodes1d R) (x : seq R) : ierror + seq R :=
  match interpolate eps d g low x with
  | inl e => inl e
  | inr y => interpolate eps d low g y
  end.
Definition filter_local (m : FES_model.mesh R d) (low : nodes1d R) (c : field) (e n : nat) : R :=
  nth 0 (getr (filter_one (m_grid m) low [seq gather_comp m c e k | k <- iota 0 (m_per_element m)])) n.
Definition filter (s : sem) (alpha : R) (u : vfield) : serror + vfield :=
  let v := s_velocity s in
  let m := v_mesh v in
  ibind (nodes1d_create R (nd_num_points (m_grid m) - 1) (nd_type (m_grid m))) (fun low =>
  ibind (filter_one (m_grid m) low (nseq (m_per_element m) 0)) (fun _ =>
  inr [seq map2 +%R [seq (1 - alpha) * x | x <- c]
             [seq alpha * x | x <- vmul (vinv (v_qqt v)) (scatter_comp m (filter_local m low c))] | c <- u])).

(** [vorticity], l.484-495: entry [1, 0] is the derivative of component 0 in
    direction 1 *)
Definition vorticity (s : sem) (u : vfield) : field :=
  let v := s_velocity s in
  let a := v_gather v u in
  vmul (vinv (v_qqt v)) (scatter_comp (v_mesh v) (fun e q =>
    let g := evaluate_nodal eps (v_space v) KVector a e q in vgrad g 1 0 - vgrad g 0 1)).

(** ** [stokes_one_step], l.350-458 *)
(** [lax.custom_linear_solve(matvec, b, solve=...)] returns [solve(matvec, b)]; the
    preconditioner is passed along.  [None]: the solver returned inf or NaN. *)
Variable solve : (tree R -> tree R) -> tree R -> option (tree R -> tree R) -> option (tree R).

(** l.407-409: Python's [sum] starts from 0; [ps[-i]] raises when it is not there *)
Definition p_extrapolated (ext : seq R) (ps : seq field) : serror + field :=
  if (size ps < size ext)%N then inl SIndexError
  else inr (foldl (fun acc i => map2 +%R acc [seq nth 0 ext (size ext - i) * x | x <- nth [::] ps (size ps - i)])
              (nseq (size (last [::] ps)) 0) (iota 1 (size ext))).
(** l.416: [sum(coef * u for coef, u in zip(beta_hist, us))] *)
Definition history_sum (s : sem) (beta_hist : seq R) (us : seq vfield) : vfield :=
  foldl (fun acc cu => tree_add acc (tree_scale cu.1 cu.2)) (zeros_like (s_mass s)) (zip beta_hist us).
Definition H (s : sem) (beta dt mu : R) (u : vfield) : vfield :=
  tree_add (tree_scale (beta / dt) (B s u)) (tree_scale mu (A s u)).
(** l.406-418: the right-hand side *)
Definition momentum_rhs (s : sem) (beta_hist : seq R) (beta dt mu : R) (us : seq vfield) (f : vfield) (p_ext : field)
  (lift : option vfield) : vfield :=
  let f1 := tree_add f (Dt s p_ext) in
  let f2 := tree_sub f1 (B s (tree_scale (1 / dt) (history_sum s beta_hist us))) in
  if lift is Some ub then tree_sub f2 (H s beta dt mu ub) else f2.
(** l.420-426 *)
Definition tentative (s : sem) (beta_hist : seq R) (beta dt mu : R) (us : seq vfield) (f : vfield) (p_ext : field)
  (lift : option vfield) : serror + vfield :=
  match solve (H s beta dt mu) (momentum_rhs s beta_hist beta dt mu us f p_ext lift) (Some (v_exchange (s_velocity s))) with
  | None => inl SNotFinite
  | Some u => inr (if lift is Some ub then tree_add u ub else u)
  end.
(** l.401-404: the preconditioner of the pressure solve *)
Definition preconditioner (s : sem) (given : option (tree R -> tree R)) (project : bool) : option (tree R -> tree R) :=
  if given is Some m then Some m
  else if project then Some (fun t => [:: project_out s (head [::] t)]) else None.
Definition stokes_one_step (s : sem) (us : seq vfield) (ps : seq field) (f : vfield) (mu dt : R) (time_order : nat)
  (alpha : R) (lift : option vfield) (given : option (tree R -> tree R)) (project : bool) : serror + (vfield * field) :=
  ibind (extk_coeffs R 1) (fun ext =>
  sbind (p_extrapolated ext ps) (fun p_ext =>
  ibind (bdfk_coeffs R time_order) (fun bdf =>
  let beta_hist := take (size bdf).-1 bdf in
  let beta := last 0 bdf in
  sbind (tentative s beta_hist beta dt mu us f p_ext lift) (fun u_raw =>
  sbind (filter s alpha u_raw) (fun u_star =>
  match solve (fun t => [:: E s dt beta (head [::] t)]) [:: [seq - x | x <- D s u_star]] (preconditioner s given project) with
  | None => inl SNotFinite
  | Some t =>
      let dp := head [::] t in
      inr (tree_add u_star (Q s dt beta (Dt s dp)), map2 +%R p_ext dp)
  end))))).
End Stokes.
