(** Model of the numerics of the data generator, niles/datagen/datagen.py: the
    constants l.46-53, [u_init_fn] l.56-62, [forcing] l.65-72, [compute_dx] l.75-85,
    [_solve_one_step] l.88-102 and the parts of [run_simulation] l.170-198 that set
    up the mesh, the initial fields and the CFL number.  The loops over steps and
    cycles and the files are those of [Datagen_model].

    Numbers are exact; [jnp.sin], [jnp.cos] and [np.pi] are parameters, as is the
    linear solver.  A field (num_nodes, ndim) is the list of its components.
    [TIME_ORDER] is at least 1. *)
From mathcomp Require Import all_ssreflect all_algebra.
From Verif Require Import Interp_model FES_model CG_model TimeCoef_model Stokes_model Datagen_model.
From Verif Require Import NS_model.
Set Implicit Arguments.
Unset Strict Implicit.
Unset Printing Implicit Defensive.
Import Order.TTheory GRing.Theory Num.Theory.
Local Open Scope ring_scope.

(** The module's constants.  The configuration file that the program requires
    (l.39-43) is not read. *)
Record constants (R : Type) := Constants {
  REYNOLDS_NUMBER : R; DT : R; DRAG_COEFF : R; TIME_ORDER : nat;
  RESOLUTION : nat; ORDER : nat; NUM_CYCLES : nat; NUM_STEPS_PER_CYCLE : nat }.
(** l.46-53; the default of [alpha], navier_stokes.py l.352 *)
Definition datagen_constants (R : unitRingType) : constants R :=
  Constants 20000%:R (10000%:R^-1) (10%:R^-1) 3 64 8 500 500.
Definition default_alpha (R : unitRingType) : R := 20%:R^-1.

Section Gen.
Variables (R : rcfType) (d : nat) (eps : R).
Notation field := (seq R).
Notation vfield := (seq (seq R)).
Variables (sine cosine : R -> R) (pi : R) (g : constants R).

(** l.56-62; [None]: the assertion fails *)
Definition u_init_fn (x : seq R) : option (seq R) :=
  if (size x == 2)%N then
    let l := 2%:R in
    let u0 := cosine (2%:R * l * pi * nth 0 x 0) * sine (2%:R * l * pi * nth 0 x 1) in
    let u1 := - sine (2%:R * l * pi * nth 0 x 0) * cosine (2%:R * l * pi * nth 0 x 1) in
    Some [:: u0; u1]
  else None.

(** l.65-72 *)
Definition forcing (x u : seq R) : option (seq R) :=
  if (size x == 2)%N && (size u == 2)%N then
    let k := 4%:R in
    let f := [:: sine (2%:R * pi * k * nth 0 x 1); 0] in
    Some [seq xy.1 - DRAG_COEFF g * xy.2 | xy <- zip f u]
  else None.

(** l.75-85.  [None] stands for infinity. *)
Definition emin (x y : option R) : option R :=
  match x, y with Some p, Some q => Some (Num.min p q) | Some p, None => Some p | None, _ => y end.
Definition distance (x y : 'rV[R]_d) : R := Num.sqrt (\sum_j (x 0 j - y 0 j) ^+ 2).
Definition pairwise (m : FES_model.mesh R d) (e : nat) : seq (option R) :=
  [seq if i == j then None else Some (distance (element_coords m e i) (element_coords m e j))
  | i <- iota 0 (m_per_element m), j <- iota 0 (m_per_element m)].
Definition compute_dx (m : FES_model.mesh R d) : option R :=
  foldl (fun dx e => emin dx (foldr emin None (pairwise m e))) None (iota 0 (num_elements m)).

(** [jax.vmap(u_init_fn)(node_coords)], l.183; the assertion is about the shape, so
    it fails for all nodes or for none *)
Definition u_init (s : sem R d) : option vfield :=
  if (d == 2)%N then
    Some [seq [seq nth 0 (odflt [::] (u_init_fn (coord_row x))) c | x <- FES_model.m_coords (v_mesh (s_velocity s))] | c <- iota 0 2]
  else None.
(** l.186 *)
Definition p_init (s : sem R d) : field := nseq (size (FES_model.m_coords (fs_mesh (p_space (s_pressure s))))) 0.

(** l.97: [vmap] over nodes and velocities *)
Definition forcing_field (s : sem R d) (u : vfield) : option vfield :=
  let coords := FES_model.m_coords (v_mesh (s_velocity s)) in
  if (d == 2)%N && (size u == 2)%N then
    Some [seq [seq nth 0 (odflt [::] (forcing (coord_row (nth 0 coords i)) (node_row u i))) c | i <- iota 0 (size coords)] | c <- iota 0 2]
  else None.

Variable solve : (tree R -> tree R) -> tree R -> option (tree R -> tree R) -> option (tree R).

(** l.90-101: what [stokes_one_step] gives to [_solve_one_step], three values of
    which the last is not modelled.  [Datagen_model.datagen_solve] is what the code
    does with them, [Datagen_model.intended_solve] what is meant. *)
Definition gen_stokes (s : sem R d) (us : seq vfield) (ps : seq field) (cus : seq vfield) : derror + (vfield * field * unit) :=
  match extk_coeffs R (TIME_ORDER g - 1) with
  | inl _ => inl DSolverError
  | inr ext =>
  if (size cus < size ext)%N then inl DIndexError
  else
    let cu := foldl (fun acc i => tree_add acc (tree_scale (nth 0 ext (size ext - i)) (nth [::] cus (size cus - i))))
                (zeros_like (s_mass s)) (iota 1 (size ext)) in
    if us is u0 :: us' then
      match forcing_field s (last u0 us') with
      | None => inl DValueError
      | Some f =>
      match stokes_one_step eps solve s us ps (tree_add (tree_scale (-1) cu) (B s f)) (1 / REYNOLDS_NUMBER g) (DT g) (TIME_ORDER g)
              (default_alpha R) None None true with
      | inl _ => inl DSolverError
      | inr (u, p) => inr (u, p, tt)
      end end
    else inl DIndexError
  end.

(** [run_simulation] after the mesh has been made, as written and as meant *)
Definition simulate (unpack : (seq vfield -> seq field -> seq vfield -> derror + (vfield * field * unit)) ->
    seq vfield -> seq field -> seq vfield -> derror + (vfield * field)) (s : sem R d) :=
  if u_init s is Some u0 then
    run_simulation (v_C eps (s_velocity s)) (unpack (gen_stokes s)) (DT g) (TIME_ORDER g) (NUM_CYCLES g) (NUM_STEPS_PER_CYCLE g)
      u0 (p_init s)
  else ([::], inl DValueError).

(** l.195: [us[-1].max() * DT / mesh_dx] *)
Definition maximum (s : seq R) : R := foldr Num.max (head 0 s) (behead s).
Definition cfl_number (u : vfield) (dx : R) : R := maximum (flatten u) * DT g / dx.
End Gen.
