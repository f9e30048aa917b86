(** Model of the Navier-Stokes step of the learned closure, niles/train.py
    l.130-173 ([_kolmogorov_forcing], [_solve_one_step]), and of the path of the
    closure term from the network to the step and the rollout, l.206-293
    ([body_fn] and the loop over the solver steps), for one example of the batch.

    Numbers are exact, [jnp.sin] and [np.pi] are parameters, as are the network
    and the linear solver with its tolerances.  A field (num_nodes, ndim) is the
    list of its components; the shapes of the data are assumed right.  [time_order] is at least 1
    (the code calls [extk_coeffs] with [time_order - 1], a natural number here). *)
From mathcomp Require Import all_ssreflect all_algebra.
From Verif Require Import Interp_model FES_model CG_model TimeCoef_model Stokes_model Pipeline_model.
Set Implicit Arguments.
Unset Strict Implicit.
Unset Printing Implicit Defensive.
Import Order.TTheory GRing.Theory Num.Theory.
Local Open Scope ring_scope.

Inductive nerror := NAssertion | NIndex | NShape | NCoefficients of ierror | NStokes of serror.

(** The fields of the configuration that the rollout uses: [drag_coeff],
    [reynolds_number], [dt], [alpha], [time_order], [permute_elements],
    [num_elements] and [num_channels]. *)
Record config (R : Type) := Config {
  drag_coeff : R; reynolds_number : R; time_step : R; filter_strength : R; time_order : nat;
  permute_elements : bool; cfg_elements : nat; cfg_channels : nat }.

Section NS.
Variables (R : rcfType) (d : nat) (eps : R).
Notation field := (seq R).
Notation vfield := (seq (seq R)).
Variables (sine : R -> R) (pi : R).

(** [_kolmogorov_forcing], l.130-137; [None]: the assertions on the shapes fail *)
Definition kolmogorov_forcing (cfg : config R) (x u : seq R) : option (seq R) :=
  if (size x == 2)%N && (size u == 2)%N then
    let k := 4%:R in
    let f0 := sine (2%:R * pi * k * nth 0 x 1) in
    let f1 := 0 in
    Some [:: f0 - drag_coeff cfg * nth 0 u 0; f1 - drag_coeff cfg * nth 0 u 1]
  else None.

(** l.164: Python's [sum] starts from 0; [cus[-i]] raises when it is not there *)
Definition cu_extrapolated (s : sem R d) (ext : seq R) (cus : seq vfield) : nerror + vfield :=
  if (size cus < size ext)%N then inl NIndex
  else inr (foldl (fun acc i => tree_add acc (tree_scale (nth 0 ext (size ext - i)) (nth [::] cus (size cus - i))))
              (zeros_like (s_mass s)) (iota 1 (size ext))).

(** l.167-168: [vmap] over the nodes.  The assertions are about shapes, so they
    fail for all nodes or for none. *)
Definition node_row (u : vfield) (i : nat) : seq R := [seq nth 0 c i | c <- u].
Definition coord_row (x : 'rV[R]_d) : seq R := [seq x 0 j | j <- enum 'I_d].
Definition add_kolmogorov (cfg : config R) (s : sem R d) (f u : vfield) : nerror + vfield :=
  let coords := FES_model.m_coords (v_mesh (s_velocity s)) in
  if (d == 2)%N && (size u == 2)%N then
    inr [seq [seq nth 0 (nth [::] f c) i +
                  nth 0 (odflt [::] (kolmogorov_forcing cfg (coord_row (nth 0 coords i)) (node_row u i))) c
              | i <- iota 0 (size coords)] | c <- iota 0 d]
  else inl NAssertion.

Variable solve : (tree R -> tree R) -> tree R -> option (tree R -> tree R) -> option (tree R).

(** [_solve_one_step], l.140-173 *)
Definition solve_one_step (cfg : config R) (s : sem R d) (us : seq vfield) (ps : seq field) (cus : seq vfield) (f : vfield)
    : nerror + (vfield * field * vfield) :=
  match extk_coeffs R (time_order cfg - 1) with
  | inl e => inl (NCoefficients e)
  | inr ext =>
  match cu_extrapolated s ext cus with
  | inl e => inl e
  | inr cu =>
  if us is u0 :: us' then
  match add_kolmogorov cfg s f (last u0 us') with
  | inl e => inl e
  | inr f1 =>
  let f2 := tree_add (tree_scale (-1) cu) (B s f1) in
  match stokes_one_step eps solve s us ps f2 (1 / reynolds_number cfg) (time_step cfg) (time_order cfg)
          (filter_strength cfg) None None true with
  | inl e => inl (NStokes e)
  | inr (u, p) => inr (u, p, v_C eps (s_velocity s) u)
  end end
  else inl NIndex
  end end.

(** The closure term, l.232-264.  [rows] is the [reshape] of l.234-237: one row
    for each element, node by node with the components of a node together.
    [take_rows] is [inputs[:, perm, :]]; jax clamps indices that are too large.
    The second [reshape], l.258-263, reads the output in row-major order and
    raises when the number of entries is another. *)
Definition rows (a : larray R) : seq (seq R) :=
  [seq [seq la_data a e n c | n <- iota 0 (la_nodes a), c <- iota 0 d] | e <- iota 0 (la_elements a)].
Definition unrows (E N : nat) (r : seq (seq R)) : nerror + larray R :=
  if size (flatten r) == (E * N * d)%N
  then inr (LArray E N [:: d] (fun e n c => nth 0 (flatten r) ((e * N + n) * d + c)))
  else inl NShape.
Definition take_rows (r : seq (seq R)) (perm : seq nat) : seq (seq R) := [seq nth [::] r (minn i (size r).-1) | i <- perm].
Definition closure_term (cfg : config R) (s : sem R d) (perm : seq nat) (net : seq (seq R) -> seq (seq R)) (u : vfield) : nerror + vfield :=
  let v := s_velocity s in
  let N := m_per_element (v_mesh v) in
  let inputs := rows (v_gather v u) in
  let inputs1 := if permute_elements cfg then take_rows inputs perm else inputs in
  if (size inputs1 == cfg_elements cfg) && (N * d == cfg_channels cfg)%N then
    let out := net inputs1 in
    let out1 := if permute_elements cfg then take_rows out (argsort perm) else out in
    match unrows (num_elements (v_mesh v)) N out1 with
    | inl e => inl e
    | inr a => inr (v_scatter v a)
    end
  else inl NAssertion.

(** [body_fn] and the scan, l.227-293: the network depends on the step through
    its random keys; [perm] is [make_multiscale_perm()], l.223.  The values of the
    auxiliary outputs are the subject of [Latent_model] and [Loss_model]. *)
Definition default_perm : seq nat := make_multiscale_perm 12 [:: 2; 3]%N [:: 2; 4]%N.
Fixpoint ns_rollout (cfg : config R) (s : sem R d) (net : nat -> seq (seq R) -> seq (seq R)) (n i : nat)
    (us : seq vfield) (ps : seq field) (cus : seq vfield) : nerror + seq (vfield * field) :=
  if n is n'.+1 then
    if us is u0 :: us' then
      match closure_term cfg s default_perm (net i) (last u0 us') with
      | inl e => inl e
      | inr f =>
      match solve_one_step cfg s us ps cus f with
      | inl e => inl e
      | inr (u, p, cu) =>
      match ns_rollout cfg s net n' i.+1 (rcons (behead us) u) (rcons (behead ps) p) (rcons (behead cus) cu) with
      | inl e => inl e
      | inr preds => inr ((u, p) :: preds)
      end end end
    else inl NIndex
  else inr [::].
(** l.206-220 and 292-293, the histories from the first [time_order] states. *)
Definition predict (cfg : config R) (s : sem R d) (net : nat -> seq (seq R) -> seq (seq R)) (n : nat)
    (bu : seq vfield) (bp : seq field) : nerror + seq (vfield * field) :=
  if (time_order cfg <= size bu)%N && (time_order cfg <= size bp)%N then
    let us := take (time_order cfg) bu in
    let ps := take (time_order cfg) bp in
    ns_rollout cfg s net n 0 us ps [seq v_C eps (s_velocity s) u | u <- us]
  else inl NIndex.
End NS.
