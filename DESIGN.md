# Formal model of swirl-fem in Rocq (Coq 8.16.1)

The subject is `google-research/swirl-fem` at the commit found in `/repo`. The
properties are listed in `properties.jsonl`, their status in `MANIFEST.json`.
This file says what is modelled, how each property is proved, what is trusted,
and what was found on the way.

## 1. How the model is organised

All Coq files are in `rocq/theories` (logical name `Verif`). For each area `X`:

* `X_model.v` holds only definitions. Each definition cites the file and lines
  of `/repo` it models and says where it simplifies.
* `X_spec.v` (where useful) holds the small independent specification used to
  state the theorems.
* `X_proofs.v` holds the proofs.
* `X_props.v` holds only the property theorems (each closed by `exact`), a
  concrete example meeting the hypotheses, and `Print Assumptions`.

Modelling conventions:

* A collective program (code run under `shard_map`/`pmap` on all devices of an
  axis) is modelled as a function on the list of all device-local values.
  `lax.pshuffle` is modelled as re-indexing that list by the host-side
  permutation, and it fails (error value) unless the given list is a
  permutation, as in JAX. `psum`, `pmax`, `axis_index` are list operations.
* Exceptions are values (`option` or a sum with an error tag).
* Python/NumPy integers are `nat` or `Z`; no wrap-around is modelled.
* Floating point numbers are modelled by exact arithmetic in an arbitrary ring,
  field, ordered field or real closed field (mathcomp structures), depending on
  what the code uses. Rounding is not modelled. Where IEEE special values matter
  to the code path (division by zero in the barycentric formula, the units of
  `max`/`min`), the extra values are modelled explicitly.
* JIT compilation, tracing, dtypes, sharding annotations and device placement
  are not modelled.
* Library code outside `/repo` (numpy, jax, networkx, meshio, pymetis, scipy,
  flax, optax) is modelled by its documented behaviour on the calls made.

## 2. Plan per property

| id | what is modelled | how it is proved |
|----|------------------|------------------|
| C01 | crystal router stage, loop and driver on lists of device buffers, with explicit padding garbage, clamped slice updates, overflow detection, regrow and resume | invariant per stage: the multiset of all messages is preserved and each message is held by a device in the group of its target; induction on stages; groups shrink to singletons. P=1 is refuted |
| C02 | same, composed twice | corollary of C01 |
| C03 | driver loop with fuel | measure: the resume stage strictly increases per retry; result equals an unbounded-buffer reference run |
| C04 | group tables computed by the code for each stage | invariant: groups are intervals of size m or m+1; involution proofs for both shuffles |
| C05, C06 | schedule and the two fan-in/fan-out passes over an arbitrary monoid | invariant by induction over the schedule: each group leader holds the ordered product of its group |
| C07 | unit table over integers of any width and over extended numbers with infinities | algebra; refuted for infinities |
| C08 | expression language over semi-traced scalars | structural induction |
| C09 | Python call binding (signature, bind, apply_defaults, BoundArguments.args/kwargs, partial) | induction over the parameter list |
| C10-C13 | gather, scatter, exchange index construction and exchange, over any commutative ring | big-operator algebra |
| C14 | link graph and component minimum | equivalence closure of the executable labelling |
| C15 | gather/scatter | big-operator algebra |
| C16, C17 | partition grouping, local renumbering | list induction |
| C18, C19 | finalize, with and without partitions | composition of C14-C17; refuted for periodic partitioned meshes, proved otherwise |
| C20 | serial and partitioned assembly | sum reindexing using C11, C16, C17 |
| C21 | facet types and slices on multi-indices | counting, membership in products |
| C22 | orderings mapping for any d, m | coordinates formula for flips and transposes |
| C23-C25 | the refiner with its deduplication map | invariants over the facet loop; 3D orientation refuted |
| C26-C28 | unit cube generator | index arithmetic |
| C29, C30 | reader permutation, periodic links | case analysis on fixed tables lifted to all arrays; refutations |
| C31 | breadth-first distance-2 set of the bipartite graph | set reasoning |
| C32-C37 | barycentric interpolation, differentiation, Kronecker products, quadrature | polynomial algebra (mathcomp) over any field / real closed field |
| C38-C40 | finite element space over a ring/field with matrices | linear algebra |
| C41, C42 | the CG loop over an abstract inner-product space / matrices | loop invariant; orthogonality induction |
| C43, C44 | extk/bdfk through the interpolation model | corollaries of C32-C34 plus binomial identities |
| C45-C49, C58 | Stokes spaces, operators and the time step | linear algebra over C33-C44 |
| C59 | the whole step with CG as solver | both operators on the space of conforming velocities / modulo the kernel of E; C63; the right-hand side of the pressure solve is orthogonal to the kernel by C48 |
| C60, C61 | creation of the discretisation from any premesh and from generated cubes | composition of C23-C27, C33-C38 and C47; symmetry of the Gauss nodes |
| C62 | `solve_poisson` through the assembled forms, the mask and CG | kernel of the stiffness form by unisolvence of tensor polynomials; C63 |
| C63 | the CG loop on subspaces | invariants; CG of the projected system |
| C64 | generator, refiner, finalisation, masks, filter, divergence and step together | positions on the global grid as the specification; tensor-product sums; Gauss-Lobatto exactness and a telescoping sum over cells for the flux |
| C65 | divergence, pressure operator and step on generated cubes | the test velocity of one interior Gauss-Lobatto point; summation by parts for tensor polynomials; unisolvence on the interior points; face velocities for the jumps between cells |
| C66 | optax schedules as the trainer joins them | case analysis on the step; the cosine by its monotonicity |
| C67 | drift and diffusion of the latent SDE with the KL slot, samples, initialisation | the solver of C51 and C52 on a pair splits into the posterior SDE and a sum of rates |
| C68 | shapes through encoder, processor and decoder of the closure model | induction over the layers with closed forms for lengths, channels and heads |
| C69 | loss from predictions, windows and KL terms; metrics; batches spread over devices | exchange of sums; means of equal parts |
| C70 | frequencies, bins and masks of the spectrum | closed form of the shifted frequencies; comparing squares; telescoping over the bins |
| C71 | attention of all heads, tiling, pooling along the sequence | attention as a quotient of sums over pairs of key and value, which depends on the multiset of pairs up to repetition; induction over the layers |
| C72 | permutation of nodes by nearest neighbour, on the models of the mesh generator and the refiner | distance zero is least; counting nodes; positions on the refined grid |
| C73 | quadrature of products of tensor polynomials, on the model of the Navier-Stokes operators | nodal values and gradients of interpolants; degree of the integrand; exactness of Gauss-Lobatto |
| C74 | uniqueness of the tentative velocity from positive definiteness, and integrals of derivatives as net outflows, on the model of the time step | conjugate gradients for the zero right-hand side; weak form of the equations; gradients of affine fields |
| C75 | refinement of the step to the Stokes step with an explicit force; induction over the rollout with the invariant on the histories | alternating binomial sums; shape of the closure term |
| C76 | refinement of gather, permutation, reshape and scatter to a sum over the occurrences of a node | row-major indexing; inverse of a permutation by argsort; shared nodes of neighbouring elements |
| C77 | lens laws of the nested dictionary; induction over settings with the invariant on keys and types | reduction to the shape conditions of C68 |
| C78 | windows of C55 with the settings of the file | sizes of permuted tables and reshape |
| C79 | summation by parts on each cell (exactness of the Gauss-Lobatto quadrature), outflows cancel between neighbours by conformity | uniqueness of the step (C74) and exactness of the BDF coefficients (C44) |
| C80 | orthogonality of the powers of a root of unity, Parseval one direction at a time; geometric sums for the wave sampled at both ends | C70 for the bins |
| C81 | exactness of both Gauss-Lobatto rules for the product of advection and test polynomial; then the weak form of C74 | C73, C79 for the other terms |
| C82 | reduction to the step of C75; trajectories by recursion on the step number | C50 for the files, C64 for continuity, C33 for the nodes |
| C83 | integrals of piecewise polynomials by exactness of the quadrature (C36); integration by parts, test functions made of straight lines; Galerkin orthogonality | C62 for the solve, C33, C35 |
| C84 | lengths by induction on the layers, skips found by number of layer; periods from C71; permutations of the keys and values | then C75's rollout by induction on steps |
| C50 | history loops of the data generator and of the training rollout | induction on steps |
| C51-C53 | Euler-Heun scan, segmentation, backward pass | induction on noise |
| C54-C56 | permutation builder, windows, example count | arithmetic; C56 refuted for several shards |
| C57 | training loop with checkpoints as a transition system with crashes | invariant over histories |

## 3. Not modelled

The weights and token-wise values of the neural networks of `niles/transformer.py` (attention, tiling,
pooling and the latent SDE are modelled around arbitrary functions of tokens), optimiser, random numbers,
HDF5/TF input-output, `scipy`/`meshio`/`pymetis` internals,
device placement, compilation, floating-point rounding and dtype promotion.

## 4. Findings

Each entry says what was found in the source and where it is shown. "Proved"
means there is a theorem named `..._refuted` (or one that states the exact
behaviour); "read" means it was seen while modelling and is only noted here.

* The crystal router on one device loses the data it is given (proved).
* `pscan`/`preduce` with `max`/`min` on floats use a unit that is not an
  identity at the infinities (proved).
* `preduce(bool, add)` goes through `psum`, which promotes to integers (read).
* `jit_distributed` fails for positional-only parameters mixed with keyword
  ones, and for a sharded parameter after a static one (proved, C09).
* `exchange` computes `mask * u[gi]` with the sentinel index reading the last
  entry, so an infinity or NaN there contaminates the result (read; the model
  uses exact ring arithmetic, where the product is zero).
* Partitioned meshes with periodic links give a node the coordinates of its
  periodic representative (proved, C18).
* Physical-group masks compare raw facet ids with periodic-deduplicated indices
  (proved, C19).
* The refiner looks the orientation up by the inverse permutation. This is
  wrong for quarter turns of two-dimensional faces with four or more points per
  direction: coordinates on the common face and the pairing of periodic facets
  come out wrong (proved, C24 and C25).
* The refiner constructor raises `ValueError` for one gridpoint per direction
  in three or more dimensions, also when the gridpoints are discontinuous
  (proved, C23).
* Refinement with discontinuous gridpoints drops physical groups and periodic
  links (proved, C23).
* In one dimension the refiner accepts any node as a group facet, also one that
  belongs to no element (read).
* The reader merges all periodic relations into one dictionary, so a node that is
  a slave in two relations keeps only the last master. Links of a doubly periodic
  mesh then pair a facet with two nodes that are no facet (proved, C30).
* The reader leaves the facets of 3D periodic links in Gmsh's cyclic order, while
  elements are reordered. The refiner raises on such links (proved, C30).
* Periodic links in one dimension raise `KeyError` (proved, C30).
* `pymetis` returns a list, and `finalize` uses array attributes of `partitions`
  (read).
* The quadrature called `NEWTON_COTES` is the composite trapezoidal rule; with
  three points it is not exact for squares (proved, C36).
* Equality of single-point nodes is not transitive, and `interpolate` between
  equal single points returns its input although their matrix cannot be built
  (proved, C37).
* Interpolation and its gradient raise in zero dimensions (proved, C35).
* `integrate` uses the signed Jacobian determinant, so a negatively oriented
  element counts negatively (proved, C38).
* The rows of `-1` that pad unevenly partitioned meshes have a zero Jacobian whose
  inverse is taken (proved, C38). In floating point this gives inf or NaN, which
  `mask * v` in `scatter` keeps (read).
* `StokesSEM.create` accepts order 2. Its pressure elements have one node, so
  their Jacobian is computed as zero: divergence, pressure operator and pressure
  mass vanish and the nullspace projection is 0/0 (proved, C46 and C48).
* `stokes_one_step` reads two previous pressures for every `time_order`, so a
  history of one pressure raises `IndexError` for `time_order=1` (proved as part
  of C45: a step that returns had at least two).
* With more velocities than `time_order`, `zip` combines the oldest ones (read;
  C45 assumes as many velocities as `time_order` for the momentum equation).
* The filter is not masked, so it changes boundary values that are not
  elementwise polynomials of the lower degree (C49 gives the values).
* `vorticity` has the sign of `du_x/dy - du_y/dx`: the rotation `(-y, x)` has
  vorticity -2, the usual curl is 2 (C73_curl_refuted).
* `datagen.py` line 100 unpacks two values from the triple that
  `stokes_one_step` returns, so the generator raises `ValueError` at its first
  step and writes no file (proved, C50). It also ignores its configuration object
  (read).
* Consecutive files of generated data repeat a snapshot when the number of steps
  per cycle is a multiple of ten (proved, C50).
* `sdeint` documents that it returns the final state and the path, but returns
  the path only (read).
* Output times that do not increase leave the state unchanged without an error
  (proved, C51).
* The backward pass of `sdeint` evaluates the drift at the wrong end of each
  step, so gradients are wrong for time-dependent drift, and it reconstructs the
  states inexactly for nonlinear equations (proved, C53).
* `get_num_examples` overcounts when windows are lost at the ends of shards: the
  default training split has 24 shards, and windows of 11 with stride 1 give
  153360 windows, not 153590. The last process then gets fewer windows, and the
  assertion fails for 4 or 8 processes (overcount proved, C56; numbers read).
* `eval_num_steps` is 125 but the metric `mse@128` reads index 127, which JAX
  clamps (read).
* The element permutation is hard-coded to a grid of 12 by 12 (proved, C78).
* Resumed training starts the data again from the first batch, so an interrupted
  run does not give the result of an uninterrupted one (proved, C57).
* With too few examples for one batch, training returns the initial state
  without an error and without a checkpoint (proved, C57).
* A checkpoint or evaluation period that rounds down to zero steps raises
  `ZeroDivisionError` after the first step (proved, C57).
* `steps_per_eval == -1` divides the number of validation examples by the batch
  size twice; if that gives zero, the first evaluation has no metrics and raises
  (read; the model raises).
* `StokesSEM.create` raises `ValueError` for order 2 in three or more dimensions:
  its one-point pressure grid is refused by the refiner (proved, C60).
* `StokesSEM.create` refuses partitioned premeshes: it calls `finalize()` without
  an axis name (proved, C60).
* `solve_poisson` calls the system positive definite; without Dirichlet nodes it
  is singular, and a forcing with nonzero integral has no solution, which the
  function does not report. The solution it returns otherwise has nodal values
  with sum zero, which is not integral zero (proved, C62).
* `solve_poisson` never exchanges, so periodic links have no effect on it and a
  partitioned mesh gives wrong results (read; the model has no exchange).
* `stokes_one_step` needs a force that is zero on Dirichlet nodes: the rows of
  these nodes are zero in H (proved, C47), so no velocity solves the system
  otherwise, and CG stops at the iteration limit or breaks down. C59 has this as
  a hypothesis.
* The default `project_out_nullspace=True` takes constants away from pressure
  residuals. That is right if the constants are in the kernel of E, i.e. without
  net flux (proved, C59). With an outflow boundary they are not, and CG can then
  stop at once with a wrong answer: `ex_inconsistent_run` in `CG_props3.v` runs it
  on a positive definite system.
* With `kl_transition_epochs = 0` the KL penalty is 0 for ever: optax's linear
  schedule without transition steps stays at its initial value (proved, C66).
* The learning rate decays over at least one epoch, so a training with less than
  one epoch after the warm-up ends with a positive rate (proved, C66). The
  triangular schedule is made but never used (read).
* `VariationalDriftDiffusion` multiplies its diffusion by zero, so its noise has
  no effect (proved, C67).
* The KL rate ignores coordinates whose noise is at most 1e-8, where differing
  drifts should count most (proved, C67).
* The closure model with `use_transformer` and one sample always raises: the ODE
  sampler passes a state without the slot for the KL term (proved, C68), and
  `kl_q0` would be unbound afterwards (read).
* The processor without transformer always raises: it needs exactly one sample,
  and its result has one axis too few for the decoder (proved, C68).
* `mean_after_decoder` without samples always raises: it maps over the sequence
  axis (proved, C68).
* Without residual connections the model can return a wrong length without an
  error (`ex_wrong_length` in `Shape_props.v`).
* `decoder_input` in `Model.__call__` is computed and not used; `freeze_encoder` is
  not used (read); `Model.__call__` has no argument `train`, which `train.py` passes (proved, C77).
* The metrics `mse@8` to `mse@128` silently report the last step if there are fewer
  steps (proved, C69). The configuration evaluates 125 steps, so its `mse@128` is
  the error of step 125.
* `get_energy_spectrum` leaves out the last bin and the mode of the highest
  frequencies, so the spectrum does not add up to the energy, and its abscissae
  are upper ends of bins (proved, C70). A grid with one point has an empty
  spectrum, whose logarithm in `tke_err` is not finite (read).
* `get_tke` calls `uniform_mesh.interpolate`, which meshes do not have (read), and
  transforms points that include both ends of each period, so that a wave of the period
  has energy at all wave numbers along its direction (proved, C80).
* `tke_err` is zero for predictions that are the target moved along the grid (proved, C80).
* The decoder tiles the coarse sequence (`jnp.tile` puts copies of the whole sequence
  one after the other), while the encoder pools neighbouring tokens: position p gets
  coarse token p mod m, not the token p div 4 that was pooled from it (proved, C71).
  Without residual connections (`use_residuals = False`) the decoder therefore only
  repeats its coarse result.
* Average pooling divides by the whole window also where it sticks out: with window 5
  and stride 4 the last token is 4/5 of what it should be for constants (proved, C71).
* With the default `overint=2` the number of over-integration points is exact for
  the advection term only for orders up to 3: the integrand has degree
  `3 * order` per axis and the rule is exact to degree `2 * order + 3`
  (sufficiency proved, C73_exact; that it is inexact for order 4 and more is
  read).
- C75: `time_order = 1` is accepted by the configuration, but `_solve_one_step` then calls `extk_coeffs(k=0)`, which divides by zero (`C75_first_order_refuted`). The solver works for orders from 2 on.
- C76: the comment at train.py l.254 says 'ungather', but `scatter` adds up the copies of a node without dividing by their number (`C76_ungather_refuted`): the closure term of the identity network is doubled on element faces and multiplied by up to 2^d at corners.
- C77: niles/config/niles.py does not set `num_layers`, `num_heads` and `freeze_encoder`, which `create_model` reads, nor `num_layers` of the processor, which `LatentSDE.setup` reads. As the configuration is locked, no flag can add them, so training cannot start from this file (`C77_default_refuted`, `C77_processor_refuted`). Also `model_apply_fn` is called with `train=`, which `Model.__call__` does not have (`C77_call_refuted`).
- C77: `sweep` sets depth and pooling layers together, as it must: flags do not update computed fields. Width alone can never be changed (`C77_width`), and `num_samples=0`, documented to disable the processor, raises because `mean_after_decoder` stays true (`C77_samples`).
- C78: `num_elements = 144` and the permutation of 12 x 12 elements do not follow `element_grid_size`, and the 3 in the window sizes does not follow `time_order`: any other grid, or an order above 3, raises (`C78_grid_refuted`, `C78_order3_refuted`). With `order` set on the command line `num_channels` keeps its value and the assertion fails (`C78_order_refuted`).
- C81: the drag of `_kolmogorov_forcing` is evaluated at `us[-1]`, the velocity of the last step, while viscosity and time derivative are taken at the new time, so that the scheme is of first order in the drag whatever `time_order` is (`C81_drag_refuted`: off by drag dt^2 / beta).
- C82: `run_simulation` of datagen.py computes the CFL number from `us[-1].max()`, the largest signed entry: a flow with negative components gives a negative number (`C82_cfl_refuted`); also (read, not proved) the program requires a configuration file but takes Reynolds number, drag (0.1; the configuration has 0.05) and grid from module constants.
- C83: in one dimension the result is exact where elements meet, but not at the other nodes: on one element of order 2 with forcing x^2 the middle value is not 1/12, that of the solution (`C83_inside_refuted`).
- C84: `decoder_input = encoded + x` (transformer.py l.543) is never used: there is no residual connection around the whole network (`C84_no_global`). A window of 1 turns pooling off even when the stride is larger than 1, so that the skip connection no longer fits. Windows longer than 1 mix neighbouring elements in every layer, also when there are no pooling layers (`C84_order_refuted`).

## 5. Trusted base

* The Coq 8.16.1 kernel, the standard library and mathcomp as installed, and
  `vm_compute`/`lazy` reduction, which are part of the kernel.
* No axiom. `Print Assumptions` stands after each property theorem in the
  `*_props*.v` files, and each one prints "Closed under the global context". This
  holds for the real numbers too, because they are an arbitrary real closed field
  given as a section variable and not an axiomatised type.
* That the definitions in the `*_model.v` files (and the definitions listed below)
  say what the Python code does. They were written from the text of `/repo` and
  were not compared with runs of it. `seeded/LOG.jsonl` records edits of the model
  that were tried and the theorems that then fail.
* That the statements say what `properties.jsonl` says.

What is modelled, by file of `/repo/swirl_fem`:

| source | model |
|--------|-------|
| communication/crystal_router.py | `Groups_model.v`, `Crystal_model.v`: all of it except dtype packing |
| communication/pscan.py | `Groups_model.v`, `Pscan_model.v`: all of it |
| communication/semi_traced_scalar.py | `SemiTraced_model.v`: all operators |
| communication/jit_distributed.py | `JitDist_model.v`: argument binding and dispatch; not compilation |
| core/gather_scatter.py | `GS_model.v`: all functions, serial and partitioned |
| core/premesh.py, core/mesh.py | `Premesh_model.v`, `FES_model.v`: finalisation, groups, element coordinates |
| core/mesh_refiner.py, common/facet_util.py | `Facet_model.v`, `Refiner_model.v`, `refined_mesh` in `Stokes_family.v`: all of it |
| core/interpolation.py | `Interp_model.v`: all of it |
| core/fespace.py | `FES_model.v`, `Stokes_model.v`: spaces, evaluation, gradients, covectors |
| common/premesh_commons.py | `UnitCube_model.v`: `unit_cube_mesh` |
| common/mesh_reader.py, common/mesh_partitioner.py | `Reader_model.v`: from the arrays of `meshio`; not parsing, not `pymetis` |
| linalg/cg.py | `CG_model.v`: all of it |
| navier_stokes/navier_stokes.py | `TimeCoef_model.v`, `Stokes_model.v`: coefficients, creation, operators, projection, filter, `stokes_one_step`, advection and vorticity; not spectra or energies |
| niles/datagen/datagen.py | `Datagen_model.v`: histories and file contents; not HDF5. `Gen_model.v`: initial velocity, forcing, step, `compute_dx`, CFL number |
| niles/input_pipeline.py | `Pipeline_model.v`: windows and splits; not TensorFlow |
| niles/train.py | `NS_model.v` (Navier-Stokes step, closure term, rollout), `Datagen_model.v` (rollout with an abstract step), `Pipeline_model.v` (permutation), `Train_model.v` (loop and checkpoints), `Sched_model.v` (schedules), `Loss_model.v` (loss, metrics, devices), `Spectrum_model.v` (spectrum), `Tke_model.v` (Fourier energies and `tke_err`), `Transfer_model.v` (transfer to the uniform mesh); not the optimiser |
| sde/sdeint.py | `Sdeint_model.v`: all of it |
| niles/transformer.py, sde/flax_nn_sde.py | `Latent_model.v`: the latent SDE with arbitrary networks; `Shape_model.v`: shapes; `Attn_model.v`: attention, tiling, average pooling and the decoder with arbitrary functions of single tokens; `Net_model.v`: max pooling, the encoder and the whole network |
| niles/config/niles.py, niles/main.py | `Config_model.v`: the configuration, settings on the command line, creation and first call of the model; not the flag parser |
| tests | not modelled |
| examples/poisson.py | `Poisson_model.v`: all of it |
