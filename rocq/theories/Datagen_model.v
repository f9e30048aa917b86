(** Model of the simulation drivers: [one_cycle] and [run_simulation] of
    [swirl_fem/niles/datagen/datagen.py] and the rollout of
    [compute_mse_loss] in [swirl_fem/niles/train.py].

    The fields are arbitrary types; the Stokes solver, the advection operator
    and the neural network are parameters.  Times are exact numbers. *)
From mathcomp Require Import all_ssreflect all_algebra.
Set Implicit Arguments. Unset Strict Implicit. Unset Printing Implicit Defensive.
Import GRing.Theory.
Local Open Scope ring_scope.

(** Python exceptions: unpacking a tuple of the wrong length, an index out of
    range, and whatever the solver raises. *)
Inductive derror := DValueError | DIndexError | DSolverError.

(** [xs[1:] + (x,)] *)
Definition push (T : Type) (xs : seq T) (x : T) : seq T := rcons (behead xs) x.

(** [xs[-1:]] *)
Definition last_slice (T : Type) (xs : seq T) : seq T := drop (size xs).-1 xs.

Section Drivers.
Variables (R : ringType) (U P C : Type).

(** [sem.C] *)
Variable adv : U -> C.

(** ** datagen.py *)

(** The contents of an output file, lines 126-130: the lists under the keys
    ['t'], ['u'] and ['p'], with the first and last step in the file name
    (lines 156-158). *)
Record file := File {
  f_start : nat; f_stop : nat;
  f_t : seq R; f_u : seq U; f_p : seq P }.

Section Datagen.

(** What [_solve_one_step] does with the histories to get velocity and
    pressure, lines 92-101. *)
Variable solve : seq U -> seq P -> seq C -> derror + (U * P).
Variable DT : R.

Record cycle_state := Cycle {
  c_t : R; c_us : seq U; c_ps : seq P; c_cs : seq C;
  c_dt : seq R; c_du : seq U; c_dp : seq P }.

(** One turn of the loop of lines 134-145.  [_solve_one_step] also gives the
    advection of the new velocity (line 102). *)
Definition cycle_step (s : derror + cycle_state) (step_idx : nat)
    : derror + cycle_state :=
  match s with
  | inl e => inl e
  | inr s =>
      let t := c_t s + DT in
      match solve (c_us s) (c_ps s) (c_cs s) with
      | inl e => inl e
      | inr (u, p) =>
          let us := push (c_us s) u in
          let ps := push (c_ps s) p in
          let cs := push (c_cs s) (adv u) in
          if (step_idx %% 10 == 0)%N then
            inr (Cycle t us ps cs
                   (rcons (c_dt s) t) (rcons (c_du s) u) (rcons (c_dp s) p))
          else inr (Cycle t us ps cs (c_dt s) (c_du s) (c_dp s))
      end
  end.

(** [one_cycle], lines 105-167; the file is what it writes (lines 150-165).
    [np.stack] and the HDF5 encoding are left out. *)
Definition one_cycle (start_step num_steps : nat) (us : seq U) (ps : seq P)
    : derror + (file * seq U * seq P) :=
  let t := start_step%:R * DT in
  let init := Cycle t us ps (map adv us)
                [:: t] (last_slice us) (last_slice ps) in
  match foldl cycle_step (inr init) (iota 1 num_steps) with
  | inl e => inl e
  | inr s =>
      inr (File start_step (start_step + num_steps) (c_dt s) (c_du s) (c_dp s),
           c_us s, c_ps s)
  end.

(** The loop of [run_simulation], lines 190-196; the result lists the files
    written, also when a later cycle fails.  The assertions of lines 191-192
    are left out (they are shown to hold). *)
Fixpoint cycles (num_steps : nat) (idx : seq nat) (us : seq U) (ps : seq P)
    : seq file * (derror + (seq U * seq P)) :=
  if idx is i :: idx' then
    match one_cycle (i * num_steps) num_steps us ps with
    | inl e => ([::], inl e)
    | inr (f, us', ps') =>
        let: (fs, r) := cycles num_steps idx' us' ps' in (f :: fs, r)
    end
  else ([::], inr (us, ps)).

(** [run_simulation], lines 170-198, with the constants [TIME_ORDER],
    [NUM_CYCLES] and [NUM_STEPS_PER_CYCLE] as parameters. *)
Definition run_simulation (time_order num_cycles num_steps : nat)
    (u_init : U) (p_init : P) :=
  cycles num_steps (iota 0 num_cycles)
    (nseq time_order u_init) (nseq time_order p_init).

End Datagen.

(** What [StokesSEM.stokes_one_step] returns: a tuple of three
    (navier_stokes.py 357 and 458). *)
Variable Aux : Type.
Variable stokes : seq U -> seq P -> seq C -> derror + (U * P * Aux).

(** datagen.py 100: [u, p = sem.stokes_one_step(...)] unpacks three values
    into two names. *)
Definition datagen_solve (us : seq U) (ps : seq P) (cs : seq C)
    : derror + (U * P) :=
  match stokes us ps cs with
  | inl e => inl e
  | inr (_, _, _) => inl DValueError
  end.

(** The same with [u, p, _ = ...], as in train.py 170. *)
Definition intended_solve (us : seq U) (ps : seq P) (cs : seq C)
    : derror + (U * P) :=
  match stokes us ps cs with
  | inl e => inl e
  | inr (u, p, _) => inr (u, p)
  end.

(** ** train.py *)
Section Rollout.
Variable F : Type.
(** The network: the forcing term from the step number and the newest
    velocity (lines 226-268). *)
Variable net : nat -> U -> F.
(** [_solve_one_step] of train.py 134-173 for one example. *)
Variable solve : seq U -> seq P -> seq C -> F -> U * P.

(** [body_fn], lines 222-281; the auxiliary values do not influence the
    rollout and are left out.  [us[-1]] of an empty tuple does not occur: the
    length is [time_order]. *)
Fixpoint rollout (n i : nat) (us : seq U) (ps : seq P) (cs : seq C)
    : seq U * (seq U * seq P * seq C) :=
  if n is n'.+1 then
    if us is u0 :: us' then
      let: (u, p) := solve us ps cs (net i (last u0 us')) in
      let: (preds, r) :=
        rollout n' i.+1 (push us u) (push ps p) (push cs (adv u)) in
      (u :: preds, r)
    else ([::], (us, ps, cs))
  else ([::], (us, ps, cs)).

(** [compute_mse_loss], lines 208-218 and 283-306, for one example of the
    batch: the initial histories are the first [time_order] entries of the
    window, the targets the [num_solver_steps] following ones.
    [lax.index_in_dim] and [lax.slice_in_dim] raise when the window is too
    short. *)
Definition predictions (time_order num_solver_steps : nat)
    (batch_u : seq U) (batch_p : seq P)
    : derror + (seq U * seq U) :=
  if (time_order <= size batch_u)%N && (time_order <= size batch_p)%N
     && (time_order + num_solver_steps <= size batch_u)%N then
    let us := take time_order batch_u in
    let ps := take time_order batch_p in
    let preds := (rollout num_solver_steps 0 us ps (map adv us)).1 in
    inr (preds, take num_solver_steps (drop time_order batch_u))
  else inl DIndexError.

End Rollout.
End Drivers.
