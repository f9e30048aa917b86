(** Model of [swirl_fem/sde/sdeint.py].

    States are elements of an arbitrary vector space [V] (a module over a real
    field): [ravel_pytree]/[unravel] (lines 103-107 and 187-197) only rename
    the components of the state pytree, so they are the identity here.  The
    arithmetic of the solver is exact, not floating point.  [jit] and
    [closure_convert] (lines 100-102) do not change values and are left out.

    [brownian_path] (lines 32-36) draws random numbers and is not modelled:
    the noise path is an arbitrary sequence. *)
From mathcomp Require Import all_ssreflect all_algebra.
Set Implicit Arguments. Unset Strict Implicit. Unset Printing Implicit Defensive.
Import GRing.Theory Num.Theory.
Local Open Scope ring_scope.

Section Sdeint.
Variable R : realFieldType.

(** [lax.scan(step, init, xs, reverse)] where only the final carry is used. *)
Definition scan (S X : Type) (step : S -> X -> S) (reverse : bool)
    (init : S) (xs : seq X) : S :=
  foldl step init (if reverse then rev xs else xs).

Section Forward.
Variables (V : lmodType R) (W A : Type).

(** The user function [f(y, t, dw, args)] giving drift and diffusion. *)
Variable f : V -> R -> W -> A -> V * V.

(** sdeint.py 116-124, [step_fn]; [ts] is [(t0, t1)]. *)
Definition step_fn (ts : R * R) (dt : R) (args : A) (state : R * V) (dw : W)
    : R * V :=
  let (t, x0) := state in
  let (drift, diff) := f x0 t dw args in
  let diffh := (f (x0 + diff) (t + dt) dw args).2 in
  let x := x0 + dt *: drift + 2%:R^-1 *: (diff + diffh) in
  if (ts.1 <= t) && (t < ts.2) then (t + dt, x) else (t + dt, x0).

(** sdeint.py 110-128, [_sdeint]. *)
Definition sdeint1 (reverse : bool) (y0 : V) (ts : R * R) (dw : seq W)
    (args : A) : V :=
  let dt := (ts.2 - ts.1) / (size dw)%:R in
  (scan (step_fn ts dt args) reverse (ts.1, y0) dw).2.

(** What stops [sdeint] before it integrates: [ts[0]] of an empty sequence,
    and [dw.reshape((len(touts), -1, ...))] or [dw[0]] of an unsuitable path. *)
Inductive error := IndexError | ReshapeError.

(** [dw.reshape((k, -1, ...))], line 86: [k] consecutive rows. *)
Definition segments (T : Type) (k : nat) (dw : seq T) : seq (seq T) :=
  let m := (size dw %/ k)%N in
  [seq take m (drop (i * m) dw) | i <- iota 0 k].

(** The outer [lax.scan] of line 96, with [scan_fun] of lines 88-94. *)
Fixpoint scan_fun (y t : _) (xs : seq (seq W * R)) (args : A) : seq V :=
  if xs is (dw, t_next) :: xs' then
    let y_next := sdeint1 false y (t, t_next) dw args in
    y_next :: scan_fun y_next t_next xs' args
  else [::].

(** sdeint.py 39-97, [sdeint]. *)
Definition sdeint (y0 : V) (ts : seq R) (dw : seq W) (args : A)
    : error + seq V :=
  if ts is t0 :: touts then
    let k := size touts in
    if (k == 0)%N || ~~ (k %| size dw)%N then inl ReshapeError
    else if (size dw == 0)%N then inl IndexError
    else inr (scan_fun y0 t0 (zip (segments k dw) touts) args)
  else inl IndexError.

End Forward.

(** * The custom derivative *)
Section Backward.
Variables (V A : lmodType R) (W : Type).
Variable f : V -> R -> W -> A -> V * V.

(** [jax.vjp(g, y, *args)[1](c)]: the transposed derivative of a function of
    the state and the extra arguments, applied to a cotangent. *)
Variable vjp : (V -> A -> V) -> V -> A -> V -> V * A.

(** sdeint.py 160-170, [aug_f]; the augmented state is
    [(y, y_bar, args_bar)]. *)
Definition aug_f (aug : V * V * A) (t : R) (dw : W) (args : A)
    : (V * V * A) * (V * V * A) :=
  let: (y, y_bar, _) := aug in
  let drift_fn := fun y args => (f y (- t) dw args).1 in
  let diff_fn := fun y args => (f y (- t) dw args).2 in
  let drift_dot := drift_fn y args in
  let (dy, da) := vjp drift_fn y args y_bar in
  let diff_dot := diff_fn y args in
  let (sy, sa) := vjp diff_fn y args y_bar in
  ((- drift_dot, dy, da), (- diff_dot, sy, sa)).

(** sdeint.py 137-181, [_sdeint_rev], with all three components of the final
    augmented state; the code drops the first one. *)
Definition sdeint_rev_state (reverse : bool) (y1 : V) (ts : R * R)
    (dw : seq W) (args : A) (y1_bar : V) : V * V * A :=
  sdeint1 aug_f (~~ reverse) (y1, y1_bar, 0) (- ts.2, - ts.1) dw args.

Definition sdeint_rev (reverse : bool) (y1 : V) (ts : R * R)
    (dw : seq W) (args : A) (y1_bar : V) : V * A :=
  let: (_, y_bar, args_bar) :=
    sdeint_rev_state reverse y1 ts dw args y1_bar in
  (y_bar, args_bar).

(** Differentiating [sdeint]: JAX transposes the outer scan of line 96, going
    through the segments from the last to the first, adding the cotangent of
    each output to the one of the carried state, and calls the custom
    derivative of [_sdeint] (lines 131-134 and 184) on each. *)
Fixpoint scan_rev (y : V) (t : R) (xs : seq (seq W * R)) (args : A)
    (bars : seq V) : V * A :=
  if xs is (dw, t_next) :: xs' then
    let y_next := sdeint1 f false y (t, t_next) dw args in
    let: (c, a) := scan_rev y_next t_next xs' args (behead bars) in
    let: (y_bar, args_bar) :=
      sdeint_rev false y_next (t, t_next) dw args (head 0 bars + c) in
    (y_bar, a + args_bar)
  else (0, 0).

Definition sdeint_vjp (y0 : V) (ts : seq R) (dw : seq W) (args : A)
    (bars : seq V) : V * A :=
  if ts is t0 :: touts then
    scan_rev y0 t0 (zip (segments (size touts) dw) touts) args bars
  else (0, 0).

End Backward.
End Sdeint.
