(** Model of the latent SDE of niles/transformer.py (l.571-573, 657-778, 827-937) and of
    sde/flax_nn_sde.py: what is integrated, and the KL term that is carried along.
    The neural networks are arbitrary functions; shapes are in [Shape_model].
    Random numbers are arguments.  Arithmetic is exact. *)
From mathcomp Require Import all_ssreflect all_algebra.
From Verif Require Import Sdeint_model.
Set Implicit Arguments.
Unset Strict Implicit.
Unset Printing Implicit Defensive.
Import Order.TTheory GRing.Theory Num.Theory.
Local Open Scope ring_scope.

Section Latent.
Variables (R : realFieldType) (n : nat).
Notation latent := 'rV[R]_n.
(** [1e-8], the absolute tolerance of [jnp.isclose]; the relative one has no effect
    next to 0 *)
Variable tiny : R.

(** [_divide_no_nan], l.571-573 *)
Definition divide_no_nan (x y : R) : R := if `|y - 0| <= tiny then 0 else x / y.
(** [.5 * jnp.square(_divide_no_nan(post - prior, diffusion)).sum(axis=0)], l.690 and 764 *)
Definition logqp (post prior diffusion : latent) : R :=
  2%:R^-1 * \sum_i (divide_no_nan (post 0 i - prior 0 i) (diffusion 0 i)) ^+ 2.
(** The state [[z; logqp]] *)
Definition state : lmodType R := [lmodType R of (latent * R^o)%type].

Section Networks.
Variable C : Type.
(** [Dynamics.__call__], l.704-778, with the networks of l.747-762; [z] is
    [state[:-1]] *)
Variables (post : latent -> R -> C -> latent) (prior : latent -> R -> latent) (diffusion : latent -> latent).
Definition dynamics (s : state) (t : R) (dw : latent) (ctx : C) : state * state :=
  let z := s.1 in
  let p := post z t ctx in
  let q := prior z t in
  let sigma := diffusion z in
  ((p, logqp p q sigma : R^o), (\row_i (dw 0 i * sigma 0 i), 0)).
(** [VariationalDriftDiffusion.__call__], l.676-701.  The time is deleted; the
    diffusion is computed and then replaced by zeros (l.700). *)
Variables (post_drift : latent -> C -> latent) (prior_drift : latent -> latent).
Definition variational (s : state) (t : R) (dw : latent) (ctx : C) : state * state :=
  let z := s.1 in
  let p := post_drift z ctx in
  let q := prior_drift z in
  let sigma := diffusion z in
  let aug_diffusion : state := (\row_i (dw 0 i * sigma 0 i), 0) in
  ((p, logqp p q sigma : R^o), 0 *: aug_diffusion).

(** One trajectory of [sample] (l.854-862) and [sample_sde] (l.911-927): the
    state with a KL slot, integrated over the times 0 and 1; the single output is
    split again.  No output or more than one would trip the assertions. *)
Definition trajectory (f : state -> R -> latent -> C -> state * state) (z0 : latent) (dw : seq latent) (ctx : C) : option (latent * R) :=
  match sdeint f ((z0, 0) : state) [:: 0; 1] dw ctx with
  | inr [:: s] => Some (s.1, s.2 : R)
  | _ => None
  end.
End Networks.

(** [distrax.MultivariateNormalDiag(m1, s1).kl_divergence(MultivariateNormalDiag(m2, s2))]
    as documented; [ln] is the logarithm *)
Definition kl_diag (ln : R -> R) (m1 s1 m2 s2 : latent) : R :=
  \sum_i (2%:R^-1 * ((s1 0 i / s2 0 i) ^+ 2 + ((m1 0 i - m2 0 i) / s2 0 i) ^+ 2 - 1) + ln (s2 0 i) - ln (s1 0 i)).
(** [sample_sde], l.895-906 *)
Definition kl_q0 (ln : R -> R) (prior_scale : R) (z0 : latent) : R :=
  let s := prior_scale *: const_mx 1 in kl_diag ln z0 s 0 s.

(** l.886-937 for one batch entry: [num_samples] trajectories with the drawn
    initial states as their own contexts; the reshapes keep rows together.  The
    result are the final states, the KL terms and (l.978) their mean. *)
Definition sample_sde (f : state -> R -> latent -> latent -> state * state) (z0s : seq latent) (dws : seq (seq latent)) :
  seq (option (latent * R)) := [seq trajectory f zd.1 zd.2 zd.1 | zd <- zip z0s dws].
Definition kl_path_mean (outs : seq (option (latent * R))) : R :=
  foldr +%R 0 [seq if o is Some zk then zk.2 else 0 | o <- outs] / (size outs)%:R.

(** [core_sdeint], flax_nn_sde.py l.34-78, for one scope: while parameters are
    being created the function is called once and its value is repeated *)
Definition core_sdeint (W C : Type) (initializing : bool) (f : state -> R -> W -> C -> state * state) (x : state) (ts : seq R)
    (dw : seq W) (args : C) : error + seq state :=
  if initializing then
    match ts, dw with
    | t0 :: touts, w0 :: _ => let: (drift, diff) := f x t0 w0 args in inr [seq drift + diff | _ <- touts]
    | _, _ => inl IndexError
    end
  else sdeint f x ts dw args.
End Latent.
