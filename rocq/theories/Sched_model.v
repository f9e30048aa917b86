(** Model of the schedules in niles/train.py l.378-426 and of the optax functions
    they use, as optax documents them.  Numbers are exact.  A schedule maps the
    step number to a value; step numbers are numbers, because [join_schedules]
    subtracts boundaries, which are products of an epoch count (a float in the
    configuration) and [steps_per_epoch]. *)
From mathcomp Require Import all_ssreflect all_algebra.
Set Implicit Arguments.
Unset Strict Implicit.
Unset Printing Implicit Defensive.
Import Order.TTheory GRing.Theory Num.Theory.
Local Open Scope ring_scope.

Section Sched.
Variable R : realFieldType.
(** [hc x] is [cos (pi * x)] *)
Variable hc : R -> R.
Definition schedule : Type := R -> R.
Inductive schederror := SchedValueError.

(** [optax.constant_schedule] *)
Definition constant_schedule (value : R) : schedule := fun _ => value.
(** [optax.linear_schedule]: [polynomial_schedule] with power 1.  With no
    transition steps optax logs a message and returns the constant
    [init_value]. *)
Definition linear_schedule (init_value end_value transition_steps : R) : schedule :=
  if transition_steps <= 0 then fun _ => init_value
  else fun count =>
    let count := Num.min (Num.max count 0) transition_steps in
    let frac := 1 - count / transition_steps in
    (init_value - end_value) * frac + end_value.
(** [optax.cosine_decay_schedule] with [alpha = 0], [exponent = 1] *)
Definition cosine_decay_schedule (init_value decay_steps : R) : schederror + schedule :=
  if 0 < decay_steps then
    inr (fun count =>
      let count := Num.min count decay_steps in
      let cosine_decay := 2%:R^-1 * (1 + hc (count / decay_steps)) in
      init_value * cosine_decay)
  else inl SchedValueError.
(** [optax.join_schedules]; [schedules] is given as its head and the rest *)
Definition join_schedules (first : schedule) (rest : seq schedule) (boundaries : seq R) : schedule :=
  fun step => foldl (fun output bs => if step < bs.1 then output else bs.2 (step - bs.1)) (first step) (zip boundaries rest).

(** The fields of the configuration that are used *)
Record config := Config {
  warmup_epochs : R; num_epochs : R; kl_penalty : R; kl_transition_epochs : R; kl_zero_epochs : R;
  learning_rate : R; batch_size : nat }.

(** [create_updown_learning_rate_fn], l.378-392 *)
Definition create_updown_learning_rate_fn (c : config) (base_learning_rate : R) (steps_per_epoch : nat) : schedule :=
  let warmup_fn := linear_schedule 0 base_learning_rate (warmup_epochs c * steps_per_epoch%:R) in
  let warmdown_fn := linear_schedule base_learning_rate 0 (warmup_epochs c * steps_per_epoch%:R) in
  join_schedules warmup_fn [:: warmdown_fn] [:: warmup_epochs c * steps_per_epoch%:R].
(** [create_learning_rate_fn], l.395-410 *)
Definition create_learning_rate_fn (c : config) (base_learning_rate : R) (steps_per_epoch : nat) : schederror + schedule :=
  let warmup_fn := linear_schedule 0 base_learning_rate (warmup_epochs c * steps_per_epoch%:R) in
  let cosine_epochs := Num.max (num_epochs c - warmup_epochs c) 1 in
  match cosine_decay_schedule base_learning_rate (cosine_epochs * steps_per_epoch%:R) with
  | inl e => inl e
  | inr cosine_fn => inr (join_schedules warmup_fn [:: cosine_fn] [:: warmup_epochs c * steps_per_epoch%:R])
  end.
(** [create_kl_penalty_fn], l.413-426 *)
Definition create_kl_penalty_fn (c : config) (steps_per_epoch : nat) : schedule :=
  let kl_scheduler := linear_schedule 0 (kl_penalty c) (kl_transition_epochs c * steps_per_epoch%:R) in
  join_schedules (constant_schedule 0) [:: kl_scheduler] [:: kl_zero_epochs c * steps_per_epoch%:R].
(** l.587: the base learning rate *)
Definition base_rate (c : config) : R := learning_rate c * (batch_size c)%:R / 256%:R.
End Sched.
