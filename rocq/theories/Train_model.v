(** Model of the training loop [train_and_evaluate] of
    [swirl_fem/niles/train.py] with its checkpoints, as a process that can be
    killed at any point and started again.

    The network, its gradients and the optimiser are one function [update] of
    the step number and the batch; random numbers depend on the step number
    only (line 434).  Logging, profiling and metrics are left out. *)
From mathcomp Require Import all_ssreflect.
Set Implicit Arguments. Unset Strict Implicit. Unset Printing Implicit Defensive.

(** Python exceptions: [%] by zero, [get_metrics] of no metrics, [next] of an
    ended iterator, and flax refusing to save an outdated checkpoint. *)
Inductive terror := TZeroDivision | TTypeError | TStopIteration | TOutdated.

Section Train.
Variables (V B : Type).

(** [TrainState]: the counter [step] and everything else. *)
Record tstate := TState { st_step : nat; st_value : V }.

(** Lines 561-585, after the arithmetic on epochs. *)
Record tconfig := TConfig {
  num_steps : nat; steps_per_checkpoint : nat;
  eval_every_steps : nat; steps_per_eval : nat }.

(** [create_train_state], lines 515-534 *)
Variable fresh : V.

(** [train_step], lines 429-459: [apply_gradients] adds one to the counter. *)
Variable update : nat -> B -> V -> V.

Definition train_step (s : tstate) (b : B) : tstate :=
  TState (st_step s).+1 (update (st_step s) b (st_value s)).

(** The batches of [train_iter] (line 558) in order, [None] after the end.  The
    pipeline repeats and shuffles with a fixed seed (input_pipeline.py
    154-156), so they are the same in every run. *)
Variable batches : nat -> option B.

(** Number of batches [eval_iter] can give, [None] if it never ends. *)
Variable eval_batches : option nat.

(** ** Checkpoints: flax [save_checkpoint_multiprocess] and
    [restore_checkpoint] *)

(** The complete checkpoints in the working directory. *)
Definition disk := seq tstate.

(** The checkpoint with the largest step, if any. *)
Definition latest (d : disk) : option tstate :=
  foldr (fun c acc =>
           if acc is Some b then
             if st_step c < st_step b then acc else Some c
           else Some c) None d.

(** [restore_checkpoint], lines 499-500: the latest checkpoint, or the given
    state if there is none. *)
Definition restore (d : disk) (s : tstate) : tstate :=
  if latest d is Some c then c else s.

(** [save_checkpoint], lines 503-507, first part: flax raises if there is a
    checkpoint of the same or a later step; otherwise the file is written under
    a temporary name and renamed. *)
Definition commit (d : disk) (s : tstate) : terror + disk :=
  if has (fun c => st_step s <= st_step c) d then inl TOutdated
  else inr (s :: d).

(** Second part: all but the newest [keep] checkpoints are removed. *)
Definition keep : nat := 50.

Definition prune (d : disk) : disk :=
  take keep (sort (fun a b => st_step b <= st_step a) d).

(** ** The process *)

(** Where the process is: not running; before an iteration of the loop of line
    645, with the next number of [range(step_offset, num_steps)], the number
    of batches and of evaluation batches used; after the training step; after
    the evaluation; after a checkpoint appeared on disk but before old ones are
    removed; returned; raised. *)
Inductive proc :=
| Off
| Loop (step used eused : nat) (s : tstate)
| AfterStep (step used eused : nat) (s : tstate)
| AfterEval (step used eused : nat) (s : tstate)
| AfterCommit (step used eused : nat) (s : tstate)
| Finished (s : tstate)
| Raised (e : terror).

Variable cfg : tconfig.

(** [next(eval_iter)] [n] more times (lines 673-674). *)
Definition eval_ends (used n : nat) : bool :=
  if eval_batches is Some m then m < used + n else false.

(** One action of the process. *)
Definition tick (x : disk * proc) : disk * proc :=
  let: (d, p) := x in
  match p with
  | Off =>
      (* lines 602-604 *)
      let s := restore d (TState 0 fresh) in (d, Loop (st_step s) 0 0 s)
  | Loop step used eused s =>
      (* line 645: zip asks range first, then the iterator *)
      if step < num_steps cfg then
        if batches used is Some b
        then (d, AfterStep step used.+1 eused (train_step s b))
        else (d, Finished s)
      else (d, Finished s)
  | AfterStep step used eused s =>
      (* lines 668-682 *)
      if eval_every_steps cfg == 0 then (d, Raised TZeroDivision)
      else if step.+1 %% eval_every_steps cfg == 0 then
        if eval_ends eused (steps_per_eval cfg) then (d, Raised TStopIteration)
        else if steps_per_eval cfg == 0 then (d, Raised TTypeError)
        else (d, AfterEval step used (eused + steps_per_eval cfg) s)
      else (d, AfterEval step used eused s)
  | AfterEval step used eused s =>
      (* lines 683-684 *)
      if steps_per_checkpoint cfg == 0 then (d, Raised TZeroDivision)
      else if (step.+1 %% steps_per_checkpoint cfg == 0)
              || (step.+1 == num_steps cfg) then
        match commit d s with
        | inl e => (d, Raised e)
        | inr d' => (d', AfterCommit step used eused s)
        end
      else (d, Loop step.+1 used eused s)
  | AfterCommit step used eused s => (prune d, Loop step.+1 used eused s)
  | Finished _ | Raised _ => (d, p)
  end.

(** The environment lets the process act, or kills it (or notices that it has
    ended) so that it can be started again. *)
Inductive event := Act | Kill.

Definition happen (x : disk * proc) (e : event) : disk * proc :=
  match e with
  | Act => tick x
  | Kill => (x.1, Off)
  end.

Definition history (es : seq event) (d : disk) : disk * proc :=
  foldl happen (d, Off) es.

End Train.

(** ** Lines 561-585: the numbers of steps *)

(** Numbers of epochs are fractions [(a, b)]; [int(n * a / b)] rounds down for
    nonnegative numbers.  A negative [num_train_steps] or [steps_per_eval] is
    [None]. *)
Definition int_scaled (n : nat) (q : nat * nat) : nat := n * q.1 %/ q.2.

Definition plan_steps (num_examples num_validation batch_size : nat)
    (num_epochs checkpoint_epochs eval_every_epochs : nat * nat)
    (num_train_steps steps_per_eval : option nat) : tconfig :=
  let steps_per_epoch := num_examples %/ batch_size in
  TConfig
    (if num_train_steps is Some n.+1 then n.+1
     else int_scaled steps_per_epoch num_epochs)
    (int_scaled steps_per_epoch checkpoint_epochs)
    (int_scaled steps_per_epoch eval_every_epochs)
    (if steps_per_eval is Some n then n
     else num_validation %/ batch_size %/ batch_size).
