(** Model of the loss and the metrics of niles/train.py (l.196-375), and of how
    a batch is spread over the devices (l.478-488).  The rollout that makes the
    predictions is in [Datagen_model].  A field is the list of its numbers (nodes times
    components); arithmetic is exact. *)
From mathcomp Require Import all_ssreflect all_algebra.
Set Implicit Arguments.
Unset Strict Implicit.
Unset Printing Implicit Defensive.
Import GRing.Theory.
Local Open Scope ring_scope.

Inductive lerror := LTypeError | LValueError | LNan.

(** [x.mean(axis=0)], [lax.pmean] *)
Definition meanl (R : fieldType) (V : lmodType R) (s : seq V) : V := (size s)%:R^-1 *: foldr +%R 0 s.
Definition suml (V : zmodType) (s : seq V) : V := foldr +%R 0 s.

Section Loss.
Variable R : fieldType.
Notation mean := (@meanl R [lmodType R of R^o]).

(** What a batch entry gives: the predicted fields of the solver steps, its window of
    the data ([batch['u']]) and the pairs ([kl_q0], [kl_path]) of the steps *)
Record entry := Entry { preds : seq (seq R); window : seq (seq R); kls : seq (R * R) }.

(** The carry of [body_fn] (l.269-275) starts at 0 and adds the terms of each step. *)
Definition total_q0 (e : entry) : R := foldl (fun acc kl => kl.1 + acc) 0 (kls e).
Definition total_path (e : entry) : R := foldl (fun acc kl => kl.2 + acc) 0 (kls e).
(** [optax.l2_loss] is half the square; summed over nodes and components, l.308-309 *)
Definition l2_loss (p t : seq R) : R := suml [seq 2%:R^-1 * (ab.1 - ab.2) ^+ 2 | ab <- zip p t].
(** l.302-305 *)
Definition targets (time_order steps : nat) (e : entry) : seq (seq R) := take steps (drop time_order (window e)).
(** l.310: one number per step *)
Definition mse (time_order steps : nat) (batch : seq entry) : seq R :=
  [seq mean [seq l2_loss (nth [::] (preds e) t) (nth [::] (targets time_order steps e) t) | e <- batch] | t <- iota 0 steps].
Record outcome := Outcome { o_loss : R; o_q0 : R; o_path : R; o_kl : R; o_mse : seq R }.
(** [compute_mse_loss], l.302-315, 338-349.  [lax.slice_in_dim] refuses a window that is too
    short; means over nothing are NaN.  The spectra are left out. *)
Definition compute_mse_loss (time_order steps : nat) (kl_penalty : R) (batch : seq entry) : lerror + outcome :=
  if ~~ all (fun e => (time_order + steps <= size (window e))%N) batch then inl LTypeError
  else if batch is [::] then inl LNan else
  let q0 := mean [seq total_q0 e | e <- batch] in
  let path := mean [seq total_path e | e <- batch] in
  let m := mse time_order steps batch in
  inr (Outcome (suml m + kl_penalty * (q0 + path)) q0 path (kl_penalty * (q0 + path)) m).

(** [x[i]] with a constant index: jax clamps it to the array *)
Definition clamped (s : seq R) (i : nat) : R := nth 0 s (minn i (size s).-1).
(** [compute_metrics], l.352-374, before [lax.pmean] *)
Record metrics := Metrics { m_loss : R; m_mse : R; m_first8 : R; m_at : seq R }.
Definition compute_metrics (o : outcome) : metrics :=
  Metrics (o_loss o) (mean (o_mse o)) (mean (take 8 (o_mse o))) [seq clamped (o_mse o) k.-1 | k <- [:: 8; 16; 32; 64; 128]%N].

(** [prepare_tf_data]: [x.reshape((devices, -1) + x.shape[1:])] *)
Definition spread (T : Type) (devices : nat) (x : seq T) : lerror + seq (seq T) :=
  if (0 < devices)%N && (devices %| size x)%N then inr (reshape (nseq devices (size x %/ devices)%N) x) else inl LValueError.
End Loss.
