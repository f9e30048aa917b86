(** Model of the configuration of the trainer: niles/config/niles.py
    ([get_config], [sweep]), its command line (niles/main.py l.33-37 and l.60,
    [lock_config=True]), [create_model] (niles/train.py l.95-115) and the reads of
    the configuration by the network (niles/transformer.py l.455-524, 785-812).

    [ml_collections] is modelled by what its documentation promises.  A
    [ConfigDict] is a list of keys with values, reading a missing key raises
    [AttributeError].  The command line sets existing fields of a locked
    configuration: a missing key raises, a value of another type raises, except
    that a float field takes an integer; a field that is itself a dictionary cannot
    be set.  Floats are rational numbers.  Tuples have integer entries. *)
From Coq Require Import String QArith.
From mathcomp Require Import all_ssreflect all_algebra.
From Verif Require Import Shape_model Pipeline_model.
Set Implicit Arguments.
Unset Strict Implicit.
Unset Printing Implicit Defensive.
Local Open Scope string_scope.
Local Open Scope nat_scope.

Inductive value := VInt of int | VBool of bool | VFloat of Q | VStr of string | VTuple of seq int | VDict of seq (string * value).
Inductive cerror := CAttribute of string | CType | CUnsupported | CValue | CModel of xerror.

Fixpoint find (kvs : seq (string * value)) (k : string) : option value :=
  if kvs is (k', v) :: kvs' then (if String.eqb k k' then Some v else find kvs' k) else None.
Fixpoint update (kvs : seq (string * value)) (k : string) (w : value) : seq (string * value) :=
  if kvs is (k', v) :: kvs' then (if String.eqb k k' then (k', w) :: kvs' else (k', v) :: update kvs' k w) else [::].

(** [config.a.b.c] *)
Fixpoint get (v : value) (path : seq string) : cerror + value :=
  if path is k :: p then
    if v is VDict kvs then (if find kvs k is Some w then get w p else inl (CAttribute k)) else inl (CAttribute k)
  else inr v.
(** [--config.a.b.c=new] *)
Definition coerce (old new : value) : cerror + value :=
  match old, new with
  | VInt _, VInt _ | VBool _, VBool _ | VFloat _, VFloat _ | VStr _, VStr _ | VTuple _, VTuple _ => inr new
  | VFloat _, VInt n => inr (VFloat (inject_Z (match n with Posz m => Z.of_nat m | Negz m => Z.opp (Z.of_nat m.+1) end)))
  | VDict _, _ => inl CUnsupported
  | _, _ => inl CType
  end.
Fixpoint override (v : value) (path : seq string) (new : value) : cerror + value :=
  if path is k :: p then
    if v is VDict kvs then
      match find kvs k with
      | None => inl (CAttribute k)
      | Some w => match override w p new with inl e => inl e | inr w' => inr (VDict (update kvs k w')) end
      end
    else inl (CAttribute k)
  else coerce v new.
Fixpoint overrides (v : value) (sets : seq (seq string * value)) : cerror + value :=
  if sets is (p, w) :: sets' then match override v p w with inl e => inl e | inr v' => overrides v' sets' end
  else inr v.

(** [get_config], niles.py l.20-95.  The numbers a user would edit are parameters;
    the file has those of [shipped_base]. *)
Record base := Base {
  b_num_steps : nat; b_eval_num_steps : nat; b_width : nat; b_depth : nat; b_num_samples : nat;
  b_window_step : nat; b_ndim : nat; b_grid : nat; b_order : nat; b_time_order : nat }.
Definition shipped_base : base := Base 8 125 48 6 4 1 2 12 4 3.
Definition vnat (n : nat) : value := VInt n.
Definition vtuple (s : seq nat) : value := VTuple [seq Posz n | n <- s].
Definition processor_dict (b : base) : seq (string * value) :=
  [:: ("num_samples", vnat (b_num_samples b));
      ("use_transformer", VBool true);
      ("data_size", vnat (b_width b * 4 * 9));
      ("latent_size", vnat (b_width b * 4));
      ("num_gridpoints", vnat 16);
      ("num_sde_layers", vnat 4);
      ("context_size", vnat 32);
      ("hidden_size", vnat 32);
      ("prior_scale", VFloat (1 # 10))].
Definition pooling_of (depth : nat) : value := VTuple [:: (depth%:Z - 4%:Z)%R; (depth%:Z - 2%:Z)%R].
Definition model_dict (b : base) : seq (string * value) :=
  [:: ("width", vnat (b_width b));
      ("use_residuals", VBool true);
      ("depth", vnat (b_depth b));
      ("num_initial_heads", vnat 1);
      ("pooling_layers", pooling_of (b_depth b));
      ("pooling_kernel", vtuple [:: 1; 5]);
      ("initial_kv_pooling_strides", vtuple [:: 1; 4]);
      ("pooling_strides_q", vtuple [:: 1; 4]);
      ("qkv_tile_reps", vtuple [:: 4; 1]);
      ("processor_config", VDict (processor_dict b));
      ("mean_after_decoder", VBool (0 < b_num_samples b))].
Definition config_dict (b : base) : seq (string * value) :=
  [:: ("batch_size", vnat 128);
      ("debug", VBool false);
      ("num_steps", vnat (b_num_steps b));
      ("eval_num_steps", vnat (b_eval_num_steps b));
      ("permute_elements", VBool true);
      ("num_pushforward_steps", VInt ((b_num_steps b)%:Z - 1)%R);
      ("model_name", VStr "multiscale_transformer");
      ("model", VDict (model_dict b));
      ("window_step", vnat (b_window_step b));
      ("dataset", VStr "kolmogorov_flow");
      ("ndim", vnat (b_ndim b));
      ("element_grid_size", vnat (b_grid b));
      ("order", vnat (b_order b));
      ("resolution", vnat (b_grid b * b_order b));
      ("time_order", vnat (b_time_order b));
      ("drag_coeff", VFloat (4 # 100));
      ("reynolds_number", VInt 20000%:Z);
      ("dt", VFloat (Qmult (1 # 1000) (inject_Z (Z.of_nat (b_window_step b)))));
      ("alpha", VFloat (0 # 1));
      ("num_nodes", vnat ((b_grid b * b_order b + 1) ^ 2));
      ("num_elements", vnat 144);
      ("num_channels", vnat ((b_order b + 1) ^ 2 * b_ndim b));
      ("train_window_size", vnat ((b_num_steps b + 3) * b_window_step b));
      ("train_window_stride", vnat 1);
      ("eval_window_size", vnat ((b_eval_num_steps b + 3) * b_window_step b));
      ("eval_window_stride", vnat 4);
      ("num_epochs", VFloat (15 # 1));
      ("learning_rate", VFloat (75 # 10000));
      ("grad_clip_norm", VFloat (1 # 100));
      ("weight_decay", VFloat (5 # 100));
      ("warmup_epochs", VFloat (1 # 1));
      ("kl_penalty", VFloat (1 # 100));
      ("kl_transition_epochs", VFloat (10 # 1));
      ("kl_zero_epochs", vnat 0);
      ("log_every_steps", vnat 100);
      ("checkpoint_epochs", vnat 1);
      ("eval_every_epochs", VFloat (1 # 10));
      ("cache", VBool true);
      ("num_train_steps", VInt (-1)%R);
      ("steps_per_eval", vnat 10)].
Definition get_config (b : base) : value := VDict (config_dict b).
(** [sweep], l.119-125: one list of settings for each run *)
Definition sweep : seq (seq (seq string * value)) :=
  [seq [:: ([:: "model"; "depth"], vnat d); ([:: "model"; "pooling_layers"], pooling_of d)] | d <- [:: 36; 40; 48]].

(** [create_model], train.py l.95-115: the arguments are evaluated in order.  The
    result stands for the module with these fields. *)
Definition model_fields : seq string :=
  [:: "num_layers"; "num_heads"; "depth"; "width"; "use_residuals"; "freeze_encoder"; "mean_after_decoder";
      "processor_config"; "num_initial_heads"; "pooling_layers"; "pooling_kernel"; "pooling_strides_q";
      "initial_kv_pooling_strides"; "qkv_tile_reps"].
Fixpoint read_all (v : value) (ks : seq string) : cerror + seq (string * value) :=
  if ks is k :: ks' then
    match get v [:: k] with
    | inl e => inl e
    | inr w => match read_all v ks' with inl e => inl e | inr kvs => inr ((k, w) :: kvs) end
    end
  else inr [::].
Definition create_model (name : string) (model_config : value) : cerror + seq (string * value) :=
  if String.eqb name "multiscale_transformer" then read_all model_config model_fields else inl CValue.
(** train.py l.590 *)
Definition train_model (config : value) : cerror + seq (string * value) :=
  match get config [:: "model_name"], get config [:: "model"] with
  | inl e, _ | _, inl e => inl e
  | inr (VStr name), inr mc => create_model name mc
  | inr _, inr _ => inl CValue
  end.

(** The reads of the fields with their types.  A negative layer is none. *)
Definition bind {A B : Type} (x : cerror + A) (f : A -> cerror + B) : cerror + B := match x with inl e => inl e | inr a => f a end.
Definition get_nat (v : value) (k : string) : cerror + nat :=
  bind (get v [:: k]) (fun w => if w is VInt (Posz n) then inr n else inl CType).
Definition get_bool (v : value) (k : string) : cerror + bool :=
  bind (get v [:: k]) (fun w => if w is VBool x then inr x else inl CType).
Definition get_seq (v : value) (k : string) : cerror + seq nat :=
  bind (get v [:: k]) (fun w => if w is VTuple s then inr (pmap (fun z => if z is Posz n then Some n else None) s) else inl CType).
(** [LatentSDE.setup], transformer.py l.785-812, reads these in this order. *)
Definition setup_fields : seq string :=
  [:: "num_gridpoints"; "latent_size"; "context_size"; "data_size"; "prior_scale"; "use_transformer"; "num_layers";
      "hidden_size"; "num_samples"; "num_sde_layers"].
(** [Model.__call__], transformer.py l.474-568, on inputs of a given shape: the
    processor's configuration is read only if there are encoder layers (l.501,
    518), and set up only if there are samples (l.523).  [use_bias] and
    [pool_q_every_layer] are not passed by [create_model] and have their defaults. *)
Definition run_model (m : seq (string * value)) (inputs : seq nat) : cerror + seq nat :=
  let v := VDict m in
  bind (get_nat v "depth") (fun depth =>
  bind (get_nat v "width") (fun width =>
  bind (get_nat v "num_initial_heads") (fun heads =>
  bind (get_seq v "pooling_layers") (fun layers =>
  bind (get_seq v "pooling_kernel") (fun kernel =>
  bind (get_seq v "pooling_strides_q") (fun strides_q =>
  bind (get_seq v "initial_kv_pooling_strides") (fun strides_kv =>
  bind (get_seq v "qkv_tile_reps") (fun reps =>
  bind (get_bool v "use_residuals") (fun residuals =>
  bind (get_bool v "mean_after_decoder") (fun mean =>
  let run n t l dt g sl :=
    match model (Config depth width heads layers kernel strides_q strides_kv reps residuals true mean n t l dt g sl) inputs with
    | inl e => inl (CModel e)
    | inr s => inr s
    end in
  if depth == 0 then run 0 false 0 0 0 0
  else bind (get v [:: "processor_config"]) (fun pc =>
  bind (get_nat pc "num_samples") (fun n =>
  if n == 0 then run 0 false 0 0 0 0
  else bind (read_all pc setup_fields) (fun _ =>
  bind (get_bool pc "use_transformer") (fun t =>
  bind (get_nat pc "latent_size") (fun l =>
  bind (get_nat pc "data_size") (fun dt =>
  bind (get_nat pc "num_gridpoints") (fun g =>
  bind (get_nat pc "num_sde_layers") (fun sl => run n t l dt g sl)))))))))))))))))).
(** [initialized], train.py l.117-126, called at l.521-522 after l.590: the module is created and runs
    once on a batch of one example. *)
Definition start (config : value) : cerror + seq nat :=
  bind (train_model config) (fun m =>
  bind (get_nat config "num_elements") (fun elements =>
  bind (get_nat config "num_channels") (fun channels => run_model m [:: 1; elements; channels]))).

(** The call of the network in the training and evaluation steps, train.py
    l.243-245 and l.251-252, binds its keywords to the parameters of
    [Model.__call__], transformer.py l.475-479; [rngs] is taken by [apply]. *)
Definition call_parameters : seq string := [:: "inputs"; "z_rng"; "debug"].
Definition step_keywords (train : bool) : seq string := if train then [:: "rngs"; "z_rng"; "train"] else [:: "z_rng"; "train"].
Definition bind_call (keywords : seq string) : cerror + unit :=
  if all (fun k => has (String.eqb k) call_parameters) [seq k <- keywords | ~~ String.eqb k "rngs"] then inr tt else inl CType.
Definition step_call (train : bool) (m : seq (string * value)) (inputs : seq nat) : cerror + seq nat :=
  bind (bind_call (step_keywords train)) (fun _ => run_model m inputs).

(** The data of a step: [create_split] reads the windows (input_pipeline.py l.99-125),
    [compute_mse_loss] takes the first [time_order] frames as histories and the
    frames behind them as targets (train.py l.206-216 and 302-305);
    [index_in_dim] and [slice_in_dim] raise outside the window.  The windows are those of one file. *)
Inductive derror := DConfig of cerror | DPipeline of perror | DRange.
Definition split_frames {T : Type} (time_order n : nat) (w : seq T) : derror + (seq T * seq T) :=
  if time_order + n <= size w then inr (take time_order w, take n (drop time_order w)) else inl DRange.
Fixpoint split_all {T : Type} (time_order n : nat) (ws : seq (seq T)) : derror + seq (seq T * seq T) :=
  if ws is w :: ws' then
    match split_frames time_order n w, split_all time_order n ws' with
    | inl e, _ | _, inl e => inl e
    | inr x, inr xs => inr (x :: xs)
    end
  else inr [::].
Definition window_settings (config : value) (train : bool) : cerror + (nat * nat * nat * nat * nat) :=
  bind (get_nat config (if train then "train_window_size" else "eval_window_size")) (fun size_ =>
  bind (get_nat config (if train then "train_window_stride" else "eval_window_stride")) (fun stride =>
  bind (get_nat config "window_step") (fun step =>
  bind (get_nat config "time_order") (fun order =>
  bind (get_nat config (if train then "num_steps" else "eval_num_steps")) (fun n => inr (size_, stride, step, order, n)))))).
Definition step_data {T : Type} (config : value) (train : bool) (file : seq T) : derror + seq (seq T * seq T) :=
  match window_settings config train with
  | inl e => inl (DConfig e)
  | inr (size_, stride, step, order, n) =>
    match windowed size_ stride step file with
    | inl e => inl (DPipeline e)
    | inr ws => split_all order n ws
    end
  end.
