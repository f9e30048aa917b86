(** Model of the shapes in niles/transformer.py: which configurations of the closure
    model run, and the shape of what they return.  Array shapes are lists.  The
    rules of jax (broadcasting, [reshape], [tile]) and flax ([Dense], [avg_pool]
    with padding 'same', [dot_product_attention], [MultiHeadDotProductAttention])
    are those they document.  dtypes, parameters and flax's rules on mixing
    modules with jax transformations are left out. *)
From mathcomp Require Import all_ssreflect.
Set Implicit Arguments.
Unset Strict Implicit.
Unset Printing Implicit Defensive.

Inductive xerror := XAssertion | XZeroDivision | XShape | XIndex | XUnbound.
Definition res : Type := xerror + seq nat.
Definition bind (x : res) (f : seq nat -> res) : res := match x with inl e => inl e | inr s => f s end.
Definition check (b : bool) (e : xerror) (x : res) : res := if b then x else inl e.
Definition prodn (s : seq nat) : nat := foldr muln 1 s.
Definition ceil_div (a b : nat) : nat := (a + b.-1) %/ b.
(** [x.shape[-1]], [x.shape[:-1]] *)
Definition lastdim (x : seq nat) : nat := last 0 x.
Definition initdims (x : seq nat) : seq nat := take (size x).-1 x.

(** [x + y]: shapes aligned at the right, extents equal or 1 *)
Fixpoint broadcast_rev (x y : seq nat) : option (seq nat) :=
  match x, y with
  | [::], _ => Some y
  | _, [::] => Some x
  | a :: x', b :: y' =>
      match broadcast_rev x' y' with
      | Some z => if (a == b) || (b == 1) then Some (a :: z) else if a == 1 then Some (b :: z) else None
      | None => None
      end
  end.
Definition add_shape (x y : seq nat) : res :=
  if broadcast_rev (rev x) (rev y) is Some z then inr (rev z) else inl XShape.
(** [x.reshape(y)] *)
Definition reshape (x y : seq nat) : res := check (prodn x == prodn y) XShape (inr y).
(** [x.reshape(y + (-1,))] *)
Definition reshape_rest (x y : seq nat) : res :=
  check ((0 < prodn y) && (prodn y %| prodn x)) XShape (inr (rcons y (prodn x %/ prodn y))).
(** [nn.Dense(features)] *)
Definition dense (features : nat) (x : seq nat) : seq nat := rcons (initdims x) features.
(** [jnp.tile]: repetitions are extended with ones on the left, and so is the shape *)
Definition tile (x reps : seq nat) : seq nat :=
  let n := maxn (size x) (size reps) in
  [seq ab.1 * ab.2 | ab <- zip (nseq (n - size x) 1 ++ x) (nseq (n - size reps) 1 ++ reps)].
(** [nn.avg_pool]/[nn.max_pool] with padding 'same': the window covers the axes before
    the last one *)
Definition pool (x window strides : seq nat) : res :=
  let strides := if strides is [::] then nseq (size window) 1 else strides in
  check (size window == size strides) XAssertion
  (check ((size window).+1 <= size x) XAssertion
  (check (all (leq 1) window && all (leq 1) strides) XShape
    (let nb := (size x - (size window).+1)%N in
     inr (take nb x ++ [seq ceil_div ab.1 ab.2 | ab <- zip (take (size window) (drop nb x)) strides] ++ [:: lastdim x])))).
(** [nn.dot_product_attention(q, k, v)] with [v] of the shape of [k] *)
Definition attention (q k : seq nat) : res :=
  let nq := size q in let nk := size k in
  check ((2 < nq) && (nq == nk) && (take (nq - 3) q == take (nk - 3) k) && (drop (nq - 2) q == drop (nk - 2) k)) XAssertion (inr q).
(** [nn.DenseGeneral(features, axis=(-2, -1))] *)
Definition dense_general (features : nat) (x : seq nat) : seq nat := rcons (take (size x - 2) x) features.

(** [attention_pooling], l.33-63; the mode is never 'none' here *)
Definition attention_pooling (x window strides : seq nat) (heads : nat) : res :=
  check (0 < heads) XZeroDivision
  (let head_dim := lastdim x %/ heads in
   if (window == [::]) || (prodn window == 1) then reshape x (initdims x ++ [:: heads; head_dim])
   else bind (pool x window strides) (fun y => reshape y (initdims y ++ [:: heads; head_dim]))).
(** [MultiScaleAttentionDownSample], l.113-146 *)
Definition downsample (heads : nat) (pool_q pool_kv stride_q stride_kv x : seq nat) : res :=
  let features := lastdim x in
  bind (attention_pooling (dense features x) pool_q stride_q heads) (fun q =>
  bind (attention_pooling (dense features x) pool_kv stride_kv heads) (fun k =>
  bind (attention q k) (fun y =>
  bind (add_shape y q) (fun y => inr (dense_general features y))))).
(** [MultiScaleAttentionUpsample], l.158-203.  [reps] is a tuple or, in layers
    that do not pool, a generator of ones (l.399): the first [jnp.tile] uses it up, so
    that [key] and [value] are repeated by nothing.  [reps_kv] is what is left. *)
Definition upsample (heads : nat) (reps reps_kv x : seq nat) : res :=
  let features := lastdim x in
  let q := tile (dense features x) reps in
  let k := tile (dense features x) reps_kv in
  check (2 <= size q) XIndex
  (bind (reshape_rest q (take 2 q ++ [:: heads])) (fun q =>
   bind (reshape_rest k (take 2 k ++ [:: heads])) (fun k =>
   bind (attention q k) (fun y =>
   bind (add_shape y q) (fun y => inr (dense_general features y)))))).
(** [MlpBlock], l.79-97, and the skip connection behind it (l.262-271, 307-316) *)
Definition mlp_block (out_dim : nat) (x_in x : seq nat) : res :=
  let y := dense out_dim x in
  add_shape y (if out_dim == lastdim x_in then x else dense out_dim x).
(** [EncoderBlock], l.219-271 *)
Definition encoder_block (out_dim heads : nat) (kernel_q kernel_kv stride_q stride_kv x : seq nat) : res :=
  bind (downsample heads kernel_q kernel_kv stride_q stride_kv x) (fun y =>
  bind (if (stride_q != [::]) && (1 < prodn stride_q)
        then bind (attention_pooling x [seq if 1 < s then s.+1 else s | s <- stride_q] stride_q heads)
               (fun r => reshape_rest r (take (size r - 2) r))
        else inr x) (fun r =>
  bind (add_shape y r) (fun y => mlp_block out_dim x y))).
(** [DecoderBlock], l.283-316; [pooling] says that [reps] is the tuple *)
Definition decoder_block (out_dim heads : nat) (pooling : bool) (reps x : seq nat) : res :=
  let ones := [seq 1 | _ <- reps] in
  bind (if pooling then upsample heads reps reps x else upsample heads ones [::] x) (fun y =>
  bind (add_shape y (if pooling && (1 < prodn reps) then tile x reps else x)) (fun y => mlp_block out_dim x y)).

Record config := Config {
  depth : nat; width : nat; num_initial_heads : nat; pooling_layers : seq nat;
  pooling_kernel : seq nat; pooling_strides_q : seq nat; initial_kv_pooling_strides : seq nat; qkv_tile_reps : seq nat;
  use_residuals : bool; pool_q_every_layer : bool; mean_after_decoder : bool;
  num_samples : nat; use_transformer : bool; latent_size : nat; data_size : nat; num_gridpoints : nat; num_sde_layers : nat }.

Section Model.
Variable c : config.
(** [MultiscaleEncoder], l.334-374.  Result: the shape and the skips, newest
    first. *)
Fixpoint encoder_layers (n layer heads : nat) (stride_kv x : seq nat) (skips : seq (nat * seq nat)) : xerror + (seq nat * seq (nat * seq nat)) :=
  if n is n'.+1 then
    let pooling := layer \in pooling_layers c in
    let heads := if pooling then heads * 2 else heads in
    let stride_kv := if pooling then [seq if 1 < y then y %/ 2 else 1 | y <- stride_kv] else stride_kv in
    let ones := [seq 1 | _ <- pooling_strides_q c] in
    let stride_q := if pooling then pooling_strides_q c else ones in
    let pool_q := if pooling || pool_q_every_layer c then pooling_kernel c else ones in
    let skips := if pooling then (layer, x) :: skips else skips in
    let out_dim := if layer.+1 \in pooling_layers c then lastdim x * 2 else lastdim x in
    match encoder_block out_dim heads pool_q (pooling_kernel c) stride_q stride_kv x with
    | inl e => inl e
    | inr y => encoder_layers n' layer.+1 heads stride_kv y skips
    end
  else inr (x, skips).
Definition encoder (x : seq nat) : xerror + (seq nat * seq (nat * seq nat)) :=
  if size x == 3 then encoder_layers (depth c) 0 (num_initial_heads c) (initial_kv_pooling_strides c) x [::] else inl XAssertion.
(** [MultiscaleDecoder], l.390-428: layers [n - 1], ..., 0 *)
Definition skip_of (skips : seq (nat * seq nat)) (layer : nat) : option (seq nat) :=
  ohead [seq ls.2 | ls <- skips & ls.1 == layer].
Fixpoint decoder_layers (n : nat) (skips : seq (nat * seq nat)) (x : seq nat) : res :=
  if n is layer.+1 then
    let pooling := layer \in pooling_layers c in
    let out_dim := if layer.+1 \in pooling_layers c then lastdim x %/ 2 else lastdim x in
    check (0 < width c) XZeroDivision
    (bind (decoder_block out_dim (lastdim x %/ width c) pooling (qkv_tile_reps c) x) (fun y =>
     if pooling && use_residuals c then
       match skip_of skips layer with
       | None => inl XIndex
       | Some s => bind (add_shape y s) (fun z => check (z == s) XAssertion (decoder_layers layer skips z))
       end
     else decoder_layers layer skips y))
  else inr x.
Definition decoder (skips : seq (nat * seq nat)) (x : seq nat) : res :=
  check (size x == 3) XAssertion (decoder_layers (depth c) skips x).

(** [Dynamics], l.725-778, on a state of length [n]: the context is reshaped to the
    sequence of the state, and the blocks use two heads *)
Definition dynamics_ok (n ctx : nat) : bool :=
  [&& 0 < latent_size c, n %% latent_size c == 1, (num_sde_layers c == 0) || ~~ odd (latent_size c) & ctx == n.-1].
(** [LatentSDE], l.940-1009.  The bodies of [sample] and [sample_sde] have no further
    conditions on shapes; [brownian_path] divides by the number of points. *)
Definition latent_sde (x : seq nat) : res :=
  let batch := head 0 x in
  if use_transformer c then
    check (x == [:: batch; nth 0 x 1; latent_size c]) XAssertion
    (let len := nth 0 x 1 * latent_size c in
     if 1 < num_samples c
     then check (0 < num_gridpoints c) XZeroDivision
          (check (dynamics_ok len.+1 len) XAssertion (inr [:: batch; num_samples c; nth 0 x 1; latent_size c]))
     else (** the ODE sampler passes a state without a KL slot (l.880); behind it [kl_q0] and
             [kl_path] have no value (l.971-972) *)
          check (dynamics_ok len len) XAssertion (inl XUnbound))
  else
    check (x == [:: batch; data_size c]) XAssertion
    (** l.986-992: one initial state per batch entry *)
    (check (num_samples c == 1) XAssertion
    (check (0 < num_gridpoints c) XZeroDivision (inr [:: batch; num_samples c; data_size c]))).
(** [x.mean(axis=1)], and what [jax.vmap] over axis 1 passes on *)
Definition drop_axis1 (x : seq nat) : seq nat := take 1 x ++ drop 2 x.
(** [Model.__call__], l.476-568 *)
Definition model (inputs : seq nat) : res :=
  check (size inputs == 3) XAssertion
  (let encoded := dense (width c) inputs in
   bind (if depth c == 0 then inr encoded else
     match encoder encoded with
     | inl e => inl e
     | inr (x, skips) =>
       bind (if 0 < num_samples c then
               bind (latent_sde (if use_transformer c then x else [:: head 0 x; prodn (behead x)])) (fun y =>
               inr (if mean_after_decoder c then y else drop_axis1 y))
             else inr x) (fun y =>
       bind (decoder skips (if mean_after_decoder c then drop_axis1 y else y)) (fun z =>
       (** [decoder_input = encoded + x] is computed, but not used afterwards *)
       bind (add_shape encoded z) (fun _ => inr z)))
     end) (fun x => inr (dense (lastdim inputs) x))).
End Model.
