(** Model of the values of the whole network of niles/transformer.py: the blocks of the
    encoder with their pooling (l.33-64, 102-155, 205-271), the encoder (l.319-373), the
    way through the decoder (l.376-428) and [Model] (l.454-568).

    One batch entry at a time, windows and strides along the sequence (one dimension), as
    in [Attn_model], whose attention, decoder blocks and averages are used here.  [Dense],
    [LayerNorm] and [MlpBlock] act on single tokens and are arbitrary functions, except
    the last [Dense], which is written out.  All layers have one space of tokens of width
    [w]; the channels that a layer does not have may be taken as 0.  Each layer has its
    own number of heads and head dimension.  Arithmetic is exact, [ex] is the exponential
    function.  Two sequences are added token by token, [zip] cuts off the longer one where
    jax would raise; that lengths agree is proved (and is the subject of [Shape_model]). *)
From mathcomp Require Import all_ssreflect all_algebra.
From Verif Require Import Attn_model.
Set Implicit Arguments.
Unset Strict Implicit.
Unset Printing Implicit Defensive.
Import Order.TTheory GRing.Theory Num.Theory.
Local Open Scope ring_scope.

Section Net.
Variables (R : realFieldType) (ex : R -> R) (w : nat).
Notation V := 'rV[R]_w.

(** [nn.max_pool] with padding 'same' (l.58): padded entries are minus infinity, so that
    a window has the largest entries of the tokens it contains *)
Definition max_pool (k s : nat) (x : seq V) : seq V :=
  let lo := pad_low k s (size x) in
  [seq \row_i maxl [seq nth 0 x p 0 i | p <- iota 0 (size x) & (c * s <= p + lo < c * s + k)%N]
  | c <- iota 0 (ceil_div (size x) s)].
(** [attention_pooling], l.33-64, in mode 'avg' for queries, keys and values and in mode
    'max' for the skip connection; the split into heads is [b_split].  A window of 1 does
    not pool, whatever the stride. *)
Definition pool_avg (k s : nat) (x : seq V) : seq V := if k == 1%N then x else avg_pool k s x.
Definition pool_max (k s : nat) (x : seq V) : seq V := if k == 1%N then x else max_pool k s x.

Definition add_seq (x y : seq V) : seq V := [seq ab.1 + ab.2 | ab <- zip x y].

(** The parameters of an [EncoderBlock], l.205-271: [b_skip] is the identity or the norm
    followed by [project_skip], [b_mlp] includes the second norm *)
Record block := Block {
  b_heads : nat; b_dim : nat; b_scale : R;
  b_norm : V -> V; b_query : V -> V; b_key : V -> V; b_value : V -> V;
  b_split : V -> {ffun 'I_b_heads -> 'rV[R]_b_dim};
  b_out : {ffun 'I_b_heads -> 'rV[R]_b_dim} -> V;
  b_mlp : V -> V; b_skip : V -> V }.
(** [MultiScaleAttentionDownSample], l.102-155 *)
Definition downsample (b : block) (pool_q pool_kv stride_q stride_kv : nat) (x : seq V) : seq V :=
  let q := map (@b_split b) (pool_avg pool_q stride_q [seq b_query b t | t <- x]) in
  let k := map (@b_split b) (pool_avg pool_kv stride_kv [seq b_key b t | t <- x]) in
  let v := map (@b_split b) (pool_avg pool_kv stride_kv [seq b_value b t | t <- x]) in
  [seq b_out (attend_heads ex (b_scale b) qt k v) | qt <- q].
(** [EncoderBlock], l.218-271 *)
Definition encoder_block (b : block) (pool_q pool_kv stride_q stride_kv : nat) (x : seq V) : seq V :=
  let y := downsample b pool_q pool_kv stride_q stride_kv [seq b_norm b t | t <- x] in
  let res := if (1 < stride_q)%N then pool_max stride_q.+1 stride_q x else x in
  [seq b_mlp b t + b_skip b t | t <- add_seq y res].

(** The configuration, l.456-474 *)
Record params := Params {
  pooling_layers : seq nat; pooling_kernel : nat; pooling_stride : nat;
  kv_stride : nat; tile_reps : nat; pool_q_every_layer : bool; use_residuals : bool }.

(** [MultiscaleEncoder], l.319-373, from layer [i] on; the skips by number of layer *)
Fixpoint encoder_layers (c : params) (i kv : nat) (bs : seq block) (x : seq V) (skips : seq (nat * seq V)) :
    seq V * seq (nat * seq V) :=
  if bs is b :: bs' then
    let pooling := i \in pooling_layers c in
    let kv' := if pooling then (if (1 < kv)%N then (kv %/ 2)%N else 1%N) else kv in
    let stride_q := if pooling then pooling_stride c else 1%N in
    let pool_q := if pooling || pool_q_every_layer c then pooling_kernel c else 1%N in
    let skips' := if pooling then (i, x) :: skips else skips in
    encoder_layers c i.+1 kv' bs' (encoder_block b pool_q (pooling_kernel c) stride_q kv' x) skips'
  else (x, skips).
Definition encoder (c : params) (bs : seq block) (norm : V -> V) (x : seq V) : seq V * seq (nat * seq V) :=
  let ys := encoder_layers c 0 (kv_stride c) bs x [::] in ([seq norm t | t <- ys.1], ys.2).

(** The parameters of a [DecoderBlock] with heads of its own *)
Record dec := Dec { d_heads : nat; d_dim : nat; d_scale : R; d_layer : layer d_heads d_dim [lmodType R of V] }.
(** [MultiscaleDecoder], l.389-428: the layers in order of their numbers, the last runs
    first.  [qkv_tile_reps] in pooling layers, no tiling in others; the skip of a pooling
    layer is added after it. *)
Definition find_skip (skips : seq (nat * seq V)) (i : nat) : option (seq V) :=
  if [seq p.2 | p <- skips & p.1 == i] is y :: _ then Some y else None.
Definition run_dec (r : nat) (l : dec) (x : seq V) : seq V := decoder_block ex (d_scale l) (with_reps r (d_layer l)) x.
Fixpoint decoder_from (c : params) (i : nat) (ls : seq dec) (skips : seq (nat * seq V)) (x : seq V) : seq V :=
  if ls is l :: ls' then
    let y := decoder_from c i.+1 ls' skips x in
    if i \in pooling_layers c then
      let z := run_dec (tile_reps c) l y in
      if use_residuals c then add_skip (V := [lmodType R of V]) (find_skip skips i) z else z
    else run_dec 1 l y
  else x.
Definition net_decoder (c : params) (ls : seq dec) (norm : V -> V) (skips : seq (nat * seq V)) (x : seq V) : seq V :=
  [seq norm t | t <- decoder_from c 0 ls skips x].

(** The processor, l.506-519 ([LatentSDE], an arbitrary function of the encoded sequence
    that gives samples): absent, or with the mean over the samples before or after the
    decoder.  [mean_after_decoder] without a processor raises ([C68_mean_refuted]). *)
Inductive processor := NoProcessor | MeanFirst of (seq V -> seq (seq V)) | DecodeFirst of (seq V -> seq (seq V)).
Definition mean_seq (xs : seq (seq V)) : seq V :=
  [seq (size xs)%:R^-1 *: foldr +%R 0 [seq nth 0 x p | x <- xs] | p <- iota 0 (size (head [::] xs))].
Definition process (pr : processor) (decode : seq V -> seq V) (x : seq V) : seq V :=
  match pr with
  | NoProcessor => decode x
  | MeanFirst f => decode (mean_seq (f x))
  | DecodeFirst f => mean_seq [seq decode y | y <- f x]
  end.

(** [nn.Dense(inputs.shape[-1], name='decoded_patches')], l.548-553, as a row of numbers *)
Definition dense (ch : nat) (kernel : 'M[R]_(w, ch)) (bias : 'rV[R]_ch) (t : V) : seq R :=
  [seq (t *m kernel + bias) 0 j | j <- enum 'I_ch].
(** [Model], l.476-568: [embed] is the [Dense] 'embedding', [pos] the positional embedding
    ([AddPosEmbs], l.431-451).  The sum [decoder_input = encoded + x] (l.543) is not used. *)
Definition embedded (embed : seq R -> V) (pos : nat -> V) (inputs : seq (seq R)) : seq V :=
  [seq embed (nth [::] inputs p) + pos p | p <- iota 0 (size inputs)].
Definition network (c : params) (embed : seq R -> V) (pos : nat -> V) (bs : seq block) (enc_norm : V -> V)
    (pr : processor) (ls : seq dec) (dec_norm : V -> V) (ch : nat) (kernel : 'M[R]_(w, ch)) (bias : 'rV[R]_ch)
    (inputs : seq (seq R)) : seq (seq R) :=
  let x := embedded embed pos inputs in
  let y := if (0 < size bs)%N then
      let es := encoder c bs enc_norm x in process pr (net_decoder c ls dec_norm es.2) es.1
    else x in
  [seq dense kernel bias t | t <- y].
End Net.
Arguments NoProcessor {R w}.
Arguments Dec {R w}.
