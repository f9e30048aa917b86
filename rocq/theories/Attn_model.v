(** Model of the values in the attention blocks of niles/transformer.py: softmax
    attention, the upsampling of the decoder and the pooling of the encoder along the
    sequence.  One batch entry at a time (the batch is mapped over).  [Dense],
    [LayerNorm] and [MlpBlock] act on single tokens and are arbitrary functions.  All
    layers use one space of tokens; channels are in [Shape_model].  Arithmetic is
    exact, [ex] is the exponential function. *)
From mathcomp Require Import all_ssreflect all_algebra.
Set Implicit Arguments.
Unset Strict Implicit.
Unset Printing Implicit Defensive.
Import Order.TTheory GRing.Theory Num.Theory.
Local Open Scope ring_scope.

(** [jnp.tile] along the sequence: the whole sequence again and again *)
Definition tile (T : Type) (r : nat) (x : seq T) : seq T := flatten (nseq r x).

Section Attention.
Variables (R : realFieldType) (ex : R -> R) (heads d : nat) (scale : R).
Notation W := 'rV[R]_d.
Implicit Types (q : W) (ks vs : seq W).

(** [flax.linen.dot_product_attention] for one query of one head: the query is divided by
    the square root of [d] ([scale]), softmax subtracts the largest score *)
Definition score q (k : W) : R := \sum_i (q 0 i * scale) * k 0 i.
Definition maxl (s : seq R) : R := if s is a :: s' then foldr Num.max a s' else 0.
Definition softmax (s : seq R) : seq R :=
  let e := [seq ex (a - maxl s) | a <- s] in [seq a / foldr +%R 0 e | a <- e].
Definition attend q ks vs : W :=
  foldr +%R 0 [seq wv.1 *: wv.2 | wv <- zip (softmax [seq score q k | k <- ks]) vs].

Notation H := {ffun 'I_heads -> W}.
(** All heads of one query token, with [x += q] (l.189-193; [use_residual_q_pooling]
    is true everywhere) *)
Definition at_head (h : 'I_heads) (t : H) : W := t h.
Definition attend_heads (q : H) (ks vs : seq H) : H :=
  [ffun h => attend (q h) (map (at_head h) ks) (map (at_head h) vs) + q h].

Variable V : lmodType R.
(** The parameters of a [DecoderBlock] (l.274-316), with the repetitions along the
    sequence: those of [qkv_tile_reps] in a pooling layer and 1 in the others (l.396-399;
    there the code passes a generator, which is used up by the first [jnp.tile] and is
    then an empty tuple: no tiling either way) *)
Record layer := Layer {
  norm1 : V -> V; query : V -> H; key : V -> H; value : V -> H;
  out : H -> V; mlp : V -> V; skip : V -> V; reps : nat }.
Definition with_reps (r : nat) (l : layer) : layer :=
  Layer (norm1 l) (query l) (key l) (value l) (out l) (mlp l) (skip l) r.

(** [MultiScaleAttentionUpsample], l.158-203 *)
Definition upsample (l : layer) (x : seq V) : seq V :=
  let q := tile (reps l) [seq query l t | t <- x] in
  let k := tile (reps l) [seq key l t | t <- x] in
  let v := tile (reps l) [seq value l t | t <- x] in
  [seq out l (attend_heads qt k v) | qt <- q].
(** [DecoderBlock], l.283-316: [mlp] and [skip] include the second norm; a block
    whose [project_skip] is absent has the identity as [skip] *)
Definition decoder_block (l : layer) (x : seq V) : seq V :=
  let y := upsample l [seq norm1 l t | t <- x] in
  let z := [seq ab.1 + ab.2 | ab <- zip y (tile (reps l) x)] in
  [seq mlp l t + skip l t | t <- z].
(** [MultiscaleDecoder], l.389-428: the layers in the order in which they run, each with
    the skip that is added after it, if there is one (l.416-417), and the last norm *)
Definition add_skip (sk : option (seq V)) (x : seq V) : seq V :=
  if sk is Some y then [seq ab.1 + ab.2 | ab <- zip x y] else x.
Definition decoder_layers (layers : seq (layer * option (seq V))) (x : seq V) : seq V :=
  foldl (fun y l => add_skip l.2 (decoder_block l.1 y)) x layers.
Definition decoder (layers : seq (layer * option (seq V))) (norm : V -> V) (x : seq V) : seq V :=
  [seq norm t | t <- decoder_layers layers x].

(** [nn.avg_pool] along the sequence with padding 'same' (l.56): the padding is split
    evenly, with the odd one at the end; padded zeros count in the mean *)
Definition ceil_div (a b : nat) : nat := ((a + b.-1) %/ b)%N.
Definition pad_low (k s n : nat) : nat := (((ceil_div n s).-1 * s + k - n) %/ 2)%N.
Definition avg_pool (k s : nat) (x : seq V) : seq V :=
  let lo := pad_low k s (size x) in
  let padded := nseq lo 0 ++ x in
  [seq k%:R^-1 *: foldr +%R 0 [seq nth 0 padded (c * s + j)%N | j <- iota 0 k]
  | c <- iota 0 (ceil_div (size x) s)].
End Attention.
