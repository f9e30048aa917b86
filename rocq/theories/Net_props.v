(** C84: the network of niles/transformer.py as a whole, modelled in [Net_model]. *)
From mathcomp Require Import all_ssreflect all_algebra zify ring.
From Verif Require Import Attn_model Attn_props Net_model.
Set Implicit Arguments.
Unset Strict Implicit.
Unset Printing Implicit Defensive.
Import Order.TTheory GRing.Theory Num.Theory.
Local Open Scope ring_scope.

Section Pool.
Variables (R : realFieldType) (w : nat).
Notation V := 'rV[R]_w.
Implicit Types (x : seq V).

Lemma ceil_div_lt n s c : (0 < s)%N -> (c < ceil_div n s)%N -> (c * s < n)%N.
Proof.
rewrite /ceil_div => s0 h; have h1 : (c.+1 * s <= n + s.-1)%N by rewrite -leq_divRL.
by move: h1; rewrite mulSn; lia.
Qed.
Lemma ceil_div_1 n : ceil_div n 1 = n.
Proof. by rewrite /ceil_div divn1 addn0. Qed.
Lemma size_max_pool k s x : size (max_pool k s x) = ceil_div (size x) s.
Proof. by rewrite size_map size_iota. Qed.

(** Entry [i] of token [c] after max pooling is the largest entry [i] of the tokens under
    the window: it is one of them and none is larger *)
Definition under k s n c p : bool := (p < n)%N && (c * s <= p + pad_low k s n < c * s + k)%N.
Theorem C84_max k s x c i : (0 < s)%N -> (0 < k)%N -> (c < ceil_div (size x) s)%N ->
  (exists2 p, under k s (size x) c p & nth 0 (max_pool k s x) c 0 i = nth 0 x p 0 i) /\
  forall p, under k s (size x) c p -> nth 0 x p 0 i <= nth 0 (max_pool k s x) c 0 i.
Proof.
move=> s0 k0 hc; rewrite (nth_map 0%N) ?size_iota // nth_iota // add0n mxE.
set n := size x in hc *; set lo := pad_low k s n; set idx := [seq p <- iota 0 n | _].
have memE p : (p \in idx) = under k s n c p by rewrite mem_filter mem_iota andbC /under -/lo.
split=> [|p hp]; last by apply: maxl_ge; apply/mapP; exists p => //; rewrite memE.
have hcs := ceil_div_lt s0 hc.
have lok : (lo < k)%N.
  have C0 : (0 < ceil_div n s)%N by apply: leq_ltn_trans hc.
  have h : ((ceil_div n s).-1 * s < n)%N by apply: ceil_div_lt => //; rewrite prednK.
  have := leq_trunc_div ((ceil_div n s).-1 * s + k - n) 2; rewrite -/(pad_low k s n) -/lo.
  by clear -h k0; lia.
have ne : idx != [::].
  suff : (c * s - lo)%N \in idx by case: (idx).
  by rewrite memE /under -/lo; clear -hcs lok; lia.
have : maxl [seq nth 0 x p 0 i | p <- idx] \in [seq nth 0 x p 0 i | p <- idx].
  by apply: maxl_in; case: (idx) ne.
by case/mapP => p hp e; exists p; rewrite -?memE.
Qed.
(** In the skip connection, window [s + 1] and stride [s], where [s] divides the length:
    from the first token of the group to the first one of the next group, if there is one *)
Theorem C84_skip s m c p : (0 < s)%N -> under s.+1 s (m * s) c p = (p < m * s)%N && (c * s <= p <= c.+1 * s)%N.
Proof.
move=> s0; rewrite /under; case: ltnP => //= pm; have m0 : (0 < m)%N by case: (m) pm.
rewrite pad_lowE // (_ : s.+1 - s = 1)%N; last by clear; lia.
by rewrite addn0 mulSn; clear; lia.
Qed.
End Pool.

Section Net.
Variables (R : realFieldType) (ex : R -> R) (w : nat).
Notation V := 'rV[R]_w.
Notation block := (block R w).
Notation dec := (dec R w).
Implicit Types (x : seq V) (c : params) (b : block) (l : dec).

Lemma size_add_seq (x y : seq V) : size x = size y -> size (add_seq x y) = size y.
Proof. by move=> e; rewrite size_map size_zip e minnn. Qed.
Lemma size_pool_avg k s x : k != 1%N \/ s = 1%N -> size (pool_avg k s x) = ceil_div (size x) s.
Proof.
rewrite /pool_avg; case: eqP => [_ [//|->]|_ _]; first by rewrite ceil_div_1.
exact: size_pool.
Qed.
Lemma size_encoder_block b kq kkv sq skv x : (0 < sq)%N -> kq != 1%N \/ sq = 1%N ->
  size (encoder_block ex b kq kkv sq skv x) = ceil_div (size x) sq.
Proof.
move=> s0 h; rewrite size_map.
have sy : size (downsample ex b kq kkv sq skv [seq b_norm b t | t <- x]) = ceil_div (size x) sq.
  by rewrite !size_map size_pool_avg // !size_map.
set res := if _ then _ else x.
have sr : size res = ceil_div (size x) sq.
  rewrite /res; case: ifP => s1; first by rewrite /pool_max eqSS eqn0Ngt s0 size_max_pool.
  by have -> : sq = 1%N by [clear -s0 s1; lia]; rewrite ceil_div_1.
by rewrite size_add_seq // sy.
Qed.

Section Lengths.
Variable c : params.
Notation pl := (pooling_layers c).
Notation s := (pooling_stride c).
Hypotheses (s0 : (0 < s)%N) (k1 : pooling_kernel c != 1%N \/ s = 1%N).
(** How many of the [n] layers from [i] on are pooling layers *)
Definition pools i n : nat := count (mem pl) (iota i n).
Lemma poolsS i n : pools i n.+1 = ((i \in pl) + pools i.+1 n)%N.
Proof. by []. Qed.

Lemma encoder_lengths bs i kv x skips m : size x = (m * s ^ pools i (size bs))%N ->
  let r := encoder_layers ex c i kv bs x skips in
  [/\ size r.1 = m, forall j, (j < i)%N -> find_skip r.2 j = find_skip skips j &
    forall j, (i <= j < i + size bs)%N -> j \in pl ->
      exists2 y, find_skip r.2 j = Some y & size y = (m * s ^ pools j (i + size bs - j))%N].
Proof.
elim: bs i kv x skips => [|b bs IH] i kv x skips sx.
  by split=> //; [rewrite /= sx muln1|move=> j h; exfalso; move: h => /=; clear; lia].
rewrite [size (b :: bs)]/= poolsS in sx; cbn [encoder_layers].
set kv' := (if i \in pl then _ else kv); set sq := (if i \in pl then s else 1%N).
set kq := (if (i \in pl) || _ then _ else 1%N); set x' := encoder_block _ _ _ _ _ _ _.
have sx' : size x' = (m * s ^ pools i.+1 (size bs))%N.
  rewrite size_encoder_block; last 2 first.
  - by rewrite /sq; case: ifP.
  - by rewrite /sq /kq; case: (i \in pl) => //=; right.
  rewrite /sq sx; case: ifP => ip /=; last by rewrite add0n ceil_div_1.
  by rewrite add1n expnS mulnCA mulnC ceil_div_mul.
case: (IH i.+1 kv' x' (if i \in pl then (i, x) :: skips else skips) sx') => h1 h2 h3; split=> //.
- move=> j ji; rewrite h2; last by clear -ji; lia.
  by case: ifP => // _; rewrite /find_skip /= gtn_eqF.
- move=> j hj jp; have [e|ji] := eqVneq j i.
    exists x; first by rewrite e h2 // -e jp /find_skip /= e eqxx.
    rewrite e (_ : i + size (b :: bs) - i = (size bs).+1)%N ?poolsS //.
    by rewrite [size (_ :: _)]/=; clear; lia.
  have [y e1 e2] := h3 j (ltac:(move: hj ji; rewrite [size (_ :: _)]/=; clear; lia)) jp.
  by exists y; rewrite ?e2 // [size (_ :: _)]/= addSnnS.
Qed.

Hypothesis r1 : tile_reps c = s.
Lemma size_run_dec r l x : size (run_dec ex r l x) = (r * size x)%N.
Proof. by rewrite /run_dec size_block. Qed.
Lemma decoder_lengths ls i skips x :
  (use_residuals c -> forall j, (i <= j < i + size ls)%N -> j \in pl ->
    exists2 y, find_skip skips j = Some y & size y = (size x * s ^ pools j (i + size ls - j))%N) ->
  size (decoder_from ex c i ls skips x) = (size x * s ^ pools i (size ls))%N.
Proof.
elim: ls i => [|l ls IH] i H; first by rewrite /= muln1.
have sd : size (decoder_from ex c i.+1 ls skips x) = (size x * s ^ pools i.+1 (size ls))%N.
  apply: IH => ur j hj jp; have [y e1 e2] := H ur j (ltac:(move: hj; rewrite [size (_ :: _)]/=; clear; lia)) jp.
  by exists y; rewrite ?e2 // [size (_ :: _)]/= addSnnS.
rewrite [size (l :: ls)]/= poolsS; cbn [decoder_from]; case: ifP => ip; last first.
  by rewrite size_run_dec mul1n sd add0n.
have sz : size (run_dec ex (tile_reps c) l (decoder_from ex c i.+1 ls skips x)) = (size x * s ^ (1 + pools i.+1 (size ls)))%N.
  by rewrite size_run_dec sd r1 add1n expnS mulnCA.
case: ifP => // ur; have [y -> e] := H ur i (ltac:(rewrite [size (_ :: _)]/=; clear; lia)) ip.
rewrite /add_skip size_map size_zip sz e (_ : i + size (l :: ls) - i = (size ls).+1)%N ?poolsS ?ip ?minnn //.
by rewrite [size (_ :: _)]/=; clear; lia.
Qed.

(** The whole network *)
Variables (embed : seq R -> V) (pos : nat -> V) (bs : seq block) (enc_norm dec_norm : V -> V) (pr : processor R w) (ls : seq dec).
Variables (ch : nat) (kernel : 'M[R]_(w, ch)) (bias : 'rV[R]_ch).
Notation P := (pools 0 (size bs)).
(** The processor gives at least one sample, each as long as the encoded sequence *)
Definition keeps_length m : Prop :=
  match pr with
  | NoProcessor => True
  | MeanFirst f | DecodeFirst f => forall x, size x = m -> f x != [::] /\ {in f x, forall y, size y = m}
  end.
Hypothesis same_depth : size ls = size bs.
Lemma size_mean_seq (xs : seq (seq V)) m : xs != [::] -> {in xs, forall y, size y = m} -> size (mean_seq xs) = m.
Proof. by case: xs => // x xs _ H; rewrite size_map size_iota /= H ?inE ?eqxx. Qed.
(* what the last layer sees *)
Definition features (inputs : seq (seq R)) : seq V :=
  let x := embedded embed pos inputs in
  if (0 < size bs)%N then
    let es := encoder ex c bs enc_norm x in process pr (net_decoder ex c ls dec_norm es.2) es.1
  else x.
Notation net := (network ex c embed pos bs enc_norm pr ls dec_norm kernel bias).
Lemma networkE inputs : net inputs = [seq dense kernel bias t | t <- features inputs].
Proof. by []. Qed.
Lemma size_embedded inputs : size (embedded embed pos inputs) = size inputs.
Proof. by rewrite size_map size_iota. Qed.
Lemma size_features inputs m : size inputs = (m * s ^ P)%N -> keeps_length m -> size (features inputs) = size inputs.
Proof.
move=> si kl; rewrite /features; case: ifP => [_|_]; last exact: size_embedded.
have sx : size (embedded embed pos inputs) = (m * s ^ P)%N by rewrite size_embedded.
have [h1 h2 h3] := encoder_lengths (kv_stride c) [::] sx; rewrite /encoder; set es := encoder_layers _ _ _ _ _ _ _ in h1 h2 h3 *.
have sd x : size x = m -> size (net_decoder ex c ls dec_norm es.2 x) = size inputs.
  move=> ex0; rewrite size_map decoder_lengths ex0 same_depth; last by move=> _ j; exact: h3.
  by rewrite si.
have se : size [seq enc_norm t | t <- es.1] = m by rewrite size_map.
move: kl; rewrite /keeps_length /process; case: (pr) => [_|f H|f H]; first exact: sd.
  by apply: sd; have [n0 h] := H _ se; exact: size_mean_seq.
have [n0 h] := H _ se; apply: size_mean_seq; first by case: (f _) n0.
by move=> y /mapP[z zf ->]; apply: sd; apply: h.
Qed.
(** Where the strides divide the length at each pooling layer, the network gives one row
    for each row of its input, with [ch] numbers *)
Theorem C84_lengths inputs m : size inputs = (m * s ^ P)%N -> keeps_length m ->
  size (net inputs) = size inputs /\ {in net inputs, forall row, size row = ch}.
Proof.
move=> si kl; rewrite networkE; split; first by rewrite size_map (size_features si).
by move=> row /mapP[t _ ->]; rewrite size_map size_enum_ord.
Qed.
(** Before training, the kernel of the last layer is zero (l.551): all rows are the bias,
    whatever the input, the other parameters and the samples of the processor *)
Theorem C84_untrained inputs m : kernel = 0 -> size inputs = (m * s ^ P)%N -> keeps_length m ->
  net inputs = nseq (size inputs) [seq bias 0 j | j <- enum 'I_ch].
Proof.
move=> k0 si kl; rewrite networkE -(size_features si kl); elim: (features inputs) => //= t y ->; congr (_ :: _).
by apply: eq_map => j; rewrite k0 mulmx0 add0r.
Qed.

(** Without residual connections the output repeats: rows whose numbers agree modulo the
    length of the coarsest sequence are the same *)
Definition periodic (T : Type) (x0 : T) m (x : seq T) : Prop :=
  forall p q, (p < size x)%N -> (q < size x)%N -> p = q %[mod m] -> nth x0 x p = nth x0 x q.
Lemma decoder_periodic skips x : use_residuals c = false ->
  forall ds i, exists2 y, size y = size x & exists r, (0 < r)%N /\ decoder_from ex c i ds skips x = tile r y.
Proof.
move=> ur; elim=> [|l ds IH] i; first by exists x => //; exists 1%N; rewrite tile1.
have [y sy [r [r0 e]]] := IH i.+1.
pose y' := run_dec ex 1 l y; have sy' : size y' = size x by rewrite size_run_dec mul1n.
exists y' => //; exists ((if i \in pl then s else 1) * r)%N; split; first by rewrite muln_gt0 r0 andbT; case: ifP.
cbn [decoder_from]; rewrite e ur r1 /y' /run_dec; case: ifP => _.
  by rewrite (@block_tile R ex _ _ (d_scale l) [lmodType R of V] (d_layer l) s r y s0 r0).
by rewrite (@block_tile R ex _ _ (d_scale l) [lmodType R of V] (d_layer l) 1 r y isT r0).
Qed.
Lemma periodic_map (T U : Type) (x0 : T) (y0 : U) (f : T -> U) m (x : seq T) : periodic x0 m x -> periodic y0 m (map f x).
Proof. by move=> h p q; rewrite size_map => hp hq e; rewrite !(nth_map x0) // (h p q). Qed.
Lemma periodic_tile (T : Type) (x0 : T) r (x : seq T) : periodic x0 (size x) (tile r x).
Proof. by move=> p q; rewrite size_tile => hp hq e; rewrite !nth_tile // e. Qed.
Theorem C84_repeats inputs m : use_residuals c = false -> (0 < size bs)%N ->
  size inputs = (m * s ^ P)%N -> keeps_length m -> periodic [::] m (net inputs).
Proof.
move=> ur b0 si kl; rewrite networkE; apply: (periodic_map (x0 := 0)); rewrite /features b0.
have sx : size (embedded embed pos inputs) = (m * s ^ P)%N by rewrite size_embedded.
have [h1 h2 h3] := encoder_lengths (kv_stride c) [::] sx; rewrite /encoder; set es := encoder_layers _ _ _ _ _ _ _ in h1 h2 h3 *.
have sd x : size x = m -> size (net_decoder ex c ls dec_norm es.2 x) = size inputs.
  move=> ex0; rewrite size_map decoder_lengths ex0 same_depth; last by move=> _ j; exact: h3.
  by rewrite si.
have pd x : size x = m -> periodic 0 m (net_decoder ex c ls dec_norm es.2 x).
  move=> ex0; apply: (periodic_map (x0 := 0)); have [y sy [r [r0 ->]]] := decoder_periodic es.2 x ur ls 0%N.
  by rewrite -ex0 -sy; exact: periodic_tile.
have se : size [seq enc_norm t | t <- es.1] = m by rewrite size_map.
move: kl; rewrite /keeps_length /process; case: (pr) => [_|f H|f H]; first exact: pd.
  by apply: pd; have [n0 h] := H _ se; exact: size_mean_seq.
have [n0 h] := H _ se; set ys := [seq net_decoder _ _ _ _ _ y | y <- _].
have hys : {in ys, forall y, size y = size inputs /\ periodic 0 m y}.
  by move=> y /mapP[z zf ->]; split; [apply: sd; apply: h|apply: pd; apply: h].
have sm : size (mean_seq ys) = size inputs.
  by apply: size_mean_seq => [|y /hys[]//]; rewrite /ys; case: (f _) n0.
move=> p q; rewrite sm => hp hq e; rewrite /mean_seq in sm *; rewrite size_map size_iota in sm.
rewrite !(nth_map 0%N) ?size_iota ?sm // !nth_iota // !add0n; congr (_ *: foldr _ _ _).
by apply/eq_in_map => y /hys[sy py]; apply: py; rewrite ?sy.
Qed.
(** The sum of the embedded rows and the result of the decoder (l.543) is dropped: when
    the decoder gives zeros (a zero scale in its last norm), the output is the bias and
    nothing of the input is left, with any kernel of the last layer *)
Theorem C84_no_global inputs m : (forall t, dec_norm t = 0) -> (0 < size bs)%N ->
  size inputs = (m * s ^ P)%N -> keeps_length m -> net inputs = nseq (size inputs) [seq bias 0 j | j <- enum 'I_ch].
Proof.
move=> dn b0 si kl; rewrite networkE -(size_features si kl).
have z : {in features inputs, forall t, t = 0}.
  rewrite /features b0; set es := encoder _ _ _ _ _.
  have zd x : {in net_decoder ex c ls dec_norm es.2 x, forall t, t = 0} by move=> t /mapP[u _ ->]; rewrite dn.
  rewrite /process; case: (pr) => [|f|f]; [exact: zd|exact: zd|].
  move=> t /mapP[p _ ->]; set q := foldr _ _ _; suff -> : q = 0 by rewrite scaler0.
  rewrite /q; elim: (f _) => //= y ys ->; rewrite addr0.
  by have [h|h] := ltnP p (size (net_decoder ex c ls dec_norm es.2 y)); [apply: (zd y); exact: mem_nth|rewrite nth_default].
elim: (features inputs) z => //= t y IH z; rewrite IH => [|u uy]; last by apply: z; rewrite inE uy orbT.
congr (_ :: _); apply: eq_map => j; by rewrite (z t) ?inE ?eqxx // mul0mx add0r.
Qed.
End Lengths.

(** Attention in a block of the encoder: before the last projection [b_out], token [c] is
    its own pooled query plus, in each head, a mean of the pooled values *)
Theorem C84_attention b kq kkv sq skv x p (h : 'I_(b_heads b)) (i : 'I_(b_dim b)) (lo hi : R) : (forall a, 0 < ex a) ->
  let qs := pool_avg kq sq [seq b_query b t | t <- x] in
  let vs := pool_avg kkv skv [seq b_value b t | t <- x] in
  (p < size qs)%N -> vs != [::] -> {in vs, forall v, lo <= b_split b v h 0 i <= hi} ->
  exists2 a : {ffun 'I_(b_heads b) -> 'rV[R]_(b_dim b)}, lo <= a h 0 i <= hi &
    nth 0 (downsample ex b kq kkv sq skv x) p = b_out [ffun k => a k + b_split b (nth 0 qs p) k].
Proof.
move=> ex0 qs vs hp nz bd; set ks := pool_avg kkv skv [seq b_key b t | t <- x].
have sk : size ks = size vs.
  by rewrite /ks /vs /pool_avg; case: ifP => _; rewrite ?size_map // !size_iota !size_map.
pose at_ (f : seq V) k := map (at_head k) (map (@b_split _ _ b) f).
exists [ffun k => attend ex (b_scale b) (b_split b (nth 0 qs p) k) (at_ ks k) (at_ vs k)].
  rewrite ffunE; apply: C71_convex => //; first by case: (ks) sk nz => [|? ?] //; case: (vs).
    by rewrite !size_map.
  by move=> v /mapP[u /mapP[t tv ->] ->]; exact: bd.
rewrite /downsample -/ks -/vs -/qs (nth_map (b_split b 0)) ?size_map // (nth_map 0) //.
by congr (b_out _); apply/ffunP => k; rewrite !ffunE.
Qed.

(** The encoder is the composition of its blocks: block [i] has the window and stride of
    the configuration for its queries in a pooling layer (otherwise stride 1, and window 1
    unless every layer pools), and for keys and values the first stride, halved once for
    each pooling layer up to and including [i], but not less than 1.  The skip of pooling
    layer [j] is what the blocks before it give. *)
Section Composition.
Variable c : params.
Notation pl := (pooling_layers c).
Definition kv_at i : nat := maxn 1 (kv_stride c %/ 2 ^ pools c 0 i.+1).
Definition run_block (y : seq V) (ib : nat * block) : seq V :=
  encoder_block ex ib.2 (if (ib.1 \in pl) || pool_q_every_layer c then pooling_kernel c else 1%N) (pooling_kernel c)
    (if ib.1 \in pl then pooling_stride c else 1%N) (kv_at ib.1) y.
Definition after_blocks (bs : seq block) (x : seq V) (j : nat) : seq V := foldl run_block x (take j (zip (iota 0 (size bs)) bs)).
Lemma pools_end i : pools c 0 i.+1 = (pools c 0 i + (i \in pl))%N.
Proof. by rewrite /pools -addn1 iotaD count_cat /= add0n addn0. Qed.
Lemma kv_next i v : v = maxn 1 (kv_stride c %/ 2 ^ pools c 0 i) ->
  (if i \in pl then if (1 < v)%N then v %/ 2 else 1 else v)%N = kv_at i.
Proof.
move=> e; rewrite /kv_at pools_end; case: (i \in pl); last by rewrite addn0.
rewrite addn1 expnS mulnC divnMA; move: e; set q := (_ %/ _)%N => ->.
have [h|h] := leqP q 1.
  by rewrite ltnn; apply/esym/maxn_idPl; exact: leq_trans (leq_div q 2) h.
by rewrite h; apply/esym/maxn_idPr; rewrite divn_gt0.
Qed.
Lemma encoder_composition bs i kv x skips : kv = maxn 1 (kv_stride c %/ 2 ^ pools c 0 i) ->
  let st j := foldl run_block x (take j (zip (iota i (size bs)) bs)) in
  let r := encoder_layers ex c i kv bs x skips in
  r.1 = st (size bs) /\ forall j, find_skip r.2 j =
    if (i <= j < i + size bs)%N && (j \in pl) then Some (st (j - i)%N) else find_skip skips j.
Proof.
elim: bs i kv x skips => [|b bs IH] i kv x skips ekv.
  by split=> // j /=; case: ifP => // h; exfalso; move: h; clear; lia.
cbv zeta; cbn [encoder_layers]; rewrite (kv_next ekv); set x' := encoder_block _ _ _ _ _ _ _.
have e' : x' = run_block x (i, b) by [].
have [h1 h2] := IH i.+1 (kv_at i) x' (if i \in pl then (i, x) :: skips else skips) erefl.
split; first by rewrite h1 e'.
move=> j; rewrite h2 [size (b :: bs)]/=; have [ji|ij] : (j <= i)%N \/ (i < j)%N by clear; lia.
  have -> : (i < j < i.+1 + size bs)%N = false by clear -ji; lia.
  rewrite /=; have [e|ne] := eqVneq j i.
    rewrite e subnn take0 /= leqnn (_ : (i < i + (size bs).+1)%N); last by clear; lia.
    by case: ifP => //= _; rewrite /find_skip /= eqxx.
  have -> : (i <= j)%N = false by move: ne; clear -ji; lia.
  by case: ifP => //= _; rewrite /find_skip /= eq_sym (negbTE ne).
have -> : (i <= j < i + (size bs).+1)%N = (i < j < i.+1 + size bs)%N by clear -ij; lia.
case: ifP => hj.
  have -> : (j - i = (j - i.+1).+1)%N by clear -ij; lia.
  by [].
by case: ifP => //= _; rewrite /find_skip /= ltn_eqF.
Qed.
Theorem C84_layers bs enc_norm x : (0 < kv_stride c)%N ->
  (encoder ex c bs enc_norm x).1 = [seq enc_norm t | t <- after_blocks bs x (size bs)] /\
  forall j, find_skip (encoder ex c bs enc_norm x).2 j =
    if (j < size bs)%N && (j \in pl) then Some (after_blocks bs x j) else None.
Proof.
move=> kv0; have [|h1 h2] := @encoder_composition bs 0 (kv_stride c) x [::].
  by rewrite divn1 (maxn_idPr kv0).
rewrite /encoder; split; first by rewrite h1.
by move=> j; rewrite h2 subn0.
Qed.
End Composition.

(** Without pooling and with the same positional embedding everywhere, the network does
    not see the order of the rows: permuted input gives permuted output *)
Section Permute.
Variable c : params.
Hypotheses (p0 : pooling_layers c = [::]) (k1 : pooling_kernel c = 1%N).
Definition reorder (T : Type) (x0 : T) (idx : seq nat) (x : seq T) : seq T := [seq nth x0 x i | i <- idx].
Definition enc_token b (ks vs : seq {ffun 'I_(b_heads b) -> 'rV[R]_(b_dim b)}) (t : V) : V :=
  let u := b_out (attend_heads ex (b_scale b) (b_split b (b_query b (b_norm b t))) ks vs) + t in b_mlp b u + b_skip b u.
Definition enc_keys b x := [seq b_split b (b_key b (b_norm b t)) | t <- x].
Definition enc_values b x := [seq b_split b (b_value b (b_norm b t)) | t <- x].
Lemma encoder_blockE b skv x : encoder_block ex b 1 1 1 skv x = map (enc_token (enc_keys b x) (enc_values b x)) x.
Proof.
rewrite /encoder_block /downsample /pool_avg !eqxx ltnn /add_seq -!map_comp.
by rewrite -[X in zip _ X]map_id zip_map -map_comp; apply: eq_map => t; rewrite /enc_token /enc_keys /enc_values /=.
Qed.
Lemma size_reorder (T : Type) (x0 : T) idx (x : seq T) : size (reorder x0 idx x) = size idx.
Proof. by rewrite size_map. Qed.
Lemma reorder_map (T U : Type) (x0 : T) (y0 : U) (f : T -> U) idx (x : seq T) : perm_eq idx (iota 0 (size x)) ->
  map f (reorder x0 idx x) = reorder y0 idx (map f x).
Proof.
move=> pi; rewrite /reorder -map_comp; apply/eq_in_map => i ii /=; rewrite (nth_map x0) //.
by move: ii; rewrite (perm_mem pi) mem_iota.
Qed.
Lemma encoder_block_permute b skv x idx : perm_eq idx (iota 0 (size x)) ->
  encoder_block ex b 1 1 1 skv (reorder 0 idx x) = reorder 0 idx (encoder_block ex b 1 1 1 skv x).
Proof.
move=> pi; have px : perm_eq (reorder 0 idx x) x.
  by rewrite -[X in perm_eq _ X](mkseq_nth 0) /mkseq perm_map.
have fE : enc_token (enc_keys b (reorder 0 idx x)) (enc_values b (reorder 0 idx x)) =1 enc_token (enc_keys b x) (enc_values b x).
  move=> t; rewrite /enc_token; set a1 := attend_heads _ _ _ _ _; set a2 := attend_heads _ _ _ _ _.
  suff -> : a1 = a2 by [].
  apply/ffunP=> h; rewrite !ffunE; congr (_ + _).
  have zE y : zip (map (at_head h) (enc_keys b y)) (map (at_head h) (enc_values b y)) =
      [seq (at_head h (b_split b (b_key b (b_norm b t))), at_head h (b_split b (b_value b (b_norm b t)))) | t <- y].
    by rewrite /enc_keys /enc_values -!map_comp zip_map.
  by apply: attend_perm; rewrite ?size_map // !zE perm_map.
by rewrite !encoder_blockE (eq_map fE) (reorder_map 0 0).
Qed.
Lemma size_plain_block b skv x : size (encoder_block ex b 1 1 1 skv x) = size x.
Proof. by rewrite encoder_blockE size_map. Qed.
Lemma encoder_permute bs i kv x skips idx : perm_eq idx (iota 0 (size x)) ->
  encoder_layers ex c i kv bs (reorder 0 idx x) skips =
    (reorder 0 idx (encoder_layers ex c i kv bs x skips).1, (encoder_layers ex c i kv bs x skips).2) /\
  size (encoder_layers ex c i kv bs x skips).1 = size x.
Proof.
elim: bs i kv x => [|b bs IH] i kv x pi //; cbn [encoder_layers]; rewrite p0 in_nil k1.
have -> : (if false || pool_q_every_layer c then 1%N else 1%N) = 1%N by case: ifP.
rewrite encoder_block_permute //; have [| e1 e2] := IH i.+1 kv (encoder_block ex b 1 1 1 kv x).
  by rewrite size_plain_block.
by rewrite e1 e2 size_plain_block.
Qed.
Lemma decoder_permute ls i skips x idx : perm_eq idx (iota 0 (size x)) ->
  decoder_from ex c i ls skips (reorder 0 idx x) = reorder 0 idx (decoder_from ex c i ls skips x) /\
  size (decoder_from ex c i ls skips x) = size x.
Proof.
move=> pi; elim: ls i => [|l ls IH] i //; cbn [decoder_from]; rewrite p0 in_nil; have [-> e] := IH i.+1.
rewrite size_run_dec mul1n e; split=> //; rewrite /run_dec /reorder.
by apply: C71_permute => //; rewrite e.
Qed.
Theorem C84_order (embed : seq R -> V) (pos : nat -> V) bs enc_norm dec_norm ls ch (kernel : 'M[R]_(w, ch)) bias inputs idx :
  (forall p q, pos p = pos q) -> perm_eq idx (iota 0 (size inputs)) ->
  network ex c embed pos bs enc_norm NoProcessor ls dec_norm kernel bias (reorder [::] idx inputs) =
  reorder [::] idx (network ex c embed pos bs enc_norm NoProcessor ls dec_norm kernel bias inputs).
Proof.
move=> hp pi; have si : size (embedded embed pos inputs) = size inputs by rewrite size_map size_iota.
have eE y : embedded embed pos y = [seq embed t + pos 0%N | t <- y].
  rewrite /embedded -[y in RHS](mkseq_nth [::]) /mkseq -map_comp; apply: eq_map => p /=.
  by rewrite (hp p 0%N).
rewrite /network; have -> : embedded embed pos (reorder [::] idx inputs) = reorder 0 idx (embedded embed pos inputs).
  by rewrite !eE (reorder_map [::] 0).
rewrite -si in pi; case: ifP => _; last by rewrite (reorder_map 0 [::]).
rewrite /encoder; have [-> se] := encoder_permute bs 0 (kv_stride c) [::] pi; cbn [fst snd process].
set es := encoder_layers _ _ _ _ _ _ _ in se *.
have pi1 : perm_eq idx (iota 0 (size es.1)) by rewrite se.
rewrite (reorder_map 0 0) // /net_decoder.
have pi2 : perm_eq idx (iota 0 (size [seq enc_norm t | t <- es.1])) by rewrite size_map.
have [-> sd] := decoder_permute ls 0 es.2 pi2.
by rewrite !(reorder_map 0 0) ?(reorder_map 0 [::]) // ?size_map sd.
Qed.
End Permute.
End Net.

(** ** Examples *)
Section Examples.
Variables (R : realFieldType) (ex : R -> R).
Notation tok a := (const_mx a : 'rV[R]_1).
(** The skip connection of stride 2: the groups are the tokens 0, 1, 2 and 2, 3 *)
Example ex_max : max_pool 3 2 [:: tok 1; tok 4%:R; tok 2%:R; tok 3%:R] = [:: tok 4%:R; tok 3%:R].
Proof.
rewrite /max_pool [ceil_div _ _](_ : _ = 2%N) // [pad_low _ _ _](_ : _ = 0%N) //=.
have e (a b : R) : a <= b -> Num.max a b = b by move=> h; apply/max_idPr.
have e' (a b : R) : b <= a -> Num.max a b = a by move=> h; apply/max_idPl.
congr [:: _; _]; apply/rowP => i; rewrite !mxE /maxl /=; last by rewrite e' // ler_nat.
by rewrite [Num.max 2%:R 1]e' ?ler1n // e' // ler_nat.
Qed.
(** A network with three channels in and out, two layers of which the second pools; the
    processor gives two samples *)
Definition ex_params : params := Params [:: 1%N] 3 2 2 2 true true.
Example ex_lengths : [/\ pools ex_params 0 2 = 1%N, (0 < pooling_stride ex_params)%N, pooling_kernel ex_params != 1%N,
  tile_reps ex_params = pooling_stride ex_params & keeps_length (DecodeFirst (fun x : seq 'rV[R]_1 => [:: x; rev x])) 4].
Proof.
by split=> // x sx; split=> // y; rewrite !inE => /orP[/eqP->|/eqP->] //; rewrite size_rev.
Qed.

(** With a window that reaches further than one token the order counts, without any
    pooling layer: each layer pools its queries, keys and values ([pool_q_every_layer]).
    The block of the witness adds the mean of a token and its two neighbours. *)
Definition no_pooling : params := Params [::] 3 2 1 2 true true.
Definition w_split (t : 'rV[R]_1) : {ffun 'I_1 -> 'rV[R]_1} := [ffun _ => t].
Definition w_block : block R 1 := @Block R 1 1 1 1 id id id (fun _ => 0) w_split (fun h => h 0) (fun _ => 0) id.
Definition w_layer : dec R 1 := @Dec R 1 1 1 1 (Layer id w_split w_split w_split (fun _ => 0) (fun _ => 0) id 1).
Definition w_net : seq (seq R) -> seq (seq R) :=
  network ex no_pooling (fun r => tok (nth 0 r 0)) (fun _ => 0) [:: w_block] id NoProcessor [:: w_layer] id (1%:M : 'M[R]_1) 0.
Lemma attend_zero (d : nat) (scale : R) (q : 'rV[R]_d) ks vs : {in vs, forall v, v = 0} -> attend ex scale q ks vs = 0.
Proof.
move=> z; rewrite /attend; move: (softmax _ _) => a; elim: vs a z => [|v vs IH] [|b a] z //=.
rewrite IH => [|u uv]; last by apply: z; rewrite inE uv orbT.
by rewrite (z v) ?inE ?eqxx // scaler0 addr0.
Qed.
Lemma w_decoder (x : seq 'rV[R]_1) : run_dec ex 1 w_layer x = x.
Proof.
rewrite /run_dec blockE tile1 -[RHS]map_id; apply: eq_map => t.
by rewrite /at_token /= !add0r.
Qed.
Lemma w_encoder (x : seq 'rV[R]_1) : encoder_block ex w_block 3 3 1 1 x = add_seq (avg_pool 3 1 x) x.
Proof.
rewrite /encoder_block /downsample /pool_avg /= !map_id -map_comp.
rewrite (eq_map (f2 := id)) ?map_id; last by move=> t; rewrite add0r.
congr (add_seq _ x); rewrite -[RHS]map_id; apply/eq_map => t /=.
rewrite !ffunE attend_zero ?add0r // => v /mapP[h /mapP[u]]; rewrite /avg_pool => /mapP[p _ ->] -> ->.
rewrite /at_head ffunE; set q := foldr _ _ _; suff -> : q = 0 by rewrite scaler0.
rewrite /q; elim: (iota 0 3) => //= j js ->; rewrite addr0.
set y := _ ++ _; have zy : {in y, forall t, t = 0}.
  by move=> t0; rewrite mem_cat => /orP[|/mapP[? _ ->]] //; rewrite mem_nseq => /andP[_ /eqP].
by have [h0|h0] := ltnP (p * 1 + j) (size y); [apply: zy; exact: mem_nth|rewrite nth_default].
Qed.
Lemma w_netE (a b c : R) : w_net [:: [:: a]; [:: b]; [:: c]] =
  [:: [:: 3%:R^-1 * (a + b) + a]; [:: 3%:R^-1 * (a + b + c) + b]; [:: 3%:R^-1 * (b + c) + c]].
Proof.
rewrite /w_net networkE /features /encoder /embedded; cbn [size iota map nth encoder_layers fst snd process pooling_layers pooling_kernel kv_stride in_mem mem].
rewrite w_encoder /net_decoder; cbn [decoder_from pooling_layers]; rewrite [_ \in _]in_nil w_decoder !map_id !addr0 /add_seq /avg_pool.
rewrite [ceil_div _ _](_ : _ = 3%N) // [pad_low _ _ _](_ : _ = 1%N) //=.
have e (t : 'rV[R]_1) : dense 1%:M 0 t = [:: t 0 0].
  by rewrite /dense enum_ordSl enum_ord0 /= mulmx1 addr0.
by rewrite !e !mxE ?addr0 ?add0r !addrA.
Qed.
Theorem C84_order_refuted : exists inputs idx, perm_eq idx (iota 0 (size inputs)) /\
  w_net (reorder [::] idx inputs) <> reorder [::] idx (w_net inputs).
Proof.
exists [:: [:: 1]; [:: 0]; [:: 0]], [:: 1; 0; 2]%N; split; first by [].
have -> : reorder [::] [:: 1; 0; 2]%N [:: [:: 1]; [:: 0]; [:: 0]] = [:: [:: 0]; [:: 1]; [:: 0]] :> seq (seq R) by [].
rewrite !w_netE => /(congr1 (fun r : seq (seq R) => nth 0 (nth [::] r 2) 0)) /=.
by rewrite !addr0 ?add0r !mulr1 mulr0 => /eqP; rewrite invr_eq0 pnatr_eq0.
Qed.
End Examples.
Print Assumptions C84_max.
Print Assumptions C84_skip.
Print Assumptions C84_lengths.
Print Assumptions C84_untrained.
Print Assumptions C84_repeats.
Print Assumptions C84_no_global.
Print Assumptions C84_order.
Print Assumptions C84_order_refuted.
Print Assumptions C84_layers.
Print Assumptions C84_attention.
