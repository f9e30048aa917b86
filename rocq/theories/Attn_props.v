(** C71: attention, tiling and pooling along the sequence (niles/transformer.py). *)
From mathcomp Require Import all_ssreflect all_algebra zify ring.
From Verif Require Import Attn_model.
Set Implicit Arguments.
Unset Strict Implicit.
Unset Printing Implicit Defensive.
Import Order.TTheory GRing.Theory Num.Theory.
Local Open Scope ring_scope.

Section Tile.
Variable T : Type.
Implicit Types (x : seq T).
Lemma tileS r x : tile r.+1 x = x ++ tile r x. Proof. by []. Qed.
Lemma size_tile r x : size (tile r x) = (r * size x)%N.
Proof. by elim: r => // r IH; rewrite tileS size_cat IH mulSn. Qed.
Lemma tile1 x : tile 1 x = x. Proof. by rewrite /tile /= cats0. Qed.
Lemma tile_cat r s x : tile (r + s) x = tile r x ++ tile s x.
Proof. by elim: r => // r IH; rewrite addSn !tileS IH catA. Qed.
Lemma tile_tile r s x : tile r (tile s x) = tile (r * s) x.
Proof. by elim: r => // r IH; rewrite tileS IH mulSn tile_cat. Qed.
Lemma nth_tile (x0 : T) r x p : (p < r * size x)%N -> nth x0 (tile r x) p = nth x0 x (p %% size x).
Proof.
elim: r p => [|r IH] p; first by rewrite mul0n.
rewrite mulSn tileS nth_cat => h; case: ltnP => [lt|ge]; first by rewrite modn_small.
rewrite IH; last by lia.
by rewrite -[in RHS](subnK ge) modnDr.
Qed.
End Tile.
Lemma map_tile (T U : Type) (f : T -> U) r x : map f (tile r x) = tile r (map f x).
Proof. by elim: r => // r IH; rewrite !tileS map_cat IH. Qed.
Lemma zip_tile (T U : Type) r (x : seq T) (y : seq U) : size x = size y ->
  zip (tile r x) (tile r y) = tile r (zip x y).
Proof. by move=> e; elim: r => // r IH; rewrite !tileS zip_cat // IH. Qed.

Section Sums.
Variables (R : realFieldType) (U : lmodType R).
Lemma foldr_big (s : seq U) : foldr +%R 0 s = \sum_(a <- s) a.
Proof. by elim: s => [|a s IH]; rewrite ?big_nil ?big_cons //= IH. Qed.
Lemma foldr_tile r (s : seq U) : foldr +%R 0 (tile r s) = (foldr +%R 0 s) *+ r.
Proof.
elim: r => [|r IH]; first by rewrite mulr0n.
by rewrite mulrS -IH !foldr_big tileS big_cat.
Qed.
End Sums.

Section Window.
Variables (R : realFieldType) (U : lmodType R).
Lemma window (y : seq U) a k :
  \sum_(i <- iota a k) nth 0 y i = \sum_(i < size y | (a <= i < a + k)%N) nth 0 y i.
Proof.
have -> : iota a k = index_iota a (a + k) by rewrite /index_iota addKn.
rewrite -(big_mkord (fun i => (a <= i < a + k)%N) (fun i => nth 0 y i)).
have h1 := leq_maxl (a + k)%N (size y); have h2 := leq_maxr (a + k)%N (size y).
rewrite (big_nat_widenl _ 0) // (big_nat_widen _ _ _ _ _ h1) [RHS](big_nat_widen _ _ _ _ _ h2).
rewrite big_mkcond [RHS]big_mkcond; apply: eq_bigr => i _ /=.
by case: (ltnP i (size y)) => [_|ge]; rewrite ?andbT ?andbF // nth_default //; case: ifP.
Qed.
Lemma window_pad lo (x : seq U) a k :
  \sum_(j <- iota 0 k) nth 0 (nseq lo 0 ++ x) (a + j) = \sum_(p < size x | (a <= p + lo < a + k)%N) nth 0 x p.
Proof.
have -> : \sum_(j <- iota 0 k) nth 0 (nseq lo 0 ++ x) (a + j) = \sum_(i <- iota a k) nth 0 (nseq lo 0 ++ x) i.
  by rewrite -[in RHS](addn0 a) iotaDl big_map.
rewrite window size_cat size_nseq big_split_ord /= big1 ?add0r; last first.
  by move=> i _; rewrite nth_cat size_nseq ltn_ord nth_nseq if_same.
apply: eq_big => i; first by rewrite addnC.
by move=> _; rewrite nth_cat size_nseq ltnNge leq_addr /= addKn.
Qed.
End Window.

Section Max.
Variable R : realFieldType.
Lemma maxl_ge (s : seq R) a : a \in s -> a <= maxl s.
Proof.
case: s => // b s; rewrite /maxl inE => /orP[/eqP->|].
  by elim: s => //= c s IH; rewrite le_maxr IH orbT.
elim: s => //= c s IH; rewrite inE le_maxr => /orP[/eqP->|/IH->]; by rewrite ?lexx ?orbT.
Qed.
Lemma maxl_in (s : seq R) : s != [::] -> maxl s \in s.
Proof.
case: s => // b s _; rewrite /maxl; elim: s => [|c s IH] /=; first by rewrite inE.
rewrite /Num.max; case: ifP => _; last by rewrite !inE eqxx orbT.
by move: IH; rewrite !inE => /orP[->//|->]; rewrite !orbT.
Qed.
(* the largest score depends on the set of scores only *)
Lemma maxl_eq (s t : seq R) : s =i t -> maxl s = maxl t.
Proof.
move=> e; case: (altP (s =P [::])) => [z|nz].
  have -> : t = [::] by case: t e => // a t /(_ a); rewrite z inE eqxx.
  by rewrite z.
have nt : t != [::] by case: t e => // /(_ (maxl s)); rewrite maxl_in.
by apply/le_anti; rewrite !maxl_ge // ?e ?maxl_in // -e maxl_in.
Qed.
Lemma mem_tile (T : eqType) r (s : seq T) : (0 < r)%N -> tile r s =i s.
Proof.
case: r => // r _ a; elim: r => [|r IH]; first by rewrite tile1.
by rewrite tileS mem_cat IH orbb.
Qed.
End Max.

Section Attention.
Variables (R : realFieldType) (ex : R -> R) (heads d : nat) (scale : R).
Hypothesis ex_gt0 : forall a, 0 < ex a.
Notation W := 'rV[R]_d.
Notation H := {ffun 'I_heads -> W}.
Implicit Types (q : W) (ks vs : seq W).

Lemma sum_ex_gt0 (s : seq R) m : s != [::] -> 0 < foldr +%R 0 [seq ex (a - m) | a <- s].
Proof.
case: s => // a s _ /=; rewrite ltr_paddr //; elim: s => //= b s IH.
by rewrite addr_ge0 // ltW.
Qed.

Theorem C71_weights (s : seq R) : s != [::] ->
  [/\ size (softmax ex s) = size s, all (fun w => 0 < w) (softmax ex s) & \sum_(w <- softmax ex s) w = 1].
Proof.
move=> nz; have D := sum_ex_gt0 (maxl s) nz; split; first by rewrite !size_map.
  by apply/allP=> w /mapP[e /mapP[a _ ->] ->]; rewrite divr_gt0.
rewrite /softmax big_map -mulr_suml -(foldr_big (U := [lmodType R of R^o])).
by rewrite mulfV // gt_eqF.
Qed.

(* the output as one quotient over pairs of a key and its value *)
Definition num q (m : R) (kv : seq (W * W)) : W := \sum_(p <- kv) ex (score scale q p.1 - m) *: p.2.
Definition den q (m : R) (kv : seq (W * W)) : R := \sum_(p <- kv) ex (score scale q p.1 - m).
Definition top q (kv : seq (W * W)) : R := maxl [seq score scale q p.1 | p <- kv].
Lemma attendE q ks vs : size ks = size vs ->
  attend ex scale q ks vs = (den q (top q (zip ks vs)) (zip ks vs))^-1 *: num q (top q (zip ks vs)) (zip ks vs).
Proof.
move=> e; rewrite /attend foldr_big /softmax.
have -> : [seq score scale q k | k <- ks] = [seq score scale q p.1 | p <- zip ks vs].
  by rewrite -[ks in LHS](@unzip1_zip _ _ ks vs) ?e // /unzip1 -map_comp.
rewrite -/(top q (zip ks vs)); set m := top _ _.
rewrite (foldr_big (U := [lmodType R of R^o])) !big_map -/(den q m (zip ks vs)).
rewrite /num scaler_sumr -!map_comp; move: (den _ _ _) => D.
elim: ks vs {m} (m) e => [|k ks IH] [|v vs] // m e; first by rewrite !big_nil.
by case: e => e; rewrite /= !big_cons IH //= scalerA mulrC.
Qed.

(* only the multiset of pairs matters *)
Lemma attend_perm q ks vs ks' vs' : size ks = size vs -> size ks' = size vs' ->
  perm_eq (zip ks vs) (zip ks' vs') -> attend ex scale q ks vs = attend ex scale q ks' vs'.
Proof.
move=> e e' p; rewrite !attendE //.
have -> : top q (zip ks vs) = top q (zip ks' vs') by apply: maxl_eq; apply: perm_mem; apply: perm_map.
by rewrite /den /num !(perm_big _ p).
Qed.

Lemma attend_tile q r ks vs : (0 < r)%N -> size ks = size vs ->
  attend ex scale q (tile r ks) (tile r vs) = attend ex scale q ks vs.
Proof.
move=> r0 e; rewrite !attendE ?size_tile ?e // zip_tile //.
have -> : top q (tile r (zip ks vs)) = top q (zip ks vs).
  by rewrite /top map_tile; apply: maxl_eq; apply: mem_tile.
set m := top _ _; move: (zip ks vs) m => kv m.
have dr : den q m (tile r kv) = r%:R * den q m kv.
  by elim: r {r0} => [|r IH]; rewrite /den ?big_nil ?mul0r // tileS big_cat /= -/(den _ _ _) -/(den _ _ _) IH -[r.+1]add1n natrD mulrDl mul1r.
have nr : num q m (tile r kv) = r%:R *: num q m kv.
  by elim: r {r0 dr} => [|r IH]; rewrite /num ?big_nil ?scale0r // tileS big_cat /= -/(num _ _ _) -/(num _ _ _) IH -[r.+1]add1n natrD scalerDl scale1r.
rewrite dr nr scalerA invfM -mulrA mulrCA mulVf ?mulr1 //.
by rewrite pnatr_eq0 -lt0n.
Qed.

Theorem C71_convex q ks vs (lo hi : R) (i : 'I_d) : ks != [::] -> size ks = size vs ->
  {in vs, forall v : W, lo <= v 0 i <= hi} -> lo <= attend ex scale q ks vs 0 i <= hi.
Proof.
move=> nz e b; have nz' : [seq score scale q k | k <- ks] != [::] by case: (ks) nz.
have [sz ws w1] := C71_weights nz'.
rewrite size_map e in sz; rewrite /attend foldr_big big_map summxE.
under eq_bigr do rewrite mxE.
move: (softmax _ _) ws w1 sz => w ws w1 sz.
have m (c : R) : \sum_(p <- zip w vs) p.1 * c = c.
  rewrite -mulr_suml (_ : \sum_(p <- zip w vs) p.1 = 1) ?mul1r // -w1.
  by rewrite -[w in RHS](@unzip1_zip _ _ w vs) ?sz // big_map.
have mem p : p \in zip w vs -> 0 < p.1 /\ lo <= p.2 0 i <= hi.
  move=> pz; split; last by apply: b; rewrite -(@unzip2_zip _ _ w vs) ?sz // map_f.
  by apply: (allP ws); rewrite -(@unzip1_zip _ _ w vs) ?sz // map_f.
rewrite -[lo]m -[hi]m !big_seq; apply/andP; split; apply: ler_sum => p /mem[p0 /andP[l h]].
  by rewrite ler_pmul2l.
by rewrite ler_pmul2l.
Qed.

Variable V : lmodType R.
Notation layer := (layer heads d V).
Implicit Types (l : layer) (x : seq V).

Lemma attend_heads_tile (q : H) r (ks vs : seq H) : (0 < r)%N -> size ks = size vs ->
  attend_heads ex scale q (tile r ks) (tile r vs) = attend_heads ex scale q ks vs.
Proof.
by move=> r0 e; apply/ffunP=> h; rewrite !ffunE !map_tile attend_tile // !size_map.
Qed.
Lemma size_upsample l x : size (upsample ex scale l x) = (reps l * size x)%N.
Proof. by rewrite size_map size_tile size_map. Qed.
Lemma size_block l x : size (decoder_block ex scale l x) = (reps l * size x)%N.
Proof. by rewrite !size_map size_zip size_upsample size_map size_tile minnn. Qed.

(* the result at one token, given all keys and values *)
Definition at_token l (ks vs : seq H) (t : V) : V :=
  let u := out l (attend_heads ex scale (query l (norm1 l t)) ks vs) + t in mlp l u + skip l u.
Definition keys l x : seq H := [seq key l (norm1 l t) | t <- x].
Definition values l x : seq H := [seq value l (norm1 l t) | t <- x].
Lemma blockE l x : decoder_block ex scale l x =
  tile (reps l) (map (at_token l (tile (reps l) (keys l x)) (tile (reps l) (values l x))) x).
Proof.
rewrite /decoder_block /upsample -!map_comp -map_tile -map_tile.
rewrite -!map_tile -map_comp -[X in zip _ X]map_id zip_map -map_comp.
by apply: eq_map => t; rewrite /at_token /keys /values !map_tile.
Qed.

(* a block that repeats s times, on a sequence repeated r times *)
Lemma block_tile l s r x : (0 < s)%N -> (0 < r)%N ->
  decoder_block ex scale (with_reps s l) (tile r x) = tile (s * r) (decoder_block ex scale (with_reps 1 l) x).
Proof.
move=> s0 r0; have sr : (0 < s * r)%N by rewrite muln_gt0 s0.
rewrite !blockE /= !tile1 /keys /values !map_tile !tile_tile.
congr tile; apply: eq_map => t; rewrite /at_token /=.
by rewrite attend_heads_tile // !size_map.
Qed.

Theorem C71_tile l x : (0 < reps l)%N ->
  decoder_block ex scale l x = tile (reps l) (decoder_block ex scale (with_reps 1 l) x).
Proof.
move=> r0; have := @block_tile l (reps l) 1 x r0 isT.
by rewrite tile1 muln1 => <-; case: l r0.
Qed.

(** Without residual connections the result repeats the result of the decoder that
    does not tile: positions that differ by a multiple of the length of the coarse
    sequence have the same value *)
Definition plain (ls : seq layer) : seq (layer * option (seq V)) := [seq (l, None) | l <- ls].
Theorem C71_period (ls : seq layer) norm x : all (fun l => 0 < reps l)%N ls ->
  decoder ex scale (plain ls) norm x =
  tile (\prod_(l <- ls) reps l) (decoder ex scale (plain [seq with_reps 1 l | l <- ls]) norm x).
Proof.
rewrite /decoder -map_tile => h; congr map.
suff gen r : (0 < r)%N -> decoder_layers ex scale (plain ls) (tile r x) =
    tile (r * \prod_(l <- ls) reps l) (decoder_layers ex scale (plain [seq with_reps 1 l | l <- ls]) x).
  by have := gen 1%N isT; rewrite tile1 mul1n.
elim: ls r x h => [|l ls IH] r x /=; first by rewrite big_nil muln1.
case/andP=> l0 h r0.
rewrite /decoder_layers /= -/(decoder_layers ex scale _ _) -/(decoder_layers ex scale _ _).
have -> : decoder_block ex scale l (tile r x) = tile (reps l * r) (decoder_block ex scale (with_reps 1 l) x).
  by rewrite -block_tile //; case: (l) l0.
by rewrite IH ?muln_gt0 ?l0 // big_cons mulnA [(r * _)%N]mulnC.
Qed.

(** A block that does not tile does not see the order of the tokens *)
Theorem C71_permute l x idx : reps l = 1%N -> perm_eq idx (iota 0 (size x)) ->
  decoder_block ex scale l [seq nth 0 x i | i <- idx] = [seq nth 0 (decoder_block ex scale l x) i | i <- idx].
Proof.
move=> r1 pi; have px : perm_eq [seq nth 0 x i | i <- idx] x.
  by rewrite -[X in perm_eq _ X](mkseq_nth 0) /mkseq perm_map.
have bE y : decoder_block ex scale l y = map (at_token l (keys l y) (values l y)) y.
  by rewrite blockE r1 !tile1.
have fE : at_token l (keys l [seq nth 0 x i | i <- idx]) (values l [seq nth 0 x i | i <- idx]) =1
          at_token l (keys l x) (values l x).
  move=> t; rewrite /at_token; set a := attend_heads _ _ _ _ _; set b := attend_heads _ _ _ _ _.
  suff -> : a = b by [].
  apply/ffunP=> h; rewrite !ffunE; congr (_ + _).
  have zE y : zip (map (at_head h) (keys l y)) (map (at_head h) (values l y)) =
      [seq (at_head h (key l (norm1 l t)), at_head h (value l (norm1 l t))) | t <- y].
    by rewrite /keys /values -!map_comp zip_map.
  by apply: attend_perm; rewrite ?size_map // !zE perm_map.
rewrite !bE (eq_map fE) -map_comp; apply/eq_in_map => i ii /=.
by rewrite (nth_map 0) //; move: ii; rewrite (perm_mem pi) mem_iota.
Qed.

(** Pooling: token [c] is the sum of the tokens under its window, divided by [k] also
    where the window sticks out *)
Theorem C71_pool k s x c : (0 < s)%N -> (c < ceil_div (size x) s)%N ->
  nth 0 (avg_pool k s x) c = k%:R^-1 *:
    \sum_(p < size x | (c * s <= p + pad_low k s (size x) < c * s + k)%N) nth 0 x p.
Proof.
move=> s0 cc; rewrite (nth_map 0%N) ?size_iota // nth_iota // add0n foldr_big big_map.
by rewrite window_pad.
Qed.

Lemma ceil_div_mul s m : (0 < s)%N -> ceil_div (m * s) s = m.
Proof. by move=> s0; rewrite /ceil_div divnMDl // divn_small ?addn0 // prednK. Qed.
Lemma pad_lowE k s m : (0 < s)%N -> (0 < m)%N -> pad_low k s (m * s) = ((k - s) %/ 2)%N.
Proof.
move=> s0; case: m => // m _; rewrite /pad_low ceil_div_mul //= mulSn.
by rewrite [(s + _)%N]addnC subnDl.
Qed.
Lemma size_pool k s x : size (avg_pool k s x) = ceil_div (size x) s.
Proof. by rewrite size_map size_iota. Qed.

(** Where the stride divides the length and the window is no shorter than the stride,
    position [p] is under the window of token [p / s] *)
Theorem C71_cover k s m p : (0 < s <= k)%N -> (p < m * s)%N ->
  (p %/ s < ceil_div (m * s) s)%N /\
  (p %/ s * s <= p + pad_low k s (m * s) < p %/ s * s + k)%N.
Proof.
case/andP=> s0 sk pm; have m0 : (0 < m)%N by case: (m) pm.
rewrite ceil_div_mul // pad_lowE // ltn_divLR // pm; split=> //.
have := divn_eq p s; have := ltn_pmod p s0; have := leq_trunc_div (k - s) 2.
move: (p %/ s)%N (p %% s)%N ((k - s) %/ 2)%N => c r l; lia.
Qed.

(** ... but the decoder gives it token [p mod m]: tiling puts the coarse tokens back
    over the positions they were pooled from only in the trivial cases *)
Theorem C71_align s (y : seq V) : (0 < s)%N -> uniq y ->
  (forall p, (p < s * size y)%N -> nth 0 (tile s y) p = nth 0 y (p %/ s)) <-> (s = 1%N \/ (size y <= 1)%N).
Proof.
move=> s0 u; split=> [h|[->|m1] p].
- have [s1|s1] := leqP s 1; first by left; lia.
  right; rewrite leqNgt; apply/negP => m1.
  have p1 : (1 < s * size y)%N by nia.
  move: (h 1%N p1); rewrite nth_tile // modn_small // divn_small // => /eqP.
  by rewrite nth_uniq // (ltn_trans _ m1).
- by rewrite mul1n tile1 divn1.
- move=> ps; rewrite nth_tile //.
  have [z|y1] : size y = 0%N \/ size y = 1%N by lia.
    by rewrite z muln0 in ps.
  by rewrite y1 modn1 divn_small //; move: ps; rewrite y1 muln1.
Qed.

(** With the window and stride of the configuration (niles.py l.43-45), constants are
    kept except by the last token, which is 4/5 of them *)
Theorem C71_border m c (a : V) : (c < m)%N ->
  nth 0 (avg_pool 5 4 (nseq (m * 4) a)) c = (if (c.+1 < m)%N then 1 else 4%:R / 5%:R) *: a.
Proof.
move=> cm; have m0 : (0 < m)%N by case: (m) cm.
rewrite (nth_map 0%N) ?size_iota ?size_nseq ?ceil_div_mul // nth_iota // add0n pad_lowE //.
rewrite [X in foldr _ _ X](_ : _ = [:: a; a; a; a; if (c.+1 < m)%N then a else 0]); last first.
  rewrite /= !nth_nseq.
  by do 4 (rewrite ifT; last by lia); congr [:: _; _; _; _; _]; congr (if _ then _ else _); lia.
rewrite /= addr0; case: ifP => _; last first.
  by rewrite addr0 !addrA -mulr2n -!mulrSr -scaler_nat scalerA mulrC.
by rewrite !addrA -mulr2n -!mulrSr -scaler_nat scalerA mulVf // pnatr_eq0.
Qed.
End Attention.

Lemma mean2 (R : realFieldType) (ex : R -> R) (scale a b : R) : (forall c, 0 < ex c) ->
  attend ex scale (const_mx 0 : 'rV_1) [:: const_mx 0; const_mx 0] [:: const_mx a; const_mx b] =
  const_mx ((a + b) / 2%:R).
Proof.
move=> ex0; rewrite attendE // /den /num !big_cons !big_nil /= !addr0.
move: (ex _) (ex0 (score scale (const_mx 0 : 'rV_1) (const_mx 0) -
  top scale (const_mx 0 : 'rV_1) [:: (const_mx 0, const_mx a); (const_mx 0, const_mx b)])) => e e0.
rewrite -scalerDr scalerA; apply/rowP => i; rewrite !mxE.
have -> : e + e = 2%:R * e by rewrite mulr_natl mulr2n.
rewrite invfM -[_ * _ * e]mulrA mulVf ?gt_eqF // mulr1.
by rewrite mulrC.
Qed.

(** Examples: one head of dimension 1, keys and queries 0, so that attention is the mean
    of the values; the layer adds it to the token. *)
Section MeanExample.
Variables (R : realFieldType) (ex : R -> R).
Hypothesis ex_gt0 : forall a, 0 < ex a.
Notation Ro := [lmodType R of R^o].
Definition one_head (a : R) : {ffun 'I_1 -> 'rV[R]_1} := [ffun _ => const_mx a].
Definition mean_layer (r : nat) : layer 1 1 Ro :=
  Layer (V := Ro) id (fun _ => one_head 0) (fun _ => one_head 0) one_head
    (fun t => t ord0 0 0) (fun _ => 0) id r.
Lemma mean_token (a b t : R) r :
  at_token ex 1 (mean_layer r) [:: one_head 0; one_head 0] [:: one_head a; one_head b] t = (a + b) / 2%:R + t.
Proof. by rewrite /at_token /= !ffunE /= /at_head !ffunE mean2 // !mxE add0r addr0. Qed.
Example mean_block : decoder_block ex 1 (mean_layer 2) [:: 1; 3%:R] = [:: 3%:R; 5%:R; 3%:R; 5%:R].
Proof.
rewrite C71_tile // blockE /keys /values !tile1 [map _ _]/= !mean_token.
have -> : (1 + 3%:R) / 2%:R = 2%:R :> R by rewrite -(natrD _ 1 3) (natrM _ 2 2) mulfK // pnatr_eq0.
by rewrite -(natrD _ 2 1) -(natrD _ 2 3).
Qed.
Example mean_period : decoder ex 1 (plain [:: mean_layer 2; mean_layer 1; mean_layer 3]) id [:: 1; 3%:R] =
  tile 6 (decoder ex 1 (plain [:: mean_layer 1; mean_layer 1; mean_layer 1]) id [:: 1; 3%:R]).
Proof. by rewrite C71_period // !big_cons big_nil. Qed.
End MeanExample.

Section Examples.
Notation Q := [realFieldType of rat].
(* a positive function that is not constant *)
Definition ex1 (a : Q) : Q := if a < 0 then (1 - a)^-1 else 1 + a.
Lemma ex1_gt0 a : 0 < ex1 a.
Proof.
rewrite /ex1; case: (ltP a 0) => h; last exact: ltr_paddr.
by rewrite invr_gt0 subr_gt0 (lt_trans h).
Qed.
Example softmax_ex : softmax ex1 [:: 0; 1; 0] = [:: 1%:R / 4%:R; 1%:R / 2%:R; 1%:R / 4%:R].
Proof. by apply/eqP; vm_compute. Qed.
Example pool_border : avg_pool (V := [lmodType Q of Q^o]) 5 4 (nseq 8 1) = [:: 1; 4%:R / 5%:R].
Proof. by apply/eqP; vm_compute. Qed.
Example align_false : nth 0 (tile 2 [:: 1 : Q; 3%:R]) 1 = 3%:R. Proof. by []. Qed.
End Examples.

Print Assumptions C71_weights.
Print Assumptions C71_convex.
Print Assumptions C71_tile.
Print Assumptions C71_period.
Print Assumptions C71_permute.
Print Assumptions C71_pool.
Print Assumptions C71_cover.
Print Assumptions C71_align.
Print Assumptions C71_border.
