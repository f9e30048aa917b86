(** Slices as embedded grids; restriction of the interpolation to facets. *)
From mathcomp Require Import all_ssreflect all_algebra zify.
From Verif Require Import PyDict_model PyDict_proofs Facet_model Facet_spec Facet_proofs Facet_proofs2
  GS_model Premesh_model Refiner_model Refiner_spec.
Set Implicit Arguments.
Unset Strict Implicit.
Unset Printing Implicit Defensive.
Import GRing.Theory.
Local Open Scope ring_scope.

(** ** Embeddings *)
Fixpoint emb (b : bool) (m : nat) (ft : seq fdt) (q : seq nat) : seq nat :=
  match ft with
  | [::] => [::]
  | FIRST :: ft' => 0%N :: emb b m ft' q
  | LAST :: ft' => m.-1 :: emb b m ft' q
  | INNER :: ft' => (b + head 0%N q)%N :: emb b m ft' (behead q)
  end.
Definition width (b : bool) (m : nat) : nat := if b then (m - 2)%N else m.

Lemma slice_emb b m ft : slice_positions m b ft = [seq emb b m ft q | q <- grid (width b m) (facet_dim ft)].
Proof.
rewrite /slice_positions /facet_dim; elim: ft => [|t ft IH] //=.
case: t => /=; rewrite IH ?cats0 -?map_comp //.
rewrite add1n grid_S map_flatten -map_comp.
have -> : (if b then iota 1 (m - 2) else iota 0 m) = [seq (b + x)%N | x <- iota 0 (width b m)].
  case: (b) => /=; first by rewrite -(addn0 1%N) iotaDl.
  by rewrite (eq_map (f2 := id)) ?map_id.
by rewrite -map_comp; congr flatten; apply: eq_map => x /=; rewrite -!map_comp.
Qed.

Lemma size_slice_gen b m ft : size (slice_positions m b ft) = (width b m ^ facet_dim ft)%N.
Proof. by rewrite slice_emb size_map size_grid. Qed.

Lemma facet_embE e ft : facet e ft = [seq nth SENT e (flat 2 (emb false 2 ft c)) | c <- grid 2 (facet_dim ft)].
Proof. by rewrite /facet /nd_take slice_emb -map_comp. Qed.

Lemma size_facet e ft : size (facet e ft) = (2 ^ facet_dim ft)%N.
Proof. by rewrite facet_embE size_map size_grid. Qed.

Lemma nth_facet e ft c : c \in grid 2 (facet_dim ft) ->
  nth SENT (facet e ft) (flat 2 c) = nth SENT e (flat 2 (emb false 2 ft c)).
Proof. by move=> cg; rewrite facet_embE nth_map_grid. Qed.

Lemma slice_uniq m b ft : uniq (slice_positions m b ft).
Proof.
apply: cart_uniq; apply/allP => l /mapP[t _ ->]; case: t => //=; case: b; exact: iota_uniq.
Qed.

Lemma emb_grid b m ft q : (2 <= m)%N -> q \in grid (width b m) (facet_dim ft) -> emb b m ft q \in grid m (size ft).
Proof.
by move=> m2 qg; apply: (@slice_sub_grid m b ft m2); rewrite slice_emb; apply: map_f.
Qed.

Lemma facet_uniq e ft : uniq e -> size e = (2 ^ size ft)%N -> uniq (facet e ft).
Proof.
move=> ue se; rewrite /facet /nd_take map_inj_in_uniq ?slice_uniq // => p q ps qs /eqP.
have pg := @slice_sub_grid 2 false ft isT _ ps; have qg := @slice_sub_grid 2 false ft isT _ qs.
rewrite nth_uniq ?se ?flat_lt // => /eqP; exact: (flat_inj pg qg).
Qed.

Lemma mem_facet e ft x : size e = (2 ^ size ft)%N -> x \in facet e ft -> x \in e.
Proof.
by move=> se /mapP[p /(@slice_sub_grid 2 false ft isT) pg ->]; rewrite mem_nth // se flat_lt.
Qed.

(** ** Weights *)
Section Interp.
Variables (R : comRingType) (V : lmodType R).
Variables (m : nat) (M1 : nat -> nat -> R).
Hypothesis m2 : (2 <= m)%N.
Hypothesis M1ok : weights_ok m M1.

Lemma kron_entryE k i c : size i = k -> size c = k ->
  kron_entry M1 i c = \prod_(b < k) M1 (nth 0%N i b) (nth 0%N c b).
Proof.
elim: k i c => [|k IH] [|x i] [|y c] //= => [_ _|[si] [sc]]; first by rewrite big_ord0.
by rewrite /kron_entry /= -/(kron_entry M1 i c) (IH _ _ si sc) big_ord_recl.
Qed.

Lemma kron_cons x i y c : kron_entry M1 (x :: i) (y :: c) = M1 x y * kron_entry M1 i c.
Proof. by []. Qed.

Lemma mlinE k (X : nat -> V) i : size i = k ->
  multilinear M1 k X i = \sum_(c <- grid 2 k) kron_entry M1 i c *: X (flat 2 c).
Proof.
move=> si; apply: eq_big_seq => c; rewrite mem_grid => /andP[/eqP sc _].
by rewrite (kron_entryE si sc).
Qed.

Lemma sum_grid2 k (F : seq nat -> V) :
  \sum_(c <- grid 2 k.+1) F c = \sum_(c <- grid 2 k) F (0%N :: c) + \sum_(c <- grid 2 k) F (1%N :: c).
Proof. by rewrite grid_S /= cats0 big_cat !big_map. Qed.

(** On a facet only its corners count. *)
Lemma restrict_facet ft q (W : seq nat -> V) : size q = facet_dim ft ->
  \sum_(c <- grid 2 (size ft)) kron_entry M1 (emb true m ft q) c *: W c =
  \sum_(c <- grid 2 (facet_dim ft)) kron_entry M1 [seq x.+1 | x <- q] c *: W (emb false 2 ft c).
Proof.
have [w00 w01 wm0 wm1 _] := M1ok.
elim: ft q W => [|t ft IH] q W.
  by rewrite /facet_dim => /size0nil ->; rewrite /= -[grid 2 0]/[:: [::]] !big_seq1.
rewrite [size (_ :: _)]/= sum_grid2; case: t => sq.
- under eq_bigr do rewrite /= kron_cons w00 mul1r.
  under [X in _ + X]eq_bigr do rewrite /= kron_cons w01 mul0r scale0r.
  by rewrite big1_eq addr0 (IH q (fun c => W (0%N :: c))).
- under eq_bigr do rewrite /= kron_cons wm0 mul0r scale0r.
  under [X in _ + X]eq_bigr do rewrite /= kron_cons wm1 mul1r.
  by rewrite big1_eq add0r (IH q (fun c => W (1%N :: c))).
case: q sq => [|x q] // [sq].
have fd : facet_dim (INNER :: ft) = (facet_dim ft).+1 by [].
rewrite fd sum_grid2 /=.
under eq_bigr do rewrite kron_cons mulrC -scalerA.
under [X in _ + X]eq_bigr do rewrite kron_cons mulrC -scalerA.
rewrite (IH q (fun c => _ *: W (0%N :: c))) // (IH q (fun c => _ *: W (1%N :: c))) //.
congr (_ + _); apply: eq_bigr => c _; rewrite add1n /= kron_cons mulrC scalerA //.
Qed.

Lemma multilinear_facet (coords : seq V) e ft q : q \in grid (m - 2) (facet_dim ft) -> 
  multilinear M1 (size ft) (fun p => at_ coords (nth SENT e p)) (emb true m ft q) =
  multilinear M1 (facet_dim ft) (fun p => at_ coords (nth SENT (facet e ft) p)) [seq x.+1 | x <- q].
Proof.
move=> qg; have sq := grid_size qg.
rewrite !mlinE ?size_map //; last first.
  by apply: (@grid_size m); apply: emb_grid.
rewrite restrict_facet //; apply: eq_big_seq => c cg; by rewrite nth_facet.
Qed.

(** Reordering the corners by a symmetry moves the gridpoint by the symmetry. *)
Lemma multilinear_sym k (X : nat -> V) g i : sym_ok k g -> i \in grid m k ->
  multilinear M1 k (fun p => X (nth 0%N (sym_table 2 k g) p)) i = multilinear M1 k X (act m g i).
Proof.
move=> ok ig; have [_ _ _ _ wsym] := M1ok.
rewrite /multilinear -[RHS](perm_big _ (perm_act_grid 2 ok)) big_map.
apply: eq_big_seq => c cg; rewrite nth_map_grid //; congr (_ *: _).
have [p s1 s2] := sym_okP ok.
have inj : injective (fun b : 'I_k => Ordinal (sym_nth_lt ok (ltn_ord b))).
  move=> a b /(congr1 val) /= /eqP; rewrite nth_uniq ?s1 ?(sym_uniq ok) // => /eqP; exact: val_inj.
rewrite (reindex_inj inj) /=; apply: eq_bigr => b _.
rewrite !(nth_act _ _ ok) //; have xm := grid_nth ig (sym_nth_lt ok (ltn_ord b)).
have cm := grid_nth cg (sym_nth_lt ok (ltn_ord b)).
case: (nth false g.2 b) => //=; rewrite wsym; [congr (M1 _ _); lia | lia | lia].
Qed.
End Interp.

Lemma act_shift m k g q : sym_ok k g -> q \in grid (m - 2) k ->
  act m g [seq x.+1 | x <- q] = [seq x.+1 | x <- act (m - 2) g q].
Proof.
move=> ok qg; have sq := grid_size qg.
have sz : size (act m g [seq x.+1 | x <- q]) = k := size_act _ _ ok.
apply: (@eq_from_nth _ 0%N) => [|b]; rewrite sz; first by rewrite size_map (size_act _ _ ok).
move=> bk.
have lt := sym_nth_lt ok bk; have xm := grid_nth qg lt.
rewrite (nth_map 0%N) ?(size_act _ _ ok) // !(nth_act _ _ ok) // (nth_map 0%N) ?sq //.
by case: (nth false g.2 b) => //=; lia.
Qed.

Lemma shift_grid m k q : q \in grid (m - 2) k -> [seq x.+1 | x <- q] \in grid m k.
Proof.
rewrite !mem_grid size_map => /andP[-> /allP a] /=; apply/allP => x /mapP[y /a ym ->]; lia.
Qed.

(** Writing into slots. *)
Lemma size_set_nth_in (A : Type) (x0 : A) s i v : (i < size s)%N -> size (set_nth x0 s i v) = size s.
Proof. by move=> h; rewrite size_set_nth; apply/maxn_idPr. Qed.

Lemma write_slots_spec m d slots ps vals : size slots = (m ^ d)%N -> {subset ps <= grid m d} -> uniq ps ->
  size vals = size ps ->
  [/\ size (write_slots m slots ps vals) = (m ^ d)%N,
      nd_take SENT m (write_slots m slots ps vals) ps = vals &
      forall p, p \in grid m d -> p \notin ps ->
        nth SENT (write_slots m slots ps vals) (flat m p) = nth SENT slots (flat m p)].
Proof.
elim: ps slots vals => [|p ps IH] slots [|v vals] //= ss sub /andP[pps ups] [sv].
have pg : p \in grid m d by apply: sub; rewrite mem_head.
have sub' : {subset ps <= grid m d} by move=> x xps; apply: sub; rewrite inE xps orbT.
rewrite /write_slots /= -/(write_slots m (set_nth SENT slots (flat m p) v) ps vals).
have ss' : size (set_nth SENT slots (flat m p) v) = (m ^ d)%N by rewrite size_set_nth_in ss ?flat_lt.
have [h1 h2 h3] := IH _ _ ss' sub' ups sv.
split=> //; first by rewrite /nd_take /= -/(nd_take _ _ _ _) h2 h3 // nth_set_nth /= eqxx.
move=> r rg; rewrite inE negb_or => /andP[rp rps]; rewrite h3 // nth_set_nth /=.
case: eqP => // e; by rewrite (flat_inj rg pg e) eqxx in rp.
Qed.
