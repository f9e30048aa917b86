(** Consequences of the element pass: structure, sharing, coordinates, success. *)
From mathcomp Require Import all_ssreflect all_algebra zify.
From Verif Require Import PyDict_model PyDict_proofs Facet_model Facet_spec Facet_proofs Facet_proofs2
  GS_model Premesh_model Refiner_model Refiner_spec Refiner_proofs Refiner_proofs2 Refiner_proofs3 Refiner_proofs4.
Set Implicit Arguments.
Unset Strict Implicit.
Unset Printing Implicit Defensive.
Import GRing.Theory.
Local Open Scope ring_scope.
Arguments refine_type : simpl never.

(** ** Positions and facet types *)
Lemma type_slice m n p : (2 <= m)%N -> p \in grid m n -> p \in slice_positions m true (type_of m p).
Proof. by move=> m2 pg; rewrite (mem_slice _ m2 pg). Qed.

Lemma size_type m n p : p \in grid m n -> size (type_of m p) = n.
Proof. by move=> /grid_size; rewrite size_map. Qed.

Lemma dim_emb m ft q : (2 <= m)%N -> q \in grid (m - 2) (facet_dim ft) -> type_of m (emb true m ft q) = ft.
Proof.
move=> m2 qg; apply/eqP; rewrite -(mem_slice _ m2 (emb_grid (b := true) m2 qg)).
by rewrite slice_emb map_f.
Qed.

(** The corner of the refined element that sits at corner [c] of the element. *)
Definition corner_type (c : seq nat) : seq fdt := [seq if x == 0%N then FIRST else LAST | x <- c].
Lemma dim_corner c : facet_dim (corner_type c) = 0%N.
Proof. by rewrite /facet_dim /corner_type; elim: c => [|x c IH] //=; rewrite IH; case: (x == 0%N). Qed.
Lemma emb_corner b m c n : c \in grid 2 n -> emb b m (corner_type c) [::] = [seq (x * m.-1)%N | x <- c].
Proof.
rewrite mem_grid => /andP[_]; elim: c {n} => [|x c IH] //= /andP[x2 /IH <-].
by case: x x2 => [|[|]] //= _; rewrite ?mul0n ?mul1n.
Qed.
Lemma corner_slice b m c n : c \in grid 2 n -> slice_positions m b (corner_type c) = [:: [seq (x * m.-1)%N | x <- c]].
Proof. by move=> cg; rewrite slice_emb dim_corner /= (emb_corner b m cg). Qed.
Lemma facet_corner e c n : c \in grid 2 n -> facet e (corner_type c) = [:: nth SENT e (flat 2 c)].
Proof.
move=> cg; rewrite /facet (corner_slice _ _ cg) /nd_take /=; congr [:: nth _ _ (flat _ _)].
by rewrite -[RHS]map_id; apply: eq_map => x /=; rewrite muln1.
Qed.

(** Different facets of an element have different corner sets. *)
Lemma slice2_inj ft ft' : size ft = size ft' ->
  slice_positions 2 false ft =i slice_positions 2 false ft' -> ft = ft'.
Proof.
elim: ft ft' => [|t ft IH] [|t' ft'] //= [sf] h.
have nonempty f : exists c, c \in slice_positions 2 false f.
  exists (emb false 2 f (nseq (facet_dim f) 0%N)); rewrite slice_emb map_f // mem_grid size_nseq eqxx.
  by rewrite all_nseq orbT.
have memE s f x c : ((x :: c) \in slice_positions 2 false (s :: f)) =
   (x \in axis_positions 2 false s) && (c \in slice_positions 2 false f) by rewrite !mem_cart.
have [c cf] := nonempty ft; have [c' cf'] := nonempty ft'.
have te : axis_positions 2 false t =i axis_positions 2 false t'.
  move=> x; apply/idP/idP => hx.
    by have := h (x :: c); rewrite !memE hx cf => /esym/andP[].
  by have := h (x :: c'); rewrite !memE hx cf' => /andP[].
have tt : t = t'.
  by have := te 0%N; have := te 1%N; case: (t); case: (t').
congr cons => //; apply: IH => // d.
have [x xt] : exists x, x \in axis_positions 2 false t by case: (t); [exists 0%N | exists 1%N | exists 0%N].
by have := h (x :: d); rewrite !memE xt -tt xt.
Qed.

Lemma facet_inj e ft ft' : uniq e -> size e = (2 ^ size ft)%N -> size ft = size ft' ->
  perm_eq (facet e ft) (facet e ft') -> ft = ft'.
Proof.
move=> ue se sf p; apply: slice2_inj => // c.
have inj : forall f f' : seq fdt, size f = size ft -> size f' = size ft -> perm_eq (facet e f) (facet e f') ->
   c \in slice_positions 2 false f -> c \in slice_positions 2 false f'.
  move=> f f' sf1 sf2 pf cf.
  have cg := @slice_sub_grid 2 false f isT _ cf; rewrite sf1 in cg.
  have : nth SENT e (flat 2 c) \in facet e f by apply: map_f.
  rewrite (perm_mem pf) => /mapP[c' cf']; have cg' := @slice_sub_grid 2 false f' isT _ cf'; rewrite sf2 in cg'.
  move/eqP; rewrite nth_uniq ?se ?flat_lt // => /eqP/(flat_inj cg cg') -> //.
apply/idP/idP; apply: inj => //; by rewrite perm_sym.
Qed.

Section Consequences.
Variables (R : comRingType) (V : lmodType R).
Variables (n m : nat) (M1 : nat -> nat -> R).
Hypothesis m2 : (2 <= m)%N.
Variables (c0 : seq V) (els : seq (seq int)).
Hypothesis els_ok : mesh_ok n (size c0) els.
Notation N0 := (size c0).
Notation Inv := (@Inv R V n m M1 c0 els).
Notation elem := (elem els).
Notation row_of := (row_of m).
Variables (s : rstate V) (T : seq (seq int)).
Hypothesis run : refine_facets n m (RState c0 [::]) els n (etcs n m M1 c0 els) = inr (s, T).

Lemma elem_in j : (j < size els)%N -> elem j \in els. Proof. exact: mem_nth. Qed.

(** The slot at [p] is an entry of the row of its facet. *)
Lemma slot_row j p : (j < size els)%N -> p \in grid m n -> size (nth [::] T j) = (m ^ n)%N ->
  nth SENT (nth [::] T j) (flat m p) \in row_of T j (type_of m p).
Proof. by move=> jl pg sT; apply: map_f; apply: type_slice pg. Qed.

Lemma row_slot j ft x : size ft = n -> x \in row_of T j ft ->
  exists2 p, p \in grid m n & (x = nth SENT (nth [::] T j) (flat m p)) /\ type_of m p = ft.
Proof.
move=> sft /mapP[p ps ->]; have pg := @slice_sub_grid m true ft m2 _ ps; rewrite sft in pg.
by exists p => //; split=> //; apply/eqP; rewrite -(mem_slice _ m2 pg).
Qed.

Lemma structure :
  [/\ size T = size els,
      (forall j, (j < size els)%N -> size (nth [::] T j) = (m ^ n)%N) &
      take N0 (rs_coords s) = c0] /\
  [/\ (forall j p, (j < size els)%N -> p \in grid m n ->
         exists2 x, (x < size (rs_coords s))%N & nth SENT (nth [::] T j) (flat m p) = Posz x),
      (forall j c, (j < size els)%N -> c \in grid 2 n ->
         nth SENT (nth [::] T j) (flat m [seq (x * m.-1)%N | x <- c]) = nth SENT (elem j) (flat 2 c)) &
      ((forall x, (x < N0)%N -> exists2 e, e \in els & Posz x \in e) ->
       forall x, (x < size (rs_coords s))%N -> exists2 e, e \in T & Posz x \in e)].
Proof.
have [ow [vs [I sT sTj hrow hvs]]] := element_pass m2 els_ok run.
have N0s : (N0 <= size (rs_coords s))%N by rewrite (inv_size I) leq_addr.
have corner j c : (j < size els)%N -> c \in grid 2 n ->
    nth SENT (nth [::] T j) (flat m [seq (x * m.-1)%N | x <- c]) = nth SENT (elem j) (flat 2 c).
  move=> jl cg; have := hrow j (corner_type c) jl; rewrite size_map dim_corner (grid_size cg) => /(_ erefl) /=.
  by rewrite (facet_corner _ cg) /row_of /nd_take (corner_slice _ _ cg) /= => -[].
split; split=> //.
- exact: inv_take I.
- move=> j p jl pg; have xr := slot_row jl pg (sTj _ jl).
  have := hrow j _ jl (size_type pg); case: eqP => [k0 E|k0 /(inv_visits I)[_ [ho _ _]]].
    move: xr; rewrite E => /mem_facet; have [se _ hv] := els_ok (elem_in jl).
    rewrite (size_type pg) => /(_ se)/hv[x xN ->]; exists x => //; exact: leq_trans xN N0s.
  have [x [xo -> _]] := ho _ xr; exists (N0 + x)%N => //.
  by rewrite (inv_size I) ltn_add2l.
move=> used x xl; case: (ltnP x N0) => xN.
  have [e el xe] := used _ xN; have [j jl ej] := nthP [::] el.
  exists (nth [::] T j); first by rewrite mem_nth // sT.
  have [se _ _] := els_ok el; have /(nthP SENT)[a al ax] := xe; rewrite se in al.
  have cg : nth [::] (grid 2 n) a \in grid 2 n by rewrite mem_nth ?size_grid.
  have ca : flat 2 (nth [::] (grid 2 n) a) = a.
    by rewrite -(nth_map [::] 0%N (flat 2)) ?size_grid // map_flat_grid nth_iota.
  have := corner j _ jl cg; rewrite /elem ej ca ax => <-.
  rewrite mem_nth // (sTj _ jl); apply: flat_lt.
  rewrite mem_grid size_map (grid_size cg) eqxx /=; apply/allP => y /mapP[z zc ->].
  have : (z < 2)%N by move: cg; rewrite mem_grid => /andP[_ /allP h]; apply: h.
  by case: z zc => [|[|]] //= _ _; rewrite ?mul0n ?mul1n; lia.
have xo : (x - N0 < size ow)%N by move: xl; rewrite (inv_size I); lia.
have [v vin] := inv_cover I xo; rewrite subnKC // => xv.
have [j [ft [jl sft _ vE]]] := hvs _ vin; move: xv; rewrite vE /vrow /= => /(row_slot sft)[p pg [-> _]].
by exists (nth [::] T j); rewrite mem_nth ?sT // (sTj _ jl) flat_lt.
Qed.

(** Equal ids lie on facets with the same corners. *)
Lemma sharing j j' p p' : (j < size els)%N -> (j' < size els)%N -> p \in grid m n -> p' \in grid m n ->
  nth SENT (nth [::] T j) (flat m p) = nth SENT (nth [::] T j') (flat m p') ->
  perm_eq (facet (elem j) (type_of m p)) (facet (elem j') (type_of m p')) /\
  ((0 < n)%N -> facet_dim (type_of m p) = n -> j = j').
Proof.
have [ow [vs [I sT sTj hrow hvs]]] := element_pass m2 els_ok run.
move=> jl jl' pg pg' E; have xr := slot_row jl pg (sTj _ jl); have xr' := slot_row jl' pg' (sTj _ jl').
have h := hrow j _ jl (size_type pg); have h' := hrow j' _ jl' (size_type pg').
have low k q : (k < size els)%N -> q \in grid m n -> facet_dim (type_of m q) = 0%N ->
    nth SENT (nth [::] T k) (flat m q) \in row_of T k (type_of m q) ->
    row_of T k (type_of m q) = facet (elem k) (type_of m q) ->
    exists2 x, (x < N0)%N & nth SENT (nth [::] T k) (flat m q) = Posz x.
  move=> kl qg k0 qr qE; move: qr; rewrite qE => /mem_facet; have [se _ hv] := els_ok (elem_in kl).
  by rewrite (size_type qg) => /(_ se)/hv.
case: eqP h => [k0 e1|k0 /(inv_visits I)[_ [ho _ _]]]; case: eqP h' => [k0' e1'|k0' /(inv_visits I)[_ [ho' _ _]]].
- have [x xN xE] := low _ _ jl pg k0 xr e1.
  split; last by rewrite k0 => n0 e; rewrite -e in n0.
  have one k q : facet_dim (type_of m q) = 0%N -> row_of T k (type_of m q) = facet (elem k) (type_of m q) ->
     nth SENT (nth [::] T k) (flat m q) \in row_of T k (type_of m q) ->
     facet (elem k) (type_of m q) = [:: nth SENT (nth [::] T k) (flat m q)].
    move=> kz kE; rewrite kE; have := size_facet (elem k) (type_of m q); rewrite kz.
    by case: (facet _ _) => [|y [|]] //= _; rewrite inE => /eqP->.
  by rewrite (one _ _ k0 e1 xr) (one _ _ k0' e1' xr') E.
- have [x xN xE] := low _ _ jl pg k0 xr e1; have [y [yo yE _]] := ho' _ xr'.
  by move: yE; rewrite -E xE => -[]; lia.
- have [x xN xE] := low _ _ jl' pg' k0' xr' e1'; have [y [yo yE _]] := ho _ xr.
  by move: yE; rewrite E xE => -[]; lia.
have [y [yo yE yt]] := ho _ xr; have [y' [yo' yE' yt']] := ho' _ xr'.
have yy : y = y' by move: yE'; rewrite -E yE => -[]; lia.
move: yt'; rewrite -yy yt /vtag /vdim /vface /=.
case: eqP => kn; case: eqP => kn' // [] e.
  split=> //; rewrite -e.
  have full q : q \in grid m n -> facet_dim (type_of m q) = n -> type_of m q = nseq n INNER.
    move=> qg kk; have := size_type qg; move: kk; elim: (n) (type_of m q) => [|n' IH] [|t f] //=.
    rewrite /facet_dim /= => hk [sf]; have := dim_le f; rewrite /facet_dim sf => le.
    have : t = INNER by case: t hk => //=; rewrite add0n => hk; move: le; rewrite hk ltnn.
    by move=> tI; rewrite tI; congr cons; apply: IH => //; move: hk; rewrite tI /= add1n => -[].
  by rewrite (full _ pg kn) (full _ pg' kn').
by split; [rewrite -sort_perm_eq e | move=> _ kk; case: kn].
Qed.

(** Slots of one element hold different ids. *)
Lemma slots_uniq j : (j < size els)%N -> uniq (nth [::] T j).
Proof.
have [ow [vs [I sT sTj hrow hvs]]] := element_pass m2 els_ok run.
move=> jl; rewrite -(nd_take_grid SENT (sTj _ jl)) /nd_take map_inj_in_uniq ?grid_uniq //.
move=> p p' pg pg' E; have [pe _] := sharing jl jl pg pg' E.
have [se ue _] := els_ok (elem_in jl).
have te : type_of m p = type_of m p'.
  by apply: (facet_inj ue) => //; rewrite ?(size_type pg) ?(size_type pg').
have ps := type_slice m2 pg; have ps' := type_slice m2 pg'; rewrite -te in ps'.
have h := hrow j _ jl (size_type pg).
suff ur : uniq (row_of T j (type_of m p)).
  have inj : {in slice_positions m true (type_of m p) &, injective (fun p => nth SENT (nth [::] T j) (flat m p))}.
    move=> a b ha hb e; have /(nthP [::])[ia la iae] := ha; have /(nthP [::])[ib lb ibe] := hb.
    move: e; rewrite -iae -ibe -!(nth_map _ SENT (fun p => nth SENT (nth [::] T j) (flat m p))) // => /eqP.
    by rewrite nth_uniq ?size_map // => /eqP->.
  exact: inj.
case: eqP h => [k0 ->|k0 /(inv_visits I)[[_ _ _ _]] //].
by apply: facet_uniq; rewrite ?(size_type pg).
Qed.

(** Facets with the same corners get the same nodes. *)
Lemma shared_rows j j' ft ft' : (j < size els)%N -> (j' < size els)%N -> size ft = n -> size ft' = n ->
  (facet_dim ft < n)%N -> perm_eq (facet (elem j) ft) (facet (elem j') ft') ->
  perm_eq (row_of T j ft) (row_of T j' ft').
Proof.
have [ow [vs [I sT sTj hrow hvs]]] := element_pass m2 els_ok run.
move=> jl jl' sf sf' kn pe.
have kk : facet_dim ft = facet_dim ft'.
  by have := perm_size pe; rewrite !size_facet => /eqP; rewrite eqn_exp2l // => /eqP.
have h := hrow j _ jl sf; have h' := hrow j' _ jl' sf'; rewrite -kk in h'.
case: eqP h h' => [k0 -> ->|k0] // /(inv_visits I)[_ [_ _ /(_ kn)]].
rewrite /vdim /vface /vrow /= => -[o [ids [g [h1 h2 h3 ->]]]].
move=> /(inv_visits I)[_ [_ _]]; rewrite /vdim /vface /vrow /= -kk => /(_ kn)[o' [ids' [g' [h1' h2' h3' ->]]]].
have ee : sort <=%R (facet (elem j) ft) = sort <=%R (facet (elem j') ft') by apply/eqP; rewrite sort_perm_eq.
move: h1; rewrite ee h1' => -[_ ii].
have [e' [f' [[_ _ _ oE keyE] [sids _ _ _]]]] := inv_map I h1'.
have kf : facet_dim f' = facet_dim ft.
  have po : perm_eq o' (facet (elem j') ft') by rewrite -sort_perm_eq keyE.
  by have := perm_size po; rewrite oE !size_facet -kk => /eqP; rewrite eqn_exp2l // => /eqP.
rewrite kf in sids; rewrite -ii.
apply: (perm_trans (sym_table_perm_row h2 sids)).
by rewrite perm_sym; apply: sym_table_perm_row.
Qed.
End Consequences.
