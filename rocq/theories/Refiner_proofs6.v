(** Coordinates of refined nodes; success on conforming meshes; the pass without
    coordinates (groups and periodic links). *)
From mathcomp Require Import all_ssreflect all_algebra zify.
From Verif Require Import PyDict_model PyDict_proofs Facet_model Facet_spec Facet_proofs Facet_proofs2
  GS_model Premesh_model Refiner_model Refiner_spec Refiner_proofs Refiner_proofs2 Refiner_proofs3 Refiner_proofs4 Refiner_proofs5.
Set Implicit Arguments.
Unset Strict Implicit.
Unset Printing Implicit Defensive.
Import GRing.Theory.
Local Open Scope ring_scope.
Arguments refine_type : simpl never.

Lemma foldr_sum (V : zmodType) (A : Type) (f : A -> V) (l : seq A) :
  foldr (fun c a => f c + a) 0 l = \sum_(c <- l) f c.
Proof. by elim: l => [|c l IH]; rewrite ?big_nil ?big_cons //= IH. Qed.

Lemma mutual_sym k F g : uniq F -> size F = (2 ^ k)%N -> sym_ok k g ->
  mutual F [seq nth SENT F p | p <- sym_table 2 k g] -> sym_inv k g = g.
Proof.
move=> uF sF ok mu; have okI := sym_inv_ok ok.
apply: (@sym_table_inj k) => //; apply/eq_in_map => c cg; congr flat.
have ag := act_grid ok cg.
suff E : act 2 g (act 2 g c) = c by rewrite -{1}E actK.
have tl p : (p < 2 ^ k)%N -> nth SENT [seq nth SENT F p | p <- sym_table 2 k g] p = nth SENT F (nth 0%N (sym_table 2 k g) p).
  by move=> pl; rewrite (nth_map 0%N) ?size_sym_table.
have := mu (flat 2 c) (flat 2 (act 2 g c)); rewrite sF !flat_lt // !tl ?flat_lt // !nth_map_grid //.
move=> /(_ isT isT erefl)/eqP; rewrite nth_uniq ?sF ?flat_lt ?act_grid // => /eqP/flat_inj h.
by apply: (h k); rewrite ?act_grid.
Qed.

Section Coords.
Variables (R : comRingType) (V : lmodType R).
Variables (n m : nat) (M1 : nat -> nat -> R).
Hypothesis m2 : (2 <= m)%N.
Variables (c0 : seq V) (els : seq (seq int)).
Hypothesis els_ok : mesh_ok n (size c0) els.
Notation N0 := (size c0).
Notation Inv := (@Inv R V n m M1 c0 els).
Notation elem := (elem els).
Notation row_of := (row_of m).
Notation corners F := (fun p => at_ c0 (nth SENT F p)).

Lemma element_coordsE e p : p \in grid m n ->
  nth 0 (element_coords n m M1 c0 e) (flat m p) = multilinear M1 n (corners e) p.
Proof.
move=> pg; rewrite /element_coords nth_map_grid // foldr_sum mlinE //; exact: grid_size pg.
Qed.

Hypothesis M1ok : weights_ok m M1.

Lemma raw_multilinear s e ft ids q : size ft = n -> raw_coords n m M1 c0 s e ft ids -> q \in grid (m - 2) (facet_dim ft) ->
  at_ (rs_coords s) (nth SENT ids (flat (m - 2) q)) = multilinear M1 (facet_dim ft) (corners (facet e ft)) [seq x.+1 | x <- q].
Proof.
move=> sft h qg; rewrite h // element_coordsE; last by rewrite -sft; apply: emb_grid.
by rewrite -{1}sft multilinear_facet.
Qed.

(** All listings of the corners of [F] by elements are position-exchanging. *)
Definition good_listing (F : seq int) : Prop :=
  (m <= 3)%N \/ (forall e ft, e \in els -> size ft = n -> perm_eq F (facet e ft) -> mutual F (facet e ft)).

Lemma grid_small k q q' : (m <= 3)%N -> q \in grid (m - 2) k -> q' \in grid (m - 2) k -> q = q'.
Proof.
move=> m3 qg qg'; apply: (eq_grid qg qg') => b bk.
have := grid_nth qg bk; have := grid_nth qg' bk; lia.
Qed.

Lemma row_coords s ow vs k F row q : Inv s ow vs -> from_map m s k F row -> uniq F -> size F = (2 ^ k)%N ->
  good_listing F -> q \in grid (m - 2) k ->
  at_ (rs_coords s) (nth SENT row (flat (m - 2) q)) = multilinear M1 k (corners F) [seq x.+1 | x <- q].
Proof.
move=> I [orient [ids [g [hd ok oE ->]]]] uF sF good qg.
have [e [ft [[el sft kn orE keyE] [sids uids _ hraw]]]] := inv_map I hd.
have pF : perm_eq F orient by rewrite -sort_perm_eq; apply/eqP.
have kk : facet_dim ft = k.
  by have := perm_size pF; rewrite orE size_facet sF => /eqP; rewrite eqn_exp2l // => /eqP.
have ag : act (m - 2) g q \in grid (m - 2) k by apply: act_grid.
rewrite (nth_map 0%N) ?size_sym_table ?flat_lt // nth_map_grid //.
have := @raw_multilinear s e ft ids (act (m - 2) g q) sft hraw; rewrite kk => -> //.
rewrite -orE.
have -> : multilinear M1 k (corners orient) [seq x.+1 | x <- act (m - 2) g q] =
          multilinear M1 k (fun p => corners F (nth 0%N (sym_table 2 k g) p)) [seq x.+1 | x <- act (m - 2) g q].
  apply: eq_big_seq => c cg; congr (_ *: at_ _ _).
  by rewrite oE (nth_map 0%N) // size_sym_table flat_lt.
rewrite (multilinear_sym m2 M1ok (corners F) ok) ?shift_grid // (act_shift ok ag).
congr (multilinear _ _ _ (map _ _)).
case: good => [m3|mu]; first by apply: (@grid_small k) => //; rewrite ?act_grid.
have gi : sym_inv k g = g.
  apply: (mutual_sym uF sF ok); rewrite -oE orE; apply: mu => //; by rewrite -orE.
by rewrite -{1}gi actK.
Qed.

Section ElementCoords.
Variables (s : rstate V) (T : seq (seq int)).
Hypothesis run : refine_facets n m (RState c0 [::]) els n (etcs n m M1 c0 els) = inr (s, T).
Hypothesis good : forall e ft, e \in els -> size ft = n -> (0 < facet_dim ft < n)%N -> good_listing (facet e ft).

Lemma coords_below (x : nat) : (x < N0)%N -> at_ (rs_coords s) (Posz x) = at_ c0 (Posz x).
Proof.
have [ow [vs [I _ _ _ _]]] := element_pass m2 els_ok run.
by move=> xN; rewrite /at_ /= -[in RHS](inv_take I) nth_take.
Qed.

Lemma corner_coords F ft p : size ft = size p -> (forall x, x \in F -> exists2 j, (j < N0)%N & x = Posz j) ->
  size F = (2 ^ size ft)%N -> facet_dim ft = 0%N -> p \in slice_positions m true ft -> 
  forall y, facet F ft = [:: y] -> at_ (rs_coords s) y = multilinear M1 (size ft) (corners F) p.
Proof.
move=> sfp hv sF k0; rewrite slice_emb k0 /= inE => /eqP pE y yE.
have qg : [::] \in grid (m - 2) (facet_dim ft) by rewrite k0.
have := @multilinear_facet R V m M1 m2 M1ok c0 F ft [::] qg; rewrite -pE => ->.
rewrite k0 yE /multilinear -[grid 2 0]/[:: [::]] big_seq1 big_ord0 scale1r /=.
have yF : y \in F by apply: (@mem_facet F ft) => //; rewrite yE mem_head.
by have [j jN ->] := hv _ yF; rewrite coords_below.
Qed.

Lemma element_coords_ok j p : (j < size els)%N -> p \in grid m n ->
  at_ (rs_coords s) (nth SENT (nth [::] T j) (flat m p)) = multilinear M1 n (corners (elem j)) p.
Proof.
have [ow [vs [I sT sTj hrow hvs]]] := element_pass m2 els_ok run.
move=> jl pg; set ft := type_of m p; have sft : size ft = n := size_type pg.
have ps : p \in slice_positions m true ft := type_slice m2 pg.
have el : elem j \in els by exact: mem_nth.
have [se ue hv] := els_ok el; rewrite -sft in se.
have := hrow j ft jl sft; case: eqP => [k0 rE|k0 vin].
  have [y yE] : exists y, facet (elem j) ft = [:: y].
    by have := size_facet (elem j) ft; rewrite k0; case: (facet _ _) => [|y [|]] //; exists y.
  have xr : nth SENT (nth [::] T j) (flat m p) \in row_of T j ft by apply: map_f.
  move: xr; rewrite rE yE inE => /eqP->.
  by rewrite -sft; apply: corner_coords => //; rewrite ?size_map.
have kpos : (0 < facet_dim ft)%N by rewrite lt0n; apply/eqP.
have [[_ _ _ sr ur] [ho hfull hmap]] := inv_visits I vin; rewrite /vdim /vrow /vface /= in sr ur ho hfull hmap.
move: ps; rewrite slice_emb => /mapP[q qg pE].
have slotE : nth SENT (nth [::] T j) (flat m p) = nth SENT (row_of T j ft) (flat (m - 2) q).
  by rewrite /row_of /nd_take slice_emb -map_comp nth_map_grid //= -pE.
rewrite slotE pE -{1}sft multilinear_facet //.
case: (ltnP (facet_dim ft) n) => kn.
  apply: (row_coords I (hmap kn)) => //; rewrite ?size_facet //; first exact: facet_uniq.
  by apply: good; rewrite ?kpos.
by apply: raw_multilinear => //; apply: hfull; apply/eqP; rewrite eqn_leq kn -{1}sft dim_le.
Qed.
End ElementCoords.

(** ** Success *)
Hypothesis conf : conforming n els.

Lemma refine_one_ok s ow vs e ft cs : Inv s ow vs -> e \in els -> size ft = n -> (0 < facet_dim ft < n)%N ->
  exists r, refine_one n m s (facet_dim ft) (facet e ft) (Some cs) = inr r.
Proof.
move=> I el sft kn; rewrite /refine_one /dim_orderings kn.
case D : (dget _ _) => [[orient ids]|]; last by eexists.
have [e' [ft' [[el' sft' kn' oE keyE] _]]] := inv_map I D.
have pF : perm_eq (facet e ft) orient by rewrite -sort_perm_eq; apply/eqP.
have [g ok oG] : oriented (facet_dim ft) (facet e ft) orient by rewrite oE; apply: conf => //; rewrite -oE.
have uF := els_facet els_ok el sft.
have /(index_table uF (size_facet e ft) pF ok) -> := oG.
by rewrite orderings_get //; eexists.
Qed.
End Coords.

Section Success.
Variables (R : comRingType) (V : lmodType R).
Variables (n m : nat) (M1 : nat -> nat -> R).
Hypothesis m2 : (2 <= m)%N.
Variables (c0 : seq V) (els : seq (seq int)).
Hypothesis els_ok : mesh_ok n (size c0) els.
Notation Inv := (@Inv R V n m M1 c0 els).
Hypothesis conf : conforming n els.

Lemma refine_each_ok ft es s ow vs :
  Inv s ow vs -> {subset es <= els} -> size ft = n -> (0 < facet_dim ft < n)%N ->
  exists r, refine_each n m s (facet_dim ft) [seq facet e ft | e <- es] [seq Some c | c <- ecs n m M1 c0 es ft] = inr r.
Proof.
move=> I sub sft kn; elim: es s ow vs I sub => [|e es IH] s ow vs I sub /=; first by eexists.
have el : e \in els by apply: sub; rewrite mem_head.
have [[s1 row] E1] := refine_one_ok els_ok conf (nd_take 0 m (element_coords n m M1 c0 e) (slice_positions m true ft)) I el sft kn.
have [ow1 [I1 x1]] := refine_one_inv m2 els_ok 0 I el sft kn (erefl _) E1.
have [|[s2 rows] E2] := IH _ _ _ I1; first by move=> y yes; apply: sub; rewrite inE yes orbT.
by rewrite E1 E2; eexists.
Qed.

Lemma all_rows_ok fts s ow vs : Inv s ow vs -> all (fun ft => size ft == n) fts ->
  exists r, all_rows n m els (etcs n m M1 c0 els) s fts = inr r.
Proof.
elim: fts s ow vs => [|ft fts IH] s ow vs I /=; first by eexists.
case/andP=> /eqP sft sfts.
have [[s1 rows] E] : exists r, type_rows n m els (etcs n m M1 c0 els) s ft = inr r.
  rewrite /type_rows; case: eqP => [_|k0]; first by eexists.
  have fE : [seq omap (fun tc => nd_take 0 m tc (slice_positions m true ft)) oc | oc <- etcs n m M1 c0 els] = [seq Some c | c <- ecs n m M1 c0 els ft].
    by rewrite /etcs /ecs -!map_comp.
  rewrite fE; have -> : all isSome [seq Some c | c <- ecs n m M1 c0 els ft] by rewrite all_map; apply/allP.
  rewrite andbT; case: eqP => [_|kn]; first by eexists.
  apply: (refine_each_ok I) => //; apply/andP; split; first by rewrite lt0n; apply/eqP.
  by rewrite ltn_neqAle -{2}sft dim_le andbT; apply/eqP.
have [ow1 [I1 _ _ _]] := type_rows_inv m2 els_ok I sft E.
have [[s2 log] E2] := IH _ _ _ I1 sfts.
by rewrite E E2; eexists.
Qed.

Lemma element_pass_ok : exists r, refine_facets n m (RState c0 [::]) els n (etcs n m M1 c0 els) = inr r.
Proof.
rewrite /refine_facets refine_typesE.
have sfts : all (fun ft => size ft == n) (all_facet_types n) by apply/allP => ft; rewrite mem_facet_types.
have [[s log] ->] := all_rows_ok (init_inv n m M1 c0 els) sfts.
by eexists.
Qed.
End Success.

(** Edges are always listed in one of their two orientations; hence every mesh
    of dimension at most 2 is conforming and position-exchanging. *)
Lemma edge_listing (F F' : seq int) : size F = 2%N -> perm_eq F F' -> F' = F \/ F' = rev F.
Proof.
case: F => [|a [|b [|]]] // _; case: F' => [|c [|d [|? ?]]] p; try by have := perm_size p.
have := perm_mem p a; rewrite !inE eqxx /= => /esym/orP[/eqP ce|/eqP ce].
  by left; move: p; rewrite ce perm_cons => /perm_mem/(_ d); rewrite !inE eqxx => /eqP->.
right; move: p; rewrite ce -[[:: c; d]]/([:: c] ++ [:: d]) perm_sym perm_catC /= perm_cons.
by move=> /perm_mem/(_ c); rewrite !inE eqxx => /esym/eqP->.
Qed.

Lemma edge_oriented F F' : size F = 2%N -> perm_eq F F' -> oriented 1 F F' /\ mutual F F'.
Proof.
move=> sF /(edge_listing sF); case: F sF => [|a [|b [|]]] // _; rewrite /rev /=; case=> ->; split.
- by exists ([:: 0%N], [:: false]).
- by case=> [|[|]] // [|[|]].
- by exists ([:: 0%N], [:: true]).
- by case=> [|[|]] // [|[|]].
Qed.
