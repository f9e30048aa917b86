(** Composition of symmetries; facets of facets; symmetries restricted to facets. *)
From mathcomp Require Import all_ssreflect all_algebra zify.
From Verif Require Import PyDict_model PyDict_proofs Facet_model Facet_spec Facet_proofs Facet_proofs2
  GS_model Premesh_model Refiner_model Refiner_spec Refiner_proofs Refiner_proofs2.
Set Implicit Arguments.
Unset Strict Implicit.
Unset Printing Implicit Defensive.

(** ** Composition *)
Definition sym_comp (d : nat) (g h : sym) : sym :=
  ([seq nth 0 h.1 (nth 0 g.1 b) | b <- iota 0 d],
   [seq nth false g.2 b (+) nth false h.2 (nth 0 g.1 b) | b <- iota 0 d]).

Lemma nth_iota_map (A : Type) (x0 : A) (f : nat -> A) d b : b < d -> nth x0 [seq f b | b <- iota 0 d] b = f b.
Proof. by move=> bd; rewrite (nth_map 0) ?size_iota // nth_iota. Qed.

Lemma sym_comp_ok d g h : sym_ok d g -> sym_ok d h -> sym_ok d (sym_comp d g h).
Proof.
move=> okg okh; have [pg sg _] := sym_okP okg; have [ph sh _] := sym_okP okh.
rewrite /sym_ok size_map size_iota eqxx andbT /=.
have -> : [seq nth 0 h.1 (nth 0 g.1 b) | b <- iota 0 d] = [seq nth 0 h.1 b | b <- g.1].
  by rewrite -[in RHS](@take_size _ g.1) -[in RHS](map_nth_iota0 0 (leqnn _)) sg -map_comp.
apply: perm_trans ph; rewrite -[X in perm_eq _ X](@take_size _ h.1) -(map_nth_iota0 0 (leqnn _)) sh.
exact: perm_map.
Qed.

Lemma act_comp m d g h i : sym_ok d g -> sym_ok d h -> i \in grid m d ->
  act m g (act m h i) = act m (sym_comp d g h) i.
Proof.
move=> okg okh ig; have okc := sym_comp_ok okg okh.
apply: (@eq_grid m d); rewrite ?act_grid // => b bd.
have gb := sym_nth_lt okg bd; have hb := sym_nth_lt okh gb; have xm := grid_nth ig hb.
rewrite (nth_act _ _ okg) // (nth_act _ _ okh) // (nth_act _ _ okc) //= !nth_iota_map //.
rewrite /rev_if; case: (nth _ g.2 _); case: (nth _ h.2 _) => //=; lia.
Qed.

Lemma sym_table_comp (A : Type) (x0 : A) m d g h (l : seq A) : sym_ok d g -> sym_ok d h ->
  [seq nth x0 [seq nth x0 l p | p <- sym_table m d h] p | p <- sym_table m d g] =
  [seq nth x0 l p | p <- sym_table m d (sym_comp d h g)].
Proof.
move=> okg okh; rewrite /sym_table -!map_comp; apply/eq_in_map => i ig /=.
by rewrite nth_map_grid ?act_grid //= (act_comp okh okg).
Qed.

Lemma oriented_refl k F : size F = 2 ^ k -> oriented k F F.
Proof. by move=> sF; exists (sym_id k); rewrite ?sym_id_ok // take_table. Qed.
Lemma oriented_trans k F G H : oriented k F G -> oriented k G H -> oriented k F H.
Proof.
move=> [g okg ->] [h okh ->]; exists (sym_comp k g h); first exact: sym_comp_ok.
by rewrite sym_table_comp.
Qed.
Lemma oriented_sym k F G : size F = 2 ^ k -> oriented k F G -> oriented k G F.
Proof.
move=> sF [g okg ->]; exists (sym_inv k g); first exact: sym_inv_ok.
have okI := sym_inv_ok okg.
rewrite sym_table_comp // -[LHS](@take_table _ SENT 2 k) //; congr map; apply/eq_in_map => i ig.
by rewrite act_id // -act_comp // act_invK.
Qed.
Lemma oriented_perm k F G : size F = 2 ^ k -> oriented k F G -> perm_eq F G.
Proof.
move=> sF [g okg ->]; rewrite perm_sym -{2}(@take_table _ SENT 2 k F sF) sym_table_id.
by apply: perm_map; apply: perm_sym_table.
Qed.

(** ** Facets of facets *)
Fixpoint subst (ft ft2 : seq fdt) : seq fdt :=
  match ft with
  | [::] => [::]
  | INNER :: ft' => head INNER ft2 :: subst ft' (behead ft2)
  | t :: ft' => t :: subst ft' ft2
  end.

Lemma size_subst ft ft2 : size (subst ft ft2) = size ft.
Proof. by elim: ft ft2 => [|[] ft IH] ft2 //=; rewrite IH. Qed.

Lemma dim_subst ft ft2 : size ft2 = facet_dim ft -> facet_dim (subst ft ft2) = facet_dim ft2.
Proof.
rewrite /facet_dim; elim: ft ft2 => [|[] ft IH] ft2 //=; first by case: ft2.
- by rewrite add0n => /IH->.
- by rewrite add0n => /IH->.
by case: ft2 => [|t ft2] //= [/IH->].
Qed.

Lemma emb_subst b m ft ft2 q : size ft2 = facet_dim ft ->
  emb b m (subst ft ft2) q = emb false m ft (emb b m ft2 q).
Proof.
rewrite /facet_dim; elim: ft ft2 q => [|[] ft IH] ft2 q //=.
- by rewrite add0n => /IH->.
- by rewrite add0n => /IH->.
by case: ft2 => [|[] ft2] //= [/IH->].
Qed.

Lemma facet_subst e ft ft2 : size ft2 = facet_dim ft -> facet (facet e ft) ft2 = facet e (subst ft ft2).
Proof.
move=> sf; rewrite (facet_embE (facet e ft)) (facet_embE e (subst _ _)) dim_subst //.
apply/eq_in_map => c cg; rewrite nth_facet ?emb_subst // -sf.
exact: (@emb_grid false 2).
Qed.

Lemma facet_inner F d : size F = 2 ^ d -> facet F (nseq d INNER) = F.
Proof.
move=> sF; have fd : facet_dim (nseq d INNER) = d by rewrite /facet_dim count_nseq mul1n.
rewrite facet_embE fd -[RHS](@take_table _ SENT 2 d) // sym_table_id -map_flat_grid -map_comp.
apply/eq_in_map => c cg /=; congr (nth _ _ (flat _ _)); have := grid_size cg.
by elim: (d) {cg} c => [|d' IH] [|x c] //= [/IH->].
Qed.

(** ** Restriction of a symmetry to a facet *)
Definition inner (ft : seq fdt) : seq nat := [seq a <- iota 0 (size ft) | nth FIRST ft a == INNER].

Lemma size_inner ft : size (inner ft) = facet_dim ft.
Proof.
rewrite size_filter /facet_dim -[X in count_mem INNER X](@take_size _ ft) -(map_nth_iota0 FIRST (leqnn _)).
by rewrite count_map; apply: eq_count => a.
Qed.
Lemma inner_uniq ft : uniq (inner ft). Proof. by rewrite filter_uniq ?iota_uniq. Qed.
Lemma mem_inner ft a : (a \in inner ft) = (a < size ft) && (nth FIRST ft a == INNER).
Proof. by rewrite mem_filter mem_iota andbC. Qed.

Lemma inner_cons t ft : inner (t :: ft) = (if t == INNER then [:: 0] else [::]) ++ [seq a.+1 | a <- inner ft].
Proof.
rewrite /inner /= -[1]/(1 + 0) iotaDl filter_map.
have -> : [seq x <- iota 0 (size ft) | preim (addn 1) (fun a => nth FIRST (t :: ft) a == INNER) x] = inner ft by [].
by case: (t == INNER).
Qed.

Lemma nth_emb b m ft q a : size q = facet_dim ft -> a < size ft ->
  nth 0 (emb b m ft q) a =
  match nth FIRST ft a with FIRST => 0 | LAST => m.-1 | INNER => b + nth 0 q (index a (inner ft)) end.
Proof.
rewrite /facet_dim.
have ix (l : seq nat) x : index x.+1 [seq y.+1 | y <- l] = index x l by apply: index_map => ? ? [].
elim: ft q a => [|t ft IH] q [|a] //= sq al; rewrite inner_cons.
  by case: t sq => //=; case: q.
case: t sq => /= sq; try by rewrite IH ?ix.
by case: q sq => [|x q] //= [sq]; rewrite IH ?ix.
Qed.

Definition flip_type (f : bool) (t : fdt) : fdt :=
  if f then match t with FIRST => LAST | LAST => FIRST | INNER => INNER end else t.
Definition sym_type (d : nat) (g : sym) (ft : seq fdt) : seq fdt :=
  [seq flip_type (nth false g.2 b) (nth FIRST ft (nth 0 g.1 b)) | b <- iota 0 d].
Definition sym_restrict (d : nat) (g : sym) (ft : seq fdt) : sym :=
  let P := inner (sym_type d g ft) in
  ([seq index (nth 0 g.1 b) (inner ft) | b <- P], [seq nth false g.2 b | b <- P]).

Section Restrict.
Variables (d : nat) (g : sym) (ft : seq fdt).
Hypotheses (ok : sym_ok d g) (sft : size ft = d).

Lemma size_sym_type : size (sym_type d g ft) = d. Proof. by rewrite size_map size_iota. Qed.
Lemma nth_sym_type b : b < d -> nth FIRST (sym_type d g ft) b = flip_type (nth false g.2 b) (nth FIRST ft (nth 0 g.1 b)).
Proof. by move=> bd; rewrite nth_iota_map. Qed.

Lemma mem_inner_sym b : (b \in inner (sym_type d g ft)) = (b < d) && (nth 0 g.1 b \in inner ft).
Proof.
rewrite !mem_inner size_sym_type sft; case bd : (b < d) => //=.
by rewrite nth_sym_type // (sym_nth_lt ok bd) /=; case: (nth _ g.2 _); case: (nth FIRST ft _).
Qed.

Lemma perm_inner : perm_eq [seq nth 0 g.1 b | b <- inner (sym_type d g ft)] (inner ft).
Proof.
have [p s1 s2] := sym_okP ok.
apply: uniq_perm; rewrite ?inner_uniq //.
  rewrite map_inj_in_uniq ?inner_uniq // => a b; rewrite !mem_inner_sym => /andP[ad _] /andP[bd _] /eqP.
  by rewrite nth_uniq ?s1 ?(sym_uniq ok) // => /eqP.
move=> a; apply/mapP/idP => [[b]|ai]; first by rewrite mem_inner_sym => /andP[_ h] ->.
have ag : a \in g.1 by rewrite (perm_mem p) mem_iota /= -sft; move: ai; rewrite mem_inner => /andP[].
exists (index a g.1); rewrite ?nth_index // mem_inner_sym nth_index // ai andbT.
by rewrite -s1 index_mem.
Qed.

Lemma dim_sym_type : facet_dim (sym_type d g ft) = facet_dim ft.
Proof. by rewrite -!size_inner -(perm_size perm_inner) size_map. Qed.

Lemma sym_restrict_ok : sym_ok (facet_dim ft) (sym_restrict d g ft).
Proof.
rewrite /sym_ok /= size_map size_inner dim_sym_type eqxx andbT.
rewrite (map_comp (fun a => index a (inner ft)) (nth 0 g.1)).
apply: perm_trans (perm_map _ perm_inner) _; rewrite -size_inner.
suff -> : [seq index a (inner ft) | a <- inner ft] = iota 0 (size (inner ft)) by [].
apply: (@eq_from_nth _ 0) => [|i]; rewrite size_map ?size_iota // => il.
by rewrite (nth_map 0) // index_uniq ?inner_uniq // nth_iota.
Qed.

Lemma act_emb c : c \in grid 2 (facet_dim ft) ->
  act 2 g (emb false 2 ft c) = emb false 2 (sym_type d g ft) (act 2 (sym_restrict d g ft) c).
Proof.
move=> cg; have okr := sym_restrict_ok.
have eg : emb false 2 ft c \in grid 2 d by rewrite -sft; apply: (@emb_grid false 2).
apply: (@eq_grid 2 d); rewrite ?act_grid //.
  rewrite -[X in grid 2 X]size_sym_type; apply: (@emb_grid false 2) => //.
  by rewrite dim_sym_type ?act_grid.
move=> b bd; have gb := sym_nth_lt ok bd.
rewrite (nth_act _ _ ok) // !nth_emb ?size_sym_type ?sft ?(grid_size cg) ?(size_act _ _ okr) ?dim_sym_type //.
rewrite nth_sym_type //; case E : (nth FIRST ft _) => //=; try by case: (nth _ g.2 _).
have bi : b \in inner (sym_type d g ft) by rewrite mem_inner_sym bd mem_inner sft gb E.
have il : index b (inner (sym_type d g ft)) < facet_dim ft by rewrite -dim_sym_type -size_inner index_mem.
rewrite (_ : flip_type _ _ = INNER) /=; last by case: (nth _ g.2 _).
rewrite !add0n (nth_act _ _ okr) //= !(nth_map 0) ?size_inner ?dim_sym_type // nth_index //.
Qed.
End Restrict.

(** A facet of a re-oriented cube is a re-oriented facet of the cube. *)
Lemma oriented_facet d F G ft : size F = 2 ^ d -> size ft = d -> oriented d F G ->
  exists ft2, [/\ size ft2 = d, facet_dim ft2 = facet_dim ft & oriented (facet_dim ft) (facet F ft2) (facet G ft)].
Proof.
move=> sF sft [g ok ->]; exists (sym_type d g ft); split; first exact: size_sym_type.
  exact: dim_sym_type.
exists (sym_restrict d g ft); first exact: sym_restrict_ok.
rewrite (facet_embE _ ft) [in RHS]/sym_table -[RHS]map_comp; apply/eq_in_map => c cg /=.
have eg : emb false 2 ft c \in grid 2 d by rewrite -sft; apply: (@emb_grid false 2).
rewrite (nth_map 0) ?size_sym_table ?flat_lt // nth_map_grid // (act_emb ok sft cg) -nth_facet //.
by rewrite (dim_sym_type ok sft) act_grid // sym_restrict_ok.
Qed.
