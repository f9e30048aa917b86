From mathcomp Require Import all_ssreflect all_algebra zify.
From Verif Require Import PyDict_model PyDict_proofs Facet_model Facet_proofs GS_model Premesh_model.
From Verif Require Import UnitCube_model UnitCube_spec.
Set Implicit Arguments.
Unset Strict Implicit.
Unset Printing Implicit Defensive.
Import GRing.Theory.

Lemma grid0 m : grid m 0 = [:: [::]]. Proof. by []. Qed.

(** ** Facet elements *)
Fixpoint femb (n : nat) (ft : seq fdt) (c k : seq nat) : seq nat :=
  match ft with
  | [::] => [::]
  | FIRST :: ft' => 0 :: femb n ft' c k
  | LAST :: ft' => n :: femb n ft' c k
  | INNER :: ft' => (head 0 c + head 0 k) :: femb n ft' (behead c) (behead k)
  end.

Lemma cart_dim_to_elem n ft :
  [seq cart et | et <- cart [seq dim_to_elem n t | t <- ft]] =
  [seq [seq femb n ft c k | k <- grid 2 (facet_dim ft)] | c <- grid n (facet_dim ft)].
Proof.
elim: ft => [|t ft IH] //.
have E (x : seq nat) (A : seq (seq (seq nat))) : [seq cart (x :: et) | et <- A] =
   [seq flatten [seq [seq y :: r | r <- z] | y <- x] | z <- [seq cart et | et <- A]].
  by rewrite -map_comp.
have step (x : nat) : [seq cart et | et <- flatten [seq [seq y :: r | r <- cart [seq dim_to_elem n t | t <- ft]] | y <- [:: [:: x]]]]
   = [seq [seq x :: femb n ft c k | k <- grid 2 (facet_dim ft)] | c <- grid n (facet_dim ft)].
  rewrite /= cats0 -map_comp (E [:: x]) IH -map_comp; apply: eq_map => c /=.
  by rewrite cats0 -map_comp.
case: t.
- exact: step.
- exact: step.
rewrite /facet_dim /= -/(facet_dim ft) grid_S !map_flatten; congr flatten.
rewrite /pairwise_arange -!map_comp; apply: eq_map => i /=.
rewrite -!map_comp (E [:: i; i.+1]) IH -map_comp; apply: eq_map => c /=.
by rewrite cats0 /grid /= cats0 map_cat -!map_comp /=; congr (_ ++ _); apply: eq_map => k /=; rewrite ?addn0 ?addn1.
Qed.

Lemma ufe n ft : unit_cube_facet_elements n ft =
  [seq [seq node n (femb n ft c k) | k <- grid 2 (facet_dim ft)] | c <- grid n (facet_dim ft)].
Proof.
rewrite /unit_cube_facet_elements.
transitivity [seq [seq node n i | i <- e] | e <- [seq cart et | et <- cart [seq dim_to_elem n t | t <- ft]]].
  by rewrite -map_comp.
by rewrite cart_dim_to_elem -map_comp; apply: eq_map => c /=; rewrite -map_comp.
Qed.

Lemma femb_inner n d c k : size c = d -> size k = d -> femb n (nseq d INNER) c k = addv c k.
Proof.
elim: d c k => [|d IH] [|x c] [|y k] //= [sc] [sk]; by rewrite IH.
Qed.

Lemma facet_dim_inner d : facet_dim (nseq d INNER) = d.
Proof. by rewrite /facet_dim count_nseq mul1n. Qed.

Lemma size_grid_in m d i : i \in grid m d -> size i = d.
Proof. by rewrite mem_grid => /andP[/eqP]. Qed.

Lemma elements_cells n d : unit_cube_facet_elements n (nseq d INNER) = [seq cell n c | c <- grid n d].
Proof.
rewrite ufe facet_dim_inner; apply/eq_in_map => c cg; rewrite /cell (size_grid_in cg).
apply/eq_in_map => k kg; rewrite femb_inner ?(size_grid_in cg) ?(size_grid_in kg) //.
Qed.

Definition side_type (d axis : nat) (t : fdt) : seq fdt := nseq axis INNER ++ t :: nseq (d.-1 - axis) INNER.

Lemma femb_side n d axis t c k : axis < d -> size c = d.-1 -> size k = d.-1 -> t != INNER ->
  femb n (side_type d axis t) c k = ins axis (if t == FIRST then 0 else n) (addv c k).
Proof.
case: d => // d /= al sc sk tI; rewrite /side_type /ins.
elim: axis d c k al sc sk => [|axis IH] d c k al sc sk /=.
  rewrite take0 drop0 subn0 /=.
  by case: t tI => //= _; rewrite femb_inner.
case: d al sc sk => // d al; case: c k => [|x c] [|y k] //= [sc] [sk]; congr (_ :: _).
by rewrite subSS IH.
Qed.

Lemma facet_dim_side d axis t : axis < d -> t != INNER -> facet_dim (side_type d axis t) = d.-1.
Proof.
move=> al tI; rewrite /facet_dim count_cat /= !count_nseq !mul1n (negbTE tI); lia.
Qed.

(** ** Facet types of codimension 1 *)
Lemma facet_dim_le (ft : seq fdt) : facet_dim ft <= size ft. Proof. exact: count_size. Qed.

Lemma mem_all_types d f : (f \in all_facet_types d) = (size f == d).
Proof.
rewrite /all_facet_types mem_cart; elim: d f => [|d IH] [|t f] //=.
by rewrite IH eqSS; case: t.
Qed.

Lemma full_dim d f : size f = d -> facet_dim f = d -> f = nseq d INNER.
Proof.
elim: f d => [|t f IH] [|d] //= [sf]; rewrite /facet_dim /= -/(facet_dim f).
have := facet_dim_le f; rewrite sf => le.
case: t => /=; rewrite ?add0n ?add1n; try lia.
by move=> [e]; rewrite -(IH d).
Qed.

Lemma types_full d : get_facet_types d (Some d) = [:: nseq d INNER].
Proof.
elim: d => [|d IH] //.
rewrite /get_facet_types /all_facet_types /= -/(all_facet_types d) !filter_cat /= cats0.
rewrite !filter_map.
have z (t : fdt) : t != INNER -> filter (preim (cons t) (fun f => facet_dim f == d.+1)) (all_facet_types d) = [::].
  move=> tI; rewrite -(filter_pred0 (all_facet_types d)); apply: eq_in_filter => f.
  rewrite /preim /=.
  rewrite mem_all_types => /eqP sf; rewrite /facet_dim /= (negbTE tI) add0n -/(facet_dim f).
  by apply/negbTE; have := facet_dim_le f; rewrite sf; lia.
rewrite (z FIRST) //=.
rewrite (eq_filter (a2 := fun f => facet_dim f == d)) => [|f]; last by rewrite /= /facet_dim /= add1n eqSS.
by rewrite -/(get_facet_types d (Some d)) IH.
Qed.

Lemma types_codim1_S d : get_facet_types d.+1 (Some d) =
  (FIRST :: nseq d INNER) :: (LAST :: nseq d INNER) ::
  (if d is d'.+1 then [seq INNER :: f | f <- get_facet_types d (Some d')] else [::]).
Proof.
rewrite /get_facet_types /all_facet_types /= -/(all_facet_types d) !filter_cat /= cats0 !filter_map.
rewrite (eq_filter (a2 := fun f => facet_dim f == d)) //.
rewrite -/(get_facet_types d (Some d)) types_full /=; congr [:: _, _ & _].
case: d => [|d] //.
Qed.

Lemma axis_types d axis : axis < d ->
  [seq f <- get_facet_types d (Some d.-1) | facet_axis f == axis] = [:: side_type d axis FIRST; side_type d axis LAST].
Proof.
elim: d axis => [|d IH] axis // al; rewrite types_codim1_S /=.
have aF l : facet_axis (FIRST :: l) = 0 by [].
have aL : facet_axis (LAST :: nseq d INNER) = 0.
  by rewrite /facet_axis inE mem_nseq andbF.
rewrite aF aL; case: axis al => [|axis] al.
  rewrite eqxx /= /side_type /= subn0; congr [:: _, _ & _].
  case: (d) => // d'; rewrite filter_map -[RHS](_ : [seq INNER :: f | f <- [::]] = _) //; congr map.
  rewrite -(filter_pred0 (get_facet_types d'.+1 (Some d'))); apply: eq_in_filter => f fin /=.
  by rewrite /facet_axis inE /=; case: ifP.
rewrite /= ltnS in al *.
case: d al IH {aL} => // d al IH; rewrite filter_map /=.
rewrite (eq_filter (a2 := fun f => facet_axis f == axis)); last first.
  by move=> f /=; rewrite /facet_axis inE /=; case: ifP; rewrite eqSS.
by rewrite IH //= /side_type /= ?subSS.
Qed.

Lemma axis_facets n d axis : axis < d ->
  axis_to_facets n d axis =
  [:: [seq side_cell n axis 0 c | c <- grid n d.-1]; [seq side_cell n axis n c | c <- grid n d.-1]].
Proof.
move=> al; rewrite /axis_to_facets axis_types //= !ufe !facet_dim_side //.
by congr [:: _; _]; apply/eq_in_map => c cg; rewrite /side_cell (size_grid_in cg);
   apply/eq_in_map => k kg; rewrite femb_side ?(size_grid_in cg) ?(size_grid_in kg).
Qed.

Lemma cube_linksE n d pd : cube_links n d pd =
  flatten [seq [seq (side_cell n axis 0 c, side_cell n axis n c) | c <- grid n d.-1]
    | axis <- iota 0 d & axis \in pd].
Proof.
rewrite /cube_links; congr flatten; apply/eq_in_map => axis.
rewrite mem_filter mem_iota => /andP[_ al]; rewrite /links_of_axis axis_facets //=.
by elim: (grid n d.-1) => //= c l ->.
Qed.

Lemma cube_boundaryE n d pd : cube_boundary n d pd =
  flatten [seq [seq side_cell n axis 0 c | c <- grid n d.-1] ++ [seq side_cell n axis n c | c <- grid n d.-1]
    | axis <- iota 0 d & axis \notin pd].
Proof.
rewrite /cube_boundary; congr flatten; apply/eq_in_map => axis.
by rewrite mem_filter mem_iota => /andP[_ al]; rewrite axis_facets //= cats0.
Qed.

(** ** Positions in range *)
Lemma addv_in n d c k : c \in grid n d -> k \in grid 2 d -> addv c k \in grid n.+1 d.
Proof.
rewrite !mem_grid => /andP[/eqP sc ac] /andP[/eqP sk ak]; rewrite /addv size_map size_zip sc sk minnn eqxx /=.
rewrite all_map; apply/(all_nthP (0, 0)) => i; rewrite size_zip sc sk minnn => il.
rewrite /= nth_zip ?sc //=; have := all_nthP 0 ac i; have := all_nthP 0 ak i; rewrite sc sk => /(_ il) a /(_ il) b; lia.
Qed.

Lemma size_addv c k : size c = size k -> size (addv c k) = size c.
Proof. by move=> e; rewrite size_map size_zip e minnn. Qed.

Lemma nth_addv c k b : b < size c -> size c = size k -> nth 0 (addv c k) b = nth 0 c b + nth 0 k b.
Proof. by move=> bl e; rewrite (nth_map (0, 0)) ?size_zip -?e ?minnn // nth_zip. Qed.

Lemma size_ins axis s l : axis <= size l -> size (ins axis s l) = (size l).+1.
Proof. by move=> al; rewrite size_cat /= size_drop size_takel //; lia. Qed.

Lemma ins_in m d axis s l : axis < d -> s < m -> l \in grid m d.-1 -> ins axis s l \in grid m d.
Proof.
move=> al sl; rewrite !mem_grid => /andP[/eqP zl a]; rewrite size_ins ?zl; last lia.
rewrite prednK ?eqxx //=; last lia.
rewrite /ins all_cat /= sl /= -all_cat cat_take_drop //.
Qed.

Lemma nth_ins axis s l : axis <= size l -> nth 0 (ins axis s l) axis = s.
Proof. by move=> al; rewrite nth_cat size_takel // ltnn subnn. Qed.

Lemma nth_ins_ne axis s s' l b : axis <= size l -> b <> axis -> nth 0 (ins axis s l) b = nth 0 (ins axis s' l) b.
Proof.
move=> al ne; rewrite !nth_cat !size_takel //; case: ltnP => // h.
by have [k ->] : exists k, b - axis = k.+1; first by exists (b - axis).-1; lia.
Qed.

Lemma eq_addv d c c' : size c = d -> size c' = d ->
  (addv c (nseq d 0) = addv c' (nseq d 0)) -> c = c'.
Proof.
move=> sc sc' e; apply: (@eq_from_nth _ 0); rewrite ?sc ?sc' // => i il.
have := congr1 (fun s => nth 0 s i) e; rewrite !nth_addv ?size_nseq ?sc ?sc' // nth_nseq; case: ifP; lia.
Qed.

Lemma zeros_in d : nseq d 0 \in grid 2 d.
Proof. by rewrite mem_grid size_nseq eqxx all_nseq /= orbT. Qed.
