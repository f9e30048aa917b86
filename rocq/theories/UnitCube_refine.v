(** Composition of the mesh generator with the refiner (C23-C26): for every size,
    dimension, set of periodic directions and number of gridpoints, refining the
    uniform cube succeeds, places every node where it belongs, and identifies
    slots exactly when they are the same point of the refined grid. *)
From mathcomp Require Import all_ssreflect all_algebra zify ring.
From Verif Require Import PyDict_model PyDict_proofs Facet_model Facet_spec Facet_proofs Facet_proofs2 GS_model Premesh_model.
From Verif Require Import Refiner_model Refiner_spec Refiner_proofs Refiner_proofs7 Refiner_proofs9 Refiner_props.
From Verif Require Import UnitCube_model UnitCube_spec UnitCube_proofs UnitCube_proofs2 UnitCube_proofs3 UnitCube_props.
Set Implicit Arguments.
Unset Strict Implicit.
Unset Printing Implicit Defensive.
Import Order.TTheory GRing.Theory Num.Theory.
Local Open Scope ring_scope.

Lemma map_addv_cart c (ls : seq (seq nat)) : size c = size ls ->
  [seq addv c k | k <- cart ls] = cart [seq [seq (x.1 + y)%N | y <- x.2] | x <- zip c ls].
Proof.
elim: c ls => [|x c IH] [|l ls] //= [sc]; rewrite -IH // map_flatten -!map_comp; congr flatten.
by apply: eq_map => y /=; rewrite -!map_comp; apply: eq_map.
Qed.

Lemma no_partitions_ok (F : fieldType) d (L : Type) (lbl : L) n (a b : F) pd :
  exists pm, unit_cube_mesh d lbl n a b pd None = inr pm.
Proof. by eexists. Qed.

Section Compose.
Variables (F : fieldType) (d : nat) (L : Type) (lbl : L) (n : nat) (a b : F) (pd : seq nat) (parts : option ndarray).
Hypotheses (n0 : (0 < n)%N) (d0 : (0 < d)%N).
Variable pm : premesh [lmodType F of 'rV[F]_d] L.
Hypothesis gen : unit_cube_mesh d lbl n a b pd parts = inr pm.
Variables (m : nat) (M1 : nat -> nat -> F).
Hypothesis m2 : (2 <= m)%N.
Hypothesis wok : weights_ok m M1.
Hypothesis w1 : forall i, (i < m)%N -> M1 i 0%N + M1 i 1%N = 1.

Lemma gen_ok : mesh_ok d (size (pm_coords pm)) (pm_elements pm).
Proof.
have [sc _] := C26_nodes gen; rewrite sc; have [_ -> _ _] := run_fields gen; exact: cube_mesh_ok.
Qed.

Theorem cube_refinement_succeeds : exists pm', refine_premesh d m true M1 1 pm = inr pm'.
Proof.
apply: refine_cont_ok => //; first exact: gen_ok.
- by have [_ -> _ _] := run_fields gen; apply: cube_conforming.
- have [h _ _] := C27_boundary_group n0 gen; move=> i l0; have [_ _ -> _] := run_fields gen.
  by case: ifP => // fl; case: i => [|i].
- have [_ -> _ _] := run_fields gen; have [h _ mem] := C27_boundary_group n0 gen.
  case: h => [-> //|[e _]] i l0 f; rewrite e; case: i => [|i] // _ /=; rewrite mem.
  by case=> axis [s [c [h1 h2 h3 h4 ->]]]; have [] := side_is_facet n0 d0 h1 h3 h4.
move=> ls l lsE ll; have [_ h _] := C27_links n0 gen; move: h; rewrite lsE => /(_ l)[/(_ ll) h _].
have [_ -> _ _] := run_fields gen.
case: h => ax [c [al ap cg ->]] /=.
by have [h1 _] := side_is_facet n0 d0 al (or_introl (erefl 0%N)) cg; have [h2 _] := side_is_facet n0 d0 al (or_intror (erefl n)) cg.
Qed.

Variable pm' : premesh [lmodType F of 'rV[F]_d] L.
Hypothesis run : refine_premesh d m true M1 1 pm = inr pm'.
Notation slot c p := (nth SENT (nth [::] (pm_elements pm') (flat n c)) (flat m p)).
Notation h := ((b - a) / n%:R).

Theorem cube_refined_coordinates c p : c \in grid n d -> p \in grid m d ->
  at_ (pm_coords pm') (slot c p) = \row_j (a + ((nth 0%N c j)%:R + M1 (nth 0%N p j) 1%N) * h).
Proof.
move=> cg pg; have [_ elE _ _] := run_fields gen.
have jl : (flat n c < size (pm_elements pm))%N by rewrite elE size_map size_grid flat_lt.
rewrite (C24_coordinates m2 gen_ok run wok) //; last by right; rewrite elE; apply: cube_exchanging.
rewrite (multilinear_coord (g := fun j x => a + (nth 0 c j + x)%N%:R * h)) ?(size_grid_in pg) //.
- apply/rowP => j; rewrite !mxE addn0 natrD.
  set u := M1 _ 1%N; have -> : M1 (nth 0%N p j) 0%N = 1 - u.
    rewrite -(w1 (i := nth 0%N p j)) ?addrK //; move: pg; rewrite mem_grid => /andP[/eqP sp /all_nthP]; apply.
    by rewrite sp.
  ring.
- have [_ nc] := C26_nodes gen; have [_ ce] := C26_cells gen; have [_ ce2] := ce c cg; move=> k kg.
  have [-> _] := ce2 k kg.
  rewrite /at_ /node /= nc ?addv_in //; apply/rowP => j; rewrite !mxE nth_addv ?(size_grid_in cg) ?(size_grid_in kg) //.
by move: pg; rewrite mem_grid => /andP[_ /allP pl] x /pl; apply: w1.
Qed.

(** Position of a gridpoint of a cell on the refined grid. *)
Definition global (c p : seq nat) : seq nat := [seq (x.1 * m.-1 + x.2)%N | x <- zip c p].

Lemma nth_global c p j : c \in grid n d -> p \in grid m d -> (j < d)%N ->
  nth 0%N (global c p) j = (nth 0 c j * m.-1 + nth 0 p j)%N.
Proof.
move=> cg pg jd; rewrite /global (nth_map (0, 0)%N) ?size_zip ?(size_grid_in cg) ?(size_grid_in pg) ?minnn //.
by rewrite nth_zip ?(size_grid_in cg) ?(size_grid_in pg).
Qed.

Lemma nth_lt k e i j : i \in grid k e -> (j < e)%N -> (nth 0 i j < k)%N.
Proof. by rewrite mem_grid => /andP[/eqP <- /all_nthP]; apply. Qed.

Lemma split_position u u' v v' : (v < m)%N -> (v' < m)%N -> (u * m.-1 + v = u' * m.-1 + v')%N ->
  [\/ u = u' /\ v = v', u = u'.+1 /\ v = 0%N /\ v' = m.-1 | u' = u.+1 /\ v = m.-1 /\ v' = 0%N].
Proof.
move=> vl vl' e; have : (u = u' \/ u = u'.+1 \/ u' = u.+1 \/ u'.+2 <= u \/ u.+2 <= u')%N by lia.
case=> [uu|[uu|[uu|[uu|uu]]]]; [constructor 1|constructor 2|constructor 3| |]; subst; try nia.
Qed.

Lemma same_facet c c' p p' : c \in grid n d -> c' \in grid n d -> p \in grid m d -> p' \in grid m d ->
  global c p = global c' p' -> facet (cell n c) (type_of m p) = facet (cell n c') (type_of m p').
Proof.
move=> cg cg' pg pg' e.
have fE x q : x \in grid n d -> q \in grid m d -> facet (cell n x) (type_of m q) =
   [seq node n i | i <- cart [seq [seq (y.1 + z)%N | z <- y.2] | y <- zip x [seq axis_positions 2 false t | t <- type_of m q]]].
  move=> xg qg; rewrite -map_addv_cart; last by rewrite !size_map (size_grid_in xg) (size_grid_in qg).
  rewrite -map_comp /facet /nd_take; apply/eq_in_map => k ks /=; rewrite /cell (size_grid_in xg) nth_map_grid //.
  by move: (mem_subseq (subseq_slice (type_of m q)) ks); rewrite size_map (size_grid_in qg).
rewrite !fE //; congr map; congr cart.
have szE q : q \in grid m d -> size [seq axis_positions 2 false t | t <- type_of m q] = d.
  by move=> qg; rewrite !size_map (size_grid_in qg).
have s1 := szE p pg; have s2 := szE p' pg'.
apply: (@eq_from_nth _ [::]); rewrite !size_map !size_zip s1 (size_grid_in cg) ?minnn.
  by rewrite s2 (size_grid_in cg') minnn.
move=> j jd.
have := congr1 (fun l => nth 0%N l j) e; rewrite /= !nth_global // => ej.
have pE q : q \in grid m d -> nth [::] [seq axis_positions 2 false t | t <- type_of m q] j = axis_positions 2 false (type_of_axis m (nth 0%N q j)).
  by move=> qg; rewrite -map_comp (nth_map 0%N) // (size_grid_in qg).
rewrite (nth_map (0%N, [::])) ?size_zip ?s1 ?(size_grid_in cg) ?minnn //.
rewrite (nth_map (0%N, [::])) ?size_zip ?s2 ?(size_grid_in cg') ?minnn //.
rewrite nth_zip ?s1 ?(size_grid_in cg) // nth_zip ?s2 ?(size_grid_in cg') //= !pE //.
have [] := split_position (nth_lt pg jd) (nth_lt pg' jd) ej.
- by case=> -> ->.
- case=> -> [-> ->]; rewrite /type_of_axis /= eqxx (_ : (m.-1 == 0%N) = false) /= ?addn0 ?addn1 //; lia.
case=> -> [-> ->]; rewrite /type_of_axis /= eqxx (_ : (m.-1 == 0%N) = false) /= ?addn0 ?addn1 //; lia.
Qed.
End Compose.

Section Ordered.
Variables (F : realFieldType) (d : nat) (L : Type) (lbl : L) (n : nat) (a b : F) (pd : seq nat) (parts : option ndarray).
Hypotheses (n0 : (0 < n)%N) (d0 : (0 < d)%N).
Variable pm : premesh [lmodType F of 'rV[F]_d] L.
Hypothesis gen : unit_cube_mesh d lbl n a b pd parts = inr pm.
Variables (m : nat) (M1 : nat -> nat -> F).
Hypothesis m2 : (2 <= m)%N.
Hypothesis wok : weights_ok m M1.
Hypothesis w1 : forall i, (i < m)%N -> M1 i 0%N + M1 i 1%N = 1.
Hypothesis winc : forall i j, (i < j)%N -> (j < m)%N -> M1 i 1%N < M1 j 1%N.
Hypothesis ab : a != b.
Variable pm' : premesh [lmodType F of 'rV[F]_d] L.
Hypothesis run : refine_premesh d m true M1 1 pm = inr pm'.
Notation slot c p := (nth SENT (nth [::] (pm_elements pm') (flat n c)) (flat m p)).

Lemma weight_position u u' v v' : (v < m)%N -> (v' < m)%N ->
  u%:R + M1 v 1%N = u'%:R + M1 v' 1%N -> (u * m.-1 + v = u' * m.-1 + v')%N.
Proof.
have [_ z0 _ o1 _] := wok.
have lo x : (x < m)%N -> 0 <= M1 x 1%N ?= iff (x == 0%N).
  move=> xl; split; first by case: x xl => [|x] xl; rewrite -z0 ?lexx // ltW // winc.
  by case: x xl => [|x] xl; rewrite -z0 ?eqxx // lt_eqF // winc.
have hi x : (x < m)%N -> M1 x 1%N <= 1 ?= iff (x == m.-1).
  move=> xl; have [->|ne] := eqVneq x m.-1; first by rewrite o1; split; rewrite ?lexx ?eqxx.
  have lt : M1 x 1%N < 1 by rewrite -o1 winc; lia.
  by split; [exact: ltW | rewrite lt_eqF].
have main x x' y y' : (y < m)%N -> (y' < m)%N -> (x < x')%N -> x%:R + M1 y 1%N = x'%:R + M1 y' 1%N ->
    [/\ x' = x.+1, y = m.-1 & y' = 0%N].
  move=> yl yl' lt e.
  have e' : M1 y 1%N = (x' - x)%N%:R + M1 y' 1%N.
    by apply: (addrI x%:R); rewrite e natrB ?(ltnW lt) // addrA addrCA subrr addr0.
  have h1 := (hi y yl).1; have h2 := (lo y' yl').1.
  have le1 : (x' - x)%N%:R <= 1 :> F by apply: le_trans h1; rewrite e' ler_addl.
  have x1 : x' = x.+1 by move: le1; rewrite (ler_nat F _ 1); lia.
  have d1 : (x' - x)%N = 1%N by lia.
  rewrite d1 in e'.
  have y0 : M1 y' 1%N = 0.
    by apply/eqP; rewrite eq_le h2 andbT -(ler_add2l 1) addr0 -e'.
  split=> //; apply/eqP; first by rewrite -(hi y yl).2 e' y0 addr0.
  by rewrite -(lo y' yl').2 y0.
move=> vl vl' e; case: (ltngtP u u') => [lt|lt|uu].
- by have [-> -> ->] := main _ _ _ _ vl vl' lt e; rewrite mulSn; lia.
- by have [-> -> ->] := main _ _ _ _ vl' vl lt (esym e); rewrite mulSn; lia.
subst u'; move: e => /addrI e; congr addn.
by case: (ltngtP v v') => // lt; [have := winc lt vl' | have := winc lt vl]; rewrite e ltxx.
Qed.

Lemma coords_position c c' p p' : c \in grid n d -> c' \in grid n d -> p \in grid m d -> p' \in grid m d ->
  at_ (pm_coords pm') (slot c p) = at_ (pm_coords pm') (slot c' p') -> global m c p = global m c' p'.
Proof.
move=> cg cg' pg pg'; rewrite !(cube_refined_coordinates gen m2 wok w1 run) // => /rowP e.
have gs x q : x \in grid n d -> q \in grid m d -> size (global m x q) = d.
  by move=> xg qg; rewrite size_map size_zip (size_grid_in xg) (size_grid_in qg) minnn.
apply: (@eq_from_nth _ 0%N); rewrite ?gs // => j jd.
rewrite !(@nth_global d n m) //; apply: weight_position; try exact: (nth_lt _ jd).
have := e (Ordinal jd); rewrite !mxE /= => /addrI /mulIf; apply.
by apply: mulf_neq0; [rewrite subr_eq0 eq_sym | apply: invr_neq0; rewrite pnatr_eq0 -lt0n].
Qed.

(** Two slots of the refined cube hold the same node exactly when they are the
    same point of the grid. *)
Theorem cube_refined_sharing c c' p p' :
  c \in grid n d -> c' \in grid n d -> p \in grid m d -> p' \in grid m d ->
  (slot c p = slot c' p') <-> global m c p = global m c' p'.
Proof.
move=> cg cg' pg pg'; split=> [e|e]; first by apply: coords_position => //; rewrite e.
have [_ elE _ _] := run_fields gen.
have jl x : x \in grid n d -> (flat n x < size (pm_elements pm))%N by move=> xg; rewrite elE size_map size_grid flat_lt.
have := same_facet n0 d0 m2 cg cg' pg pg' e => fE.
have st q : q \in grid m d -> size (type_of m q) = d by move=> qg; rewrite size_map (size_grid_in qg).
have [dl|] := ltnP (facet_dim (type_of m p)) d; last first.
  move=> dge; suff [-> ->] : c = c' /\ p = p' by [].
  have al q : q \in grid m d -> (d <= facet_dim (type_of m q))%N -> type_of m q = nseq d INNER.
    move=> qg ge; apply: full_dim; rewrite ?st //; apply/eqP; rewrite eqn_leq ge andbT.
    by have := facet_dim_le (type_of m q); rewrite st.
  have pI := al p pg dge.
  have h j : (j < d)%N -> nth 0%N c j = nth 0%N c' j /\ nth 0%N p j = nth 0%N p' j.
    move=> jd; have := congr1 (fun l => nth 0%N l j) e; rewrite /= !(@nth_global d n m) // => ej.
    have : nth INNER (type_of m p) j = INNER by rewrite pI nth_nseq jd.
    rewrite (nth_map 0%N) ?(size_grid_in pg) // /type_of_axis.
    have [] := split_position n0 d0 m2 (nth_lt pg jd) (nth_lt pg' jd) ej; first by case=> -> ->.
      by case=> _ [-> _].
    by case=> _ [-> _]; rewrite eqxx; case: eqP.
  by split; apply: (@eq_from_nth _ 0%N); rewrite ?(size_grid_in cg) ?(size_grid_in cg') ?(size_grid_in pg) ?(size_grid_in pg') // => j /h[].
have nthc x : x \in grid n d -> nth [::] (pm_elements pm) (flat n x) = cell n x by move=> xg; rewrite elE nth_map_grid.
have pe : perm_eq (facet (nth [::] (pm_elements pm) (flat n c)) (type_of m p)) (facet (nth [::] (pm_elements pm) (flat n c')) (type_of m p')).
  by rewrite !nthc // fE.
have sh := C23_common_facets_shared m2 (gen_ok gen) run (jl c cg) (jl c' cg') (st p pg) (st p' pg') dl pe.
have sl q : q \in grid m d -> q \in slice_positions m true (type_of m q).
  by move=> qg; rewrite (mem_slice _ m2 qg) eqxx.
have : slot c p \in nd_take SENT m (nth [::] (pm_elements pm') (flat n c)) (slice_positions m true (type_of m p)).
  by apply/mapP; exists p => //; apply: sl.
rewrite (perm_mem sh) => /mapP[q qs qE]; rewrite qE.
have qg : q \in grid m d by rewrite -(st p' pg'); apply: slice_sub_grid qs.
have gq : global m c' q = global m c' p'.
  rewrite -e; apply: coords_position => //; by rewrite qE.
congr nth; congr flat; apply: (@eq_from_nth _ 0%N); rewrite ?(size_grid_in qg) ?(size_grid_in pg') // => j jd.
have := congr1 (fun l => nth 0%N l j) gq; rewrite /= !(@nth_global d n m) //; lia.
Qed.

(** The refined cube has one node per point of the refined grid. *)
Theorem cube_refined_num_nodes : size (pm_coords pm') = ((n * m.-1).+1 ^ d)%N.
Proof.
have [_ elE _ _] := run_fields gen; have [sc nc] := C26_nodes gen.
pose cof g := [seq minn (x %/ m.-1) n.-1 | x <- g]; pose pof g := [seq (x - minn (x %/ m.-1) n.-1 * m.-1)%N | x <- g].
have M0 : (0 < m.-1)%N by lia.
have cofg g : g \in grid (n * m.-1).+1 d -> cof g \in grid n d.
  rewrite !mem_grid size_map => /andP[-> _] /=; rewrite all_map; apply/allP => x _ /=; lia.
have pofg g : g \in grid (n * m.-1).+1 d -> pof g \in grid m d.
  rewrite !mem_grid size_map => /andP[-> /allP gl] /=; rewrite all_map; apply/allP => x /gl /= xl.
  have := divn_eq x m.-1; have := ltn_pmod x M0; case: (leqP (x %/ m.-1) n.-1) => le; nia.
have glob g : g \in grid (n * m.-1).+1 d -> global m (cof g) (pof g) = g.
  move=> gg; apply: (@eq_from_nth _ 0%N); first by rewrite size_map size_zip !size_map minnn.
  rewrite size_map size_zip !size_map minnn => j jl.
  rewrite (nth_global (cofg g gg) (pofg g gg)) -?(size_grid_in gg) // /cof /pof !(nth_map 0%N) //.
  have := leq_trunc_div (nth 0%N g j) m.-1; nia.
pose ids := [seq slot (cof g) (pof g) | g <- grid (n * m.-1).+1 d].
have uids : uniq ids.
  rewrite map_inj_in_uniq ?grid_uniq // => g g' gg gg' /cube_refined_sharing.
  by rewrite ?cofg ?pofg // !glob // => /(_ isT isT isT isT).
have [[sel srow _ _] [valid _ used]] := C23_structure m2 (gen_ok gen) run.
have memids : ids =i [seq Posz x | x <- iota 0 (size (pm_coords pm'))].
  move=> y; apply/mapP/mapP => [[g gg ->]|[x]].
    have [|x xl ->] := valid (flat n (cof g)) (pof g) _ (pofg g gg); last by exists x; rewrite ?mem_iota.
    by rewrite elE size_map size_grid flat_lt // cofg.
  rewrite mem_iota add0n => /= xl ->.
  case: (used _ x xl) => [y' yl'|e /(nthP [::])[j jl <-] /(nthP SENT)[q ql qE]].
    rewrite sc in yl'; have ig : nth [::] (grid n.+1 d) y' \in grid n.+1 d by rewrite mem_nth // size_grid.
    have yE : flat n.+1 (nth [::] (grid n.+1 d) y') = y'.
      by rewrite -(nth_map _ 0%N (flat n.+1)) ?size_grid // map_flat_grid nth_iota.
    have [cnt _] := C26_elements_around_node gen ig.
    suff : has (fun e => node n (nth [::] (grid n.+1 d) y') \in e) (pm_elements pm).
      by case/hasP=> e el ye; exists e => //; rewrite /node yE in ye.
    rewrite has_count cnt big_seq; apply: prodn_cond_gt0 => z; rewrite /touching.
    by move: ig; rewrite mem_grid => /andP[_ /allP zl] /zl; lia.
  rewrite sel elE size_map size_grid in jl.
  have cg : nth [::] (grid n d) j \in grid n d by rewrite mem_nth // size_grid.
  have jE : flat n (nth [::] (grid n d) j) = j.
    by rewrite -(nth_map _ 0%N (flat n)) ?size_grid // map_flat_grid nth_iota.
  rewrite srow in ql; last by rewrite elE size_map size_grid.
  have pg : nth [::] (grid m d) q \in grid m d by rewrite mem_nth // size_grid.
  have pE : flat m (nth [::] (grid m d) q) = q.
    by rewrite -(nth_map _ 0%N (flat m)) ?size_grid // map_flat_grid nth_iota.
  rewrite -qE -{1}jE -pE; set c := nth _ _ j in cg *; set p := nth _ _ q in pg *.
  have gg : global m c p \in grid (n * m.-1).+1 d.
    rewrite mem_grid size_map size_zip (size_grid_in cg) (size_grid_in pg) minnn eqxx /=.
    apply/(all_nthP 0%N) => k; rewrite size_map size_zip (size_grid_in cg) (size_grid_in pg) minnn => kl.
    rewrite (nth_global cg pg) //; have := nth_lt cg kl; have := nth_lt pg kl; nia.
  by exists (global m c p) => //; apply/cube_refined_sharing; rewrite ?cofg ?pofg // glob.
have := perm_size (uniq_perm uids _ memids); rewrite !size_map size_iota size_grid => -> //.
by rewrite map_inj_uniq ?iota_uniq // => x y [].
Qed.
End Ordered.

(** Example: the unit square of 2 x 2 cells, periodic in the second direction,
    refined with the gridpoints -1, 0, 1; and the hypotheses on the weights. *)
Definition ex_x (i : nat) : rat := i%:R - 1.
Example ex_weights : weights_ok 3 (linear_weights ex_x) /\
  (forall i, linear_weights ex_x i 0 + linear_weights ex_x i 1 = 1) /\
  (forall i j, (i < j)%N -> (j < 3)%N -> linear_weights ex_x i 1%N < linear_weights ex_x j 1%N).
Proof.
have [h1 h2] := C24_linear_weights (isT : 2%:R != 0 :> rat) (isT : 0 < 3)%N (erefl : ex_x 0 = -1)
   (ltac:(by case=> [|[|[|]]]) : forall i, (i < 3)%N -> ex_x (3.-1 - i)%N = - ex_x i).
split; [exact: h1 | split; first exact: h2].
by case=> [|[|[|i]]] [|[|[|j]]].
Qed.
Example ex_refined : exists2 pm : premesh [lmodType rat of 'rV[rat]_2] unit,
  unit_cube_mesh 2 tt 2 0 1 [:: 1%N] None = inr pm &
  exists2 pm', refine_premesh 2 3 true (linear_weights ex_x) 1 pm = inr pm' & size (pm_coords pm') = 25%N.
Proof.
have [w [s1 inc]] := ex_weights.
have [pm gen] := no_partitions_ok 2 tt 2 (0 : rat) 1 [:: 1%N]; exists pm; first exact: gen.
have [pm' run] := cube_refinement_succeeds (isT : 0 < 2)%N (isT : 0 < 2)%N gen (linear_weights ex_x) (isT : 1 < 3)%N.
exists pm'; first exact: run.
exact: (cube_refined_num_nodes (isT : 0 < 2)%N (isT : 0 < 2)%N gen (isT : 1 < 3)%N w (fun i _ => s1 i) inc (isT : 0 != 1 :> rat) run).
Qed.

Print Assumptions cube_refinement_succeeds.
Print Assumptions cube_refined_coordinates.
Print Assumptions cube_refined_sharing.
Print Assumptions cube_refined_num_nodes.
