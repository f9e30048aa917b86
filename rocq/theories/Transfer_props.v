(** C72: the permutation between the refined cube and the uniform mesh (niles/train.py). *)
From mathcomp Require Import all_ssreflect all_algebra polyrcf zify ring.
From Verif Require Import PyDict_model PyDict_proofs Facet_model GS_model Premesh_model.
From Verif Require Import Refiner_model Refiner_spec Refiner_proofs Refiner_proofs9 Refiner_props.
From Verif Require Import UnitCube_model UnitCube_spec UnitCube_proofs UnitCube_props UnitCube_refine UnitCube_links.
From Verif Require Import Interp_model Transfer_model.
Set Implicit Arguments.
Unset Strict Implicit.
Unset Printing Implicit Defensive.
Import Order.TTheory GRing.Theory Num.Theory.
Local Open Scope ring_scope.

Section General.
Variables (F : realFieldType) (d : nat) (query : seq 'rV[F]_d -> 'rV[F]_d -> nat).
Hypothesis near : nearest query.
Implicit Types (source target : seq 'rV[F]_d).

Lemma sqdist_ge0 (x y : 'rV[F]_d) : 0 <= sqdist x y. Proof. by apply: sumr_ge0 => j _; apply: sqr_ge0. Qed.
Lemma sqdist_eq0 (x y : 'rV[F]_d) : sqdist x y = 0 -> x = y.
Proof.
move=> /psumr_eq0P h; apply/rowP=> j; apply/eqP; rewrite -subr_eq0 -sqrf_eq0; apply/eqP.
by apply: h => // i _; apply: sqr_ge0.
Qed.
Lemma sqdistxx (x : 'rV[F]_d) : sqdist x x = 0. Proof. by apply: big1 => j _; rewrite subrr expr0n. Qed.

Lemma queryP source x : x \in source -> (query source x < size source)%N /\ nth 0 source (query source x) = x.
Proof.
move=> xs; have s0 : (0 < size source)%N by case: (source) xs.
have [ql qn] := near x s0; split=> //; apply: sqdist_eq0; apply/eqP; rewrite eq_le sqdist_ge0 andbT.
by have := qn (index x source); rewrite index_mem nth_index // sqdistxx; apply.
Qed.

(** Every target node that is a source node gets the source node at its place. *)
Theorem C72_exact source target t : (t < size target)%N -> nth 0 target t \in source ->
  let s := nth 0%N (transfer_perm query source target) t in
  (s < size source)%N /\ nth 0 source s = nth 0 target t.
Proof. by move=> tl ts; rewrite /= (nth_map 0) //; apply: queryP. Qed.

(** If the meshes have the same nodes, in any order, and no two at one place, the result is a
    permutation ... *)
Theorem C72_permutation source target : uniq source -> perm_eq source target ->
  perm_eq (transfer_perm query source target) (iota 0 (size source)).
Proof.
move=> u p; have ut : uniq target by rewrite -(perm_uniq p).
have mem x : x \in target -> x \in source by rewrite (perm_mem p).
have inj : {in target &, injective (query source)}.
  move=> x y xt yt e; have [_ <-] := queryP (mem x xt); have [_ <-] := queryP (mem y yt).
  by rewrite e.
have up : uniq (transfer_perm query source target) by rewrite map_inj_in_uniq.
have sub : {subset transfer_perm query source target <= iota 0 (size source)}.
  by move=> i /mapP[x xt ->]; rewrite mem_iota; have [] := queryP (mem x xt).
apply: uniq_perm => //; first exact: iota_uniq.
have [] := uniq_min_size up sub => //.
by rewrite size_iota size_map (perm_size p).
Qed.
(** ... and indexing with it gives nodal values in the order of the target. *)
Theorem C72_values (V : zmodType) (f : 'rV[F]_d -> V) source target : {subset target <= source} ->
  permuted [seq f x | x <- source] (transfer_perm query source target) = [seq f x | x <- target].
Proof.
move=> sub; rewrite /permuted /transfer_perm -map_comp; apply/eq_in_map => x /sub xs /=.
by have [ql qE] := queryP xs; rewrite (nth_map 0) // qE.
Qed.
End General.

(** The meshes of l.620-633: the cube with [n] elements per direction, refined with
    [order + 1] equispaced points, and the cube with [n * order] elements *)
Section Cube.
Variables (F : realFieldType) (d : nat) (L : Type) (lbl : L) (n order : nat) (a b : F) (pd : seq nat).
Hypotheses (n0 : (0 < n)%N) (d0 : (0 < d)%N) (o0 : (0 < order)%N) (ab : a != b).
Notation m := order.+1.
Definition gridpoint (i : nat) : F := nth 0 (nc_nodes F m) i.
Notation x := gridpoint.
Notation N := (n * order)%N.
Lemma m2 : (1 < m)%N. Proof. by rewrite ltnS. Qed.
Lemma o1 : order%:R != 0 :> F. Proof. by rewrite pnatr_eq0 -lt0n. Qed.
Lemma xE i : (i < m)%N -> x i = -1 + i%:R * (2%:R / order%:R).
Proof. by move=> il; rewrite /gridpoint /nc_nodes (nth_map 0%N) ?size_iota // nth_iota. Qed.
Lemma weightE i : (i < m)%N -> linear_weights x i 1 = i%:R / order%:R.
Proof.
move=> il; rewrite /linear_weights /= xE // addrA subrr add0r.
by have o := o1; field; rewrite o.
Qed.
Lemma cube_weights : weights_ok m (linear_weights x) /\ (forall i, linear_weights x i 0 + linear_weights x i 1 = 1).
Proof.
apply: C24_linear_weights; rewrite ?pnatr_eq0 //; first by rewrite xE // mul0r addr0.
move=> i il; rewrite !xE ?leq_subr //=; last by rewrite ltnS leq_subr.
rewrite natrB // mulrBl mulrCA mulfV ?o1 // mulr1; ring.
Qed.
Lemma weight_inc i j : (i < j)%N -> (j < m)%N -> linear_weights x i 1%N < linear_weights x j 1%N.
Proof.
move=> ij jm; rewrite !weightE ?(ltn_trans ij) // ltr_pmul2r ?ltr_nat //.
by rewrite invr_gt0 ltr0n.
Qed.

Variables (pm pm' fine : premesh [lmodType F of 'rV[F]_d] L).
Hypotheses (gen : unit_cube_mesh d lbl n a b pd None = inr pm)
  (run : refine_premesh d m true (linear_weights x) 1 pm = inr pm')
  (gen' : unit_cube_mesh d lbl N a b [::] None = inr fine).
Notation slot c p := (nth SENT (nth [::] (pm_elements pm') (flat n c)) (flat m p)).

Lemma fine_uniq : uniq (pm_coords fine).
Proof.
have [sc nc] := C26_nodes gen'.
have -> : pm_coords fine = [seq \row_j (a + (nth 0%N i j)%:R * ((b - a) / N%:R)) | i <- grid N.+1 d].
  apply: (@eq_from_nth _ 0); first by rewrite sc size_map size_grid.
  rewrite sc => k kl.
  have kg : nth [::] (grid N.+1 d) k \in grid N.+1 d by rewrite mem_nth // size_grid.
  have kE : flat N.+1 (nth [::] (grid N.+1 d) k) = k.
    by rewrite -(nth_map _ 0%N (flat N.+1)) ?size_grid // map_flat_grid nth_iota.
  by rewrite (nth_map [::]) ?size_grid // -nc // kE.
rewrite map_inj_in_uniq ?grid_uniq // => i j ig jg /rowP e.
apply: (@eq_from_nth _ 0%N); rewrite ?(size_grid_in ig) ?(size_grid_in jg) // => k kd.
have := e (Ordinal kd); rewrite !mxE /= => /addrI /mulIf h; apply/eqP; rewrite -(eqr_nat F); apply/eqP/h.
apply: mulf_neq0; first by rewrite subr_eq0 eq_sym.
by apply: invr_neq0; rewrite pnatr_eq0 -lt0n muln_gt0 n0.
Qed.

Lemma fine_sub : {subset pm_coords fine <= pm_coords pm'}.
Proof.
have [wok w1] := cube_weights.
have [sc nc] := C26_nodes gen'; move=> y /(nthP 0)[k]; rewrite sc => kl <-.
have kg : nth [::] (grid N.+1 d) k \in grid N.+1 d by rewrite mem_nth // size_grid.
have kE : flat N.+1 (nth [::] (grid N.+1 d) k) = k.
  by rewrite -(nth_map _ 0%N (flat N.+1)) ?size_grid // map_flat_grid nth_iota.
rewrite -kE nc //; set g := nth [::] _ k in kg *.
have [c [p [cg pg gE]]] := cube_position n0 d0 m2 ab kg.
have [_ elE _ _] := run_fields gen.
have jl : (flat n c < size (pm_elements pm))%N by rewrite elE size_map size_grid flat_lt.
have [_ [valid _ _]] := C23_structure m2 (gen_ok gen) run.
have [z zl zE] := valid _ _ jl pg.
have := cube_refined_coordinates gen m2 wok (fun i _ => w1 i) run cg pg.
rewrite zE /at_ /= => e; suff <- : nth 0 (pm_coords pm') z = \row_j (a + (nth 0%N g j)%:R * ((b - a) / N%:R)) by apply: mem_nth.
rewrite e; apply/rowP => j; rewrite !mxE -gE (nth_global cg pg) // weightE ?(nth_lt pg) //=.
congr (a + _); rewrite natrD !natrM; have n1 : n%:R != 0 :> F by rewrite pnatr_eq0 -lt0n.
by have o := o1; field; rewrite n1 o.
Qed.

Theorem C72_same_nodes : uniq (pm_coords pm') /\ perm_eq (pm_coords pm') (pm_coords fine).
Proof.
have [wok w1] := cube_weights; have [sc _] := C26_nodes gen'.
have sz : size (pm_coords pm') = size (pm_coords fine).
  by rewrite sc; apply: (cube_refined_num_nodes n0 d0 gen m2 wok (fun i _ => w1 i) weight_inc ab run).
have u : uniq (pm_coords pm') by apply: (leq_size_uniq fine_uniq fine_sub); rewrite sz.
split=> //; apply: uniq_perm => //; first exact: fine_uniq.
have [] := uniq_min_size fine_uniq fine_sub; first by rewrite sz.
by move=> _ e y; rewrite -e.
Qed.

(** Nodal values of any function on the refined cube, permuted: entry [i] of the array with
    [n * order + 1] entries per direction is the value at point [i] of the uniform grid. *)
Theorem C72_cube query (V : zmodType) (f : 'rV[F]_d -> V) : nearest query ->
  let perm := transfer_perm query (pm_coords pm') (pm_coords fine) in
  perm_eq perm (iota 0 (size (pm_coords pm'))) /\
  forall i, i \in grid N.+1 d ->
    nth 0 (permuted [seq f y | y <- pm_coords pm'] perm) (flat N.+1 i) = f (\row_j (a + (nth 0%N i j)%:R * ((b - a) / N%:R))).
Proof.
move=> near perm; have [u p] := C72_same_nodes; split; first exact: C72_permutation.
have [sc nc] := C26_nodes gen'; move=> i ig.
rewrite C72_values //; last by move=> y; rewrite (perm_mem p).
by rewrite (nth_map 0) ?sc ?flat_lt // nc.
Qed.
End Cube.

(** The meshes exist for all sizes and orders. *)
Theorem C72_meshes (F : realFieldType) d (L : Type) (lbl : L) n order (a b : F) pd : (0 < n)%N -> (0 < d)%N -> (0 < order)%N ->
  exists pm pm' fine : premesh [lmodType F of 'rV[F]_d] L,
  [/\ unit_cube_mesh d lbl n a b pd None = inr pm, refine_premesh d order.+1 true (linear_weights (gridpoint F order)) 1 pm = inr pm' &
      unit_cube_mesh d lbl (n * order) a b [::] None = inr fine].
Proof.
move=> n0 d0 o0; have [pm gen] := no_partitions_ok d lbl n a b pd.
have [pm' run] := cube_refinement_succeeds n0 d0 gen (linear_weights (gridpoint F order)) (m2 o0).
by have [fine gen'] := no_partitions_ok d lbl (n * order) a b [::]; exists pm, pm', fine.
Qed.

(** Example: the first nearest point *)
Section First.
Variables (F : realFieldType) (d : nat).
Definition minl (s : seq F) : F := if s is a :: s' then foldr Num.min a s' else 0.
Lemma minl_le (s : seq F) a : a \in s -> minl s <= a.
Proof.
case: s => // b s; rewrite /minl inE => /orP[/eqP->|].
  by elim: s => //= c s IH; rewrite le_minl IH orbT.
by elim: s => //= c s IH; rewrite inE le_minl => /orP[/eqP->|/IH->]; rewrite ?lexx ?orbT.
Qed.
Lemma minl_in (s : seq F) : (0 < size s)%N -> minl s \in s.
Proof.
case: s => // b s _; rewrite /minl; elim: s => [|c s IH] /=; first by rewrite inE.
rewrite /Num.min; case: ifP => _; first by rewrite !inE eqxx orbT.
by move: IH; rewrite !inE => /orP[->//|->]; rewrite !orbT.
Qed.
Definition first_nearest (source : seq 'rV[F]_d) (x : 'rV[F]_d) : nat :=
  let s := [seq sqdist y x | y <- source] in index (minl s) s.
Example first_nearestP : nearest first_nearest.
Proof.
move=> source x s0; have mi : minl [seq sqdist y x | y <- source] \in [seq sqdist y x | y <- source].
  by apply: minl_in; rewrite size_map.
have ql : (first_nearest source x < size source)%N by rewrite -(size_map (fun y => sqdist y x)) index_mem.
split=> // i il; rewrite -(nth_map 0 0 (fun y => sqdist y x) ql) nth_index //.
by rewrite -(nth_map 0 0 (fun y => sqdist y x) il); apply: minl_le; rewrite mem_nth ?size_map.
Qed.
End First.
(** The square of 2 x 2 elements of order 2, periodic in both directions *)
Example ex_square (F : realFieldType) (f : 'rV[F]_2 -> F) : exists pm' fine : premesh [lmodType F of 'rV[F]_2] unit,
  let perm := transfer_perm (@first_nearest _ 2) (pm_coords pm') (pm_coords fine) in
  size perm = 25%N /\ nth 0 (permuted [seq f y | y <- pm_coords pm'] perm) (flat 5 [:: 1; 3]%N) =
    f (\row_j (0 + (nth 0%N [:: 1; 3]%N j)%:R * ((1 - 0) / 4%:R))).
Proof.
have [pm [pm' [fine [gen run gen']]]] := @C72_meshes F 2 unit tt 2 2 0 1 [:: 0; 1]%N isT isT isT.
have z : 0 != 1 :> F by rewrite eq_sym oner_neq0.
exists pm', fine; have [h1 h2] := @C72_cube F 2 unit tt 2 2 0 1 [:: 0; 1]%N isT isT isT z pm pm' fine gen run gen' _ _ f (@first_nearestP F 2).
split; first by rewrite size_map; have [-> _] := C26_nodes gen'.
by apply: h2; rewrite mem_grid.
Qed.

Print Assumptions C72_exact.
Print Assumptions C72_permutation.
Print Assumptions C72_values.
Print Assumptions C72_same_nodes.
Print Assumptions C72_cube.
Print Assumptions C72_meshes.
