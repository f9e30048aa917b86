(** C26-C28: the uniform mesh of a cube. *)
From mathcomp Require Import all_ssreflect all_algebra zify.
From Verif Require Import PyDict_model PyDict_proofs Facet_model GS_model Premesh_model.
From Verif Require Import UnitCube_model UnitCube_spec UnitCube_proofs UnitCube_proofs2.
Set Implicit Arguments.
Unset Strict Implicit.
Unset Printing Implicit Defensive.
Import GRing.Theory.
Local Open Scope ring_scope.

Section Props.
Variables (F : fieldType) (d : nat) (L : Type) (lbl : L) (n : nat) (a b : F) (pd : seq nat) (parts : option ndarray).
Hypotheses (n0 : (0 < n)%N) (d0 : (0 < d)%N).
Variable pm : premesh [zmodType of 'rV[F]_d] L.
Hypothesis run : unit_cube_mesh d lbl n a b pd parts = inr pm.

Lemma run_fields :
  [/\ pm_coords pm = cube_coords d n a b, pm_elements pm = [seq cell n c | c <- grid n d],
      pm_groups pm = (if flatten (cube_boundary n d pd) != [::] then [:: (lbl, cube_boundary n d pd)] else [::]) &
      pm_links pm = (if cube_links n d pd != [::] then Some (cube_links n d pd) else None)].
Proof.
move: run; rewrite /unit_cube_mesh elements_cells; case: parts => [p|] /=; last by case=> <-.
by case: (cube_partitions _ _ _ _) => // ps [<-].
Qed.

(** ** C26 *)
Theorem C26_nodes :
  size (pm_coords pm) = (n.+1 ^ d)%N /\
  forall i, i \in grid n.+1 d ->
    nth 0 (pm_coords pm) (flat n.+1 i) = \row_j (a + (nth 0%N i j)%:R * ((b - a) / n%:R)).
Proof.
have [-> _ _ _] := run_fields; rewrite /cube_coords /linspace /=.
have -> : nseq d [seq a + i%:R * ((b - a) / n%:R) | i <- iota 0 n.+1]
  = [seq [seq a + i%:R * ((b - a) / n%:R) | i <- l] | l <- nseq d (iota 0 n.+1)] by rewrite map_nseq.
rewrite cart_map -/(grid n.+1 d) -map_comp; split; first by rewrite size_map size_grid.
move=> i ig; rewrite nth_map_grid //; apply/rowP => j; rewrite !mxE.
by rewrite (nth_map 0%N) // (size_grid_in ig).
Qed.

Theorem C26_cells :
  size (pm_elements pm) = (n ^ d)%N /\
  forall c, c \in grid n d ->
    size (nth [::] (pm_elements pm) (flat n c)) = (2 ^ d)%N /\
    forall k, k \in grid 2 d ->
      nth SENT (nth [::] (pm_elements pm) (flat n c)) (flat 2 k) = node n (addv c k) /\
      (flat n.+1 (addv c k) < size (pm_coords pm))%N.
Proof.
have [sc _] := C26_nodes; have [_ -> _ _] := run_fields; split; first by rewrite size_map size_grid.
move=> c cg; rewrite nth_map_grid // /cell (size_grid_in cg) size_map size_grid; split=> // k kg.
by rewrite nth_map_grid // sc; split=> //; apply: flat_lt; apply: addv_in.
Qed.

Theorem C26_elements_around_node i : i \in grid n.+1 d ->
  count (fun e => node n i \in e) (pm_elements pm) = (\prod_(x <- i) touching n x)%N /\
  ((forall x, x \in i -> (0 < x < n)%N) -> count (fun e => node n i \in e) (pm_elements pm) = (2 ^ d)%N).
Proof.
move=> ig; have [_ -> _ _] := run_fields; rewrite node_count //; split=> // h.
rewrite -(size_grid_in ig); elim: i h {ig} => [|x i IH] h; first by rewrite big_nil.
rewrite big_cons IH => [|y yi]; last by apply: h; rewrite inE yi orbT.
by rewrite /= expnS; congr (_ * _)%N; rewrite /touching; have := h x (mem_head _ _); case/andP => -> ->.
Qed.

(** ** C27 *)
Theorem C27_boundary_group :
  let bnd := if pm_groups pm is (_, fs) :: _ then fs else [::] in
  [/\ (pm_groups pm = [::] \/ pm_groups pm = [:: (lbl, bnd)] /\ bnd <> [::]), uniq bnd &
      forall f, f \in bnd <->
        exists axis s c, [/\ (axis < d)%N, axis \notin pd, s = 0%N \/ s = n, c \in grid n d.-1 & f = side_cell n axis s c]].
Proof.
have [_ _ -> _] := run_fields.
have memb f : f \in cube_boundary n d pd <->
  exists axis s c, [/\ (axis < d)%N, axis \notin pd, s = 0%N \/ s = n, c \in grid n d.-1 & f = side_cell n axis s c].
  rewrite cube_boundary_index; split.
    case/mapP=> -[ax [s c]]; rewrite mem_bnd_index => /and4P[h1 h2 h3 h4] ->; exists ax, s, c; split=> //.
    by case/orP: h3 => /eqP; [left | right].
  case=> ax [s [c [h1 h2 h3 h4 ->]]]; apply/mapP; exists (ax, (s, c)) => //.
  by rewrite mem_bnd_index h1 h2 h4 /= andbT; case: h3 => ->; rewrite eqxx ?orbT.
case: ifP => [fl|/negbFE/eqP fl] /=.
  split=> //; last exact: cube_boundary_uniq.
  by right; split=> // e; rewrite e in fl.
split=> //; first by left.
move=> f; rewrite -memb; split=> // fb; move: fl.
rewrite cube_boundary_index in fb *; case/mapP: fb => t ti _.
case/splitPr: ti => t1 t2 /(congr1 size) /eqP; rewrite size_eq0 map_cat flatten_cat /=.
by case: (side_cell _ _ _ _) (side_cell_nonempty n t.1 t.2.1 t.2.2) => // x l _; rewrite -size_eq0 size_cat /= addnS.
Qed.

Theorem C27_links :
  let ls := if pm_links pm is Some ls then ls else [::] in
  [/\ (pm_links pm = None <-> forall axis, (axis < d)%N -> axis \notin pd),
      (forall l, l \in ls <-> exists axis c,
         [/\ (axis < d)%N, axis \in pd, c \in grid n d.-1 & l = (side_cell n axis 0 c, side_cell n axis n c)]) &
      forall axis c, (axis < d)%N -> axis \in pd -> c \in grid n d.-1 ->
        count (fun l => l.1 == side_cell n axis 0 c) ls = 1%N /\
        count (fun l => l.2 == side_cell n axis n c) ls = 1%N].
Proof.
have [_ _ _ ->] := run_fields.
have -> : (if (if cube_links n d pd != [::] then Some (cube_links n d pd) else None) is Some ls then ls else [::])
   = cube_links n d pd by case: eqP.
rewrite cube_links_index; split.
- rewrite -size_eq0 size_map size_eq0; split.
    move=> h axis al; apply/negP => ap; move: h; case: eqP => // e _.
    have : (axis, nseq d.-1 0%N) \in link_index n d pd by rewrite mem_link_index al ap grid_nonempty.
    by rewrite e.
  move=> h; case: eqP => // e; case: (link_index n d pd) (mem_link_index n d pd) e => // -[ax c] l m _.
  by have := m ax c; rewrite mem_head => /esym/and3P[al ap _]; have := h ax al; rewrite ap.
- move=> l; split.
    by case/mapP=> -[ax c]; rewrite mem_link_index => /and3P[h1 h2 h3] ->; exists ax, c.
  by case=> ax [c [h1 h2 h3 ->]]; apply/mapP; exists (ax, c) => //; rewrite mem_link_index h1 h2 h3.
move=> axis c al ap cg; have ti : (axis, c) \in link_index n d pd by rewrite mem_link_index al ap cg.
rewrite !count_map; split.
  by rewrite -(count_map (fun t => side_cell n t.1 0 t.2) (pred1 _)) count_uniq_mem ?cube_links_uniq //;
     rewrite (map_f (fun t => side_cell n t.1 0 t.2) ti).
by rewrite -(count_map (fun t => side_cell n t.1 n t.2) (pred1 _)) count_uniq_mem ?cube_links_uniq //;
   rewrite (map_f (fun t => side_cell n t.1 n t.2) ti).
Qed.

(** The two sides of a link list nodes that differ only in the periodic coordinate. *)
Theorem C27_links_pair_nodes ls l : pm_links pm = Some ls -> l \in ls ->
  exists2 axis, (axis < d)%N /\ axis \in pd &
  [/\ size l.1 = (2 ^ d.-1)%N, size l.2 = (2 ^ d.-1)%N &
   forall q, (q < 2 ^ d.-1)%N ->
     exists i i', [/\ i \in grid n.+1 d, i' \in grid n.+1 d, nth SENT l.1 q = node n i, nth SENT l.2 q = node n i' &
       [/\ nth 0%N i axis = 0%N, nth 0%N i' axis = n & forall x, x <> axis -> nth 0%N i x = nth 0%N i' x]]].
Proof.
move=> lsE ll; have [_ h _] := C27_links; move: h; rewrite lsE => /(_ l)[/(_ ll) h _].
case: h => ax [c [al ap cg ->]] /=; exists ax => //.
rewrite !size_map size_grid (size_grid_in cg); split=> // q ql.
have kg : nth [::] (grid 2 d.-1) q \in grid 2 d.-1 by rewrite mem_nth // size_grid.
exists (ins ax 0 (addv c (nth [::] (grid 2 d.-1) q))), (ins ax n (addv c (nth [::] (grid 2 d.-1) q))).
have sa : size (addv c (nth [::] (grid 2 d.-1) q)) = d.-1 by rewrite size_addv ?(size_grid_in cg) ?(size_grid_in kg).
have axl : (ax <= d.-1)%N by lia.
have ag := addv_in cg kg.
split; try (by apply: ins_in); try by rewrite /side_cell (nth_map [::]) ?size_grid ?(size_grid_in cg).
by rewrite !nth_ins ?sa //; split=> // x xa; apply: nth_ins_ne; rewrite ?sa.
Qed.
End Props.

(** ** C28 *)
Section Partitions.
Variables (F : fieldType) (d : nat) (L : Type) (lbl : L) (n : nat) (a b : F) (pd : seq nat) (p : ndarray).
Hypotheses (n0 : (0 < n)%N) (d0 : (0 < d)%N) (sz : size (nd_shape p) = d).
Hypothesis wf : size (nd_data p) = foldr muln 1%N (nd_shape p).
Notation s := (nd_shape p).

Theorem C28_partition_layout :
  (forall k, (k < d)%N -> (nth 0 s k %| n)%N) ->
  exists2 pm, unit_cube_mesh d lbl n a b pd (Some p) = inr pm &
  exists2 ps, pm_parts pm = Some ps &
    size ps = size (pm_elements pm) /\
    forall c, c \in grid n d ->
      let i := [seq nth 0 c k %/ (n %/ nth 0 s k) | k <- iota 0 d]%N in
      (forall k, (k < d)%N -> nth 0 i k < nth 0 s k)%N /\
      nth 0%N ps (flat n c) = entry s (nd_data p) i.
Proof.
move=> dv; have [a' rep [shE get]] := repeat_ok n0 sz dv.
have shN : shape_at n p d d = nseq d n.
  by apply: (@eq_from_nth _ 0%N) => [|i]; rewrite size_shape ?size_nseq // => il; rewrite nth_shape // il nth_nseq il.
rewrite shN in shE get.
have sd := repeat_wf wf rep; rewrite shE prod_nseq in sd.
rewrite /unit_cube_mesh /cube_partitions elements_cells size_map size_grid rep shE prod_nseq eqxx.
eexists; first by [].
eexists; first by [].
rewrite /= size_map size_grid; split=> // c cg; split.
  move=> k kd; rewrite (nth_map 0%N) ?size_iota // nth_iota // add0n.
  have sp : (0 < nth 0 s k)%N by case: (nth 0%N s k) (dv k kd) => //; rewrite dvd0n; lia.
  have rp : (0 < n %/ nth 0 s k)%N by rewrite divn_gt0 // dvdn_leq ?dv.
  rewrite ltn_divLR // mulnC divnK; last exact: dv.
  by move: cg; rewrite mem_grid => /andP[/eqP sc /all_nthP]; apply; rewrite sc.
have := get c; rewrite indices_grid => /(_ cg); rewrite /nd_get shE (ravel_grid n (size_grid_in cg)) => ->.
rewrite /entry /ravel; congr (nth _ _ (foldl _ _ (zip _ _))).
by apply/eq_in_map => k; rewrite mem_iota => /= ->.
Qed.

Theorem C28_not_dividing_rejected k : (k < d)%N -> ~~ (nth 0 s k %| n)%N ->
  exists e, unit_cube_mesh d lbl n a b pd (Some p) = inl e.
Proof.
move=> kd nd; have [e he] := repeat_bad n0 sz kd nd.
by exists e; rewrite /unit_cube_mesh /cube_partitions he.
Qed.
End Partitions.

Theorem C28_too_few_axes_rejected (F : fieldType) d (L : Type) (lbl : L) n (a b : F) pd p :
  (size (nd_shape p) < d)%N -> exists e, unit_cube_mesh d lbl n a b pd (Some p) = inl e.
Proof.
move=> sz; suff [e he] : exists e, repeat_axes n (iota 0 d) p = inl e.
  by exists e; rewrite /unit_cube_mesh /cube_partitions he.
have : size (nd_shape p) \in iota 0 d by rewrite mem_iota.
move: {2 3}(size _) (erefl (size (nd_shape p))) (iota 0 d) => k e l.
elim: l p e {sz} => // x l IH p e; rewrite inE /=.
case: (leqP k x) => [kx _|xk]; first by rewrite e kx; eexists.
move=> kl; rewrite e leqNgt xk /=; case: eqP => [|_]; first by eexists.
case: ifP => [|_]; first by eexists.
apply: IH; first by rewrite /= size_set_nth e; apply/maxn_idPr.
by case/orP: kl => // /eqP kx; rewrite kx ltnn in xk.
Qed.

(** ** Examples *)
Open Scope nat_scope.
Definition ex_mesh := unit_cube_mesh 2 tt 2 (0%R : rat) 1%R [:: 1] (Some (NdArray [:: 1; 2] [:: 7; 8])).
Example ex_elements : (if ex_mesh is inr pm then pm_elements pm else [::]) =
  [:: [:: Posz 0; Posz 1; Posz 3; Posz 4]; [:: Posz 1; Posz 2; Posz 4; Posz 5];
      [:: Posz 3; Posz 4; Posz 6; Posz 7]; [:: Posz 4; Posz 5; Posz 7; Posz 8]].
Proof. lazy; reflexivity. Qed.
Example ex_groups : (if ex_mesh is inr pm then [seq g.2 | g <- pm_groups pm] else [::]) =
  [:: [:: [:: Posz 0; Posz 1]; [:: Posz 1; Posz 2]; [:: Posz 6; Posz 7]; [:: Posz 7; Posz 8]]].
Proof. lazy; reflexivity. Qed.
Example ex_links : (if ex_mesh is inr pm then pm_links pm else None) =
  Some [:: ([:: Posz 0; Posz 3], [:: Posz 2; Posz 5]); ([:: Posz 3; Posz 6], [:: Posz 5; Posz 8])].
Proof. lazy; reflexivity. Qed.
Example ex_parts : (if ex_mesh is inr pm then pm_parts pm else None) = Some [:: 7; 8; 7; 8].
Proof. lazy; reflexivity. Qed.
Example ex_reject : (if unit_cube_mesh 2 tt 3 (0%R : rat) 1%R [::] (Some (NdArray [:: 1; 2] [:: 7; 8])) is inl e then Some e else None)
  = Some AssertionError.
Proof. lazy; reflexivity. Qed.
Example ex_interior : count (fun e => node 2 [:: 1; 1] \in e) (if ex_mesh is inr pm then pm_elements pm else [::]) = 4.
Proof. lazy; reflexivity. Qed.
Example ex_shapes : [/\ 0 < 2, size [:: 1; 2] = 2, size [:: 7; 8] = foldr muln 1 [:: 1; 2] & forall k, k < 2 -> nth 0 [:: 1; 2] k %| 2].
Proof. by split=> // -[|[|]]. Qed.

Print Assumptions C26_nodes.
Print Assumptions C26_cells.
Print Assumptions C26_elements_around_node.
Print Assumptions C27_boundary_group.
Print Assumptions C27_links.
Print Assumptions C27_links_pair_nodes.
Print Assumptions C28_partition_layout.
Print Assumptions C28_not_dividing_rejected.
Print Assumptions C28_too_few_axes_rejected.
