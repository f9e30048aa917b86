(** C29-C31: mesh reader and partitioner. *)
From mathcomp Require Import all_ssreflect all_algebra zify.
From Verif Require Import PyDict_model PyDict_proofs Facet_model Facet_spec GS_model Premesh_model.
From Verif Require Import Refiner_model Refiner_spec Refiner_proofs7 Refiner_props UnitCube_spec UnitCube_proofs3 Reader_model Reader_proofs.
Set Implicit Arguments.
Unset Strict Implicit.
Unset Printing Implicit Defensive.
Import Order.TTheory GRing.Theory Num.Theory.
Local Open Scope ring_scope.

(** Gmsh's number of the corner at position [k]: around the bottom face
    counter-clockwise, then around the top face. *)
Definition gmsh_number (k : seq nat) : nat :=
  match k with
  | [:: x] => x
  | [:: x; y] => if y == 0 then x else 3 - x
  | [:: x; y; z] => 4 * z + (if y == 0 then x else 3 - x)
  | _ => 0
  end%N.

Lemma ndim_cases ndim : ndim \in [:: 1; 2; 3]%N -> [\/ ndim = 1, ndim = 2 | ndim = 3]%N.
Proof. by rewrite !inE => /or3P[/eqP->|/eqP->|/eqP->]; [constructor 1 | constructor 2 | constructor 3]. Qed.

(** ** C29 *)
Theorem C29_reorder (F : ringType) (L : Type) ndim (mesh : gmesh F) (pm : premesh [zmodType of 'rV[F]_ndim] L) :
  read L ndim mesh = inr pm ->
  exists t cells, [/\ elem_type ndim = Some t, dget (gm_cells mesh) t = Some cells,
    size (pm_elements pm) = size cells,
    pm_coords pm = [seq \row_(j < ndim) nth 0 pt j | pt <- gm_points mesh] &
    forall j, (j < size cells)%N -> size (nth [::] cells j) = (2 ^ ndim)%N ->
      perm_eq (nth [::] (pm_elements pm) j) (nth [::] cells j) /\
      forall k, k \in grid 2 ndim ->
        nth 0 (nth [::] (pm_elements pm) j) (flat 2 k) = nth 0 (nth [::] cells j) (gmsh_number k)].
Proof.
rewrite /read; case: (boolP (ndim \in _)) => //= nd.
case tE : (elem_type ndim) => [t|] //; case cE : (dget (gm_cells mesh) t) => [cells|] //.
rewrite /take_columns; case: ifP => // _ H; exists t, cells.
have pmE : pm_elements pm = [seq [seq nth 0 row p | p <- ordering_permutation ndim] | row <- cells] /\
           pm_coords pm = [seq \row_(j < ndim) nth 0 pt j | pt <- gm_points mesh].
  by move: H; case: (gm_periodic mesh) => [[<-] //|p ps]; case: (get_periodic_links _ _ _) => // l [<-].
have [-> ->] := pmE; split=> //; first by rewrite size_map.
move=> j jl sz; rewrite (nth_map [::]) //; move: (nth [::] cells j) sz => row sz.
have sp : perm_eq (ordering_permutation ndim) (iota 0 (2 ^ ndim)) by case: (ndim_cases nd) => ->.
split.
  rewrite -{2}(mkseq_nth 0 row) /mkseq sz; exact: perm_map.
move=> k kg; have := flat_lt kg => kl.
rewrite (nth_map 0%N) ?(perm_size sp) ?size_iota //; congr nth.
case: (ndim_cases nd) kg => -> kg {kl sp H pmE sz}.
- by apply/eqP; apply: (allP (_ : all (fun k => nth 0 (ordering_permutation 1) (flat 2 k) == gmsh_number k)%N (grid 2 1))).
- by apply/eqP; apply: (allP (_ : all (fun k => nth 0 (ordering_permutation 2) (flat 2 k) == gmsh_number k)%N (grid 2 2))).
by apply/eqP; apply: (allP (_ : all (fun k => nth 0 (ordering_permutation 3) (flat 2 k) == gmsh_number k)%N (grid 2 3))).
Qed.

Theorem C29_accepts (F : ringType) (L : Type) ndim (mesh : gmesh F) t cells :
  elem_type ndim = Some t -> dget (gm_cells mesh) t = Some cells ->
  (forall row, row \in cells -> size row = (2 ^ ndim)%N) -> gm_periodic mesh = [::] ->
  exists pm, read L ndim mesh = inr pm.
Proof.
move=> tE cE sz pE; rewrite /read tE cE pE.
have nd : ndim \in [:: 1; 2; 3]%N by move: tE; case: (ndim) => [|[|[|[|]]]].
rewrite nd /= /take_columns.
have -> : all (fun row : seq int => all (fun p => (p < size row)%N) (ordering_permutation ndim)) cells; last by eexists.
by apply/allP => row rc; rewrite sz //; case: (ndim_cases nd) => ->.
Qed.

Theorem C29_rejects (F : ringType) (L : Type) ndim (mesh : gmesh F) :
  (ndim \notin [:: 1; 2; 3]%N -> read L ndim mesh = inl RdValueError) /\
  (forall t, elem_type ndim = Some t -> dget (gm_cells mesh) t = None -> read L ndim mesh = inl RdValueError).
Proof.
split=> [h|t tE cE]; rewrite /read ?h //.
by rewrite tE cE; case: ifP.
Qed.

Example ex_hex : (if read unit 3 (GMesh (nseq 8 [:: 0 : rat; 0; 0]) [:: (Hexahedron, [:: [:: Posz 10; Posz 11; Posz 12; Posz 13; Posz 14; Posz 15; Posz 16; Posz 17]])] [::])
   is inr pm then pm_elements pm else [::]) = [:: [:: Posz 10; Posz 14; Posz 13; Posz 17; Posz 11; Posz 15; Posz 12; Posz 16]].
Proof. lazy; reflexivity. Qed.

(** ** C30 *)
Section Periodic.
Variables (cells : seq (ctype * seq (seq int))) (periodic : seq (nat * seq (int * int))) (ndim : nat) (ls : seq link).
Hypothesis run : get_periodic_links cells periodic ndim = inr ls.
Notation slave_of r x := (exists y, (x, y) \in r.2).

(** Each position pairs a slave with one of its masters; the links are exactly
    the facets all of whose nodes are slaves, in order. *)
Theorem C30_links_follow_relations :
  exists t facets, [/\ facet_elem_type ndim = Some t, dget cells t = Some facets,
    (forall f, (f \in [seq l.1 | l <- ls]) <->
       (f \in facets) /\ forall x, x \in f -> exists2 r, r \in periodic & r.1 = ndim.-1 /\ slave_of r x) &
    forall l, l \in ls -> size l.2 = size l.1 /\
      forall q, (q < size l.1)%N ->
        exists2 r, r \in periodic & r.1 = ndim.-1 /\ (nth 0 l.1 q, nth 0 l.2 q) \in r.2].
Proof.
move: run; rewrite /get_periodic_links; case tE : (facet_elem_type ndim) => [t|] //.
case cE : (dget cells t) => [facets|] // H; exists t, facets; split=> //.
all: have -> : ls = [seq (f, [seq odflt 0 (dget (src_tgt_mapping periodic ndim) x) | x <- f])
   | f <- facets & all (fun x => isSome (dget (src_tgt_mapping periodic ndim) x)) f]
   by move: H; case: [seq _ | f <- facets & _] => // l l0 [].
  move=> f; rewrite -map_comp (eq_map (f2 := id)) // map_id mem_filter; split.
    case/andP=> /allP h ff; split=> // x /h; case E : (dget _ x) => [y|] // _.
    by have [r rp [rd rr]] := mapping_sound E; exists r => //; split=> //; exists y.
  case=> ff h; rewrite ff andbT; apply/allP => x /h[r rp [rd [y xy]]]; exact: mapping_complete rp rd xy.
move=> l /mapP[f]; rewrite mem_filter => /andP[/allP h ff] -> /=; rewrite size_map; split=> // q ql.
rewrite (nth_map 0) //; have := h _ (mem_nth 0 ql); case E : (dget _ _) => [y|] // _ /=.
exact: mapping_sound E.
Qed.

(** If no node has two different masters, a link follows every relation that
    contains its facet. *)
Theorem C30_same_relation :
  (forall r r' x y y', r \in periodic -> r' \in periodic -> r.1 = ndim.-1 -> r'.1 = ndim.-1 ->
     (x, y) \in r.2 -> (x, y') \in r'.2 -> y = y') ->
  forall l r, l \in ls -> r \in periodic -> r.1 = ndim.-1 -> (forall x, x \in l.1 -> slave_of r x) ->
  forall q, (q < size l.1)%N -> (nth 0 l.1 q, nth 0 l.2 q) \in r.2.
Proof.
move=> fn l r ll rp rd sl q ql; have [t [facets [_ _ _ h]]] := C30_links_follow_relations.
have [_ /(_ q ql)[r' rp' [rd' h']]] := h l ll; have [y xy] := sl _ (mem_nth 0 ql).
by rewrite -(fn r r' _ _ _ rp rp' rd rd' xy h').
Qed.
End Periodic.

(** Doubly periodic square of 2 x 2 cells (node [3 x + y]): the corner is a slave
    in both relations and the later one overwrites the earlier, so that the link
    of the facet (7, 8) of the right side is no facet of the left side. *)
Definition ex_cells : seq (ctype * seq (seq int)) :=
  [:: (Line, [:: [:: Posz 6; Posz 7]; [:: Posz 7; Posz 8]; [:: Posz 2; Posz 5]; [:: Posz 5; Posz 8]])].
Definition ex_periodic : seq (nat * seq (int * int)) :=
  [:: (1%N, [:: (Posz 6, Posz 0); (Posz 7, Posz 1); (Posz 8, Posz 2)]);
      (1%N, [:: (Posz 2, Posz 0); (Posz 5, Posz 3); (Posz 8, Posz 6)])].

Theorem C30_same_relation_refuted : exists cells periodic ls l r,
  [/\ get_periodic_links cells periodic 2 = inr ls, l \in ls, r \in periodic,
      r.1 = 1%N /\ (forall x, x \in l.1 -> exists y, (x, y) \in r.2) &
      forall r', r' \in periodic -> exists2 q, (q < size l.1)%N & (nth 0 l.1 q, nth 0 l.2 q) \notin r'.2].
Proof.
exists ex_cells, ex_periodic; eexists; exists ([:: Posz 7; Posz 8], [:: Posz 1; Posz 6]), (nth (0%N, [::]) ex_periodic 0).
split; [by vm_compute | by [] | by [] | | ].
  split=> // x; rewrite !inE => /orP[/eqP->|/eqP->]; [by exists (Posz 1) | by exists (Posz 2)].
move=> r'; rewrite !inE => /orP[/eqP->|/eqP->]; [by exists 1%N | by exists 0%N].
Qed.

Example ex_links : get_periodic_links ex_cells (take 1 ex_periodic) 2 =
  inr [:: ([:: Posz 6; Posz 7], [:: Posz 0; Posz 1]); ([:: Posz 7; Posz 8], [:: Posz 1; Posz 2])].
Proof. by vm_compute. Qed.

Theorem C30_one_dimensional_rejected cells periodic : get_periodic_links cells periodic 1 = inl RdKeyError.
Proof. by []. Qed.

(** In three dimensions the facets of the links are left in Gmsh's cyclic order,
    and the refiner raises for such links. *)
Lemma cyclic_not_oriented (a b c d : int) : uniq [:: a; b; c; d] -> ~ oriented 2 [:: a; b; c; d] [:: a; c; d; b].
Proof.
move=> u [[s f] ok]; rewrite /sym_ok in ok; case/andP: ok => ps /eqP sf.
have : (s == [:: 0; 1]%N) || (s == [:: 1; 0]%N).
  move: (perm_uniq ps) (perm_size ps) (perm_mem ps); case: (s) => [|x [|y [|z s']]] //= uq _ pm.
  have := pm x; have := pm y; rewrite !inE !eqxx ?orbT /=; move: uq; rewrite inE !eqseq_cons eqxx !andbT; lia.
move: u; rewrite /= !inE !negb_or andbT => /and3P[/and3P[ab ac ad] /andP[bc bd] cd].
rewrite /= in sf; clear ps; case: f sf => [|f0 [|f1 [|]]] // _ /orP[/eqP->|/eqP->]; case: f0; case: f1; rewrite /sym_table /= => -[] *; subst;
  by rewrite ?eqxx in ab ac ad bc bd cd.
Qed.

Theorem C30_hexahedral_links_refuted (R : comRingType) (V : lmodType R) (L : Type) m (M1 : nat -> nat -> R) (pm : premesh V L) ls l j ft :
  (2 <= m)%N -> mesh_ok 3 (size (pm_coords pm)) (pm_elements pm) -> conforming 3 (pm_elements pm) ->
  pm_links pm = Some ls -> l \in ls -> (j < size (pm_elements pm))%N -> size ft = 3%N -> facet_dim ft = 2%N ->
  size l.1 = 4%N -> [seq nth 0 l.1 (gmsh_number k) | k <- grid 2 2] = facet (nth [::] (pm_elements pm) j) ft ->
  exists e, refine_premesh 3 m true M1 1 pm = inl e.
Proof.
move=> m2 mo cf lE ll jl sf df sl fE; case E : (refine_premesh _ _ _ _ _ _) => [e|pm']; first by exists e.
have [_ /(_ ls l lE ll)[/(_ sl)[j' [ft' [jl' sf' df' o]]] _]] := C25_only_element_facets m2 (isT : (0 < 3)%N) mo E (isT : (1 < 3)%N).
have uF : uniq (facet (nth [::] (pm_elements pm) j) ft).
  have [sz u _] := mo _ (mem_nth [::] jl).
  apply: subseq_uniq u; exact: (@facet_sub 3).
case: l ll sl fE o => [[|a [|c [|d [|b [|]]]]] l2] //= ll _ fE o.
have pf : perm_eq (facet (nth [::] (pm_elements pm) j) ft) (facet (nth [::] (pm_elements pm) j') ft').
  have := oriented_perm (_ : _ = 2 ^ 2)%N o; rewrite size_facet df' => /(_ erefl); rewrite -fE perm_sym; apply: perm_trans.
  by rewrite -[X in perm_eq X _](cat1s a [:: b; c; d]) -[X in perm_eq _ X](cat1s a [:: c; d; b]) perm_cat2l -(cat1s b) perm_catC.
have ab := cf _ _ _ _ (mem_nth [::] jl) (mem_nth [::] jl') sf sf' _ pf; rewrite df in ab.
exfalso; move: (oriented_trans (ab isT) o).
by rewrite -fE; apply: cyclic_not_oriented; rewrite fE.
Qed.

Example ex_hex_links m (M1 : nat -> nat -> rat) : (2 <= m)%N ->
  exists e, refine_premesh 3 m true M1 1 (Premesh (nseq 8 (0 : rat^o)) [seq cell 1 c | c <- grid 1 3] [::]
     (Some [:: ([:: Posz 0; Posz 2; Posz 3; Posz 1], [:: Posz 4; Posz 6; Posz 7; Posz 5])]) None : premesh [lmodType rat of rat^o] unit) = inl e.
Proof.
move=> m2; set pm := Premesh _ _ _ _ _.
have mo : mesh_ok 3 (size (pm_coords pm)) (pm_elements pm) by exact: (@cube_mesh_ok 1 3).
have cf : conforming 3 (pm_elements pm) by exact: (@cube_conforming 1 3).
by apply: (C30_hexahedral_links_refuted M1 m2 mo cf (ls := [:: ([:: Posz 0; Posz 2; Posz 3; Posz 1], [:: Posz 4; Posz 6; Posz 7; Posz 5])])
   (l := ([:: Posz 0; Posz 2; Posz 3; Posz 1], [:: Posz 4; Posz 6; Posz 7; Posz 5])) (j := 0%N) (ft := [:: FIRST; INNER; INNER])).
Qed.

(** ** C31 *)
Section Partition.
Variables (V : zmodType) (L : Type) (part_graph : nat -> seq (seq int) -> seq nat) (pm : premesh V L).
Notation els := (pm_elements pm).
Hypothesis nonneg : forall e i, e \in els -> i \in e -> 0 <= i.
Hypothesis nonempty : forall e, e \in els -> e != [::].

Theorem C31_adjacency_is_node_sharing :
  exists2 adj, adjlist els = Some adj &
    [/\ size adj = size els,
        (forall s, (s < size els)%N -> uniq (nth [::] adj s)),
        (forall s t, (s < size els)%N -> (t \in nth [::] adj s <-> exists2 e, t = Posz e &
           [/\ (e < size els)%N, e <> s & exists2 i, i \in nth [::] els s & i \in nth [::] els e])),
        (forall s t, (s < size els)%N -> (t < size els)%N -> (Posz t \in nth [::] adj s) = (Posz s \in nth [::] adj t)) &
        (forall s, (s < size els)%N -> Posz s \notin nth [::] adj s)] /\
    forall k, partition part_graph pm k =
      Some (Premesh (pm_coords pm) els (pm_groups pm) (pm_links pm) (Some (part_graph k adj))).
Proof.
have [adj adjE [sz h]] := adjlist_some nonneg nonempty; exists adj => //.
have sym s t : (s < size els)%N -> (t < size els)%N -> Posz t \in nth [::] adj s -> Posz s \in nth [::] adj t.
  move=> sl tl /(h s sl).2 [e [te] [el es [i is_ ie]]]; apply/(h t tl).2.
  by exists s => //; split=> //; [move=> st; apply: es; rewrite -te -st | exists i => //; rewrite te].
split; last by move=> k; rewrite /partition adjE.
split=> //.
- by move=> s /h[].
- by move=> s t /h[].
- by move=> s t sl tl; apply/idP/idP; apply: sym.
by move=> s sl; apply/negP => /(h s sl).2[e [<-] [_ ne _]].
Qed.
End Partition.

Theorem C31_empty_element_rejected (V : zmodType) (L : Type) part_graph (pm : premesh V L) k s :
  (forall e i, e \in pm_elements pm -> i \in e -> 0 <= i) ->
  (s < size (pm_elements pm))%N -> nth [::] (pm_elements pm) s = [::] -> partition part_graph pm k = None.
Proof. by move=> nn sl e; rewrite /partition (adjlist_none nn sl e). Qed.

Example ex_adj : adjlist [:: [:: Posz 0; Posz 1]; [:: Posz 1; Posz 2]; [:: Posz 2; Posz 3]; [:: Posz 5; Posz 6]] =
  Some [:: [:: Posz 1]; [:: Posz 0; Posz 2]; [:: Posz 1]; [::]].
Proof. by vm_compute. Qed.

Print Assumptions C29_reorder.
Print Assumptions C29_accepts.
Print Assumptions C29_rejects.
Print Assumptions C30_links_follow_relations.
Print Assumptions C30_same_relation.
Print Assumptions C30_same_relation_refuted.
Print Assumptions C30_one_dimensional_rejected.
Print Assumptions C30_hexahedral_links_refuted.
Print Assumptions C31_adjacency_is_node_sharing.
Print Assumptions C31_empty_element_rejected.
