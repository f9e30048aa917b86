(** The pass without coordinates: physical groups and periodic links (C25). *)
From mathcomp Require Import all_ssreflect all_algebra zify.
From Verif Require Import PyDict_model PyDict_proofs Facet_model Facet_spec Facet_proofs Facet_proofs2
  GS_model Premesh_model Refiner_model Refiner_spec Refiner_proofs Refiner_proofs2 Refiner_proofs3 Refiner_proofs4
  Refiner_proofs5 Refiner_proofs6 Refiner_proofs7.
Set Implicit Arguments.
Unset Strict Implicit.
Unset Printing Implicit Defensive.
Import GRing.Theory.
Local Open Scope ring_scope.
Arguments refine_type : simpl never.

Section Plain.
Variables (R : comRingType) (V : lmodType R).
Variables (n m : nat) (M1 : nat -> nat -> R).
Hypothesis m2 : (2 <= m)%N.
Variables (c0 : seq V) (els : seq (seq int)).
Hypothesis els_ok : mesh_ok n (size c0) els.
Notation N0 := (size c0).
Notation Inv := (@Inv R V n m M1 c0 els).
Notation elem := (elem els).
Notation row_of := (row_of m).
Hypothesis n0 : (0 < n)%N.

(** ** One facet *)
Lemma map_entry s ow vs F orient ids : Inv s ow vs -> dget (rs_map s) (sort <=%R F) = Some (orient, ids) ->
  perm_eq F orient /\ uniq F.
Proof.
move=> I D; have [e [ft [[el sft kn oE keyE] _]]] := inv_map I D.
have pF : perm_eq F orient by rewrite -sort_perm_eq; apply/eqP.
split=> //; rewrite (perm_uniq pF) oE; exact: (els_facet els_ok).
Qed.

Lemma plain_one s ow vs k F s' row : Inv s ow vs -> (0 < k < n)%N -> size F = (2 ^ k)%N ->
  refine_one n m s k F None = inr (s', row) <-> s' = s /\ from_map m s k F row.
Proof.
move=> I kn sF; rewrite /refine_one /dim_orderings kn; split.
  case D : (dget _ _) => [[orient ids]|] //; case E : (dget _ _) => [perm|] // [<- <-]; split=> //.
  have [g [ok kE vE]] := orderings_get_inv E; have [pF uF] := map_entry I D.
  exists orient, ids, g; split=> //; last by rewrite vE.
  by apply/(index_table uF sF pF ok).
move=> [-> [orient [ids [g [D ok oE ->]]]]]; rewrite D; have [pF uF] := map_entry I D.
by move/(index_table uF sF pF ok): oE => ->; rewrite orderings_get.
Qed.

Lemma plain_each s ow vs k Fs s' rows : Inv s ow vs -> (0 < k < n)%N -> all (fun F => size F == 2 ^ k)%N Fs ->
  refine_each n m s k Fs (nseq (size Fs) None) = inr (s', rows) ->
  [/\ s' = s, size rows = size Fs & forall j, (j < size Fs)%N -> from_map m s k (nth [::] Fs j) (nth [::] rows j)].
Proof.
move=> I kn; elim: Fs s' rows => [|F Fs IH] s' rows /=; first by move=> _ [<- <-].
case/andP=> /eqP sF sFs; case E1 : (refine_one _ _ _ _ _ _) => [//|[s1 row]].
have [-> fm] := (plain_one _ _ I kn sF).1 E1.
case E2 : (refine_each _ _ _ _ _ _) => [//|[s2 rows']] [<- <-].
by have [-> <- h] := IH _ _ sFs E2; split=> //; case=> [|j] //= /h.
Qed.

Lemma plain_each_ok s ow vs k Fs : Inv s ow vs -> (0 < k < n)%N -> all (fun F => size F == 2 ^ k)%N Fs ->
  (forall F, F \in Fs -> exists row, from_map m s k F row) ->
  exists rows, refine_each n m s k Fs (nseq (size Fs) None) = inr (s, rows).
Proof.
move=> I kn; elim: Fs => [|F Fs IH] /=; first by exists [::].
case/andP=> /eqP sF sFs h; have [|row fm] := h F; first by rewrite mem_head.
have -> := (plain_one s row I kn sF).2 (conj erefl fm).
have [|rows ->] := IH sFs; last by exists (row :: rows).
by move=> G GF; apply: h; rewrite inE GF orbT.
Qed.

(** ** One facet type *)
Definition plain_row (s : rstate V) (ft : seq fdt) (F row : seq int) : Prop :=
  if facet_dim ft == 0%N then row = facet F ft else from_map m s (facet_dim ft) (facet F ft) row.

Lemma none_fcs (fs : seq (seq int)) (ft : seq fdt) :
  [seq omap (fun tc : seq V => nd_take 0 m tc (slice_positions m true ft)) oc | oc <- nseq (size fs) None] =
  nseq (size [seq facet f ft | f <- fs]) None.
Proof. by rewrite map_nseq size_map. Qed.

Lemma dim_inner ft : size ft = n.-1 -> facet_dim ft != 0%N -> (0 < facet_dim ft < n)%N /\ (facet_dim ft == n) = false.
Proof.
move=> sft k0; have lt : (facet_dim ft < n)%N.
  by rewrite (leq_ltn_trans (dim_le ft)) // sft prednK.
by rewrite lt0n k0 lt ltn_eqF.
Qed.

Lemma plain_type s ow vs fs ft s' rows : Inv s ow vs -> size ft = n.-1 ->
  type_rows n m fs (nseq (size fs) None) s ft = inr (s', rows) ->
  [/\ s' = s, size rows = size fs & forall j, (j < size fs)%N -> plain_row s ft (nth [::] fs j) (nth [::] rows j)].
Proof.
move=> I sft; rewrite /type_rows /plain_row none_fcs.
case: ifP => [k0 [<- <-]|/negbT k0]; first by rewrite size_map; split=> // j jl; rewrite (nth_map [::]).
have [kn ->] := dim_inner sft k0; rewrite /= => E.
have al : all (fun F => size F == 2 ^ facet_dim ft)%N [seq facet f ft | f <- fs].
  by apply/allP => F /mapP[f _ ->]; rewrite size_facet.
have [-> sr h] := plain_each I kn al E; rewrite size_map in sr h; split=> // j jl.
by have := h j jl; rewrite (nth_map [::]).
Qed.

Lemma plain_all s ow vs fs fts s' log : Inv s ow vs -> all (fun ft => size ft == n.-1) fts ->
  all_rows n m fs (nseq (size fs) None) s fts = inr (s', log) ->
  [/\ s' = s, size log = size fts, all (fun rows => size rows == size fs) log &
      forall a j, (a < size fts)%N -> (j < size fs)%N ->
        plain_row s (nth [::] fts a) (nth [::] fs j) (nth [::] (nth [::] log a) j)].
Proof.
move=> I; elim: fts s' log => [|ft fts IH] s' log /=; first by move=> _ [<- <-].
case/andP=> /eqP sft sfts; case E1 : (type_rows _ _ _ _ _ _) => [//|[s1 rows]].
have [-> sr h] := plain_type I sft E1.
case E2 : (all_rows _ _ _ _ _ _) => [//|[s2 log']] [<- <-].
have [-> <- al h2] := IH _ _ sfts E2; split=> //=; first by rewrite sr eqxx.
by case=> [|a] j /= al1 jl; [apply: h | apply: h2].
Qed.

Lemma plain_all_ok s ow vs fs fts : Inv s ow vs -> all (fun ft => size ft == n.-1) fts ->
  (forall F ft, F \in fs -> size ft = n.-1 -> facet_dim ft != 0%N -> exists row, from_map m s (facet_dim ft) (facet F ft) row) ->
  exists log, all_rows n m fs (nseq (size fs) None) s fts = inr (s, log).
Proof.
move=> I + H; elim: fts => [|ft fts IH] /=; first by exists [::].
case/andP=> /eqP sft sfts; have [log E] := IH sfts.
suff [rows ->] : exists rows, type_rows n m fs (nseq (size fs) None) s ft = inr (s, rows) by rewrite E; eexists.
rewrite /type_rows none_fcs; case: ifP => [_|/negbT k0]; first by eexists.
have [kn ->] := dim_inner sft k0; rewrite /=.
apply: (plain_each_ok I kn).
  by apply/allP => F /mapP[f _ ->]; rewrite size_facet.
by move=> F /mapP[f ff ->]; apply: H.
Qed.

(** ** The pass *)
Lemma plain_row_size s ow vs ft F row : Inv s ow vs -> plain_row s ft F row -> size row = size (slice_positions m true ft).
Proof.
move=> I; rewrite /plain_row size_slice; case: eqP => [k0 ->|_]; first by rewrite size_facet k0.
by move=> [o [ids [g [_ _ _ ->]]]]; rewrite size_map size_sym_table.
Qed.

Lemma plain_pass s ow vs fs s' T' : Inv s ow vs -> refine_plain n m s fs = inr (s', T') ->
  [/\ s' = s, size T' = size fs &
    forall j, (j < size fs)%N -> size (nth [::] T' j) = (m ^ n.-1)%N /\
      forall ft, size ft = n.-1 -> plain_row s ft (nth [::] fs j) (row_of T' j ft)].
Proof.
move=> I; rewrite /refine_plain /refine_facets refine_typesE.
case E : (all_rows _ _ _ _ _ _) => [//|[s1 log]] [<- <-] {s' T'}.
set fts := all_facet_types n.-1 in E *; set T0 := nseq _ _.
have sfts : all (fun ft => size ft == n.-1) fts by apply/allP => ft; rewrite mem_facet_types.
have [-> sz al z] := plain_all I sfts E.
have sT0 : size T0 = size fs by rewrite size_nseq.
have al0 : all (fun rows => size rows == size T0) log by rewrite sT0.
set T := foldl _ _ _.
have sT : size T = size fs.
  case: (posnP (size fs)) => [e0|e0]; last first.
    have j0 : (0 < size T0)%N by rewrite sT0.
    by have [-> _] := foldl_add_facets m sz al0 j0.
  rewrite e0; rewrite /T; have : size T0 = 0%N by rewrite sT0.
  move: (T0) => T1; elim: (zip fts log) T1 => [|fr l IH] T1 //= s0; apply: IH.
  by rewrite size_map size_zip s0 min0n.
split=> // j jl; have jT : (j < size T0)%N by rewrite sT0.
have [_ Tj] := foldl_add_facets m sz al0 jT.
have st : size (nth [::] T0 j) = (m ^ n.-1)%N by rewrite nth_nseq jl size_nseq.
have sr : size [seq nth [::] rows j | rows <- log] = size fts by rewrite size_map sz.
have [|f1 f2 _] := @final_slots_spec m m2 n.-1 _ fts _ st sr (facet_types_uniq n.-1) sfts.
  by move=> a al1; rewrite (nth_map [::]) ?sz // (plain_row_size I (z _ _ al1 jl)).
rewrite /Refiner_proofs4.row_of -/T in Tj *; rewrite Tj; split=> // ft sft.
have /(nthP [::])[a al1 aE] : ft \in fts by rewrite mem_facet_types sft.
by rewrite -aE f2 // (nth_map [::]) ?sz //; apply: z.
Qed.

Lemma plain_pass_ok s ow vs fs : Inv s ow vs ->
  (forall F ft, F \in fs -> size ft = n.-1 -> facet_dim ft != 0%N -> exists row, from_map m s (facet_dim ft) (facet F ft) row) ->
  exists T', refine_plain n m s fs = inr (s, T').
Proof.
move=> I H; rewrite /refine_plain /refine_facets refine_typesE.
have sfts : all (fun ft => size ft == n.-1) (all_facet_types n.-1) by apply/allP => ft; rewrite mem_facet_types.
by have [log ->] := plain_all_ok I sfts H; eexists.
Qed.

(** ** After the element pass *)
Section After.
Variables (s : rstate V) (T : seq (seq int)).
Hypothesis run : refine_facets n m (RState c0 [::]) els n (etcs n m M1 c0 els) = inr (s, T).

Lemma element_facet_map j ft : (j < size els)%N -> size ft = n -> (0 < facet_dim ft < n)%N ->
  from_map m s (facet_dim ft) (facet (elem j) ft) (row_of T j ft).
Proof.
move=> jl sft /andP[k0 kn]; have [ow [vs [I _ _ hrow _]]] := element_pass m2 els_ok run.
have := hrow j ft jl sft; rewrite gtn_eqF // => vin.
by have [_ [_ _ h]] := inv_visits I vin; apply: h.
Qed.

Lemma from_map_oriented k F G row : size F = (2 ^ k)%N -> from_map m s k G row -> oriented k F G ->
  exists row', from_map m s k F row'.
Proof.
move=> sF [orient [ids [h [D ok oE _]]]] [g okg gE].
have pF : perm_eq F G by apply: (@oriented_perm k) => //; exists g.
have kE : sort <=%R F = sort <=%R G by apply/eqP; rewrite sort_perm_eq.
exists [seq nth SENT ids p | p <- sym_table (m - 2) k (sym_comp k g h)].
exists orient, ids, (sym_comp k g h); rewrite kE; split=> //; first exact: sym_comp_ok.
by rewrite oE gE sym_table_comp.
Qed.

(** Facets oriented like an element facet are refined. *)
Lemma plain_success fs :
  (forall F, F \in fs -> size F = (2 ^ n.-1)%N /\
     is_element_facet n els F) ->
  exists T', refine_plain n m s fs = inr (s, T').
Proof.
have [ow [vs [I _ _ _ _]]] := element_pass m2 els_ok run.
move=> H; apply: (plain_pass_ok I) => F ft2 Fin sft2 k0.
have [sF [j [ft [jl sft dft o]]]] := H _ Fin.
have [kn _] := dim_inner sft2 k0.
have sE : size (facet (elem j) ft) = (2 ^ n.-1)%N by rewrite size_facet dft.
have [ft3 [sft3 d3 o3]] := oriented_facet sE sft2 o.
have e3 : facet (facet (elem j) ft) ft3 = facet (elem j) (subst ft ft3) by rewrite facet_subst ?sft3.
have ds : facet_dim (subst ft ft3) = facet_dim ft2 by rewrite dim_subst ?sft3.
have := @element_facet_map j (subst ft ft3) jl; rewrite size_subst ds => /(_ sft kn) fm.
rewrite -e3 in fm; apply: from_map_oriented fm _; rewrite ?size_facet //.
by apply: oriented_sym => //; rewrite size_facet d3.
Qed.

(** Conversely, what is refined is an element facet. *)
Lemma plain_is_facet fs s' T' F : (1 < n)%N -> refine_plain n m s fs = inr (s', T') -> F \in fs ->
  size F = (2 ^ n.-1)%N ->
  is_element_facet n els F.
Proof.
have [ow [vs [I _ _ _ _]]] := element_pass m2 els_ok run.
move=> n1 E /(nthP [::])[j jl <-] sF; have [_ _ h] := plain_pass I E.
have [_ {}h] := h j jl.
have := h (nseq n.-1 INNER); rewrite size_nseq => /(_ erefl).
have fd : facet_dim (nseq n.-1 INNER) = n.-1 by rewrite /facet_dim count_nseq mul1n.
rewrite /plain_row fd (facet_inner sF).
case: eqP => [|_ [orient [ids [g [D ok oE _]]]]]; first by lia.
have [e [ft [[el sft kn orE keyE] _]]] := inv_map I D.
have [pF uF] := map_entry I D.
have [i il iE] := nthP [::] el.
have dE : facet_dim ft = n.-1.
  by have := perm_size pF; rewrite orE size_facet sF => /eqP; rewrite eqn_exp2l // => /eqP.
exists i, ft; split=> //; rewrite /elem iE -orE; apply: oriented_sym => //; by exists g.
Qed.

(** The refined facet has the nodes of the refined element on that facet. *)
Lemma from_map_same k F G r r' : from_map m s k F r -> from_map m s k G r' -> perm_eq F G ->
  size F = (2 ^ k)%N -> perm_eq r r'.
Proof.
have [ow [vs [I _ _ _ _]]] := element_pass m2 els_ok run.
move=> [o [ids [g [D ok oE ->]]]] [o' [ids' [g' [D' ok' oE' ->]]]] p sF.
have kE : sort <=%R F = sort <=%R G by apply/eqP; rewrite sort_perm_eq.
move: D'; rewrite -kE D => -[e1 e2]; rewrite -e2.
have [e [ft [[el sft kn orE keyE] [sids _ _ _]]]] := inv_map I D.
have [pF uF] := map_entry I D.
have dE : facet_dim ft = k.
  by have := perm_size pF; rewrite orE size_facet sF => /eqP; rewrite eqn_exp2l // => /eqP.
rewrite dE in sids.
apply: (perm_trans (sym_table_perm_row ok sids)); rewrite perm_sym; exact: sym_table_perm_row.
Qed.

Lemma mem_slice_facet j ft ft3 x : size ft3 = facet_dim ft -> x \in row_of T j (subst ft ft3) ->
  x \in nd_take SENT m (nth [::] T j) (slice_positions m false ft).
Proof.
move=> sft3 /mapP[p ps ->]; apply: map_f; move: ps; rewrite !slice_emb => /mapP[q qg ->].
rewrite emb_subst //; apply: map_f; rewrite -sft3; apply: emb_grid => //.
by rewrite dim_subst in qg.
Qed.

Lemma plain_nodes fs s' T' i j ft : refine_plain n m s fs = inr (s', T') -> (i < size fs)%N ->
  (j < size els)%N -> size ft = n -> facet_dim ft = n.-1 -> oriented n.-1 (facet (elem j) ft) (nth [::] fs i) ->
  perm_eq (nth [::] T' i) (nd_take SENT m (nth [::] T j) (slice_positions m false ft)).
Proof.
have [ow [vs [I sT sTj hrow _]]] := element_pass m2 els_ok run.
move=> E il jl sft dft o; have [_ sT' h] := plain_pass I E; have [sT'i {}h] := h i il.
set F := nth [::] fs i in h o *; set U := nd_take _ _ _ _.
have sE : size (facet (elem j) ft) = (2 ^ n.-1)%N by rewrite size_facet dft.
have pEF := oriented_perm sE o.
have sF : size F = (2 ^ n.-1)%N by rewrite -(perm_size pEF).
have uT : uniq (nth [::] T j) := slots_uniq m2 els_ok run jl.
have sU : size U = (m ^ n.-1)%N by rewrite size_map size_slice_gen dft.
have uU : uniq U.
  rewrite map_inj_in_uniq ?slice_uniq // => p q ps qs /eqP.
  have pg := @slice_sub_grid m false ft m2 _ ps; have qg := @slice_sub_grid m false ft m2 _ qs.
  rewrite sft in pg qg; rewrite nth_uniq ?sTj ?flat_lt // => /eqP; exact: (flat_inj pg qg).
have rowU ft2 : size ft2 = n.-1 -> exists2 ft3, size ft3 = n.-1 /\ perm_eq (facet F ft2) (facet (elem j) (subst ft ft3)) &
    perm_eq (row_of T' i ft2) (row_of T j (subst ft ft3)).
  move=> sft2; have [ft3 [sft3 d3 o3]] := oriented_facet sE sft2 o.
  have e3 : facet (facet (elem j) ft) ft3 = facet (elem j) (subst ft ft3) by rewrite facet_subst ?sft3.
  have ds : facet_dim (subst ft ft3) = facet_dim ft2 by rewrite dim_subst ?sft3.
  have p3 : perm_eq (facet F ft2) (facet (elem j) (subst ft ft3)).
    by rewrite perm_sym -e3; apply: oriented_perm o3; rewrite size_facet d3.
  exists ft3 => //; have := h ft2 sft2; rewrite /plain_row; case: ifP => [k0|/negbT k0].
    move=> ->; have := hrow j (subst ft ft3) jl; rewrite size_subst ds k0 => /(_ sft) -> //.
  move=> fm; have [kn _] := dim_inner sft2 k0.
  have := @element_facet_map j (subst ft ft3) jl; rewrite size_subst ds => /(_ sft kn) fm'.
  by apply: (from_map_same fm fm' p3); rewrite size_facet.
have slot a : (a < m ^ n.-1)%N -> exists2 p, p \in grid m n.-1 & flat m p = a.
  move=> al; exists (nth [::] (grid m n.-1) a); first by rewrite mem_nth ?size_grid.
  by rewrite -(nth_map [::] 0%N (flat m)) ?size_grid // map_flat_grid nth_iota.
have xr p : p \in grid m n.-1 -> nth SENT (nth [::] T' i) (flat m p) \in row_of T' i (type_of m p).
  by move=> pg; apply: map_f; apply: type_slice pg.
have sub : {subset nth [::] T' i <= U}.
  move=> x /(nthP SENT)[a]; rewrite sT'i => /slot[p pg <-] <-.
  have [ft3 [sft3 _] pr] := rowU _ (size_type pg).
  by apply: (@mem_slice_facet j ft ft3); rewrite ?sft3 // -(perm_mem pr) xr.
have Tinj : {in grid m n &, injective (fun p => nth SENT (nth [::] T j) (flat m p))}.
  move=> p q pg qg /eqP; rewrite nth_uniq ?sTj ?flat_lt // => /eqP; exact: (flat_inj pg qg).
have uTi : uniq (nth [::] T' i).
  apply/(uniqP SENT) => a a'; rewrite !inE sT'i => /slot[p pg <-] /slot[p' pg' <-] e.
  congr flat.
  have [ft3 [sft3 q3] pr] := rowU _ (size_type pg); have [ft3' [sft3' q3'] pr'] := rowU _ (size_type pg').
  have xT := xr _ pg; have xT' := xr _ pg'.
  have te : type_of m p = type_of m p'.
    move: (xT) (xT'); rewrite -e (perm_mem pr) (perm_mem pr') => /mapP[u us ue] /mapP[u' us' ue'].
    have sub' f : size f = n.-1 -> {subset slice_positions m true (subst ft f) <= grid m n}.
      by move=> sf; rewrite -sft -(size_subst ft f); apply: slice_sub_grid.
    have ug := sub' _ sft3 _ us; have ug' := sub' _ sft3' _ us'.
    have uu : u = u' by apply: Tinj => //; rewrite -ue.
    have uF : uniq F.
      by rewrite -(perm_uniq pEF); apply: (els_facet els_ok) => //; apply: mem_nth.
    apply: (facet_inj uF); rewrite ?(size_type pg) ?(size_type pg') //.
    have s3 : subst ft ft3 = subst ft ft3'.
      by move: us us'; rewrite -uu !(mem_slice _ m2 ug) => /eqP <- /eqP <-.
    by apply: perm_trans q3 _; rewrite s3 perm_sym.
  have ur : uniq (row_of T' i (type_of m p)).
    rewrite (perm_uniq pr) map_inj_in_uniq ?slice_uniq // => u u' us us'.
    have sub' : {subset slice_positions m true (subst ft ft3) <= grid m n}.
      by rewrite -sft -(size_subst ft ft3); apply: slice_sub_grid.
    by apply: Tinj; apply: sub'.
  have inj : {in slice_positions m true (type_of m p) &, injective (fun p => nth SENT (nth [::] T' i) (flat m p))}.
    move=> u b ha hb eu; have /(nthP [::])[ia la iae] := ha; have /(nthP [::])[ib lb ibe] := hb.
    move: eu; rewrite -iae -ibe -!(nth_map _ SENT (fun p => nth SENT (nth [::] T' i) (flat m p))) // => /eqP.
    by rewrite nth_uniq ?size_map // => /eqP->.
  by apply: inj => //; [apply: type_slice pg | rewrite te; apply: type_slice pg'].
have [_ ee] := uniq_min_size uTi sub (eq_leq (etrans sU (esym sT'i))).
by apply: uniq_perm.
Qed.
(** ** Coordinates *)
Hypothesis M1ok : weights_ok m M1.

Lemma plain_coords fs s' T' i p : refine_plain n m s fs = inr (s', T') -> (i < size fs)%N ->
  is_element_facet n els (nth [::] fs i) -> ((m <= 3)%N \/ exchanging_facet n els (nth [::] fs i)) ->
  p \in grid m n.-1 ->
  at_ (rs_coords s) (nth SENT (nth [::] T' i) (flat m p)) =
  multilinear M1 n.-1 (fun a => at_ c0 (nth SENT (nth [::] fs i) a)) p.
Proof.
have [ow [vs [I sT sTj hrow _]]] := element_pass m2 els_ok run.
move=> E il [j [ft [jl sft dft o]]] ex pg; have [_ sT' h] := plain_pass I E; have [sT'i {}h] := h i il.
set F := nth [::] fs i in h o ex *.
have sE : size (facet (elem j) ft) = (2 ^ n.-1)%N by rewrite size_facet dft.
have pEF := oriented_perm sE o.
have sF : size F = (2 ^ n.-1)%N by rewrite -(perm_size pEF).
have el : elem j \in els by apply: mem_nth.
have uF : uniq F by rewrite -(perm_uniq pEF); apply: (els_facet els_ok).
have hv x : x \in F -> exists2 y, (y < N0)%N & x = Posz y.
  rewrite -(perm_mem pEF) => /mem_facet; have [se _ hx] := els_ok el; rewrite sft => /(_ se); exact: hx.
set t := type_of m p; have st : size t = n.-1 := size_type pg.
have ps : p \in slice_positions m true t := type_slice m2 pg.
have xr : nth SENT (nth [::] T' i) (flat m p) \in row_of T' i t by apply: map_f.
have := h t st; rewrite /plain_row; case: eqP => [k0 rE|k0 fm].
  have [y yE] : exists y, facet F t = [:: y].
    by have := size_facet F t; rewrite k0; case: (facet _ _) => [|y [|]] //; exists y.
  move: xr; rewrite rE yE inE => /eqP->; rewrite -{1}st.
  by apply: (corner_coords m2 els_ok M1ok run) yE => //; rewrite ?st ?(grid_size pg).
move: ps; rewrite slice_emb => /mapP[q qg pE].
have slotE : nth SENT (nth [::] T' i) (flat m p) = nth SENT (row_of T' i t) (flat (m - 2) q).
  by rewrite /Refiner_proofs4.row_of /nd_take slice_emb -map_comp nth_map_grid //= -pE.
rewrite slotE pE -{1}st multilinear_facet //.
apply: (row_coords m2 M1ok I fm) => //; rewrite ?size_facet //.
  by apply: facet_uniq => //; rewrite st.
case: ex => [m3|ex]; [by left|right=> e f ein sf pf].
by apply: (ex e t f) => //; rewrite lt0n; apply/eqP.
Qed.

End After.
End Plain.

(** ** Groups and links *)
Section GroupsLinks.
Variables (R : comRingType) (V : lmodType R) (L : Type).
Variables (n m : nat) (M1 : nat -> nat -> R).
Hypothesis m2 : (2 <= m)%N.
Variables (c0 : seq V) (els : seq (seq int)).
Hypothesis els_ok : mesh_ok n (size c0) els.
Hypothesis n0 : (0 < n)%N.
Variables (s : rstate V) (T : seq (seq int)).
Hypothesis run : refine_facets n m (RState c0 [::]) els n (etcs n m M1 c0 els) = inr (s, T).

Lemma plain_state fs s' T' : refine_plain n m s fs = inr (s', T') -> s' = s /\ size T' = size fs.
Proof.
have [ow [vs [I _ _ _ _]]] := element_pass m2 els_ok run.
by move=> E; have [-> -> _] := plain_pass m2 els_ok n0 I E.
Qed.

Lemma groups_pass (gs gs' : seq (L * seq (seq int))) s' : refine_groups n m s gs = inr (s', gs') ->
  [/\ s' = s, size gs' = size gs &
      forall i l0, (i < size gs)%N -> [/\ (nth (l0, [::]) gs' i).1 = (nth (l0, [::]) gs i).1,
        flatten (nth (l0, [::]) gs i).2 != [::] &
        refine_plain n m s (nth (l0, [::]) gs i).2 = inr (s, (nth (l0, [::]) gs' i).2)]].
Proof.
elim: gs gs' s' => [|[l fs] gs IH] gs' s' /=; first by case=> <- <-.
case: ifP => // /negbT ne; case E : (refine_plain _ _ _ _) => [//|[s1 f']].
have [s1E _] := plain_state E; rewrite s1E in E *.
case E2 : (refine_groups _ _ _ _) => [//|[s2 r]] [<- <-].
have [-> sz h] := IH _ _ E2; split=> //=; first by rewrite sz.
by case=> [|i] l0 //= il; [split=> //; rewrite -size_eq0 | apply: h].
Qed.

Lemma groups_pass_ok (gs : seq (L * seq (seq int))) :
  (forall i l0, (i < size gs)%N -> flatten (nth (l0, [::]) gs i).2 != [::] /\
     exists T', refine_plain n m s (nth (l0, [::]) gs i).2 = inr (s, T')) ->
  exists gs', refine_groups n m s gs = inr (s, gs').
Proof.
elim: gs => [|[l fs] gs IH] h /=; first by exists [::].
have [/negbTE ne [T' /= ->]] := h 0%N l isT; rewrite size_eq0 ne.
have [|gs' ->] := IH; last by eexists.
by move=> i l0 il; apply: (h i.+1).
Qed.

Lemma links_pass (ls ls' : seq link) s' : refine_links n m s ls = inr (s', ls') ->
  [/\ s' = s, size ls' = size ls,
      refine_plain n m s [seq l.1 | l <- ls] = inr (s, [seq l.1 | l <- ls']) &
      refine_plain n m s [seq l.2 | l <- ls] = inr (s, [seq l.2 | l <- ls'])].
Proof.
rewrite /refine_links; case E : (refine_plain _ _ _ _) => [//|[s1 a]].
have [-> sa] := plain_state E; case E2 : (refine_plain _ _ _ _) => [//|[s2 b]] [<- <-].
have [-> sb] := plain_state E2; rewrite !size_map in sa sb.
by rewrite size_zip sa sb minnn -!/(unzip1 _) -!/(unzip2 _) unzip1_zip ?unzip2_zip ?sa ?sb.
Qed.
End GroupsLinks.
