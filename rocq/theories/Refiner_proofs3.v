(** The invariant of the deduplication state over a run. *)
From mathcomp Require Import all_ssreflect all_algebra zify.
From Verif Require Import PyDict_model PyDict_proofs Facet_model Facet_spec Facet_proofs Facet_proofs2
  GS_model Premesh_model Refiner_model Refiner_spec Refiner_proofs Refiner_proofs2.
Set Implicit Arguments.
Unset Strict Implicit.
Unset Printing Implicit Defensive.
Import GRing.Theory.
Local Open Scope ring_scope.
Arguments refine_type : simpl never.

Section Invariant.
Variables (R : comRingType) (V : lmodType R).
Variables (n m : nat) (M1 : nat -> nat -> R).
Hypothesis m2 : (2 <= m)%N.
Notation rst := (rstate V).
Variables (c0 : seq V) (els : seq (seq int)).
Hypothesis els_ok : mesh_ok n (size c0) els.
Notation N0 := (size c0).
Implicit Types (s : rst).

(** A visit: element, facet type, position of the element, row of ids. *)
Definition visit : Type := (seq int * seq fdt * nat * seq int)%type.
Definition vface (v : visit) : seq int := facet v.1.1.1 v.1.1.2.
Definition vdim (v : visit) : nat := facet_dim v.1.1.2.
Definition vrow (v : visit) : seq int := v.2.
Definition tag : Type := (seq int + nat)%type.
Definition vtag (v : visit) : tag := if vdim v == n then inr v.1.2 else inl (sort <=%R (vface v)).

(** The row is taken from the map by some symmetry. *)
Definition from_map (s : rst) (k : nat) (F row : seq int) : Prop :=
  exists orient ids g,
    [/\ dget (rs_map s) (sort <=%R F) = Some (orient, ids), sym_ok k g,
        orient = [seq nth SENT F p | p <- sym_table 2 k g] &
        row = [seq nth SENT ids p | p <- sym_table (m - 2) k g]].

Definition raw_coords (s : rst) (e : seq int) (ft : seq fdt) (ids : seq int) : Prop :=
  forall q, q \in grid (m - 2) (facet_dim ft) ->
    at_ (rs_coords s) (nth SENT ids (flat (m - 2) q)) = nth 0 (element_coords n m M1 c0 e) (flat m (emb true m ft q)).

Definition owned (ow : seq tag) (t : tag) (ids : seq int) : Prop :=
  forall x, x \in ids -> exists j, [/\ (j < size ow)%N, x = Posz (N0 + j) & nth (inr 0%N) ow j = t].

Definition entry_ok (s : rst) (ow : seq tag) (key orient ids : seq int) : Prop :=
  exists e ft, [/\ e \in els, size ft = n, (0 < facet_dim ft < n)%N, orient = facet e ft & key = sort <=%R orient]
    /\ [/\ size ids = ((m - 2) ^ facet_dim ft)%N, uniq ids, owned ow (inl key) ids & raw_coords s e ft ids].

Definition visit_ok (s : rst) (ow : seq tag) (v : visit) : Prop :=
  [/\ v.1.1.1 \in els, size v.1.1.2 = n, (0 < vdim v)%N, size (vrow v) = ((m - 2) ^ vdim v)%N & uniq (vrow v)] /\
  [/\ owned ow (vtag v) (vrow v),
      (vdim v = n -> raw_coords s v.1.1.1 v.1.1.2 (vrow v)) &
      ((vdim v < n)%N -> from_map s (vdim v) (vface v) (vrow v))].

Record Inv (s : rst) (ow : seq tag) (vs : seq visit) : Prop := mkInv {
  inv_size : size (rs_coords s) = (N0 + size ow)%N;
  inv_take : take N0 (rs_coords s) = c0;
  inv_map : forall key orient ids, dget (rs_map s) key = Some (orient, ids) -> entry_ok s ow key orient ids;
  inv_visits : forall v, v \in vs -> visit_ok s ow v;
  inv_cover : forall j, (j < size ow)%N -> exists2 v, v \in vs & Posz (N0 + j) \in vrow v
}.

Lemma dim_le (ft : seq fdt) : (facet_dim ft <= size ft)%N.
Proof. exact: count_size. Qed.

Lemma els_facet e ft : e \in els -> size ft = n -> uniq (facet e ft).
Proof. by move=> /els_ok[se ue _] sf; apply: facet_uniq => //; rewrite sf. Qed.

(** ** Extending the state *)
Definition fresh (s : rst) (len : nat) : seq int := [seq Posz k | k <- iota (size (rs_coords s)) len].

Lemma size_fresh s len : size (fresh s len) = len.
Proof. by rewrite size_map size_iota. Qed.
Lemma fresh_uniq s len : uniq (fresh s len).
Proof. by rewrite map_inj_uniq ?iota_uniq // => a b []. Qed.
Lemma nth_fresh s len i : (i < len)%N -> nth SENT (fresh s len) i = Posz (size (rs_coords s) + i).
Proof. by move=> h; rewrite (nth_map 0%N) ?size_iota // nth_iota. Qed.

Lemma owned_cat ow ow' t ids : owned ow t ids -> owned (ow ++ ow') t ids.
Proof.
move=> h x /h[j [jo -> <-]]; exists j; split=> //; first by rewrite size_cat ltn_addr.
by rewrite nth_cat jo.
Qed.

Lemma owned_fresh s ow t len : size (rs_coords s) = (N0 + size ow)%N -> owned (ow ++ nseq len t) t (fresh s len).
Proof.
move=> sz x /mapP[k]; rewrite mem_iota sz => /andP[k1 k2] ->.
exists (k - N0)%N; split; first by rewrite size_cat size_nseq; lia.
  by rewrite subnKC // (leq_trans _ k1) // leq_addr.
have h : (k - N0 < size ow)%N = false by lia.
have h' : (k - N0 - size ow < len)%N by lia.
by rewrite nth_cat h nth_nseq h'.
Qed.

Lemma owned_lt s ow t ids x : size (rs_coords s) = (N0 + size ow)%N -> owned ow t ids -> x \in ids ->
  exists2 j, (j < size (rs_coords s))%N & x = Posz j.
Proof. by move=> sz h /h[j [jo -> _]]; exists (N0 + j)%N => //; rewrite sz ltn_add2l. Qed.

Lemma raw_coords_ext s ow t cs mp e ft ids : size (rs_coords s) = (N0 + size ow)%N -> owned ow t ids ->
  size ids = ((m - 2) ^ facet_dim ft)%N ->
  raw_coords s e ft ids -> raw_coords (RState (rs_coords s ++ cs) mp) e ft ids.
Proof.
move=> sz ho si h q qg; rewrite -h //=.
have xi : nth SENT ids (flat (m - 2) q) \in ids by rewrite mem_nth // si flat_lt.
by have [j jl ->] := owned_lt sz ho xi; rewrite at_cat.
Qed.

Lemma raw_coords_fresh s cs mp e ft : cs = nd_take 0 m (element_coords n m M1 c0 e) (slice_positions m true ft) ->
  raw_coords (RState (rs_coords s ++ cs) mp) e ft (fresh s (size cs)).
Proof.
move=> -> q qg /=.
have lt : (flat (m - 2) q < size (nd_take 0%R m (element_coords n m M1 c0 e) (slice_positions m true ft)))%N.
  by rewrite size_map size_slice flat_lt.
rewrite nth_fresh // /at_ /= nth_cat ifN ?addKn; last by rewrite -leqNgt leq_addr.
by rewrite /nd_take slice_emb -map_comp (nth_map_grid _ _ qg).
Qed.

Lemma sym_table_perm_row (k : nat) (ids : seq int) g : sym_ok k g -> size ids = ((m - 2) ^ k)%N ->
  perm_eq [seq nth SENT ids p | p <- sym_table (m - 2) k g] ids.
Proof.
move=> ok si; rewrite -{2}(@take_table _ SENT (m - 2) k ids si).
apply: perm_map; rewrite sym_table_id; exact: perm_sym_table.
Qed.

Lemma owned_perm ow t ids ids' : perm_eq ids ids' -> owned ow t ids' -> owned ow t ids.
Proof. by move=> p h x; rewrite (perm_mem p) => /h. Qed.

(** A run only adds map entries and nodes. *)
Definition ext (s s' : rst) : Prop :=
  (forall key v, dget (rs_map s) key = Some v -> dget (rs_map s') key = Some v).

Lemma from_map_ext s s' k F row : ext s s' -> from_map s k F row -> from_map s' k F row.
Proof. by move=> h [o [ids [g [h1 h2 h3 h4]]]]; exists o, ids, g; split=> //; apply: h. Qed.

Lemma inv_old_visit s ow vs v : Inv s ow vs -> visit_ok s ow v -> Inv s ow (v :: vs).
Proof.
move=> [h1 h2 h3 h4 h5] hv; split=> //.
  by move=> v'; rewrite inE => /orP[/eqP->|/h4].
by move=> j /h5[v' vv' xv]; exists v' => //; rewrite inE vv' orbT.
Qed.

Lemma inv_extend s ow vs cs mp t v :
  Inv s ow vs -> (forall key w, dget (rs_map s) key = Some w -> dget mp key = Some w) ->
  (forall key w, dget mp key = Some w -> dget (rs_map s) key = Some w \/
      entry_ok (RState (rs_coords s ++ cs) mp) (ow ++ nseq (size cs) t) key w.1 w.2) ->
  vrow v = fresh s (size cs) ->
  visit_ok (RState (rs_coords s ++ cs) mp) (ow ++ nseq (size cs) t) v ->
  Inv (RState (rs_coords s ++ cs) mp) (ow ++ nseq (size cs) t) (v :: vs).
Proof.
move=> [h1 h2 h3 h4 h5] hx he hr hv; split.
- by rewrite /= !size_cat size_nseq h1 addnA.
- rewrite /= takel_cat // h1; exact: leq_addr.
- move=> key orient ids /he[/h3|//] [e [ft [f1 [f2 f3 f4 f5]]]].
  exists e, ft; split=> //; split=> //; first exact: owned_cat.
  exact: raw_coords_ext h1 f4 f2 f5.
- move=> v'; rewrite inE => /orP[/eqP->//|/h4[g1 [g2 g3 g4]]].
  split=> //; split; first exact: owned_cat.
    case: g1 => _ _ _ sr _ /g3; exact: raw_coords_ext h1 g2 sr.
  by move=> /g4; apply: from_map_ext.
- move=> j; rewrite size_cat size_nseq => jl.
  case: (ltnP j (size ow)) => jo.
    by have [v' vv' xv] := h5 _ jo; exists v' => //; rewrite inE vv' orbT.
  exists v; rewrite ?mem_head // hr; apply/mapP; exists (N0 + j)%N => //.
  rewrite mem_iota h1; lia.
Qed.

(** ** One facet *)
Lemma refine_one_inv s ow vs e ft j cs s' row :
  Inv s ow vs -> e \in els -> size ft = n -> (0 < facet_dim ft < n)%N ->
  cs = nd_take 0 m (element_coords n m M1 c0 e) (slice_positions m true ft) ->
  refine_one n m s (facet_dim ft) (facet e ft) (Some cs) = inr (s', row) ->
  exists ow', Inv s' ow' ((e, ft, j, row) :: vs) /\ ext s s'.
Proof.
move=> I el sft kn csE; rewrite /refine_one /dim_orderings.
have k0 : (0 < facet_dim ft)%N by case/andP: kn.
have kltn : (facet_dim ft < n)%N by case/andP: kn.
have kNn : (facet_dim ft == n) = false by rewrite ltn_eqF.
have scs : size cs = ((m - 2) ^ facet_dim ft)%N by rewrite csE size_map size_slice.
have uF := els_facet el sft; have sF := size_facet e ft.
case D : (dget _ _) => [[orient ids]|].
  rewrite kn; case E : (dget _ _) => [perm|] // [<- <-].
  have [g [ok kE vE]] := orderings_get_inv E.
  have [e' [ft' [[el' sft' kn' oE keyE] [f2 f3 f4 f5]]]] := inv_map I D.
  have pF : perm_eq (facet e ft) orient by rewrite -sort_perm_eq; apply/eqP.
  have kk : facet_dim ft' = facet_dim ft.
    by have := perm_size pF; rewrite oE !size_facet => /eqP; rewrite eqn_exp2l // => /eqP.
  rewrite kk in f2.
  exists ow; split=> //; apply: inv_old_visit => //; split.
    split=> //; rewrite /vrow /vdim /= ?size_map vE ?size_sym_table //.
    by rewrite (perm_uniq (sym_table_perm_row ok f2)).
  rewrite /vtag /vdim /vface /vrow /= kNn; split.
  - apply: owned_perm f4; rewrite vE; exact: sym_table_perm_row.
  - by move/eqP; rewrite kNn.
  move=> _; exists orient, ids, g; split=> //; last by rewrite vE.
  by apply/(index_table uF sF pF ok).
case=> <- <-; rewrite /= size_map size_iota.
set row0 := [seq _ | _ <- iota 0 _].
have rE : row0 = fresh s (size cs).
  by rewrite /row0 -/(fresh s (size cs)) -[in iota 0 _](size_fresh s (size cs)) map_nth_iota0 ?take_size.
exists (ow ++ nseq (size cs) (inl (sort <=%R (facet e ft)))).
set mp := dset _ _ _.
have getE key : dget mp key = if sort <=%R (facet e ft) == key then Some (facet e ft, fresh s (size cs)) else dget (rs_map s) key.
  by rewrite /mp dget_set.
have extmp key w : dget (rs_map s) key = Some w -> dget mp key = Some w.
  by move=> h; rewrite getE; case: eqP => // ek; rewrite -ek D in h.
have vok : visit_ok (RState (rs_coords s ++ cs) mp) (ow ++ nseq (size cs) (inl (sort <=%R (facet e ft)))) (e, ft, j, row0).
  split; first by rewrite /vrow /vdim /= rE size_fresh fresh_uniq.
  rewrite /vtag /vdim /vface /vrow /= kNn rE; split.
  - apply: owned_fresh; exact: inv_size I.
  - by move/eqP; rewrite kNn.
  move=> _; exists (facet e ft), (fresh s (size cs)), (sym_id (facet_dim ft)); split.
  - by rewrite /= getE eqxx.
  - exact: sym_id_ok.
  - by rewrite take_table.
  - by rewrite take_table // size_fresh.
split; last exact: extmp.
apply: inv_extend => //.
move=> key w; rewrite getE; case: eqP => [<- [<-]|_ h]; last by left.
right; exists e, ft; split=> //=; split; rewrite ?size_fresh ?fresh_uniq //.
- apply: owned_fresh; exact: inv_size I.
- exact: raw_coords_fresh.
Qed.

Lemma ext_refl s : ext s s. Proof. by []. Qed.
Lemma ext_trans s1 s2 s3 : ext s1 s2 -> ext s2 s3 -> ext s1 s3.
Proof. by move=> h1 h2 key v /h1 /h2. Qed.

(** Visits of one facet type; the last one is listed first. *)
Definition visits_of (ft : seq fdt) (es : seq (seq int)) (j0 : nat) (rows : seq (seq int)) : seq visit :=
  [seq (x.1.1, ft, x.1.2, x.2) | x <- zip (zip es (iota j0 (size es))) rows].

Lemma visits_of_cons ft e es j0 row rows :
  visits_of ft (e :: es) j0 (row :: rows) = (e, ft, j0, row) :: visits_of ft es j0.+1 rows.
Proof. by []. Qed.

Lemma Inv_perm s ow vs vs' : perm_eq vs vs' -> Inv s ow vs -> Inv s ow vs'.
Proof.
move=> p [h1 h2 h3 h4 h5]; split=> //.
  by move=> v; rewrite -(perm_mem p) => /h4.
by move=> j /h5[v vv x]; exists v => //; rewrite -(perm_mem p).
Qed.

Definition ecs (es : seq (seq int)) (ft : seq fdt) : seq (seq V) :=
  [seq nd_take 0 m (element_coords n m M1 c0 e) (slice_positions m true ft) | e <- es].

Lemma refine_each_inv ft es j0 s ow vs s' rows :
  Inv s ow vs -> {subset es <= els} -> size ft = n -> (0 < facet_dim ft < n)%N ->
  refine_each n m s (facet_dim ft) [seq facet e ft | e <- es] [seq Some c | c <- ecs es ft] = inr (s', rows) ->
  exists ow', [/\ Inv s' ow' (visits_of ft es j0 rows ++ vs), ext s s' & size rows = size es].
Proof.
move=> I sub sft kn; elim: es j0 s ow vs s' rows I sub => [|e es IH] j0 s ow vs s' rows I sub /=.
  by case=> <- <-; exists ow; split=> //; apply: ext_refl.
case E1 : (refine_one _ _ _ _ _ _) => [//|[s1 row]].
case E2 : (refine_each _ _ _ _ _ _) => [//|[s2 rows']] [<- <-].
have [|ow1 [I1 x1]] := refine_one_inv j0 I _ sft kn (erefl _) E1; first by apply: sub; rewrite mem_head.
have [|ow2 [I2 x2 sz]] := IH j0.+1 _ _ _ _ _ I1 _ E2; first by move=> y yes; apply: sub; rewrite inE yes orbT.
exists ow2; split; last by rewrite /= sz.
  rewrite visits_of_cons; apply: Inv_perm I2; by rewrite -cat1s perm_catCA.
exact: ext_trans x1 x2.
Qed.

(** ** Interiors of the elements *)
Lemma reshape_fresh_cons s len cs css :
  size cs = len -> all (fun c => size c == len) css ->
  reshape (nseq (size css).+1 len) (fresh s (size (flatten (cs :: css)))) =
  fresh s len :: reshape (nseq (size css) len) (fresh (RState (rs_coords s ++ cs) (rs_map s)) (size (flatten css))).
Proof.
move=> sc al /=; rewrite /fresh size_cat sc iotaD map_cat.
rewrite take_size_cat ?size_map ?size_iota // drop_size_cat ?size_map ?size_iota //=.
by rewrite size_cat sc.
Qed.

Lemma interior_inv ft es : size ft = n -> (0 < n)%N -> facet_dim ft = n -> forall j0 s ow vs,
  Inv s ow vs -> {subset es <= els} ->
  exists ow', Inv (RState (rs_coords s ++ flatten (ecs es ft)) (rs_map s)) ow'
    (visits_of ft es j0 (reshape (nseq (size es) ((m - 2) ^ n)%N) (fresh s (size (flatten (ecs es ft))))) ++ vs).
Proof.
move=> sft n0 kn; elim: es => [|e es IH] j0 s ow vs I sub.
  by exists ow; rewrite /= cats0; case: s I.
set cs := nd_take 0 m (element_coords n m M1 c0 e) (slice_positions m true ft).
have scs : size cs = ((m - 2) ^ n)%N by rewrite size_map size_slice kn.
have el : e \in els by apply: sub; rewrite mem_head.
have al : all (fun c => size c == (m - 2) ^ n)%N (ecs es ft).
  by apply/allP => c /mapP[e' _ ->]; rewrite size_map size_slice kn.
rewrite -[ecs (e :: es) ft]/(cs :: ecs es ft) [size (e :: es)]/=.
rewrite -{1}(size_map (fun e => nd_take 0 m (element_coords n m M1 c0 e) (slice_positions m true ft)) es) -/(ecs es ft).
rewrite (reshape_fresh_cons s scs al) visits_of_cons /= catA.
set s1 := RState (rs_coords s ++ cs) (rs_map s).
set v := (e, ft, j0, fresh s ((m - 2) ^ n)).
have I1 : Inv s1 (ow ++ nseq (size cs) (inr j0)) (v :: vs).
  apply: inv_extend => //; first by move=> key w h; left.
    by rewrite /vrow /= scs.
  split; first by rewrite /vrow /vdim /= size_fresh fresh_uniq kn.
  rewrite /vtag /vdim /vface /vrow /= kn eqxx -scs; split.
  - apply: owned_fresh; exact: inv_size I.
  - move=> _; exact: raw_coords_fresh.
  - by rewrite ltnn.
have [|ow2 I2] := IH j0.+1 _ _ _ I1; first by move=> y yes; apply: sub; rewrite inE yes orbT.
exists ow2; rewrite -(size_map (fun e => nd_take 0 m (element_coords n m M1 c0 e) (slice_positions m true ft)) es) -/(ecs es ft) in I2.
by apply: Inv_perm I2; rewrite -cat1s perm_catCA.
Qed.
End Invariant.
