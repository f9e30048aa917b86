(** Properties of finalised meshes (C13, C18-C20). *)
From mathcomp Require Import all_ssreflect all_algebra zify.
From Verif Require Import GS_model GS_proofs GS_proofs2 GS_proofs3 GS_props Premesh_model Premesh_proofs.
Set Implicit Arguments.
Unset Strict Implicit.
Unset Printing Implicit Defensive.
Import Order.TTheory GRing.Theory Num.Theory.
Local Open Scope ring_scope.

Section Props.
Variables (V : zmodType) (L : Type).
Implicit Types (pm : premesh V L) (ms : seq (mesh V L)).

(** The rows of elements, one per device. *)
Notation row ps p := (nth [::] (group_by_partitions ps) p).

Definition no_links pm : Prop := pm_links pm = None \/ pm_links pm = Some [::].

Lemma no_links_uid pm i : no_links pm -> unique_index (pm_links pm) i = i.
Proof. by case=> ->. Qed.

Lemma uid_ne_sent pm g k : pm_ok pm -> g = Posz k -> (k < size (pm_coords pm))%N ->
  unique_index (pm_links pm) g != SENT.
Proof. by move=> hok -> hk; have [j _ ->] := uid_bound hok hk. Qed.

(** ** Finalisation succeeds whenever there is no periodicity *)
Theorem C18_finalize_succeeds pm ps : pm_parts pm = Some ps -> no_links pm ->
  exists ms, finalize pm true = inr ms /\ size ms = size (group_by_partitions ps).
Proof.
move=> hps hl; rewrite /finalize hps /finalize_parts /=.
set E := [seq gather_elements _ row | row <- _].
have hE : size E = size (group_by_partitions ps) by rewrite size_map.
rewrite -[local_nodes E]/(get_local_elements E).1.
set NI := [seq [seq unique_index _ i | i <- r] | r <- _].
have hd : all no_dup NI.
  apply/allP => r /mapP[r' /(nthP [::])[p]]; rewrite size_pad_evenly size_map => hp <- ->.
  have -> : [seq unique_index (pm_links pm) i | i <- nth [::] (get_local_elements E).1 p]
       = nth [::] (get_local_elements E).1 p.
    by rewrite -[RHS]map_id; apply: eq_map => i; rewrite no_links_uid.
  rewrite /no_dup local_nodesE // filter_cat cat_uniq filter_uniq ?np_unique_uniq //=.
  have hz k : [seq y <- nseq k SENT | y != SENT] = [::] by elim: k.
  by rewrite hz.
rewrite exchange_indices_parts_some //; eexists; split; first by [].
have s1 : size (get_local_elements E).1 = size E by rewrite /= /local_nodes size_pad_evenly size_map.
have s2 : size (get_local_elements E).2 = size E.
  by rewrite /= size_map size_zip -[local_nodes E]/(get_local_elements E).1 s1 minnn.
have s3 : size NI = size E by rewrite size_map s1.
rewrite -hE size_map size_zip (size_map _ NI) s3.
by rewrite size_zip s3 /= in s2 *; rewrite s2 !minnn.
Qed.

Theorem C18_axis_name_required pm ps : pm_parts pm = Some ps -> finalize pm false = inl ValueError.
Proof. by move=> hps; rewrite /finalize hps. Qed.

(** ** C18: geometry *)
Theorem C18_element_coords_serial pm : pm_ok pm -> pm_parts pm = None ->
  exists m, finalize pm true = inr [:: m] /\
  element_coords m = Some [seq [seq nth 0 (pm_coords pm) (absz i) | i <- e] | e <- pm_elements pm].
Proof.
move=> hok hps; rewrite /finalize hps; eexists; split; first by [].
rewrite /element_coords /mesh_gather eqxx; congr Some; apply/eq_in_map => e he.
by apply/eq_in_map => i hi; have [k _ ->] := ok_elem hok he hi.
Qed.

Section Parts.
Variables (pm : premesh V L) (ps : seq nat) (ms : seq (mesh V L)).
Hypothesis hok : pm_ok pm.
Hypothesis hparts : pm_parts pm = Some ps.
Hypothesis hps : size ps = size (pm_elements pm).
Hypothesis hms : finalize pm true = inr ms.

Lemma hms' : finalize_parts pm ps true = inr ms.
Proof. by move: hms; rewrite /finalize hparts. Qed.

Notation uid := (unique_index (pm_links pm)).
Notation E := [seq gather_elements (pm_elements pm) r | r <- group_by_partitions ps].
Notation raw p := (nth [::] (get_local_elements E).1 p).
Notation width := (size (head [::] (pm_elements pm))).

(** what slot s of partition p holds *)
Lemma slot_coords p s : (p < size (group_by_partitions ps))%N -> (s < size (row ps p))%N ->
  exists C, [/\ element_coords (nth (mesh0 V L) ms p) = Some C, size C = size (row ps p) &
    nth [::] C s = if nth SENT (row ps p) s is Posz e
                   then [seq nth 0 (pm_coords pm) (absz (uid i)) | i <- nth [::] (pm_elements pm) e]
                   else nseq width 0].
Proof.
move=> hp hs; have [gis [_ _ _ _ hm]] := nth_ms hms' hp.
have hEl : nth [::] (nth [::] (get_local_elements E).2 p) s
    = [seq dict_get_default (local_mapping (raw p)) i | i <- nth [::] (nth [::] E p) s].
  by rewrite nth_nl2 // (nth_map [::]) ?size_Ep.
have hElsz : size (nth [::] (get_local_elements E).2 p) = size (row ps p) by rewrite nth_nl2 // size_map size_Ep.
rewrite hm /element_coords /mesh_gather /num_nodes /m_coords /m_elements eqxx; eexists; split; first by [].
  by rewrite size_map hElsz.
move: hEl hElsz; set A := nth [::] (get_local_elements E).2 p => hEl hElsz.
rewrite (nth_map [::]) ?hElsz // hEl /gather -map_comp.
set NI := nth [::] [seq [seq uid i | i <- r] | r <- _] p.
have step g : g \in nth [::] (nth [::] E p) s ->
   (if dict_get_default (local_mapping (raw p)) g != SENT
    then at_ (take_coords (pm_coords pm) NI) (dict_get_default (local_mapping (raw p)) g) else 0)
   = if g == SENT then 0 else nth 0 (pm_coords pm) (absz (uid g)).
  move=> hg; have := raw_elem hp hs hg; case/boolP: (g == SENT) => [_ -> //|hgs [k -> [hk ek]]] /=.
  rewrite /at_ py_index_posz (nth_map 0) ?(size_raw _ hp) // (nth_NI hp) // ek /at_.
  have [|j hj ej] := raw_mem hok hps hp hk; first by rewrite ek hgs.
  have [j' hj' ej'] := uid_bound hok hj.
  by rewrite -ek ej ej'.
have hstep := step; move: hstep; rewrite (nth_Ep hps hp hs) => hstep.
case: (RI_cases hps hp hs) => [e|[e he e']].
- rewrite e in hstep *.
  have -> : nseq width (0 : V) = [seq 0 | i <- nseq width SENT] by rewrite map_nseq.
  apply/eq_in_map => i hi; apply: (etrans (hstep i hi)).
  by move: hi; rewrite mem_nseq => /andP[_ ->].
- rewrite e' in hstep *; apply/eq_in_map => i hi; apply: (etrans (hstep i hi)).
  by have [k hk ->] := ok_elem hok (mem_nth [::] he) hi.
Qed.

Theorem C18_element_coords_partitioned p s :
  no_links pm -> (p < size ms)%N -> (s < size (row ps p))%N ->
  exists C, [/\ element_coords (nth (mesh0 V L) ms p) = Some C, size C = size (row ps p) &
    nth [::] C s = if nth SENT (row ps p) s is Posz e
                   then [seq nth 0 (pm_coords pm) (absz i) | i <- nth [::] (pm_elements pm) e]
                   else nseq width 0].
Proof.
move=> hl hp hs.
have hp' : (p < size (group_by_partitions ps))%N.
  have h0 : (0 < size (group_by_partitions ps))%N by rewrite size_RI.
  by have [gis [_ _ _ <- _]] := nth_ms hms' h0.
have [C [h1 h2 h3]] := slot_coords hp' hs; exists C; split=> //.
rewrite h3; case: (nth SENT _ s) => // e; by apply: eq_map => i; rewrite no_links_uid.
Qed.

(** With periodic links a partition sees the coordinates of the class
    representative instead. *)
Theorem C18_element_coords_representative p s :
  (p < size ms)%N -> (s < size (row ps p))%N ->
  exists C, [/\ element_coords (nth (mesh0 V L) ms p) = Some C, size C = size (row ps p) &
    nth [::] C s = if nth SENT (row ps p) s is Posz e
                   then [seq nth 0 (pm_coords pm) (absz (uid i)) | i <- nth [::] (pm_elements pm) e]
                   else nseq width 0].
Proof.
move=> hp hs; apply: slot_coords => //.
have h0 : (0 < size (group_by_partitions ps))%N by rewrite size_RI.
by have [gis [_ _ _ <- _]] := nth_ms hms' h0.
Qed.

(** ** C19 *)
(** A group whose facets contain either all or none of the nodes identified with
    each other (always the case without periodic links). *)
Definition closed_group (facets : seq (seq int)) : Prop :=
  forall i, (uid i \in flatten facets) = (i \in flatten facets).

Theorem C19_masks_partitioned p s g e a facets :
  (p < size ms)%N -> (s < size (row ps p))%N -> nth SENT (row ps p) s = Posz e ->
  (a < size (nth [::] (pm_elements pm) e))%N ->
  (g < size (pm_groups pm))%N -> closed_group facets ->
  (forall x0, (nth x0 (pm_groups pm) g).2 = facets) ->
  exists l, nth 0 (nth [::] (m_elements (nth (mesh0 V L) ms p)) s) a = Posz l /\
    forall x0, nth false (nth x0 (m_masks (nth (mesh0 V L) ms p)) g).2 l
               = (nth 0 (nth [::] (pm_elements pm) e) a \in flatten facets).
Proof.
move=> hp hs hse ha hg hcl hfac.
have hp' : (p < size (group_by_partitions ps))%N.
  have h0 : (0 < size (group_by_partitions ps))%N by rewrite size_RI.
  by have [gis [_ _ _ <- _]] := nth_ms hms' h0.
have [gis [_ _ _ _ hm]] := nth_ms hms' hp'; rewrite hm /=.
rewrite nth_nl2 // (nth_map [::]) ?size_Ep // (nth_Ep hps hp' hs) hse (nth_map 0) //.
set x := nth 0 _ a.
have he : (e < size (pm_elements pm))%N.
  by case: (RI_cases hps hp' hs) => [|[e' he']]; rewrite hse // => -[->].
have hx : x \in nth [::] (nth [::] E p) s by rewrite (nth_Ep hps hp' hs) hse mem_nth.
have [k hk ek] := ok_elem hok (mem_nth [::] he) (mem_nth 0 ha).
have := raw_elem hp' hs hx; rewrite /= -/x in ek *; rewrite ek /= -ek => -[l -> [hl el]].
exists l; split=> // x0.
have [y0 hy] : exists y0 : L * seq (seq int), True.
  by case: (pm_groups pm) hg => // y l0; exists y.
rewrite (nth_map y0) //= hfac /mask_of (nth_map 0) ?(size_raw _ hp') // (nth_NI hp') // el.
exact: hcl.
Qed.

(** Local nodes no element refers to are padding; their mask is false. *)
Theorem C19_masks_padding p g k facets :
  (p < size ms)%N -> (k < num_nodes (nth (mesh0 V L) ms p))%N ->
  Posz k \notin flatten (m_elements (nth (mesh0 V L) ms p)) ->
  (g < size (pm_groups pm))%N ->
  (forall x0, (nth x0 (pm_groups pm) g).2 = facets) -> SENT \notin flatten facets ->
  forall x0, nth false (nth x0 (m_masks (nth (mesh0 V L) ms p)) g).2 k = false.
Proof.
move=> hp; have hp' : (p < size (group_by_partitions ps))%N.
  have h0 : (0 < size (group_by_partitions ps))%N by rewrite size_RI.
  by have [gis [_ _ _ <- _]] := nth_ms hms' h0.
have [gis [_ _ _ _ hm]] := nth_ms hms' hp'; rewrite hm /= /num_nodes /= size_map (size_raw _ hp').
move=> hk hnot hg hfac hsent x0.
have [y0 hy] : exists y0 : L * seq (seq int), True.
  by case: (pm_groups pm) hg => // y l0; exists y.
rewrite (nth_map y0) //= hfac /mask_of (nth_map 0) ?(size_raw _ hp') // (nth_NI hp') //.
suff -> : nth 0 (raw p) k = SENT by rewrite uid_sent //; apply/negbTE.
apply/eqP/negPn/negP => hne; case/negP: hnot.
have hpE : (p < size E)%N by rewrite size_map.
have hraw := local_nodesE hpE.
set u := np_unique (flatten (nth [::] E p)) in hraw.
have hku : (k < size u)%N.
  rewrite ltnNge; apply/negP => h; case/negP: hne; rewrite hraw nth_cat ltnNge h /= nth_nseq.
  by rewrite hraw size_cat size_nseq in hk; rewrite ifT //; lia.
have hg2 : nth 0 (raw p) k = nth 0 u k by rewrite hraw nth_cat hku.
have hin : nth 0 u k \in u by apply: mem_nth.
have hin' := hin; rewrite mem_np_unique in hin'; case/andP: hin' => hus /flattenP[e he hx].
rewrite nth_nl2 //; apply/flattenP.
exists [seq dict_get_default (local_mapping (raw p)) i | i <- e]; first by apply: map_f.
apply/mapP; exists (nth 0 u k) => //.
by rewrite hraw local_mapping_pad ?np_unique_uniq ?mem_np_unique ?eqxx // -mem_np_unique -/u hin index_uniq ?np_unique_uniq.
Qed.

(** ** C13, C20: assembly *)
(** Per-device arrays of element contributions: same shape as the local element
    arrays, holding [ws] of the element in each occupied slot; anything in
    padding slots. *)
Definition distributes (W : seq (seq (seq V))) (ws : seq (seq V)) : Prop :=
  [/\ size W = size ms,
      forall p, (p < size ms)%N -> map size (nth [::] W p) = map size (m_elements (nth (mesh0 V L) ms p)) &
      forall p s e, (p < size ms)%N -> (s < size (row ps p))%N ->
        nth SENT (row ps p) s = Posz e -> nth [::] (nth [::] W p) s = nth [::] ws e].

Lemma size_msE : size ms = size (group_by_partitions ps).
Proof.
have h0 : (0 < size (group_by_partitions ps))%N by rewrite size_RI.
by have [gis [_ _ _ <- _]] := nth_ms hms' h0.
Qed.

Theorem C13_distributed_sum (W : seq (seq (seq V))) (ws : seq (seq V)) p k :
  map size ws = map size (pm_elements pm) -> distributes W ws ->
  (p < size ms)%N -> (k < num_nodes (nth (mesh0 V L) ms p))%N ->
  let x := nth 0 (m_node_indices (nth (mesh0 V L) ms p)) k in x != SENT ->
  nth 0 (nth [::] (meshes_exchange ms [seq mesh_scatter z.1 z.2 | z <- zip ms W]) p) k
  = \sum_(z <- zip (pm_elements pm) ws) \sum_(y <- zip z.1 z.2 | uid y.1 == x) y.2.
Proof.
move=> hws [hW hWp hslot] hp hk x hx; rewrite size_msE in hp.
have [gis [_ _ _ _ hm]] := nth_ms hms' hp.
move: hk; rewrite /num_nodes hm /= size_map (size_raw _ hp) => hk.
have hx' : x = nth 0 (nth [::] [seq [seq uid i | i <- r] | r <- (get_local_elements E).1] p) k.
  by rewrite /x hm.
rewrite hx' in hx *.
apply: (parts_assembly hok hps hms') => //; first by rewrite -size_msE.
- move=> q hq; rewrite hWp ?size_msE //.
  by have [gis' [_ _ _ _ ->]] := nth_ms hms' hq.
- move=> q s e hq hs; apply: hslot => //; by rewrite size_msE.
Qed.

(** The serial mesh of the same premesh *)
Definition unpartition : premesh V L :=
  Premesh (pm_coords pm) (pm_elements pm) (pm_groups pm) (pm_links pm) None.

Theorem C13_distributed_equals_serial (W : seq (seq (seq V))) (ws : seq (seq V)) p k m :
  finalize unpartition true = inr [:: m] ->
  map size ws = map size (pm_elements pm) -> distributes W ws ->
  (p < size ms)%N -> (k < num_nodes (nth (mesh0 V L) ms p))%N ->
  forall i, nth 0 (m_node_indices (nth (mesh0 V L) ms p)) k = uid (Posz i) -> (i < size (pm_coords pm))%N ->
  nth 0 (nth [::] (meshes_exchange ms [seq mesh_scatter z.1 z.2 | z <- zip ms W]) p) k
  = nth 0 (mesh_exchange m (mesh_scatter m ws)) i.
Proof.
move=> [<-] hws hd hp hk i hx hi.
have hok' : pm_ok unpartition by case: hok => h1 h2; split.
rewrite (@serial_assembly _ _ unpartition) // -hx.
apply: (C13_distributed_sum hws hd) => //; rewrite hx; exact: (uid_ne_sent hok _ hi).
Qed.

(** An element operator: acts on the element with the given number, or on a
    padding slot. *)
Theorem C20_assembly (op : option nat -> seq V -> seq V) (u : seq V) (us : seq (seq V)) m p k :
  (forall o v, size (op o v) = size v) ->
  size u = size (pm_coords pm) ->
  (* u takes the same value at identified nodes *)
  (forall i, (i < size u)%N -> nth 0 u (absz (uid (Posz i))) = nth 0 u i) ->
  (* device values: the nodal vector u read at the device's nodes *)
  size us = size ms ->
  (forall q, (q < size ms)%N -> size (nth [::] us q) = num_nodes (nth (mesh0 V L) ms q)) ->
  (forall q j, (q < size ms)%N -> (j < num_nodes (nth (mesh0 V L) ms q))%N ->
     let x := nth 0 (m_node_indices (nth (mesh0 V L) ms q)) j in
     x != SENT -> nth 0 (nth [::] us q) j = nth 0 u (absz x)) ->
  finalize unpartition true = inr [:: m] ->
  let serial_local := odflt [::] (mesh_gather m u) in
  let serial := mesh_exchange m (mesh_scatter m
        [seq op (Some z.1) z.2 | z <- zip (iota 0 (size serial_local)) serial_local]) in
  let dist_local q := odflt [::] (mesh_gather (nth (mesh0 V L) ms q) (nth [::] us q)) in
  let dist := meshes_exchange ms
        [seq mesh_scatter z.1 z.2 | z <- zip ms
           [seq [seq op (if w.1 is Posz e then Some e else None) w.2 | w <- zip (row ps q) (dist_local q)]
           | q <- iota 0 (size ms)]] in
  (p < size ms)%N -> (k < num_nodes (nth (mesh0 V L) ms p))%N ->
  forall i, nth 0 (m_node_indices (nth (mesh0 V L) ms p)) k = uid (Posz i) -> (i < size (pm_coords pm))%N ->
  nth 0 (nth [::] dist p) k = nth 0 serial i.
Proof.
move=> hop hu hper hus husq hval hm sl ser dl dist hp hk i hx hi.
set ws := [seq op (Some z.1) z.2 | z <- zip (iota 0 (size sl)) sl].
move: (hm) => [em].
have hsl : sl = [seq gather 0 u e | e <- pm_elements pm].
  by rewrite /sl -em /mesh_gather /num_nodes /= hu eqxx.
have hnsl : size sl = size (pm_elements pm) by rewrite hsl size_map.
have nws e : (e < size (pm_elements pm))%N ->
    nth [::] ws e = op (Some e) (gather 0 u (nth [::] (pm_elements pm) e)).
  move=> he; rewrite (nth_map (0%N, [::])) ?size_zip ?size_iota ?minnn ?hnsl //.
  by rewrite nth_zip ?size_iota ?hnsl //= nth_iota // add0n hsl (nth_map [::]).
have hdl q : (q < size ms)%N -> dl q = [seq gather 0 (nth [::] us q) e | e <- m_elements (nth (mesh0 V L) ms q)].
  by move=> hq; rewrite /dl /mesh_gather husq // eqxx.
have hrow q : (q < size ms)%N -> size (m_elements (nth (mesh0 V L) ms q)) = size (row ps q).
  rewrite size_msE => hq; have [gis [_ _ _ _ ->]] := nth_ms hms' hq.
  by rewrite /= nth_nl2 // size_map size_Ep.
apply: (C13_distributed_equals_serial (ws := ws) hm) => //.
- apply: (@eq_from_nth _ 0%N); first by rewrite !size_map size_zip size_iota hnsl minnn.
  move=> e; rewrite !size_map size_zip size_iota hnsl minnn => he.
  rewrite (nth_map [::]) ?size_map ?size_zip ?size_iota ?hnsl ?minnn // nws // hop size_gather.
  by rewrite (nth_map [::]).
- split; first by rewrite size_map size_iota.
  + move=> q hq; rewrite (nth_map 0%N) ?size_iota // nth_iota // add0n.
    have hz : size (zip (row ps q) (dl q)) = size (row ps q).
      by rewrite size_zip hdl // size_map hrow // minnn.
    apply: (@eq_from_nth _ 0%N); first by rewrite !size_map hz hrow.
    move=> s; rewrite !size_map hz => hs.
    rewrite (nth_map [::]) ?size_map ?hz // (nth_map (0, [::])) ?hz // hop.
    rewrite nth_zip /=; last by rewrite hdl // size_map hrow.
    by rewrite hdl // (nth_map [::]) ?hrow // size_gather (nth_map [::]) ?hrow.
  + move=> q s e hq hs hse; rewrite (nth_map 0%N) ?size_iota // nth_iota // add0n.
    have hz : size (zip (row ps q) (dl q)) = size (row ps q).
      by rewrite size_zip hdl // size_map hrow // minnn.
    rewrite (nth_map (SENT, [::])) ?hz //= nth_zip /=; last by rewrite hdl // size_map hrow.
    rewrite hse; rewrite hdl // (nth_map [::]) ?hrow //.
    have hq' := hq; rewrite size_msE in hq'.
    have he : (e < size (pm_elements pm))%N.
      by case: (RI_cases hps hq' hs) => [|[e' he']]; rewrite hse // => -[->].
    rewrite nws //; congr (op _ _).
    have [gis [_ _ _ _ hm1]] := nth_ms hms' hq'; rewrite hm1 /=.
    rewrite nth_nl2 // (nth_map [::]) ?size_Ep // (nth_Ep hps hq' hs) hse /gather -map_comp.
    apply/eq_in_map => g hg /=.
    have hgE : g \in nth [::] (nth [::] E q) s by rewrite (nth_Ep hps hq' hs) hse.
    have [j hj ej] := ok_elem hok (mem_nth [::] he) hg.
    have := raw_elem hq' hs hgE; rewrite ej /= => -[l -> [hl el]] /=.
    have nl := husq _ hq; have hv := hval q l hq.
    move: hv; rewrite /num_nodes hm1 /= size_map (size_raw _ hq') (nth_NI hq') // el => /(_ hl) hv.
    rewrite /at_ py_index_posz hv; last by rewrite (uid_ne_sent hok _ hj).
    by rewrite py_index_posz hper ?hu.
Qed.
End Parts.

(** ** C19, serial *)
Theorem C19_masks_serial pm g k facets :
  pm_parts pm = None -> (g < size (pm_groups pm))%N ->
  (forall i, (unique_index (pm_links pm) i \in flatten facets) = (i \in flatten facets)) ->
  (forall x0, (nth x0 (pm_groups pm) g).2 = facets) -> (k < size (pm_coords pm))%N ->
  exists m, finalize pm true = inr [:: m] /\
    forall x0, nth false (nth x0 (m_masks m) g).2 k = (Posz k \in flatten facets).
Proof.
move=> hps hg hcl hfac hk; rewrite /finalize hps; eexists; split; first by [].
move=> x0 /=; have [y0 hy] : exists y0 : L * seq (seq int), True.
  by case: (pm_groups pm) hg => // y l0; exists y.
rewrite (nth_map y0) //= hfac /mask_of (nth_map 0) ?size_map ?size_iota //.
by rewrite (nth_map 0%N) ?size_iota // nth_iota // hcl.
Qed.

Lemma closed_without_links pm facets i : no_links pm ->
  (unique_index (pm_links pm) i \in flatten facets) = (i \in flatten facets).
Proof. by move=> h; rewrite no_links_uid. Qed.
End Props.
Print Assumptions C18_finalize_succeeds.
Print Assumptions C18_axis_name_required.
Print Assumptions C18_element_coords_serial.
Print Assumptions C18_element_coords_partitioned.
Print Assumptions C18_element_coords_representative.
Print Assumptions C19_masks_partitioned.
Print Assumptions C19_masks_padding.
Print Assumptions C13_distributed_sum.
Print Assumptions C13_distributed_equals_serial.
Print Assumptions C20_assembly.
Print Assumptions C19_masks_serial.

(** ** Periodic counterexamples: an interval of two elements with its end points
    identified, one element per device. *)
Definition interval_pm (parts : option (seq nat)) : premesh [zmodType of int] nat :=
  Premesh [:: 0; 1; 2] [:: [:: 0; 1]; [:: 1; 2]] [:: (7%N, [:: [:: 2]]); (8%N, [:: [:: 0]])]
    (Some [:: ([:: 0], [:: 2])]) parts.

Lemma interval_pm_ok parts : pm_ok (interval_pm parts).
Proof.
split=> /=.
- move=> e i; rewrite !inE => /orP[]/eqP->; rewrite !inE => /orP[]/eqP->;
    by [exists 0%N|exists 1%N|exists 2%N].
- move=> ls l i [<-]; rewrite !inE => /eqP-> /=; rewrite !inE => /orP[]/eqP->;
    by [exists 0%N|exists 2%N].
Qed.

(** Device 1 holds element [1; 2]; its second node should be at 2 but is at 0. *)
Theorem C18_periodic_partitioned_refuted :
  exists (pm : premesh [zmodType of int] nat) ps ms C,
    [/\ pm_ok pm, pm_parts pm = Some ps, finalize pm true = inr ms,
        element_coords (nth (mesh0 _ _) ms 1) = Some C /\ nth SENT (nth [::] (group_by_partitions ps) 1) 0 = Posz 1 &
        nth [::] C 0 <> [seq nth 0 (pm_coords pm) (absz i) | i <- nth [::] (pm_elements pm) 1]].
Proof.
exists (interval_pm (Some [:: 0; 1]%N)), [:: 0; 1]%N; eexists; exists [:: [:: 1; 0]].
by split; [exact: interval_pm_ok | by [] | by vm_compute | split; vm_compute | by vm_compute].
Qed.
Print Assumptions C18_periodic_partitioned_refuted.

(** Group 7 is the right end point (node 2), group 8 the left one (node 0): node 2
    is missing from the first mask and present in the second. *)
Theorem C19_periodic_refuted :
  exists (pm : premesh [zmodType of int] nat) m,
    [/\ pm_ok pm, finalize pm true = inr [:: m],
        pm_groups pm = [:: (7%N, [:: [:: 2]]); (8%N, [:: [:: 0]])] &
        m_masks m = [:: (7%N, [:: false; false; false]); (8%N, [:: true; false; true])]].
Proof.
exists (interval_pm None); eexists; split; [exact: interval_pm_ok | by [] | by [] | by vm_compute].
Qed.
Print Assumptions C19_periodic_refuted.

(** A non-periodic mesh of three quadrilateral-like elements over two devices,
    with padding. *)
Definition ex_pm (parts : option (seq nat)) : premesh [zmodType of int] nat :=
  Premesh [:: 0; 10; 20; 30] [:: [:: 0; 1]; [:: 1; 2]; [:: 2; 3]] [:: (7%N, [:: [:: 0]; [:: 3]])] None parts.

Example C18_example :
  exists ms, finalize (ex_pm (Some [:: 0; 0; 1]%N)) true = inr ms /\
  [seq element_coords m | m <- ms]
    = [:: Some [:: [:: 0; 10]; [:: 10; 20]]; Some [:: [:: 20; 30]; [:: 0; 0]]] /\
  [seq m_masks m | m <- ms]
    = [:: [:: (7%N, [:: true; false; false])]; [:: (7%N, [:: false; true; false])]].
Proof. by eexists; split; [vm_compute; reflexivity | vm_compute]. Qed.

(** assembling ones, C13/C20 *)
Example C20_example :
  exists ms m, finalize (ex_pm (Some [:: 0; 0; 1]%N)) true = inr ms /\
  finalize (ex_pm None) true = inr [:: m] /\
  meshes_exchange ms [seq mesh_scatter z.1 z.2 | z <- zip ms [:: [:: [:: 1; 2]; [:: 3; 4]]; [:: [:: 5; 6]; [:: 9; 9]]]]
    = [:: [:: 1; 5; 9]; [:: 9; 6; 0]] /\
  mesh_exchange m (mesh_scatter m [:: [:: 1; 2]; [:: 3; 4]; [:: 5; 6]]) = [:: 1; 5; 9; 6].
Proof. by eexists; eexists; split; [vm_compute; reflexivity | split; [reflexivity | split; vm_compute]]. Qed.
