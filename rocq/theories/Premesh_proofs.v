(** Finalisation: geometry, masks and assembly. *)
From mathcomp Require Import all_ssreflect all_algebra zify.
From Verif Require Import GS_model GS_proofs GS_proofs2 GS_proofs3 Premesh_model.
Set Implicit Arguments.
Unset Strict Implicit.
Unset Printing Implicit Defensive.
Import Order.TTheory GRing.Theory Num.Theory.
Local Open Scope ring_scope.

Section Sums.
Variable V : zmodType.

Lemma big_flatten_cond (A : Type) (ss : seq (seq A)) (P : A -> bool) (F : A -> V) :
  \sum_(y <- flatten ss | P y) F y = \sum_(s <- ss) \sum_(y <- s | P y) F y.
Proof. by elim: ss => [|s ss IH] /=; rewrite ?big_nil // big_cat big_cons IH. Qed.

Lemma zip_flatten (A B : Type) (s : seq (seq A)) (t : seq (seq B)) :
  map size s = map size t -> zip (flatten s) (flatten t) = flatten [seq zip x.1 x.2 | x <- zip s t].
Proof. by elim: s t => [|a s IH] [|b t] //= [e1 e2]; rewrite zip_cat // IH. Qed.

Lemma nth_scatter_zip (v : seq V) idx n k : valid_idx n idx -> size v = size idx -> (k < n)%N ->
  nth 0 (scatter v idx n) k = \sum_(y <- zip idx v | y.1 == Posz k) y.2.
Proof.
move=> h1 h2 h3; rewrite nth_scatter //.
by rewrite (big_zip_pos 0 0 (fun i => i == Posz k) (fun _ x => x)).
Qed.

Lemma regroup (l : seq (int * V)) n (P : nat -> bool) :
  valid_idx n [seq y.1 | y <- l] ->
  \sum_(j < n | P j) \sum_(y <- l | y.1 == Posz j) y.2
  = \sum_(y <- l | (y.1 != SENT) && P (absz y.1)) y.2.
Proof.
elim: l => [|y l IH] /=; first by move=> _; rewrite big_nil big1 // => j _; rewrite big_nil.
move=> /andP[hy hl].
under eq_bigr => j _ do rewrite big_cons.
rewrite big_cons -(IH hl).
have -> : \sum_(j < n | P j) (if y.1 == Posz j then y.2 + \sum_(z <- l | z.1 == Posz j) z.2
                              else \sum_(z <- l | z.1 == Posz j) z.2)
  = \sum_(j < n | P j && (y.1 == Posz j)) y.2 + \sum_(j < n | P j) \sum_(z <- l | z.1 == Posz j) z.2.
  rewrite [X in _ = X + _]big_mkcondr /= -big_split /=; apply: eq_bigr => j _.
  by case: ifP => _; rewrite ?add0r.
move: hy => /orP[/eqP e|/existsP[k /eqP e]].
- rewrite e eqxx /= [X in X + _]big1 ?add0r // => j /andP[_ /eqP]; by [].
- rewrite e /=; case: ifP => hP.
  + by rewrite (big_pred1 k) // => j /=; rewrite eqz_nat -val_eqE /= eq_sym; case: eqP => [->|]; rewrite ?hP ?andbF.
  + rewrite [X in X + _]big1 ?add0r // => j /andP[h /eqP[ek]]; by rewrite ek h in hP.
Qed.
End Sums.

Section Fin.
Variables (V : zmodType) (L : Type).
Implicit Type pm : premesh V L.

(** Well-formed premeshes: element entries are node ids, links join node ids,
    every element has the same width and a partition. *)
Record pm_ok (pm : premesh V L) : Prop := {
  ok_elem : forall e i, e \in pm_elements pm -> i \in e ->
            exists2 k, (k < size (pm_coords pm))%N & i = Posz k;
  ok_link : forall ls l i, pm_links pm = Some ls -> l \in ls -> i \in l.1 ++ l.2 ->
            exists2 k, (k < size (pm_coords pm))%N & i = Posz k
}.

Lemma mem_zip_l (A B : eqType) (s : seq A) (t : seq B) x : x \in zip s t -> (x.1 \in s) /\ (x.2 \in t).
Proof.
elim: s t => [|a s IH] [|b t] //= h.
have {h} : (x == (a, b)) || (x \in zip s t) by [].
case/orP=> [/eqP->|/IH[h1 h2]]; first by split; exact: mem_head.
by rewrite !in_cons h1 h2 !orbT.
Qed.

Lemma uid_bound pm k : pm_ok pm -> (k < size (pm_coords pm))%N ->
  exists2 j, (j < size (pm_coords pm))%N & unique_index (pm_links pm) (Posz k) = Posz j.
Proof.
move=> hok hk; rewrite /unique_index; case E: (pm_links pm) => [ls|]; last by exists k.
case: ifP => _; first by exists k.
have H := connected_components_ok (edges ls).
have [[c hc [hx ->]]|[_ ->]] := replace_cases ls (Posz k); last by exists k.
have hin : imin c \in c by apply: imin_mem; apply: co_ne H _ hc.
have [e he h] := co_only H hc hin.
move: he => /flattenP[s /mapP[l hl ->] /mem_zip_l[h1 h2]].
apply: (ok_link hok E hl); rewrite mem_cat.
by case/orP: h => /eqP ->; rewrite ?h1 ?h2 ?orbT.
Qed.

Lemma uid_sent pm : pm_ok pm -> unique_index (pm_links pm) SENT = SENT.
Proof.
move=> hok; rewrite /unique_index; case E: (pm_links pm) => [ls|] //.
case: ifP => // _; apply: replace_unlinked => e /flattenP[s /mapP[l hl ->] /mem_zip_l[h1 h2]].
split; apply/eqP => h.
- by have [|k _] := ok_link hok E hl (i := SENT); rewrite // mem_cat h h1.
- by have [|k _] := ok_link hok E hl (i := SENT); rewrite // mem_cat h h2 orbT.
Qed.

(** ** Serial assembly *)
Lemma valid_flatten (pm : premesh V L) : pm_ok pm -> valid_idx (size (pm_coords pm)) (flatten (pm_elements pm)).
Proof.
move=> hok; apply/allP => i /flattenP[e he hi]; have [k hk ->] := ok_elem hok he hi.
by apply/orP; right; apply/existsP; exists (Ordinal hk).
Qed.

Lemma map_fst_zip_flatten (els : seq (seq int)) (ws : seq (seq V)) :
  map size els = map size ws ->
  [seq y.1 | y <- flatten [seq zip x.1 x.2 | x <- zip els ws]] = flatten els.
Proof.
move=> h; rewrite -zip_flatten //; rewrite -/(unzip1 _) unzip1_zip //.
by rewrite !size_flatten /shape h.
Qed.

Lemma serial_assembly pm (ws : seq (seq V)) i : pm_ok pm ->
  map size ws = map size (pm_elements pm) -> (i < size (pm_coords pm))%N ->
  let m := finalize_serial pm in
  let uid := unique_index (pm_links pm) in
  nth 0 (mesh_exchange m (mesh_scatter m ws)) i
  = \sum_(x <- zip (pm_elements pm) ws) \sum_(y <- zip x.1 x.2 | uid y.1 == uid (Posz i)) y.2.
Proof.
move=> hok hsh hi m uid.
have hv := valid_flatten hok.
have hsz : size (flatten ws) = size (flatten (pm_elements pm)) by rewrite !size_flatten /shape hsh.
set ids := [seq uid (Posz k) | k <- iota 0 (size (pm_coords pm))].
have hids : size ids = size (pm_coords pm) by rewrite size_map size_iota.
have nids j : (j < size (pm_coords pm))%N -> nth 0 ids j = uid (Posz j).
  by move=> hj; rewrite (nth_map 0%N) ?size_iota // nth_iota.
have := @exchange_serial_spec V ids (mesh_scatter m ws) i.
rewrite /mesh_exchange /m /finalize_serial /= -/uid -/ids; case: (exchange_indices_serial ids) => gi ui /= ->;
  rewrite ?hids //; last by rewrite size_scatter.
rewrite !nids //.
have [j hj ej] := uid_bound hok hi; rewrite -/uid in ej.
have -> : (uid i == SENT) = false by rewrite ej.
rewrite (eq_bigl (fun j : 'I_(size (pm_coords pm)) => uid (Posz j) == uid (Posz i))); last first.
  by move=> k; rewrite nids.
under eq_bigr => k _ do rewrite nth_scatter_zip // zip_flatten //.
rewrite (regroup (fun k => uid (Posz k) == uid (Posz i))); last by rewrite map_fst_zip_flatten.
transitivity (\sum_(y <- flatten [seq zip x.1 x.2 | x <- zip (pm_elements pm) ws] | uid y.1 == uid (Posz i)) y.2);
  last by rewrite big_flatten_cond big_map.
rewrite big_seq_cond [RHS]big_seq_cond; apply: eq_bigl => y.
case/boolP: (y \in _) => //= /flattenP[s /mapP[x hx ->] hy].
have [hx1 _] := mem_zip_l hx; have [hy1 _] := mem_zip_l hy.
by have [k _ ->] := ok_elem hok hx1 hy1.
Qed.

Lemma local_nodesE (E : seq (seq (seq int))) p : (p < size E)%N ->
  nth [::] (get_local_elements E).1 p = np_unique (flatten (nth [::] E p)) ++
   nseq (foldr maxn 0%N [seq size r | r <- [seq np_unique (flatten es) | es <- E]]
     - size (np_unique (flatten (nth [::] E p)))) SENT.
Proof. by move=> h; rewrite /= /local_nodes nth_pad_evenly ?size_map // (nth_map [::]). Qed.

Lemma local_elementsE (E : seq (seq (seq int))) p : (p < size E)%N ->
  nth [::] (get_local_elements E).2 p
  = [seq [seq dict_get_default (local_mapping (nth [::] (get_local_elements E).1 p)) i | i <- e] | e <- nth [::] E p].
Proof.
move=> h; rewrite /= (nth_map ([::], [::])).
- rewrite nth_zip //; by rewrite /local_nodes size_pad_evenly size_map.
- by rewrite size_zip /local_nodes size_pad_evenly size_map minnn.
Qed.

(** ** The partitioned mesh *)
Section Parts.
Variables (pm : premesh V L) (ps : seq nat) (ms : seq (mesh V L)).
Hypothesis hok : pm_ok pm.
Hypothesis hps : size ps = size (pm_elements pm).
Hypothesis hms : finalize_parts pm ps true = inr ms.

Notation n := (size (pm_coords pm)).
Notation uid := (unique_index (pm_links pm)).
Notation els := (pm_elements pm).
Let RI := group_by_partitions ps.
Let E := [seq gather_elements els row | row <- RI].
Let nl := get_local_elements E.
Let raw p := nth [::] nl.1 p.
Definition mesh0 : mesh V L := Mesh [::] [::] [::] [::] None None.
Let NI := [seq [seq uid i | i <- r] | r <- nl.1].

Lemma size_RI : size RI = (foldr maxn 0%N ps).+1.
Proof. by rewrite /RI group_by_partitionsE size_pad_evenly size_map size_iota. Qed.
Lemma size_E : size E = size RI. Proof. by rewrite size_map. Qed.
Lemma size_nl1 : size nl.1 = size RI.
Proof. by rewrite /nl /= /local_nodes size_pad_evenly size_map size_E. Qed.
Lemma size_nl2 : size nl.2 = size RI.
Proof. by rewrite /nl /= size_map size_zip size_E -/nl /local_nodes size_pad_evenly size_map size_E minnn. Qed.
Lemma size_NI : size NI = size RI. Proof. by rewrite size_map size_nl1. Qed.

Lemma parts_gis : exists2 gis, exchange_indices_parts NI = Some gis &
  ms = [seq Mesh (take_coords (pm_coords pm) x.1.1) x.1.2 x.1.1
             [seq (g.1, mask_of g.2 x.1.1) | g <- pm_groups pm] (Some x.2) None
       | x <- zip (zip NI nl.2) gis].
Proof.
move: hms; rewrite /finalize_parts /= -/RI -/E -/nl -/NI.
by case: exchange_indices_parts => // gis [<-]; exists gis.
Qed.

Lemma nth_ms p : (p < size RI)%N -> exists gis, [/\ exchange_indices_parts NI = Some gis,
  size gis = size RI,
  [seq odflt [::] (m_gi m) | m <- ms] = gis,
  size ms = size RI &
  nth mesh0 ms p = Mesh (take_coords (pm_coords pm) (nth [::] NI p)) (nth [::] nl.2 p) (nth [::] NI p)
             [seq (g.1, mask_of g.2 (nth [::] NI p)) | g <- pm_groups pm] (Some (nth [::] gis p)) None].
Proof.
move=> hp; have [gis hg ->] := parts_gis; exists gis.
have hsg : size gis = size RI.
  have hd : all no_dup NI by apply/negPn/negP => /exchange_indices_parts_none; rewrite hg.
  by move: hg; rewrite exchange_indices_parts_some // => -[<-]; rewrite size_map size_NI.
have hz : size (zip (zip NI nl.2) gis) = size RI by rewrite !size_zip size_NI size_nl2 hsg !minnn.
split=> //.
- rewrite -map_comp /=; rewrite -[RHS](@unzip2_zip _ _ (zip NI nl.2) gis) //.
  by rewrite hsg size_zip size_NI size_nl2 minnn.
- by rewrite size_map.
- rewrite (nth_map ([::], [::], [::])) ?hz // nth_zip; last by rewrite hsg size_zip size_NI size_nl2 minnn.
  by rewrite nth_zip ?size_NI ?size_nl2.
Qed.

Lemma nth_E p : (p < size RI)%N -> nth [::] E p = gather_elements els (nth [::] RI p).
Proof. by move=> hp; rewrite (nth_map [::]). Qed.

Lemma size_Ep p : (p < size RI)%N -> size (nth [::] E p) = size (nth [::] RI p).
Proof. by move=> hp; rewrite nth_E // size_map. Qed.

Lemma RI_cases p s : (p < size RI)%N -> (s < size (nth [::] RI p))%N ->
  nth SENT (nth [::] RI p) s = SENT \/
  exists2 e, (e < size els)%N & nth SENT (nth [::] RI p) s = Posz e.
Proof.
move=> hp hs; have := mem_nth SENT hs; move: (nth SENT _ s) => x.
have hp' : (p <= foldr maxn 0%N ps)%N by move: hp; rewrite size_RI.
rewrite /RI group_by_partitionsE nth_pad_evenly ?size_map ?size_iota // mem_cat.
rewrite nth_part_rows // mem_nseq => /orP[/mapP[i]|/andP[_ /eqP->]]; last by left.
rewrite mem_filter mem_iota => /and3P[_ _ hi] ->; right; exists i => //.
by rewrite -hps.
Qed.

Lemma nth_Ep p s : (p < size RI)%N -> (s < size (nth [::] RI p))%N ->
  nth [::] (nth [::] E p) s
  = if nth SENT (nth [::] RI p) s is Posz e then nth [::] els e else nseq (size (head [::] els)) SENT.
Proof.
move=> hp hs; rewrite nth_E // (nth_map SENT) //.
by have [->|[e he ->]] := RI_cases hp hs.
Qed.

Lemma raw_elem p s g : (p < size RI)%N -> (s < size (nth [::] RI p))%N ->
  g \in nth [::] (nth [::] E p) s ->
  let l := dict_get_default (local_mapping (raw p)) g in
  if g == SENT then l = SENT
  else exists2 k, l = Posz k & (k < size (raw p))%N /\ nth 0 (raw p) k = g.
Proof.
move=> hp hs hg /=.
have hn : raw p = np_unique (flatten (nth [::] E p)) ++
   nseq (foldr maxn 0%N [seq size r | r <- [seq np_unique (flatten es) | es <- E]]
     - size (np_unique (flatten (nth [::] E p)))) SENT.
  by rewrite /raw local_nodesE // size_E.
rewrite hn local_mapping_pad ?np_unique_uniq ?mem_np_unique ?eqxx //.
case/boolP: (g == SENT) => //= hgs.
have hin : g \in flatten (nth [::] E p).
  by apply/flattenP; exists (nth [::] (nth [::] E p) s) => //; apply: mem_nth; rewrite size_Ep.
rewrite hin; exists (index g (np_unique (flatten (nth [::] E p)))) => //.
have hg' : g \in np_unique (flatten (nth [::] E p)) by rewrite mem_np_unique hgs.
split; first by rewrite size_cat ltn_addr // index_mem.
by rewrite nth_cat index_mem hg' nth_index.
Qed.

Lemma raw_mem p k : (p < size RI)%N -> (k < size (raw p))%N -> nth 0 (raw p) k != SENT ->
  exists2 j, (j < n)%N & nth 0 (raw p) k = Posz j.
Proof.
move=> hp hk; have := mem_nth 0 hk; move: (nth 0 _ k) => g.
rewrite /raw local_nodesE ?size_E //.
rewrite mem_cat mem_nseq => /orP[|/andP[_ /eqP->]] //.
rewrite mem_np_unique => /andP[hg /flattenP[e /(nthP [::])[s hs <-]]] hge _.
rewrite size_Ep // in hs; move: hge; rewrite nth_Ep //.
have [->|[i hi ->]] := RI_cases hp hs.
- by rewrite mem_nseq (negbTE hg) andbF.
- by apply: (ok_elem hok); apply: mem_nth.
Qed.

Lemma size_raw p : (p < size RI)%N -> size (nth [::] NI p) = size (raw p).
Proof. by move=> hp; rewrite (nth_map [::]) ?size_nl1 // size_map. Qed.

Lemma nth_NI p k : (p < size RI)%N -> (k < size (raw p))%N ->
  nth 0 (nth [::] NI p) k = uid (nth 0 (raw p) k).
Proof. by move=> hp hk; rewrite (nth_map [::]) ?size_nl1 // (nth_map 0). Qed.

Lemma nth_nl2 p : (p < size RI)%N ->
  nth [::] nl.2 p = [seq [seq dict_get_default (local_mapping (raw p)) i | i <- e] | e <- nth [::] E p].
Proof.
by move=> hp; rewrite local_elementsE ?size_E.
Qed.

Lemma nl2_valid p : (p < size RI)%N -> valid_idx (size (raw p)) (flatten (nth [::] nl.2 p)).
Proof.
move=> hp; rewrite nth_nl2 //; apply/allP => i /flattenP[e' /mapP[e he ->] /mapP[g hg ->]].
move: he => /(nthP [::])[s hs he]; rewrite -he in hg; rewrite size_Ep // in hs.
have /= := raw_elem hp hs hg; case: ifP => _ => [->|[k -> [hk _]]]; rewrite ?eqxx //.
by apply/orP; right; apply/existsP; exists (Ordinal hk).
Qed.

(** Values at the local nodes of partition p *)
Section Assembly.
Variables (W : seq (seq (seq V))) (ws : seq (seq V)).
(** one local array per slot, in the shape of the element array, holding [ws] of
    its element *)
Hypothesis hW : size W = size RI.
Hypothesis hWp : forall p, (p < size RI)%N -> map size (nth [::] W p) = map size (nth [::] nl.2 p).
Hypothesis hws : map size ws = map size els.
Hypothesis hslot : forall p s e, (p < size RI)%N -> (s < size (nth [::] RI p))%N ->
  nth SENT (nth [::] RI p) s = Posz e -> nth [::] (nth [::] W p) s = nth [::] ws e.

Let F (X : int) (x : seq int * seq V) : V := \sum_(y <- zip x.1 x.2 | uid y.1 == X) y.2.

Lemma scatter_part p X : (p < size RI)%N -> X != SENT ->
  \sum_(j < size (raw p) | nth 0 (nth [::] NI p) j == X)
     nth 0 (scatter (flatten (nth [::] W p)) (flatten (nth [::] nl.2 p)) (size (raw p))) j
  = \sum_(s < size (nth [::] RI p)) F X (nth [::] (nth [::] E p) s, nth [::] (nth [::] W p) s).
Proof.
move=> hp hX.
have hv := nl2_valid hp.
have hsz : size (flatten (nth [::] W p)) = size (flatten (nth [::] nl.2 p)).
  by rewrite !size_flatten /shape hWp.
under eq_bigr => j _ do rewrite nth_scatter_zip // zip_flatten ?hWp //.
rewrite (regroup (fun j => nth 0 (nth [::] NI p) j == X)); last by rewrite map_fst_zip_flatten ?hWp.
rewrite big_flatten_cond big_map.
have hsW : size (nth [::] W p) = size (nth [::] RI p).
  by rewrite -(size_map size) hWp // size_map nth_nl2 // size_map size_Ep.
rewrite (big_nth ([::], [::])) big_mkord.
have hz : size (zip (nth [::] nl.2 p) (nth [::] W p)) = size (nth [::] RI p).
  by rewrite size_zip hsW nth_nl2 // size_map size_Ep // minnn.
rewrite hz; apply: eq_bigr => s _.
rewrite nth_zip; last by rewrite hsW nth_nl2 // size_map size_Ep.
rewrite /F /= nth_nl2 // (nth_map [::]) ?size_Ep //.
set g := nth [::] _ s; set w := nth [::] _ s.
have -> : zip [seq dict_get_default (local_mapping (raw p)) i | i <- g] w
  = [seq (dict_get_default (local_mapping (raw p)) y.1, y.2) | y <- zip g w].
  by elim: (g) (w) => [|a l IH] [|b t] //=; rewrite IH.
rewrite big_map big_seq_cond [RHS]big_seq_cond; apply: eq_bigl => y.
case/boolP: (y \in _) => //= hy; have [hy1 _] := mem_zip_l hy.
have /= := raw_elem hp (ltn_ord s) hy1; case: eqP => [e ->|he [k -> [hk ek]]] /=.
- by rewrite e uid_sent // eq_sym (negbTE hX).
- by rewrite nth_NI // ek.
Qed.

Lemma head_size_pad s X (t : seq V) : X != SENT -> F X (nseq s SENT, t) = 0.
Proof.
move=> hX; rewrite /F /= big_seq_cond big1 // => y /andP[/mem_zip_l[h _]].
move: h; rewrite mem_nseq => /andP[_ /eqP ->]; rewrite uid_sent // => /eqP h.
by rewrite h eqxx in hX.
Qed.

Lemma slots_sum X : X != SENT ->
  \sum_(p < size RI) \sum_(s < size (nth [::] RI p)) F X (nth [::] (nth [::] E p) s, nth [::] (nth [::] W p) s)
  = \sum_(e < size els) F X (nth [::] els e, nth [::] ws e).
Proof.
move=> hX.
pose G (i : int) : V := if i is Posz e then F X (nth [::] els e, nth [::] ws e) else 0.
have h1 (p : nat) : (p < size RI)%N ->
   \sum_(s < size (nth [::] RI p)) F X (nth [::] (nth [::] E p) s, nth [::] (nth [::] W p) s)
   = \sum_(e < size els | nth 0%N ps e == p) F X (nth [::] els e, nth [::] ws e).
  move=> hp; transitivity (\sum_(i <- nth [::] RI p) G i).
    rewrite (big_nth SENT) big_mkord; apply: eq_bigr => s _.
    rewrite nth_Ep //; have [h|[e he h]] := RI_cases hp (ltn_ord s); rewrite h /=.
    - exact: head_size_pad.
    - by rewrite (hslot _ _ h).
  have hp' : (p <= foldr maxn 0%N ps)%N by rewrite -ltnS -size_RI.
  rewrite /RI group_by_partitionsE nth_pad_evenly ?size_map ?size_iota // big_cat /=.
  have hz m : \sum_(i <- nseq m SENT) G i = 0.
    by elim: m => [|m IH]; rewrite ?big_nil //= big_cons IH addr0.
  rewrite hz addr0 nth_part_rows // big_map /= big_filter -hps.
  have <- : index_iota 0 (size ps) = iota 0 (size ps) by rewrite /index_iota subn0.
  by rewrite big_mkord.
rewrite (eq_bigr _ (fun (p : 'I_(size RI)) _ => h1 p (ltn_ord p))).
rewrite (exchange_big_dep xpredT) //=; apply: eq_bigr => e _.
have he : (nth 0%N ps e < size RI)%N.
  by rewrite size_RI ltnS; apply/foldr_maxn_ge/mem_nth; rewrite hps.
by rewrite (big_pred1 (Ordinal he)) // => p /=; rewrite -val_eqE /= eq_sym.
Qed.

Lemma parts_assembly p k : (p < size RI)%N -> (k < size (raw p))%N -> nth 0 (nth [::] NI p) k != SENT ->
  nth 0 (nth [::] (meshes_exchange ms [seq mesh_scatter x.1 x.2 | x <- zip ms W]) p) k
  = \sum_(x <- zip els ws) \sum_(y <- zip x.1 x.2 | uid y.1 == nth 0 (nth [::] NI p) k) y.2.
Proof.
move=> hp hk hX.
have [gis [hg hsg hgm hsm _]] := nth_ms hp.
have hui : (if ms is m :: _ then m_ui m else None) = None.
  have hp0 : (0 < size RI)%N by rewrite size_RI.
  have [gis' [_ _ _ hsm' h0]] := nth_ms hp0; move: h0 hsm'; case: (ms) => // m ms' /= -> _.
  by [].
rewrite /meshes_exchange hgm hui.
set us := map _ _.
have hus : size us = size RI by rewrite size_map size_zip hsm hW minnn.
have nus q : (q < size RI)%N -> nth [::] us q =
    scatter (flatten (nth [::] W q)) (flatten (nth [::] nl.2 q)) (size (raw q)).
  move=> hq; rewrite (nth_map (mesh0, [::])) ?size_zip ?hsm ?hW ?minnn // nth_zip ?hsm //=.
  have [gis' [_ _ _ _ ->]] := nth_ms hq.
  by rewrite /mesh_scatter /num_nodes /= size_map size_raw.
rewrite (@exchange_dist_spec V NI gis us p k) ?size_NI //; first 1 last.
- by move=> q hq; rewrite nus // size_scatter size_raw.
- by rewrite size_raw.
rewrite (negbTE hX).
set X := nth 0 _ k.
transitivity (\sum_(q < size RI) \sum_(s < size (nth [::] RI q)) F X (nth [::] (nth [::] E q) s, nth [::] (nth [::] W q) s)).
  apply: eq_bigr => q _; rewrite size_raw // nus //; exact: scatter_part.
rewrite slots_sum // (big_nth ([::], [::])) big_mkord.
have hsz : size ws = size els by rewrite -(size_map size) hws size_map.
rewrite size_zip hsz minnn; apply: eq_bigr => e _; by rewrite nth_zip.
Qed.
End Assembly.
End Parts.
End Fin.
