From mathcomp Require Import all_ssreflect all_algebra zify.
From Verif Require Import PyDict_model PyDict_proofs GS_model Premesh_model Reader_model.
Set Implicit Arguments.
Unset Strict Implicit.
Unset Printing Implicit Defensive.
Import Order.TTheory GRing.Theory Num.Theory.
Local Open Scope ring_scope.

(** ** Dictionaries built by repeated update *)
Lemma dict_update_sound pairs d x y : dget (dict_update d pairs) x = Some y -> (x, y) \in pairs \/ dget d x = Some y.
Proof.
rewrite /dict_update; elim: pairs d => [|[u v] pairs IH] d /=; first by right.
case/IH => [h|]; first by left; rewrite inE h orbT.
rewrite dget_set /=; case: eqP => [-> [->]|_]; last by right.
by left; rewrite inE eqxx.
Qed.

Lemma dict_update_mono pairs d x : isSome (dget d x) -> isSome (dget (dict_update d pairs) x).
Proof.
rewrite /dict_update; elim: pairs d => [|[u v] pairs IH] d //= h; apply: IH; rewrite dget_set /=; by case: eqP.
Qed.

Lemma dict_update_complete pairs d x y : (x, y) \in pairs -> isSome (dget (dict_update d pairs) x).
Proof.
elim: pairs d => [|[u v] pairs IH] d //=; rewrite inE => /orP[/eqP[-> _]|]; last exact: IH.
by apply: dict_update_mono; rewrite dget_set /= eqxx.
Qed.

Lemma mapping_acc (ndim : nat) periodic d x y :
  dget (foldl (fun d r => if (r.1 != ndim.-1)%N then d else dict_update d (dict_update [::] r.2)) d periodic) x = Some y ->
  (exists2 r, r \in periodic & r.1 = ndim.-1 /\ (x, y) \in r.2) \/ dget d x = Some y.
Proof.
elim: periodic d => [|r periodic IH] d /=; first by right.
case/IH => [[r' rp h]|]; first by left; exists r' => //; rewrite inE rp orbT.
case: eqP => [e|_] /=; last by right.
case/dict_update_sound => [h|]; last by right.
left; exists r; rewrite ?mem_head //; split=> //.
have : (x, y) \in dict_update [::] r.2 -> (x, y) \in r.2.
  move=> {h}; suff H d0 : (x, y) \in dict_update d0 r.2 -> (x, y) \in r.2 \/ (x, y) \in d0 by case/H.
  rewrite /dict_update; elim: (r.2) d0 => [|[u v] l IHl] d0 /=; first by right.
  case/IHl => [h|h]; first by left; rewrite inE h orbT.
  elim: d0 h => [|[u0 v0] d0 IHd] /=; first by rewrite inE => /eqP->; left; rewrite mem_head.
  case: ifP => _; rewrite !inE.
    by case/orP => [/eqP->|h]; [left; rewrite eqxx | right; rewrite h orbT].
  case/orP => [/eqP->|/IHd[h|h]]; [by right; rewrite eqxx | by left; rewrite inE in h | by right; rewrite h orbT].
exact.
Qed.

Lemma mapping_sound ndim periodic x y : dget (src_tgt_mapping periodic ndim) x = Some y ->
  exists2 r, r \in periodic & r.1 = ndim.-1 /\ (x, y) \in r.2.
Proof. by case/mapping_acc. Qed.

Lemma mapping_complete ndim (periodic : seq (nat * seq (int * int))) r x y : r \in periodic -> r.1 = ndim.-1 -> (x, y) \in r.2 ->
  isSome (dget (src_tgt_mapping periodic ndim) x).
Proof.
rewrite /src_tgt_mapping; set f := fun d r => _.
have mono ps d0 : isSome (dget d0 x) -> isSome (dget (foldl f d0 ps) x).
  by elim: ps d0 => [|p ps IH] d0 //= h; apply: IH; rewrite /f; case: ifP => // _; apply: dict_update_mono.
move: [::] => d; elim: periodic d => [|p periodic IH] d //=; rewrite inE => /orP[/eqP->|]; last exact: IH.
move=> h xy; rewrite /f h eqxx /=; apply: mono.
have : isSome (dget (dict_update [::] p.2) x) by apply: dict_update_complete xy.
case E : (dget _ x) => [y'|] // _; apply: (@dict_update_complete _ _ x y').
by elim: (dict_update _ _) E => [|[u v] l IHl] //=; rewrite inE; case: eqP => [-> [->]|_ /IHl->]; rewrite ?eqxx ?orbT.
Qed.

(** ** Breadth-first search *)
Lemma visit_fold ws (seen next : seq int) : let st := foldl visit (seen, next) ws in
  [/\ st.1 =i seen ++ ws,
      (forall w, w \in st.2 = (w \in next) || (w \in ws) && (w \notin seen)) &
      {subset next <= seen} -> uniq next -> uniq st.2 /\ {subset st.2 <= st.1}].
Proof.
elim: ws seen next => [|w ws IH] seen next /=.
  split=> [x|x|]; rewrite ?cats0 ?orbF //.
rewrite /visit /=; case: ifP => ws'.
  have [h1 h2 h3] := IH seen next; split=> [x|x|//].
    by rewrite h1 !mem_cat inE; case: eqP => [->|//]; rewrite ws'.
  by rewrite h2 inE; case: eqP => [->|//] /=; rewrite ws' !andbF.
have [h1 h2 h3] := IH (w :: seen) (rcons next w); split=> [x|x|sub u].
- by rewrite h1 !mem_cat !inE ; case: (x == w); rewrite ?orbT.
- rewrite h2 mem_rcons !inE; case: eqP => [->|//] /=; by rewrite ws' orbT.
apply: h3 => [x|]; first by rewrite mem_rcons !inE => /orP[->//|/sub->]; rewrite orbT.
by rewrite rcons_uniq u andbT; apply: contraFN ws'; apply: sub.
Qed.

Lemma next_levelP g seen level : let st := next_level g seen level in
  [/\ (forall w, w \in st.1 = (w \in seen) || has (fun v => w \in neighbors g v) level),
      (forall w, w \in st.2 = has (fun v => w \in neighbors g v) level && (w \notin seen)) & uniq st.2].
Proof.
rewrite /next_level.
suff H lv sn nx : {subset nx <= sn} -> uniq nx -> let st := foldl (fun st v => foldl visit st (neighbors g v)) (sn, nx) lv in
  [/\ (forall w, w \in st.1 = (w \in sn) || has (fun v => w \in neighbors g v) lv),
      (forall w, w \in st.2 = (w \in nx) || has (fun v => w \in neighbors g v) lv && (w \notin sn)) & uniq st.2].
  by have [|h1 h2 h3] := H level seen [::] _ isT.
elim: lv sn nx => [|v lv IH] sn nx sub u /=; first by split=> // w; rewrite ?orbF.
have [h1 h2 h3] := visit_fold (neighbors g v) sn nx.
case E : (foldl visit (sn, nx) (neighbors g v)) => [sn' nx'] /= in h1 h2 h3 *.
have [u' sub'] := h3 sub u; have [k1 k2 k3] := IH sn' nx' sub' u'; split=> // w.
  by rewrite k1 h1 mem_cat orbA.
rewrite k2 h2 h1 mem_cat negb_or.
by case: (w \in nx) => //=; case: (w \in neighbors g v) => //=; case: (w \in sn) => //=; rewrite ?andbF ?orbF ?andbT.
Qed.

Lemma mem_neighbors g v w : w \in neighbors g v = ((v, w) \in g) || ((w, v) \in g).
Proof.
rewrite mem_undup; elim: g => [|[a b] g IH] //=; rewrite !inE !mem_cat IH !xpair_eqE ![_ == a]eq_sym ![_ == b]eq_sym.
by case: (a == v); case: (b == v); rewrite /= ?inE ?[w == _]eq_sym; case: (b == w); case: (a == w) => //=; rewrite ?orbT ?orbF.
Qed.

Section Adjacency.
Variable els : seq (seq int).
Hypothesis nonneg : forall e i, e \in els -> i \in e -> 0 <= i.
Notation N := (size els).
Notation g := (graph_edges els).

Lemma mem_edges a b : ((a, b) \in g) <-> exists e i, [/\ (e < N)%N, i \in nth [::] els e, a = Posz e & b = Posz N + i].
Proof.
split.
  by case/flatten_mapP=> e; rewrite mem_iota => /= el /mapP[i ii [-> ->]]; exists e, i.
by case=> e [i [el ii -> ->]]; apply/flatten_mapP; exists e; rewrite ?mem_iota //; apply: map_f.
Qed.

Lemma adjacency_some s : (s < N)%N -> nth [::] els s != [::] -> exists2 l, adjacency_of els s = Some l & uniq l /\
  forall t, t \in l <-> exists2 e, t = Posz e & [/\ (e < N)%N, e <> s & exists2 i, i \in nth [::] els s & i \in nth [::] els e].
Proof.
move=> sl ne; rewrite /adjacency_of /shortest_path_lengths.
have -> : in_graph g (Posz s).
  case E : (nth [::] els s) ne => [|i r] // _; apply/hasP; exists (Posz s, Posz N + i); rewrite /= ?eqxx //.
  by apply/mem_edges; exists s, i; rewrite E mem_head.
rewrite [bfs _ _ _ _ _]/=; set st1 := next_level g _ _; set st2 := next_level g st1.1 st1.2.
have [a1 a2 a3] := next_levelP g [:: Posz s] [:: Posz s]; rewrite -/st1 in a1 a2 a3.
have [b1 b2 b3] := next_levelP g st1.1 st1.2; rewrite -/st2 in b1 b2 b3.
have shape : exists2 l, Some [seq td.1 | td <- (Posz s, 0%N) ::
     ([seq (v, 1%N) | v <- st1.2] ++ (if st1.2 is [::] then [::] else [seq (v, 2%N) | v <- st2.2] ++ [::])) & td.2 == 2%N] = Some l & l = st2.2.
  eexists; first by []; rewrite /= filter_cat map_cat.
  have -> : [seq td <- [seq (v, 1%N) | v <- st1.2] | td.2 == 2%N] = [::] by elim: (st1.2).
  rewrite /=; case E : st1.2 => [|x r].
    rewrite /=; have := b2; rewrite E /=; case: (st2.2) => // y ys /(_ y); by rewrite mem_head.
  rewrite cats0 filter_map -map_comp /=; elim: (st2.2) => //= y ys IH; by congr (_ :: _).
case: shape => l lE ll; exists l; first exact: lE.
rewrite ll; split=> // t; rewrite b2.
have nb v w : (w \in neighbors g v) = ((v, w) \in g) || ((w, v) \in g) := mem_neighbors g v w.
have big i e : (e < N)%N -> i \in nth [::] els e -> 0 <= i by move=> el; apply: nonneg; rewrite mem_nth.
split.
  case/andP=> /hasP[v]; rewrite a2 /= orbF inE nb => /andP[h vs]; rewrite nb => h' ts.
  have {h} [i ii vE] : exists2 i, i \in nth [::] els s & v = Posz N + i.
    case/orP: h => /mem_edges[e [i [el ii]]]; first by case=> es ->; exists i => //; rewrite es.
    by move=> vE sE; have := big i e el ii; lia.
  move: ts; rewrite a1 inE negb_or => /andP[ts _].
  case/orP: h' => /mem_edges[e [i' [el ii']]] vE' tE'.
    by have := big i s sl ii; rewrite vE in vE'; lia.
  exists e => //; split=> //; last by exists i => //; suff -> : i = i' by []; apply: (addrI (Posz N)); rewrite -vE -tE'.
  by move=> es; rewrite vE' es eqxx in ts.
case=> e -> [el es [i is_ ie]]; apply/andP; split.
  apply/hasP; exists (Posz N + i).
    rewrite a2 /= orbF nb inE; apply/andP; split; last by have := big i s sl is_; lia.
    by apply/orP; left; apply/mem_edges; exists s, i.
  by rewrite nb; apply/orP; right; apply/mem_edges; exists e, i.
rewrite a1 inE negb_or /= orbF; apply/andP; split; first by apply/eqP => -[].
rewrite nb; apply/negP => /orP[] /mem_edges[e' [i' [el' ii' h1 h2]]].
  by have := big i' e' el' ii'; lia.
by have := big i' e' el' ii'; lia.
Qed.

Lemma all_some_map (T : Type) (f : nat -> option T) (g' : nat -> T) l :
  (forall x, x \in l -> f x = Some (g' x)) -> all_some [seq f x | x <- l] = Some [seq g' x | x <- l].
Proof.
elim: l => [|x l IH] //= h; rewrite h ?mem_head // IH // => y yl; apply: h; rewrite inE yl orbT //.
Qed.

Lemma adjlist_some : (forall e, e \in els -> e != [::]) -> exists2 adj, adjlist els = Some adj &
  size adj = N /\ forall s, (s < N)%N -> uniq (nth [::] adj s) /\
    forall t, t \in nth [::] adj s <-> exists2 e, t = Posz e & [/\ (e < N)%N, e <> s & exists2 i, i \in nth [::] els s & i \in nth [::] els e].
Proof.
move=> ne; exists [seq odflt [::] (adjacency_of els s) | s <- iota 0 N].
  apply: all_some_map => s; rewrite mem_iota => /= sl.
  by have [l -> _] := adjacency_some sl (ne _ (mem_nth _ sl)).
rewrite size_map size_iota; split=> // s sl; rewrite (nth_map 0%N) ?size_iota // nth_iota // add0n.
by have [l -> h] := adjacency_some sl (ne _ (mem_nth _ sl)).
Qed.

Lemma adjlist_none s : (s < N)%N -> nth [::] els s = [::] -> adjlist els = None.
Proof.
move=> sl e0; have an : adjacency_of els s = None.
  rewrite /adjacency_of /shortest_path_lengths; case: ifP => // /hasP[[a b] /mem_edges[e [i [el ii -> ->]]]] /= /orP[/eqP[es]|/eqP h].
    by move: ii; rewrite es e0.
  have := nonneg (mem_nth [::] el) ii; lia.
rewrite /adjlist; have : s \in iota 0 N by rewrite mem_iota.
elim: (iota 0 N) => [|x l IH] //; rewrite inE => /orP[/eqP<-|h]; first by rewrite /= an.
by rewrite /=; case: (adjacency_of els x) => // y; rewrite IH.
Qed.
End Adjacency.
