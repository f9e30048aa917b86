(** Periodic identification, partition layout and local renumbering. *)
From mathcomp Require Import all_ssreflect all_algebra zify.
From Coq Require Import Relation_Operators.
From Verif Require Import GS_model GS_proofs.
Set Implicit Arguments.
Unset Strict Implicit.
Unset Printing Implicit Defensive.
Import Order.TTheory GRing.Theory Num.Theory.
Local Open Scope ring_scope.

(** chains of periodic links *)
Definition edge_rel (es : seq (int * int)) (x y : int) : Prop := (x, y) \in es.
Definition conn (es : seq (int * int)) : int -> int -> Prop := clos_refl_sym_trans _ (edge_rel es).

Lemma conn_mono es e x y : conn es x y -> conn (rcons es e) x y.
Proof.
elim=> [a b h|a|a b _ h|a b c _ h _ h'].
- by apply: rst_step; rewrite /edge_rel mem_rcons in_cons; apply/orP; right.
- exact: rst_refl.
- exact: rst_sym.
- exact: (rst_trans _ _ _ _ _ h h').
Qed.

Record comps_ok (es : seq (int * int)) (cs : seq (seq int)) : Prop := {
  co_ne : forall c, c \in cs -> c != [::];
  co_disj : forall c c' x, c \in cs -> c' \in cs -> x \in c -> x \in c' -> c = c';
  co_sound : forall c x y, c \in cs -> x \in c -> y \in c -> conn es x y;
  co_edge : forall a b, (a, b) \in es -> exists2 c, c \in cs & (a \in c) && (b \in c);
  co_only : forall c x, c \in cs -> x \in c -> exists2 e, e \in es & (x == e.1) || (x == e.2)
}.

Lemma merge_edge_ok es cs e : comps_ok es cs -> comps_ok (rcons es e) (merge_edge cs e).
Proof.
case: e => a b H; rewrite /merge_edge.
set T := [seq c <- cs | touches (a, b) c].
set N := undup _.
have memN x : (x \in N) = [|| x == a, x == b | x \in flatten T] by rewrite mem_undup !in_cons.
have hab : conn (rcons es (a, b)) a b by apply: rst_step; rewrite /edge_rel mem_rcons mem_head.
have hT c : c \in T -> c \in cs by rewrite mem_filter => /andP[].
have hNa x : x \in N -> conn (rcons es (a, b)) x a.
  rewrite memN => /or3P[/eqP->|/eqP->|/flattenP[c hc hx]].
  - exact: rst_refl.
  - exact: rst_sym.
  - move: (hc); rewrite mem_filter => /andP[/orP[h|h] hc'].
    + exact/conn_mono/(co_sound H hc').
    + apply: (rst_trans _ _ _ b); last exact: rst_sym.
      exact/conn_mono/(co_sound H hc').
split.
- move=> c; rewrite in_cons => /orP[/eqP->|].
  + by apply/eqP => h; have := memN a; rewrite h eqxx.
  + rewrite mem_filter => /andP[_]; exact: co_ne H _.
- have hN c x : c \in cs -> ~~ touches (a, b) c -> x \in c -> x \in N -> False.
    move=> hc ht hx; rewrite memN => /or3P[/eqP e|/eqP e|/flattenP[c' hc' hx']].
    + by move: ht; rewrite /touches /= -e hx.
    + by move: ht; rewrite /touches /= -e hx orbT.
    + have e := co_disj H hc (hT _ hc') hx hx'.
      by move: hc'; rewrite -e mem_filter (negbTE ht).
  move=> c c' x; rewrite !in_cons !mem_filter.
  move=> /orP[/eqP->|/andP[ht hc]] /orP[/eqP->|/andP[ht' hc']] hx hx' //.
  + by case: (hN c' x).
  + by case: (hN c x).
  + exact: co_disj H _ _ _ hc hc' hx hx'.
- move=> c x y; rewrite in_cons mem_filter => /orP[/eqP->|/andP[_ hc]] hx hy.
  + exact: (rst_trans _ _ _ _ _ (hNa _ hx) (rst_sym _ _ _ _ (hNa _ hy))).
  + exact/conn_mono/(co_sound H hc).
- move=> x y; rewrite mem_rcons in_cons => /orP[/eqP[-> ->]|h].
  + by exists N; rewrite ?mem_head // !memN !eqxx !orbT.
  + have [c hc /andP[hx hy]] := co_edge H h.
    case/boolP: (touches (a, b) c) => ht.
    * exists N; rewrite ?mem_head // !memN.
      have hcT : c \in T by rewrite mem_filter ht.
      by apply/andP; split; apply/or3P/Or33/flattenP; exists c.
    * by exists c; rewrite ?hx ?hy // in_cons mem_filter ht hc orbT.
- move=> c x; rewrite in_cons mem_filter => /orP[/eqP->|/andP[_ hc]] hx.
  + move: hx; rewrite memN => /or3P[/eqP->|/eqP->|/flattenP[c' /hT hc' hx']].
    * by exists (a, b); rewrite ?mem_rcons ?mem_head ?eqxx.
    * by exists (a, b); rewrite ?mem_rcons ?mem_head ?eqxx ?orbT.
    * have [e he h] := co_only H hc' hx'; exists e => //.
      by rewrite mem_rcons in_cons he orbT.
  + have [e he h] := co_only H hc hx; exists e => //.
    by rewrite mem_rcons in_cons he orbT.
Qed.

Lemma connected_components_ok es : comps_ok es (connected_components es).
Proof.
rewrite /connected_components.
elim/last_ind: es => [|es e IH]; first by split.
by rewrite -cats1 foldl_cat /= cats1; apply: merge_edge_ok.
Qed.

Lemma imin_mem c : c != [::] -> imin c \in c.
Proof.
case: c => // x c _; rewrite /imin.
have H (d : seq int) (y : int) : y \in d -> forall s : seq int, {subset s <= d} -> foldr Num.min y s \in d.
  move=> hy; elim=> //= z s IH hs.
  have /IH h : {subset s <= d} by move=> t ht; apply: hs; rewrite in_cons ht orbT.
  by rewrite minEle; case: ifP => // _; apply: hs; rewrite mem_head.
exact: (H (x :: c) x (mem_head _ _) (x :: c) (fun _ h => h)).
Qed.

Lemma imin_le c x : x \in c -> imin c <= x.
Proof.
rewrite /imin; move: (head 0 c) => z; elim: c => //= y c IH; rewrite in_cons => /orP[/eqP->|/IH h].
- by rewrite le_minl lexx.
- by rewrite le_minl h orbT.
Qed.

Lemma dict_get_write (c : seq int) (d : seq (int * int)) r x :
  dict_get (foldl (fun d n => (n, r) :: d) d c) x = if x \in c then Some r else dict_get d x.
Proof.
elim: c d => //= y c IH d; rewrite IH /= in_cons eq_sym; case: ifP => h; first by rewrite orbT.
by rewrite orbF; case: eqP.
Qed.

Lemma dict_get_comps (cs : seq (seq int)) (d : seq (int * int)) x :
  dict_get (foldl (fun d c => foldl (fun d n => (n, imin c) :: d) d c) d cs) x
  = foldl (fun o c => if x \in c then Some (imin c) else o) (dict_get d x) cs.
Proof. by elim: cs d => //= c cs IH d; rewrite IH dict_get_write. Qed.

Lemma foldl_lookup (cs : seq (seq int)) o x :
  (exists2 c, c \in cs & x \in c /\
     foldl (fun o c => if x \in c then Some (imin c) else o) o cs = Some (imin c))
  \/ ((forall c, c \in cs -> x \notin c) /\
      foldl (fun o c => if x \in c then Some (imin c) else o) o cs = o).
Proof.
elim: cs o => [|c cs IH] o /=; first by right.
have [[c' hc' [hx ->]]|[h ->]] := IH (if x \in c then Some (imin c) else o).
- by left; exists c'; rewrite // in_cons hc' orbT.
- case: ifPn => hx; [left|right].
  + by exists c; rewrite ?mem_head.
  + by split=> // c'; rewrite in_cons => /orP[/eqP->|/h].
Qed.

Lemma replace_cases links x :
  let cs := connected_components (edges links) in
  (exists2 c, c \in cs & x \in c /\ replace links x = imin c)
  \/ ((forall c, c \in cs -> x \notin c) /\ replace links x = x).
Proof.
rewrite /replace /periodic_mapping dict_get_comps /=.
have [[c hc [hx ->]]|[h ->]] := foldl_lookup (connected_components (edges links)) None x.
- by left; exists c.
- by right.
Qed.

Section Replace.
Variable links : seq link.
Notation es := (edges links).
Notation cs := (connected_components es).

Lemma conn_comp x y : conn es x y -> x = y \/ exists2 c, c \in cs & x \in c /\ y \in c.
Proof.
have H := connected_components_ok es.
elim=> [a b h|a|a b _ [->|[c hc [h1 h2]]]|a b c _ IH1 _ IH2].
- by right; have [c hc /andP[h1 h2]] := co_edge H h; exists c.
- by left.
- by left.
- by right; exists c.
- case: IH1 => [->//|[d hd [h1 h2]]]; case: IH2 => [<-|[d' hd' [h3 h4]]]; right; first by exists d.
  by exists d => //; split=> //; rewrite (co_disj H hd hd' h2 h3).
Qed.

Lemma replace_conn x : conn es x (replace links x).
Proof.
have H := connected_components_ok es.
have [[c hc [hx ->]]|[_ ->]] := replace_cases links x; last exact: rst_refl.
exact/(co_sound H hc)/imin_mem/(co_ne H hc).
Qed.

Lemma replace_le x y : conn es x y -> replace links x <= y.
Proof.
have H := connected_components_ok es.
move=> /conn_comp h.
have [[c hc [hx ->]]|[hn ->]] := replace_cases links x.
- case: h => [<-|[d hd [h1 h2]]]; first exact: imin_le.
  by apply: imin_le; rewrite (co_disj H hc hd hx h1).
- case: h => [-> //|[d hd [h1 h2]]]; by have := hn _ hd; rewrite h1.
Qed.

Lemma replace_iff x y : conn es x y <-> replace links x = replace links y.
Proof.
split=> h.
- apply/eqP; rewrite eq_le; apply/andP; split.
  + apply: replace_le; exact: (rst_trans _ _ _ _ _ h (replace_conn y)).
  + apply: replace_le; exact: (rst_trans _ _ _ _ _ (rst_sym _ _ _ _ h) (replace_conn x)).
- apply: (rst_trans _ _ _ _ _ (replace_conn x)).
  by rewrite h; apply/rst_sym/replace_conn.
Qed.

Lemma replace_idem x : replace links (replace links x) = replace links x.
Proof. by apply/esym/replace_iff/replace_conn. Qed.

Lemma replace_unlinked x : (forall e, e \in es -> x != e.1 /\ x != e.2) -> replace links x = x.
Proof.
move=> h; have H := connected_components_ok es.
have [[c hc [hx _]]|[_ -> //]] := replace_cases links x.
have [e he] := co_only H hc hx; have [/negbTE -> /negbTE ->] := h _ he.
by [].
Qed.
End Replace.

(** ** Partition layout *)
Lemma size_pad_evenly rows : size (pad_evenly rows) = size rows.
Proof. by rewrite size_map. Qed.

Lemma nth_pad_evenly rows p : (p < size rows)%N ->
  nth [::] (pad_evenly rows) p
  = nth [::] rows p ++ nseq (foldr maxn 0%N [seq size r | r <- rows] - size (nth [::] rows p)) SENT.
Proof. by move=> h; rewrite (nth_map [::]). Qed.

Lemma size_pad_row rows p : (p < size rows)%N ->
  size (nth [::] (pad_evenly rows) p) = foldr maxn 0%N [seq size r | r <- rows].
Proof.
move=> h; rewrite nth_pad_evenly // size_cat size_nseq subnKC //.
by apply: foldr_maxn_ge; apply: map_f; apply: mem_nth.
Qed.

Definition rows_step (rows : seq (seq int)) (ip : nat * nat) : seq (seq int) :=
  set_nth [::] rows ip.2 (rcons (nth [::] rows ip.2) (Posz ip.1)).

Lemma rows_loop (l : seq (nat * nat)) rows : (forall ip, ip \in l -> (ip.2 < size rows)%N) ->
  let R := foldl rows_step rows l in
  size R = size rows /\
  forall p, nth [::] R p = nth [::] rows p ++ [seq Posz ip.1 | ip <- l & ip.2 == p].
Proof.
elim: l rows => [|[i q] l IH] rows h /=; first by split=> // p; rewrite cats0.
have hq : (q < size rows)%N by apply: (h (i, q)); rewrite mem_head.
have hs : size (rows_step rows (i, q)) = size rows by rewrite size_set_nth /=; lia.
have [|h1 h2] := IH (rows_step rows (i, q)).
  by move=> ip hip; rewrite hs; apply: h; rewrite in_cons hip orbT.
split; first by rewrite h1 hs.
move=> p; rewrite h2 /rows_step nth_set_nth /= eq_sym; case: eqP => [->|] //=.
by rewrite cat_rcons.
Qed.

Definition part_rows (ps : seq nat) : seq (seq int) :=
  [seq [seq Posz i | i <- iota 0 (size ps) & nth 0%N ps i == p] | p <- iota 0 (foldr maxn 0%N ps).+1].

Lemma group_by_partitionsE ps : group_by_partitions ps = pad_evenly (part_rows ps).
Proof.
rewrite /group_by_partitions; congr pad_evenly; rewrite -/rows_step.
have [] := @rows_loop (zip (iota 0 (size ps)) ps) (nseq (foldr maxn 0%N ps).+1 [::]).
  move=> ip; rewrite (zip_iota0E 0%N) size_nseq ltnS => /mapP[i]; rewrite mem_iota => /andP[_ hi] ->.
  by apply: foldr_maxn_ge; apply: mem_nth.
move=> h1 h2; apply: (@eq_from_nth _ [::]); first by rewrite h1 size_nseq size_map size_iota.
move=> p; rewrite h1 size_nseq => hp; rewrite h2 nth_nseq if_same cat0s.
rewrite (nth_map 0%N) ?size_iota // nth_iota // add0n (zip_iota0E 0%N) filter_map -map_comp.
by [].
Qed.

Lemma nth_part_rows ps p : (p <= foldr maxn 0%N ps)%N ->
  nth [::] (part_rows ps) p = [seq Posz i | i <- iota 0 (size ps) & nth 0%N ps i == p].
Proof. by move=> h; rewrite (nth_map 0%N) ?size_iota // nth_iota. Qed.

(** ** Local renumbering *)
Lemma np_unique_uniq l : uniq (np_unique l).
Proof. by rewrite sort_uniq undup_uniq. Qed.
Lemma mem_np_unique l x : (x \in np_unique l) = (x != SENT) && (x \in l).
Proof. by rewrite mem_sort mem_undup mem_filter. Qed.
Lemma np_unique_sorted l : sorted <%R (np_unique l).
Proof. by rewrite lt_sorted_uniq_le np_unique_uniq sort_sorted //; exact: le_total. Qed.

Lemma local_mapping_get (l : seq int) m x : uniq [seq y <- l | y != SENT] ->
  forall d, dict_get (foldl (fun d pi => if pi.2 != SENT then (pi.2, Posz pi.1) :: d else d) d
                   (zip (iota m (size l)) l)) x
  = if (x != SENT) && (x \in l) then Some (Posz (m + index x l)) else dict_get d x.
Proof.
elim: l m => [|y l IH] m hu d /=; first by rewrite andbF.
move: hu => /=; case: (y =P SENT) => /= [-> hu|hy /andP[hyl hu]].
  rewrite IH // in_cons; case: (x =P SENT) => //= hx.
  case: ifP => // _; have /eqP/negbTE h := hx; by rewrite eq_sym h addSnnS.
rewrite IH // in_cons /=; case: (x =P SENT) => /= [->|hx].
  by have /eqP/negbTE -> := hy.
case: (x =P y) => [->|hxy] /=.
  move: hyl; rewrite mem_filter; have /eqP/[dup] -> := hy => _ /= /negbTE ->.
  by rewrite eqxx addn0.
have /eqP/negbTE h := hxy; rewrite (eq_sym y x) h; case: ifP => // _.
by rewrite addSnnS.
Qed.

Lemma local_mapping_pad (u : seq int) n x : uniq u -> SENT \notin u ->
  dict_get_default (local_mapping (u ++ nseq n SENT)) x
  = if x \in u then Posz (index x u) else SENT.
Proof.
move=> hu hs; rewrite /dict_get_default /local_mapping local_mapping_get; last first.
  rewrite filter_cat cat_uniq filter_uniq //=.
  have -> : [seq y <- nseq n SENT | y != SENT] = [::] by elim: n.
  by [].
rewrite mem_cat index_cat.
case/boolP: (x \in u) => hx /=.
  have -> : x != SENT by apply: contraNneq hs => <-.
  by rewrite add0n.
case: (x =P SENT) => //= hxs.
rewrite mem_nseq; case: (x =P SENT) hxs => //; by rewrite andbF.
Qed.
