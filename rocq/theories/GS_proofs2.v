(** Partitioned exchange. *)
From mathcomp Require Import all_ssreflect all_algebra zify.
From Verif Require Import GS_model GS_proofs.
Set Implicit Arguments.
Unset Strict Implicit.
Unset Printing Implicit Defensive.
Import GRing.Theory.
Local Open Scope ring_scope.

Lemma omap_seq_some (A : eqType) B (f : A -> option B) (g : A -> B) (l : seq A) :
  (forall x, x \in l -> f x = Some (g x)) -> omap_seq f l = Some [seq g x | x <- l].
Proof.
elim: l => //= x l IH h; rewrite h ?mem_head // IH // => y hy.
by rewrite h // in_cons hy orbT.
Qed.

Lemma omap_seq_none (A : eqType) B (f : A -> option B) (l : seq A) x :
  x \in l -> f x = None -> omap_seq f l = None.
Proof.
move=> + h; elim: l => //= y l IH; rewrite in_cons => /orP[/eqP<-|/IH->]; rewrite ?h //.
by case: (f y).
Qed.

(** the shared ids a row meets *)
Definition shared (S : seq int) (r : seq int) : seq int :=
  [seq x <- r | (x != SENT) && (x \in S)].

Definition row_of (S r : seq int) : seq int :=
  [seq if x \in r then Posz (index x r) else SENT | x <- S].

Lemma part_row_none S row seen l :
  ~~ (uniq (shared S (map snd l)) && ~~ has (mem seen) (shared S (map snd l))) ->
  part_row S row seen l = None.
Proof.
elim: l row seen => //= -[pos x] l IH row seen /=.
case: (x =P SENT) => //= hx; first exact: IH.
case/boolP: (x \in S) => //= hS; last exact: IH.
case/boolP: (x \in seen) => //= hseen h; apply: IH; apply: contraNN h => /andP[h1 h2].
rewrite h1 /= andbT; apply/andP; split.
- apply: contraNN h2 => h; apply/hasP; exists x => //=; exact: mem_head.
- apply: contraNN h2 => /hasP[y hy hy']; apply/hasP; exists y => //=.
  by rewrite in_cons; apply/orP; right.
Qed.

Lemma part_row_some S row seen m r :
  uniq S -> size row = size S ->
  uniq (shared S r) -> ~~ has (mem seen) (shared S r) ->
  part_row S row seen (zip (iota m (size r)) r)
  = Some [seq if (x \in r) && (x != SENT) then Posz (m + index x r) else nth SENT row (index x S) | x <- S].
Proof.
move=> hS; elim: r row seen m => [|y r IH] row seen m hrow hu hseen /=.
  congr Some; apply: (@eq_from_nth _ SENT); first by rewrite size_map.
  move=> i hi; rewrite (nth_map SENT) -?hrow // index_uniq //; by rewrite -hrow.
move: hu hseen => /=.
case: (y =P SENT) => /= [->|hy] hu hseen.
  rewrite IH //; congr Some; apply/eq_in_map => x hx; rewrite in_cons.
  case: (x =P SENT) => /= hxs; first by rewrite !andbF.
  rewrite !andbT addSnnS; have /negbTE -> // : SENT != x by rewrite eq_sym; apply/eqP.
case: (boolP (y \in S)) hu hseen => /= hyS hu hseen; last first.
  rewrite IH //; congr Some; apply/eq_in_map => x hx; rewrite in_cons.
  have hne : x != y by apply: contraNneq hyS => <-.
  by rewrite (negbTE hne) (eq_sym y x) (negbTE hne) addSnnS.
move: hu hseen; rewrite negb_or => /andP[hyr hu] /andP[hys hseen].
rewrite (negbTE hys) IH //; first 1 last.
- rewrite size_set_nth; have := hyS; rewrite -index_mem hrow; lia.
- apply: contraNN hseen => /hasP[z hz /=]; rewrite in_cons => /orP[/eqP ez|hz'].
    by rewrite -ez hz in hyr.
  by apply/hasP; exists z.
congr Some; apply/eq_in_map => x hx; rewrite in_cons nth_set_nth /=.
case: (x =P y) => [->|hne] /=.
- rewrite !eqxx addn0; have /eqP/negbTE hys' := hy.
  move: hyr; rewrite mem_filter hyS /=; have -> : y != SENT by apply/eqP.
  by move=> /= /negbTE ->.
- have /eqP/negbTE hne' := hne; rewrite (eq_sym y x) hne' addSnnS.
  case: ifP => // _; case: eqP => // e; case: hne.
  by rewrite -(nth_index 0 hx) e nth_index.
Qed.

Lemma sent_notin_to_exchange ids : SENT \notin to_exchange ids.
Proof. by rewrite mem_to_exchange eqxx. Qed.

Lemma to_exchange_uniq ids : uniq (to_exchange ids).
Proof. by rewrite sort_uniq undup_uniq. Qed.

Lemma part_rowE S r : uniq S -> SENT \notin S -> uniq (shared S r) ->
  part_row S (nseq (size S) SENT) [::] (zip (iota 0 (size r)) r) = Some (row_of S r).
Proof.
move=> hS hs hu; rewrite part_row_some ?size_nseq //; last by rewrite has_pred0.
congr Some; apply/eq_in_map => x hx; rewrite nth_nseq if_same.
have hxs : x != SENT by apply: contraNneq hs => <-.
by rewrite hxs andbT.
Qed.

Lemma count_flatten_ge (ids : seq (seq int)) r x :
  r \in ids -> (count_mem x r <= count_mem x (flatten ids))%N.
Proof.
elim: ids => //= r' ids IH; rewrite in_cons count_cat => /orP[/eqP->|/IH]; lia.
Qed.

Definition no_dup (r : seq int) : bool := uniq [seq x <- r | x != SENT].

Lemma no_dup_shared ids r : r \in ids ->
  uniq (shared (to_exchange (flatten ids)) r) = no_dup r.
Proof.
move=> hr; apply/idP/idP => h.
- apply: count_mem_uniq => x; rewrite mem_filter.
  case/boolP: (x == SENT) => /= [/eqP->|hx].
    by rewrite count_filter; apply/eqP; rewrite -leqn0 -(count_pred0 r); apply: sub_count => y /=; case: eqP => // ->.
  rewrite count_filter (eq_count (a2 := pred1 x)); last first.
    by move=> y /=; case: eqP => // ->; rewrite hx.
  case/boolP: (x \in r) => hxr; last by apply/count_memPn.
  have hc : (0 < count_mem x r)%N by rewrite -has_count has_pred1.
  case: (ltnP 1 (count_mem x r)) => hc1; last by apply/eqP; rewrite eqn_leq hc hc1.
  have hin : x \in shared (to_exchange (flatten ids)) r.
    rewrite mem_filter hx hxr andbT /= mem_to_exchange hx /=.
    exact: (leq_trans hc1 (count_flatten_ge _ hr)).
  have := count_uniq_mem x h; rewrite hin count_filter (eq_count (a2 := pred1 x)); first by [].
  move=> y /=; case: eqP => // ->.
  by move: hin; rewrite mem_filter => /andP[].
- rewrite /shared.
  have -> : [seq x <- r | (x != SENT) && (x \in to_exchange (flatten ids))]
      = [seq x <- [seq x <- r | x != SENT] | x \in to_exchange (flatten ids)].
    by rewrite -filter_predI; apply: eq_filter => x /=; rewrite andbC.
  by rewrite filter_uniq.
Qed.

Lemma exchange_indices_parts_none ids :
  ~~ all no_dup ids -> exchange_indices_parts ids = None.
Proof.
move=> /allPn[r hr hd]; apply: (omap_seq_none (x := r)) => //.
apply: part_row_none; rewrite negb_and.
have -> : map snd (zip (iota 0 (size r)) r) = r by rewrite -/(unzip2 _) unzip2_zip // size_iota.
by rewrite no_dup_shared // hd.
Qed.

Lemma exchange_indices_parts_some ids : all no_dup ids ->
  exchange_indices_parts ids = Some [seq row_of (to_exchange (flatten ids)) r | r <- ids].
Proof.
move=> /allP h; apply: omap_seq_some => r hr.
rewrite part_rowE ?to_exchange_uniq ?sent_notin_to_exchange // no_dup_shared //.
exact: h.
Qed.

Section Values.
Variable V : zmodType.

Lemma vadd_map (A : Type) (f g : A -> V) (s : seq A) :
  vadd [seq f x | x <- s] [seq g x | x <- s] = [seq f x + g x | x <- s].
Proof. by rewrite /vadd zip_map2 -map_comp. Qed.

Lemma psum_map (A B : Type) (F : B -> A -> V) (s : seq A) (ps : seq B) :
  ps <> [::] ->
  psum [seq [seq F p x | x <- s] | p <- ps] = [seq \sum_(p <- ps) F p x | x <- s].
Proof.
case: ps => //= p ps _.
have H : forall (f : A -> V) , foldl (@vadd V) [seq f x | x <- s] [seq [seq F p x | x <- s] | p <- ps]
   = [seq f x + \sum_(p <- ps) F p x | x <- s].
  elim: ps => [|q ps IH] f /=.
    by apply: eq_map => x; rewrite big_nil addr0.
  by rewrite vadd_map IH; apply: eq_map => x; rewrite big_cons addrA.
by rewrite H; apply: eq_map => x; rewrite big_cons.
Qed.

Definition val_at (r : seq int) (u : seq V) (x : int) : V :=
  if x \in r then nth 0 u (index x r) else 0.

Lemma initial_values_row S r (u : seq V) :
  initial_values (row_of S r) u = [seq val_at r u x | x <- S].
Proof.
rewrite /initial_values /gather -map_comp; apply: eq_map => x /=.
by rewrite /val_at; case: (x \in r).
Qed.

Lemma index_no_dup (r : seq int) k : no_dup r -> (k < size r)%N -> nth 0 r k != SENT ->
  index (nth 0 r k) r = k.
Proof.
move=> hd hk hys; apply/eqP/negPn/negP => hne; set y := nth 0 r k in hys hne.
have := hd; rewrite /no_dup => /(count_uniq_mem y).
rewrite mem_filter hys /= mem_nth // count_filter (eq_count (a2 := pred1 y)); last first.
  by move=> z /=; case: eqP => // ->; rewrite hys.
have hi : (index y r < size r)%N by rewrite index_mem mem_nth.
rewrite count_mem_sum (bigD1 (Ordinal hk)) //= (bigD1 (Ordinal hi)) //=.
by rewrite nth_index ?mem_nth // eqxx.
Qed.

Lemma write_back_row S r (u : seq V) (f : int -> V) k :
  uniq S -> SENT \notin S -> no_dup r -> size u = size r -> (k < size r)%N ->
  nth 0 (write_back u (row_of S r) [seq f x | x <- S] [seq val_at r u x | x <- S]) k
  = if nth 0 r k \in S then f (nth 0 r k) else nth 0 u k.
Proof.
move=> hS hs hd hu hk.
rewrite nth_at_add ?hu // /masked zip_map2 -map_comp zip_map2 -map_comp zip_map2 big_map /=.
set y := nth 0 r k.
have hterm : forall x, x \in S ->
    (if py_index (size r) (if x \in r then Posz (index x r) else SENT) == k
     then (if (if x \in r then Posz (index x r) else SENT) != SENT then f x - val_at r u x else 0) else 0)
    = (if x == y then f y - nth 0 u k else 0).
  move=> x hx; have hxs : x != SENT by apply: contraNneq hs => <-.
  case/boolP: (x \in r) => hxr /=; last first.
    rewrite if_same; case: eqP => // e; by rewrite e mem_nth in hxr.
  case: (x =P y) => [e|hne].
    have -> : index x r = k by rewrite e index_no_dup // -/y -e.
    by rewrite eqxx e /val_at mem_nth // index_no_dup // -/y -e.
  by case: eqP => // e; case: hne; rewrite -(nth_index 0 hxr) e.
rewrite big_mkcond big_seq (eq_bigr _ hterm) -big_seq -big_mkcond.
case: ifP => hyS.
- by rewrite -big_filter filter_pred1_uniq // big_seq1 addrCA subrr addr0.
- rewrite big_seq_cond big1 ?addr0 // => x /andP[hx /eqP e]; by rewrite e hyS in hx.
Qed.

(** Ids, values: one row per partition. *)
Lemma exchange_dist_rows ids (us : seq (seq V)) p k :
  size us = size ids -> all no_dup ids ->
  (forall q, (q < size ids)%N -> size (nth [::] us q) = size (nth [::] ids q)) ->
  (p < size ids)%N -> (k < size (nth [::] ids p))%N ->
  let S := to_exchange (flatten ids) in
  let x := nth 0 (nth [::] ids p) k in
  nth 0 (nth [::] (exchange_dist us [seq row_of S r | r <- ids] None) p) k
  = if x \in S then \sum_(q < size ids) val_at (nth [::] ids q) (nth [::] us q) x
    else nth 0 (nth [::] us p) k.
Proof.
move=> hsz hd hrow hp hk S x; rewrite /exchange_dist.
have hne : ids <> [::] by case: (ids) hp.
case: ifP => [/eqP h0|_].
  have hS : S = [::].
    by move: h0; case: (ids) hne => //= r ids' _; rewrite size_map => /size0nil.
  by rewrite hS.
have hz : zip [seq row_of S r | r <- ids] us = [seq (row_of S p.1, p.2) | p <- zip ids us].
  by elim: (ids) (us) => [|r l IH] [|u v] //=; rewrite IH.
have hz2 : zip us [seq row_of S r | r <- ids] = [seq (p.2, row_of S p.1) | p <- zip ids us].
  by elim: (ids) (us) => [|r l IH] [|u v] //=; rewrite IH.
have hiv : [seq initial_values p.1 p.2 | p <- zip [seq row_of S r | r <- ids] us]
    = [seq [seq val_at p.1 p.2 x | x <- S] | p <- zip ids us].
  by rewrite hz -map_comp; apply: eq_map => -[r u]; rewrite /= initial_values_row.
rewrite hiv hz2 zip_map2 -[X in psum X]map_comp -map_comp /=.
have hzs : size (zip ids us) = size ids by rewrite size_zip hsz minnn.
rewrite (nth_map ([::], [::])) ?hzs //= nth_zip //=.
rewrite psum_map; last by case: (ids) (us) hne hsz => [|? ?] [|? ?].
rewrite (write_back_row (fun x => \sum_(p <- zip ids us) val_at p.1 p.2 x)) ?to_exchange_uniq
  ?sent_notin_to_exchange ?hrow //; last by apply: (allP hd); apply: mem_nth.
case: ifP => // _.
rewrite (big_nth ([::], [::])) big_mkord hzs; apply: eq_bigr => q _.
by rewrite nth_zip.
Qed.

Lemma val_at_sum r (u : seq V) x : no_dup r -> x != SENT ->
  val_at r u x = \sum_(j < size r | nth 0 r j == x) nth 0 u j.
Proof.
move=> hd hx; rewrite /val_at; case: ifP => hxr.
- have hi : (index x r < size r)%N by rewrite index_mem.
  rewrite (bigD1 (Ordinal hi)) /= ?nth_index // big1 ?addr0 // => j /andP[/eqP hj hne].
  case/eqP: hne; apply: val_inj => /=.
  by rewrite -hj index_no_dup // hj.
- rewrite big1 // => j /eqP hj; by rewrite -hj mem_nth in hxr.
Qed.

Lemma count_flatten_sum (ids : seq (seq int)) x :
  count_mem x (flatten ids) = (\sum_(q < size ids) count_mem x (nth [::] ids q))%N.
Proof. by rewrite count_flatten sumnE big_map (big_nth [::]) big_mkord. Qed.

Lemma exchange_dist_spec ids gis (us : seq (seq V)) p k :
  exchange_indices_parts ids = Some gis ->
  size us = size ids ->
  (forall q, (q < size ids)%N -> size (nth [::] us q) = size (nth [::] ids q)) ->
  (p < size ids)%N -> (k < size (nth [::] ids p))%N ->
  let x := nth 0 (nth [::] ids p) k in
  nth 0 (nth [::] (exchange_dist us gis None) p) k
  = if x == SENT then nth 0 (nth [::] us p) k
    else \sum_(q < size ids) \sum_(j < size (nth [::] ids q) | nth 0 (nth [::] ids q) j == x)
           nth 0 (nth [::] us q) j.
Proof.
move=> hg hsz hrow hp hk x.
have hd : all no_dup ids.
  by apply/negPn/negP => /exchange_indices_parts_none; rewrite hg.
move: hg; rewrite exchange_indices_parts_some // => -[<-].
rewrite exchange_dist_rows // -/x mem_to_exchange.
have hdq q : (q < size ids)%N -> no_dup (nth [::] ids q) by move=> h; apply/(allP hd)/mem_nth.
case/boolP: (x == SENT) => hx //=.
have hE (q : 'I_(size ids)) : val_at (nth [::] ids q) (nth [::] us q) x =
   \sum_(j < size (nth [::] ids q) | nth 0 (nth [::] ids q) j == x) nth 0 (nth [::] us q) j.
  by rewrite val_at_sum // hdq.
case: ifPn => hc; first by apply: eq_bigr => q _; rewrite hE.
rewrite (bigD1 (Ordinal hp)) //= [X in _ + X]big1 ?addr0; last first.
  move=> q hq; rewrite -hE /val_at; case: ifP => // hxq; case/negP: hc.
  rewrite count_flatten_sum (bigD1 (Ordinal hp)) //= (bigD1 q) //=.
  have h1 : (0 < count_mem x (nth [::] ids p))%N by rewrite -has_count has_pred1 mem_nth.
  have h2 : (0 < count_mem x (nth [::] ids q))%N by rewrite -has_count has_pred1.
  exact: (leq_add h1 (leq_trans h2 (leq_addr _ _))).
by rewrite -val_at_sum ?hdq // /val_at mem_nth // index_no_dup // hdq.
Qed.

Lemma exchange_dist_size gis ids (us : seq (seq V)) p :
  exchange_indices_parts ids = Some gis -> size us = size ids -> (p < size ids)%N ->
  size (exchange_dist us gis None) = size us /\
  size (nth [::] (exchange_dist us gis None) p) = size (nth [::] us p).
Proof.
move=> hg hsz hp.
have hd : all no_dup ids.
  by apply/negPn/negP => /exchange_indices_parts_none; rewrite hg.
move: hg; rewrite exchange_indices_parts_some // => -[<-].
rewrite /exchange_dist; case: ifP => // _.
have hs : size (zip (zip us [seq row_of (to_exchange (flatten ids)) r | r <- ids])
  [seq initial_values p0.1 p0.2 | p0 <- zip [seq row_of (to_exchange (flatten ids)) r | r <- ids] us]) = size us.
  by rewrite !(size_zip, size_map) hsz !minnn.
split; first by rewrite size_map hs.
rewrite (nth_map ([::], [::], [::])) ?hs ?hsz // size_at_add.
rewrite nth_zip /=; last by rewrite !(size_zip, size_map) hsz !minnn.
by rewrite nth_zip // size_map.
Qed.
End Values.
