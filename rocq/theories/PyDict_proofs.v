(** Lemmas about dicts, products and row-major indices. *)
From mathcomp Require Import all_ssreflect zify.
From Verif Require Import PyDict_model.
Set Implicit Arguments.
Unset Strict Implicit.
Unset Printing Implicit Defensive.

Section DictLemmas.
Variables (K : eqType) (A : Type).
Implicit Type d : seq (K * A).

Lemma dget_set d k v k' : dget (dset d k v) k' = if k == k' then Some v else dget d k'.
Proof.
elim: d => [|[k0 v0] d IH] //=.
case: (eqVneq k0 k) => [->|ne] /=; first by case: ifP.
rewrite IH; case: (eqVneq k0 k') => [e|] //.
by case: (eqVneq k k') => // e'; rewrite e e' eqxx in ne.
Qed.


Lemma dget_keys d k : isSome (dget d k) = (k \in dkeys d).
Proof.
elim: d => [|[k0 v0] d IH] //=; rewrite inE eq_sym.
by case: (eqVneq k0 k).
Qed.

Lemma dset_new d k v : k \notin dkeys d -> dset d k v = rcons d (k, v).
Proof.
elim: d => [|[k0 v0] d IH] //=; rewrite inE negb_or eq_sym => /andP[/negbTE-> /IH->] //.
Qed.

Lemma dset_keys d k v : dkeys (dset d k v) =i k :: dkeys d.
Proof.
elim: d => [|[k0 v0] d IH] //= x; rewrite /dkeys /= !inE.
case: (eqVneq k0 k) => [->|ne] /=; first by rewrite !inE; case: (x == k).
by rewrite inE [in LHS]IH /= !inE orbCA.
Qed.

Lemma foldl_dset_new (T : Type) (f : T -> K) (g : T -> A) (l : seq T) d :
  uniq (dkeys d ++ [seq f x | x <- l]) ->
  foldl (fun o x => dset o (f x) (g x)) d l = d ++ [seq (f x, g x) | x <- l].
Proof.
elim: l d => [|x l IH] d /=; first by rewrite !cats0.
move=> u; have nx : f x \notin dkeys d.
  by move: u; rewrite cat_uniq /= negb_or => /and3P[_ /andP[]].
rewrite dset_new // IH; first by rewrite cat_rcons.
by rewrite /dkeys map_rcons cat_rcons.
Qed.
End DictLemmas.

Lemma dget_map (K : eqType) (T : eqType) (A : Type) (f : T -> K) (g : T -> A) (l : seq T) x :
  uniq [seq f x | x <- l] -> x \in l -> dget [seq (f x, g x) | x <- l] (f x) = Some (g x).
Proof.
elim: l => [|y l IH] //= /andP[ny u]; rewrite inE => /orP[/eqP->|xl]; first by rewrite eqxx.
case: eqP => [e|_]; last exact: IH.
by move: ny; rewrite e map_f.
Qed.

Lemma dget_map_inv (K : eqType) (T : eqType) (A : Type) (f : T -> K) (g : T -> A) (l : seq T) k v :
  dget [seq (f x, g x) | x <- l] k = Some v -> exists x, [/\ x \in l, f x = k & g x = v].
Proof.
elim: l => [|y l IH] //=; case: eqP => [e [<-]|_ /IH[x [xl fx gx]]].
  by exists y; rewrite inE eqxx.
by exists x; rewrite inE xl orbT.
Qed.

(** ** Products *)
Lemma mem_cart (A : eqType) (ls : seq (seq A)) s :
  (s \in cart ls) = all2 (fun x (l : seq A) => x \in l) s ls.
Proof.
elim: ls s => [|l ls IH] [|x s] //=.
  by apply/flatten_mapP => -[y _ /mapP[]].
apply/flatten_mapP/andP => [[y yl /mapP[r rl [-> ->]]]|[xl sl]].
  by rewrite yl -IH.
by exists x => //; rewrite map_f // IH.
Qed.

Lemma size_mem_cart (A : eqType) (ls : seq (seq A)) s : s \in cart ls -> size s = size ls.
Proof.
rewrite mem_cart; elim: ls s => [|l ls IH] [|x s] //= /andP[_ /IH->] //.
Qed.

Lemma cart_uniq (A : eqType) (ls : seq (seq A)) : all uniq ls -> uniq (cart ls).
Proof.
elim: ls => [|l ls IH] //= /andP[ul /IH u].
elim: l ul => [|x l IHl] //= /andP[xl ul].
rewrite cat_uniq map_inj_uniq ?u; last by move=> a b [].
rewrite IHl // andbT; apply/hasPn => s /flatten_mapP[y yl /mapP[r _ ->]].
by apply/mapP => -[r' _ [e _]]; rewrite -e yl in xl.
Qed.

Lemma size_cart (A : Type) (ls : seq (seq A)) : size (cart ls) = foldr muln 1 [seq size l | l <- ls].
Proof.
elim: ls => [|l ls IH] //=; rewrite -IH.
elim: l => [|x l IHl] //=; rewrite size_cat size_map IHl; lia.
Qed.

Lemma cart_map (A B : Type) (f : A -> B) (ls : seq (seq A)) :
  cart [seq [seq f x | x <- l] | l <- ls] = [seq [seq f x | x <- s] | s <- cart ls].
Proof.
elim: ls => [|l ls IH] //=; rewrite IH map_flatten -!map_comp; congr flatten.
by apply: eq_map => x /=; rewrite -!map_comp.
Qed.

Lemma perm_cart (A : eqType) (ls ks : seq (seq A)) :
  all2 (fun x y => perm_eq x y) ls ks -> perm_eq (cart ls) (cart ks).
Proof.
elim: ls ks => [|l ls IH] [|k ks] //= /andP[lk /IH p].
apply: (@perm_trans _ (flatten [seq [seq x :: r | r <- cart ks] | x <- l])).
  elim: l {lk} => [|x l IHl] //=; apply: perm_cat => //; exact: perm_map.
apply: perm_flatten; exact: perm_map.
Qed.

(** ** Grids *)
Lemma mem_grid m n i : (i \in grid m n) = (size i == n) && all (fun x => x < m) i.
Proof.
rewrite mem_cart; elim: n i => [|n IH] [|x i] //=.
by rewrite IH mem_iota add0n /= eqSS andbCA.
Qed.

Lemma size_grid m n : size (grid m n) = m ^ n.
Proof.
rewrite size_cart map_nseq size_iota; elim: n => [|n IH] //=.
by rewrite IH expnS.
Qed.

Lemma grid_uniq m n : uniq (grid m n).
Proof. by apply: cart_uniq; rewrite all_nseq iota_uniq orbT. Qed.

Lemma flat_acc m a i : foldl (fun a x => a * m + x) a i = a * m ^ size i + flat m i.
Proof.
rewrite /flat; elim/last_ind: i a => [|i x IH] a /=; first by rewrite expn0; lia.
rewrite -!cats1 !foldl_cat /= IH size_cat /= addn1 expnS; lia.
Qed.

Lemma flat_cons m x i : flat m (x :: i) = x * m ^ size i + flat m i.
Proof. by rewrite /flat /= flat_acc /= mul0n. Qed.

Lemma flat_nil m : flat m [::] = 0. Proof. by []. Qed.

Lemma grid_S m n : grid m n.+1 = flatten [seq [seq x :: r | r <- grid m n] | x <- iota 0 m].
Proof. by []. Qed.

Lemma flatten_iota k q : flatten [seq iota (x * q) q | x <- iota 0 k] = iota 0 (k * q).
Proof.
elim: k => [|k IHk] //.
by rewrite -addn1 iotaD map_cat flatten_cat IHk /= cats0 add0n mulnDl mul1n iotaD add0n.
Qed.

Lemma map_flat_grid m n : [seq flat m i | i <- grid m n] = iota 0 (m ^ n).
Proof.
elim: n => [|n IH] //; rewrite grid_S map_flatten -map_comp.
have -> : flatten [seq ([eta map (flat m)] \o (fun x => [seq x :: r | r <- grid m n])) i | i <- iota 0 m]
  = flatten [seq iota (x * m ^ n) (m ^ n) | x <- iota 0 m].
  congr flatten; apply: eq_map => x /=; rewrite -map_comp.
  rewrite -[x * _]addn0 iotaDl -IH -map_comp; apply/eq_in_map => i /=.
  by rewrite mem_grid flat_cons => /andP[/eqP-> _].
by rewrite expnS flatten_iota.
Qed.

Lemma flat_lt m n i : i \in grid m n -> flat m i < m ^ n.
Proof.
move=> ig; have : flat m i \in iota 0 (m ^ n) by rewrite -map_flat_grid; apply: map_f.
by rewrite mem_iota.
Qed.

Lemma flat_inj m n : {in grid m n &, injective (flat m)}.
Proof.
move=> i j ig jg e.
have u : uniq [seq flat m i | i <- grid m n] by rewrite map_flat_grid iota_uniq.
have := ig; have := jg; rewrite -(nth_index [::] ig) -(nth_index [::] jg) in e *.
move: e; rewrite -!(nth_map _ 0 (flat m)) ?index_mem // => /eqP.
by rewrite nth_uniq ?size_map ?index_mem // => /eqP->.
Qed.

Lemma nth_grid m n i : i \in grid m n -> nth [::] (grid m n) (flat m i) = i.
Proof.
move=> ig; have lt := flat_lt ig.
apply: (@flat_inj m n) => //; first by rewrite mem_nth // size_grid.
rewrite -(nth_map _ 0) ?size_grid // map_flat_grid nth_iota ?add0n //.
Qed.

Lemma index_grid m n i : i \in grid m n -> index i (grid m n) = flat m i.
Proof.
move=> ig; rewrite -{1}(nth_grid ig) index_uniq ?grid_uniq // size_grid; exact: flat_lt.
Qed.

Lemma nth_map_grid (A : Type) (x0 : A) m n (f : seq nat -> A) i :
  i \in grid m n -> nth x0 [seq f i | i <- grid m n] (flat m i) = f i.
Proof.
by move=> ig; rewrite (nth_map [::]) ?size_grid ?flat_lt // nth_grid.
Qed.

(** An array is the list of its entries in row-major order. *)
Lemma nd_take_grid (A : Type) (x0 : A) m n (e : seq A) : size e = m ^ n -> nd_take x0 m e (grid m n) = e.
Proof.
move=> sz; rewrite /nd_take (map_comp (nth x0 e) (flat m)) map_flat_grid -sz.
by rewrite map_nth_iota0 ?take_size.
Qed.

Lemma eq_from_grid (A : Type) (x0 : A) m n (e e' : seq A) : size e = m ^ n -> size e' = m ^ n ->
  (forall i, i \in grid m n -> nth x0 e (flat m i) = nth x0 e' (flat m i)) -> e = e'.
Proof.
move=> s s' H; rewrite -(nd_take_grid x0 s) -(nd_take_grid x0 s'); exact/eq_in_map.
Qed.
