(** Counting, orderings and partitions of the uniform cube. *)
From mathcomp Require Import all_ssreflect all_algebra zify.
From Verif Require Import PyDict_model PyDict_proofs Facet_model Facet_proofs GS_model Premesh_model.
From Verif Require Import UnitCube_model UnitCube_spec UnitCube_proofs.
Set Implicit Arguments.
Unset Strict Implicit.
Unset Printing Implicit Defensive.
Import GRing.Theory.

(** ** Cells around a node *)
Lemma count_cart_all2 (p : nat -> nat -> bool) (ls : seq (seq nat)) (i : seq nat) : size i = size ls ->
  count (fun c => all2 p c i) (cart ls) = \prod_(x <- zip ls i) count (fun y => p y x.2) x.1.
Proof.
elim: ls i => [|l ls IH] [|y i] //= => [_|[si]]; first by rewrite big_nil.
rewrite big_cons /= -(IH i si); elim: l => [|x l IHl] //=.
rewrite count_cat IHl count_map mulnDl; congr (_ + _).
by rewrite /preim /=; case: (p x y); rewrite ?mul1n // mul0n count_pred0.
Qed.

Definition near (x y : nat) : bool := (y == x) || (y == x.+1).

Lemma count_near n y : y <= n -> count (fun x => near x y) (iota 0 n) = touching n y.
Proof.
move=> yn; rewrite /touching.
have E m : count (fun x => near x y) (iota 0 m) = ((0 < y) && (y.-1 < m)) + (y < m).
  elim: m => [|m IH]; first by rewrite /= ltn0 andbF.
  rewrite -addn1 iotaD count_cat IH add0n /= addn0 /near.
  by clear yn; case: y {IH} => [|y] /=; lia.
rewrite E; lia.
Qed.

Lemma mem_addv d c i : size c = d -> size i = d ->
  (i \in [seq addv c k | k <- grid 2 d]) = all2 near c i.
Proof.
move=> sc si; elim: d c i sc si => [|d IH] [|x c] [|y i] //= [sc] [si].
rewrite -(IH c i sc si) /near; apply/mapP/andP => [[k]|[h /mapP[k kg ->]]].
  rewrite mem_grid; case: k => [|z k] //=; rewrite eqSS => /andP[sk /andP[zl ak]] [-> ->].
  split; last by apply/mapP; exists k; rewrite // mem_grid sk ak.
  lia.
exists ((y - x) :: k); last by rewrite /addv /=; congr (_ :: _); lia.
move: kg; rewrite !mem_grid /= eqSS => /andP[-> ->]; lia.
Qed.

Lemma mem_cell n d c i : c \in grid n d -> i \in grid n.+1 d -> (node n i \in cell n c) = all2 near c i.
Proof.
move=> cg ig; rewrite -(@mem_addv d) ?(size_grid_in cg) ?(size_grid_in ig) // /cell (size_grid_in cg).
apply/mapP/mapP => -[k kg e]; exists k => //; last by rewrite e.
by case: e => e; apply: (@flat_inj n.+1 d) => //; apply: addv_in.
Qed.

Lemma node_count n d i : i \in grid n.+1 d ->
  count (fun e => node n i \in e) [seq cell n c | c <- grid n d] = \prod_(x <- i) touching n x.
Proof.
move=> ig; rewrite count_map.
rewrite (eq_in_count (a2 := fun c => all2 near c i)); last by move=> c cg /=; rewrite (mem_cell cg ig).
rewrite /grid count_cart_all2 ?size_nseq ?(size_grid_in ig) //.
have := ig; rewrite mem_grid => /andP[/eqP si ai] {ig}.
elim: d i si ai => [|d IH] [|y i] //= => [_|[si]] /=; first by rewrite !big_nil.
by move=> /andP[yl ai]; rewrite !big_cons /= IH // count_near.
Qed.

(** ** Everything is listed in increasing order *)
Lemma subseq_flatten (T : eqType) (U : Type) (f g : U -> seq T) (l : seq U) :
  (forall x, subseq (f x) (g x)) -> subseq (flatten [seq f x | x <- l]) (flatten [seq g x | x <- l]).
Proof. by move=> h; elim: l => //= x l IH; apply: cat_subseq. Qed.

Lemma subseq_flatten2 (T U : eqType) (g : U -> seq T) (l l' : seq U) :
  subseq l l' -> subseq (flatten [seq g x | x <- l]) (flatten [seq g x | x <- l']).
Proof.
elim: l' l => [|y l' IH] [|x l] //= => [_|]; first exact: sub0seq.
case: eqP => [->|_] s; first by rewrite cat_subseq // IH.
exact: (subseq_trans (IH (x :: l) s) (suffix_subseq _ _)).
Qed.

Lemma subseq_cart (ls ls' : seq (seq nat)) : all2 subseq ls ls' -> subseq (cart ls) (cart ls').
Proof.
elim: ls ls' => [|l ls IH] [|l' ls'] //= /andP[s /IH h].
apply: (subseq_trans (y := flatten [seq [seq x :: r | r <- cart ls'] | x <- l])).
  by apply: subseq_flatten => x; apply: map_subseq.
exact: subseq_flatten2.
Qed.

Lemma subseq_slice ft : subseq (slice_positions 2 false ft) (grid 2 (size ft)).
Proof. by apply: subseq_cart; elim: ft => //= -[] ft IH; rewrite IH ?andbT. Qed.

Lemma sorted_ids N d (ls : seq (seq nat)) : all2 subseq ls (nseq d (iota 0 N)) ->
  sorted ltn [seq flat N i | i <- cart ls].
Proof.
move=> h; apply: (subseq_sorted ltn_trans (s2 := iota 0 (N ^ d))); last exact: iota_ltn_sorted.
by rewrite -map_flat_grid; apply: map_subseq; apply: subseq_cart.
Qed.

Lemma pair_subseq n i : i < n -> subseq [:: i; i.+1] (iota 0 n.+1).
Proof.
move=> il; have -> : iota 0 n.+1 = iota 0 i ++ [:: i; i.+1] ++ iota i.+2 (n.+1 - i.+2).
  have -> : [:: i; i.+1] ++ iota i.+2 (n.+1 - i.+2) = iota (0 + i) (2 + (n.+1 - i.+2)) by [].
  by rewrite -iotaD; congr iota; lia.
exact: (subseq_trans (prefix_subseq [:: i; i.+1] _) (suffix_subseq _ _)).
Qed.

Lemma all2_near_cart n d c : c \in grid n d -> all2 subseq [seq [:: x; x.+1] | x <- c] (nseq d (iota 0 n.+1)).
Proof.
rewrite mem_grid => /andP[/eqP sc ac]; elim: d c sc ac => [|d IH] [|x c] //= [sc] /andP[xl ac].
by rewrite IH // andbT; apply: (@pair_subseq n).
Qed.

Lemma cart_addv c : cart [seq [:: x; x.+1] | x <- c] = [seq addv c k | k <- grid 2 (size c)].
Proof.
elim: c => [|x c IH] //=; rewrite IH /grid /= !cats0 map_cat -!map_comp.
by congr (_ ++ _); apply: eq_map => k /=; rewrite /addv /= ?addn0 ?addn1.
Qed.

Lemma cell_sorted n d c : c \in grid n d -> sorted ltn [seq flat n.+1 (addv c k) | k <- grid 2 d].
Proof.
move=> cg; rewrite -(size_grid_in cg) (map_comp (flat n.+1) (addv c)) -cart_addv.
exact: (sorted_ids (all2_near_cart cg)).
Qed.

(** ** Partition arrays *)
Definition ravel_acc (shape i : seq nat) a : foldl (fun a (si : nat * nat) => a * si.1 + si.2) a (zip shape i) =
  a * foldr muln 1 (unzip1 (zip shape i)) + ravel shape i.
Proof.
rewrite /ravel; move: (zip shape i) => z {shape i}.
elim: z a => [|[s x] z IH] a /=; first by rewrite muln1 addn0.
by rewrite IH (IH (0 * s + x)); nia.
Qed.

Lemma ravel_cons s sh x i : size i = size sh -> ravel (s :: sh) (x :: i) = x * foldr muln 1 sh + ravel sh i.
Proof. by move=> e; rewrite /ravel /= ravel_acc /= unzip1_zip ?e // mul0n add0n. Qed.

Lemma mem_indices sh i : (i \in nd_indices sh) = all2 ltn i sh.
Proof.
rewrite /nd_indices mem_cart; elim: sh i => [|s sh IH] [|x i] //=.
by rewrite IH mem_iota.
Qed.

Lemma map_ravel sh : [seq ravel sh i | i <- nd_indices sh] = iota 0 (foldr muln 1 sh).
Proof.
elim: sh => [|s sh IH] //=; rewrite /nd_indices /= -/(nd_indices sh) map_flatten -map_comp -flatten_iota.
congr flatten; apply: eq_map => x /=; rewrite -map_comp -[x * _]addn0 iotaDl -IH -map_comp.
apply/eq_in_map => i ii /=; rewrite ravel_cons //.
by rewrite (size_mem_cart ii) size_map.
Qed.

Lemma size_indices sh : size (nd_indices sh) = foldr muln 1 sh.
Proof. by rewrite -(size_map (ravel sh)) map_ravel size_iota. Qed.

Lemma ravel_lt sh i : i \in nd_indices sh -> ravel sh i < foldr muln 1 sh.
Proof. by move=> ii; have := map_f (ravel sh) ii; rewrite map_ravel mem_iota. Qed.

Lemma nth_indices sh i : i \in nd_indices sh -> nth [::] (nd_indices sh) (ravel sh i) = i.
Proof.
move=> ii; have ix : index i (nd_indices sh) < foldr muln 1 sh by rewrite -size_indices index_mem.
suff -> : ravel sh i = index i (nd_indices sh) by rewrite nth_index.
rewrite -{1}(nth_index [::] ii) -(nth_map _ 0 (ravel sh)) ?index_mem //.
by rewrite map_ravel nth_iota.
Qed.

Lemma get_map sh f i : i \in nd_indices sh -> nd_get (NdArray sh [seq f i | i <- nd_indices sh]) i = f i.
Proof. by move=> ii; rewrite /nd_get /= (nth_map [::]) ?size_indices ?ravel_lt // nth_indices. Qed.

Lemma eq_all2 (p : nat -> nat -> bool) (s t : seq nat) : all2 p s t = (size s == size t) && all (fun b => p (nth 0 s b) (nth 0 t b)) (iota 0 (size s)).
Proof.
elim: s t => [|x s IH] [|y t] //=; rewrite IH eqSS -(addn0 1) iotaDl all_map andbCA; congr (_ && _).
Qed.

Lemma mem_indicesP sh i : reflect (size i = size sh /\ forall b, b < size sh -> nth 0 i b < nth 0 sh b) (i \in nd_indices sh).
Proof.
rewrite mem_indices eq_all2; apply: (iffP andP) => [[/eqP e /allP h]|[e h]].
  by split=> // b bl; apply: h; rewrite mem_iota e.
by rewrite e; split=> //; apply/allP => b; rewrite mem_iota => bl; apply: h.
Qed.

(** State of the loop before axis [k]. *)
Section Repeat.
Variables (n : nat) (a0 : ndarray) (d : nat).
Hypothesis n0 : 0 < n.
Hypothesis sz : size (nd_shape a0) = d.
Let sh := nd_shape a0.

Definition shape_at k := [seq if b < k then n else nth 0 sh b | b <- iota 0 d].
Definition back_at k (i : seq nat) := [seq if b < k then nth 0 i b %/ (n %/ nth 0 sh b) else nth 0 i b | b <- iota 0 d].

Definition inv k (a : ndarray) : Prop :=
  nd_shape a = shape_at k /\ forall i, i \in nd_indices (shape_at k) -> nd_get a i = nd_get a0 (back_at k i).

Lemma inv0 : inv 0 a0.
Proof.
rewrite /inv /shape_at; split.
  by rewrite -{1}(take_size (nd_shape a0)) -(map_nth_iota0 0 (leqnn _)) sz.
move=> i /mem_indicesP[]; rewrite size_map size_iota => si _; congr nd_get.
by rewrite -{1}(take_size i) -(map_nth_iota0 0 (leqnn _)) si.
Qed.

Lemma size_shape k : size (shape_at k) = d. Proof. by rewrite size_map size_iota. Qed.
Lemma nth_shape k b : b < d -> nth 0 (shape_at k) b = if b < k then n else nth 0 sh b.
Proof. by move=> bl; rewrite (nth_map 0) ?size_iota // nth_iota. Qed.

Lemma inv_step k a : k < d -> nth 0 sh k %| n -> inv k a ->
  nth 0 (nd_shape a) k = nth 0 sh k /\ inv k.+1 (np_repeat a (n %/ nth 0 sh k) k).
Proof.
move=> kd dv [shE get]; have nk : nth 0 (nd_shape a) k = nth 0 sh k by rewrite shE nth_shape // ltnn.
split=> //; have sp : 0 < nth 0 sh k by case: (nth 0 sh k) dv => //; rewrite dvd0n; lia.
have rp : 0 < n %/ nth 0 sh k by rewrite divn_gt0 // dvdn_leq.
have shE' : set_nth 0 (nd_shape a) k (nth 0 sh k * (n %/ nth 0 sh k)) = shape_at k.+1.
  rewrite mulnC divnK //.
  apply: (@eq_from_nth _ 0); rewrite size_set_nth shE size_shape; first by rewrite size_shape; lia.
  move=> b; have -> : maxn k.+1 d = d by lia.
  move=> bl; rewrite nth_set_nth /= !nth_shape //; case: eqP => [->|ne]; first by rewrite ltnSn.
  by have -> : (b < k.+1) = (b < k) by lia.
rewrite /np_repeat nk shE'; split=> // i ii; rewrite get_map //.
have [si hi] := mem_indicesP _ _ ii; rewrite size_shape in si hi.
rewrite get; last first.
  apply/mem_indicesP; rewrite size_shape size_set_nth si; split=> [|b bl]; first lia.
  rewrite nth_set_nth /= nth_shape //; have := hi b bl; rewrite nth_shape //.
  case: eqP => [->|ne]; last by have -> : (b < k.+1) = (b < k) by lia.
  by rewrite ltnn ltnSn => h; rewrite ltn_divLR // mulnC divnK.
congr nd_get; apply/eq_in_map => b; rewrite mem_iota => bl; rewrite nth_set_nth /=.
case: eqP => [->|ne]; first by rewrite ltnn ltnSn.
by have -> : (b < k.+1) = (b < k) by lia.
Qed.

Lemma repeat_ok : (forall b, b < d -> nth 0 sh b %| n) ->
  exists2 a', repeat_axes n (iota 0 d) a0 = inr a' & inv d a'.
Proof.
move=> dv; suff H l k a : k + l = d -> inv k a -> exists2 a', repeat_axes n (iota k l) a = inr a' & inv d a'.
  exact: (H d 0 a0 _ inv0).
elim: l k a => [|l IH] k a e I /=; first by exists a => //; rewrite -e addn0.
have kd : k < d by lia.
have [nk I'] := inv_step kd (dv k kd) I; have shE := I.1.
rewrite shE size_shape leqNgt kd /= -shE nk.
have sp : 0 < nth 0 sh k by case: (nth 0 sh k) (dv k kd) => //; rewrite dvd0n; lia.
rewrite (gtn_eqF sp); have -> : (n %% nth 0 sh k != 0) = false by have := dv k kd; rewrite /dvdn => /eqP ->.
by apply: IH => //; lia.
Qed.

Lemma repeat_bad b : b < d -> ~~ (nth 0 sh b %| n) -> exists e, repeat_axes n (iota 0 d) a0 = inl e.
Proof.
move=> bd nb; suff H l k a : k <= b -> k + l = d -> inv k a -> exists e, repeat_axes n (iota k l) a = inl e.
  exact: (H d 0 a0 _ _ inv0).
elim: l k a => [|l IH] k a kb e I /=; first lia.
have kd : k < d by lia.
have shE := I.1; rewrite shE size_shape leqNgt kd /= nth_shape // ltnn.
case: eqP => [|/eqP s0]; first by eexists.
case: ifP => [|/negbFE dk]; first by eexists.
have [nk I'] := inv_step kd dk I.
apply: IH => //; last by lia.
by rewrite ltn_neqAle kb andbT; apply: contra nb => /eqP <-.
Qed.
End Repeat.

Lemma prod_nseq n d : foldr muln 1 (nseq d n) = n ^ d.
Proof. by elim: d => //= d ->; rewrite expnS. Qed.

Lemma indices_grid n d : nd_indices (nseq d n) = grid n d.
Proof. by rewrite /nd_indices map_nseq. Qed.

Lemma ravel_grid n d i : size i = d -> ravel (nseq d n) i = flat n i.
Proof. by elim: i d => [|x i IH] [|d] // [si]; rewrite [nseq _ _]/= ravel_cons ?size_nseq // IH // flat_cons prod_nseq si. Qed.

(** ** Boundary facets and links are listed once *)
Lemma nth_ins_lt axis s l b : axis <= size l -> b < axis -> nth 0 (ins axis s l) b = nth 0 l b.
Proof. by move=> al bl; rewrite nth_cat size_takel // bl nth_take. Qed.
Lemma nth_ins_gt axis s l b : axis <= size l -> axis < b -> nth 0 (ins axis s l) b = nth 0 l b.-1.
Proof.
move=> al bl; rewrite nth_cat size_takel // ltnNge (ltnW bl) /=.
have -> : b - axis = (b.-1 - axis).+1 by lia.
by rewrite /= nth_drop; congr nth; lia.
Qed.

Lemma ins_inj axis s s' l l' : axis <= size l -> size l = size l' -> ins axis s l = ins axis s' l' -> s = s' /\ l = l'.
Proof.
move=> al e h; rewrite /ins in h.
move/eqP: h; rewrite eqseq_cat ?size_takel -?e // eqseq_cons => /and3P[/eqP t /eqP ss /eqP dr].
by split=> //; rewrite -(cat_take_drop axis l) t dr cat_take_drop.
Qed.

Lemma ones_in k : nseq k 1 \in grid 2 k.
Proof. by rewrite mem_grid size_nseq eqxx all_nseq /= orbT. Qed.

Lemma side_cell_node n d axis s c axis' s' c' k : axis < d -> axis' < d -> s <= n -> s' <= n ->
  c \in grid n d.-1 -> c' \in grid n d.-1 -> k \in grid 2 d.-1 ->
  side_cell n axis s c = side_cell n axis' s' c' -> ins axis s (addv c k) = ins axis' s' (addv c' k).
Proof.
move=> al al' sl sl' cg cg' kg; rewrite /side_cell (size_grid_in cg) (size_grid_in cg').
move=> /eq_in_map/(_ k kg)[]; apply: (@flat_inj n.+1 d); by apply: ins_in => //; apply: addv_in.
Qed.

Lemma side_cell_inj n d axis s c axis' s' c' : axis < d -> axis' < d -> s <= n -> s' <= n ->
  c \in grid n d.-1 -> c' \in grid n d.-1 ->
  side_cell n axis s c = side_cell n axis' s' c' -> [/\ axis = axis', s = s' & c = c'].
Proof.
move=> al al' sl sl' cg cg' e.
have h0 := side_cell_node al al' sl sl' cg cg' (zeros_in d.-1) e.
have h1 := side_cell_node al al' sl sl' cg cg' (ones_in d.-1) e.
have zc := size_grid_in cg; have zc' := size_grid_in cg'.
have s0 x : size x = d.-1 -> forall y, size (addv x (nseq d.-1 y)) = d.-1.
  by move=> sx y; rewrite size_addv ?size_nseq.
have ax : axis = axis'.
  apply/eqP/negPn/negP => /eqP ne.
  have g0 := congr1 (fun l => nth 0 l axis) h0; have g1 := congr1 (fun l => nth 0 l axis) h1.
  move: g0 g1 => /=; rewrite !(@nth_ins axis) ?s0 //; try lia.
  case: (ltngtP axis axis') => // lt.
    by rewrite !nth_ins_lt ?s0 // ?nth_addv ?size_nseq ?zc' ?nth_nseq; try lia; case: ifP; lia.
  by rewrite !nth_ins_gt ?s0 // ?nth_addv ?size_nseq ?zc' ?nth_nseq; try lia; case: ifP; lia.
move: h0; rewrite -ax => /ins_inj[]; rewrite ?s0 //; first lia.
by move=> -> /(@eq_addv d.-1)->.
Qed.

Definition bnd_index n d (pd : seq nat) : seq (nat * (nat * seq nat)) :=
  [seq (ax, sc) | ax <- [seq x <- iota 0 d | x \notin pd], sc <- [seq (s, c) | s <- [:: 0; n], c <- grid n d.-1]].
Definition link_index n d (pd : seq nat) : seq (nat * seq nat) :=
  [seq (ax, c) | ax <- [seq x <- iota 0 d | x \in pd], c <- grid n d.-1].

Lemma cube_boundary_index n d pd : cube_boundary n d pd =
  [seq side_cell n t.1 t.2.1 t.2.2 | t <- bnd_index n d pd].
Proof.
rewrite cube_boundaryE /bnd_index map_flatten -map_comp; congr flatten; apply: eq_map => ax /=.
by rewrite cats0 !map_cat -!map_comp.
Qed.

Lemma cube_links_index n d pd : cube_links n d pd =
  [seq (side_cell n t.1 0 t.2, side_cell n t.1 n t.2) | t <- link_index n d pd].
Proof.
rewrite cube_linksE /link_index map_flatten -map_comp; congr flatten; apply: eq_map => ax /=.
by rewrite -!map_comp.
Qed.

Lemma mem_bnd_index n d pd ax s c : ((ax, (s, c)) \in bnd_index n d pd) =
  [&& ax < d, ax \notin pd, (s == 0) || (s == n) & c \in grid n d.-1].
Proof.
apply/allpairsP/and4P => [[[x [y z]] [h1 /allpairsP[[u v] [h2 h3 [-> ->]]] [-> -> ->]]]|[h1 h2 h3 h4]].
  by move: h1 h2; rewrite mem_filter mem_iota !inE /= => /andP[-> ->].
exists (ax, (s, c)); split=> //; first by rewrite mem_filter h2 mem_iota.
by apply/allpairsP; exists (s, c); split=> //=; rewrite !inE.
Qed.

Lemma mem_link_index n d pd ax c : ((ax, c) \in link_index n d pd) = [&& ax < d, ax \in pd & c \in grid n d.-1].
Proof.
apply/allpairsP/and3P => [[[x y] /= [h1 h2 [-> ->]]]|[h1 h2 h3]].
  by move: h1; rewrite mem_filter mem_iota /= => /andP[-> ->].
by exists (ax, c); split=> //=; rewrite mem_filter h2 mem_iota.
Qed.

Lemma bnd_index_uniq n d pd : 0 < n -> uniq (bnd_index n d pd).
Proof.
move=> n0; apply: allpairs_uniq; first by rewrite filter_uniq ?iota_uniq.
  by apply: allpairs_uniq; rewrite ?grid_uniq //= ?inE ?andbT; [lia | move=> [? ?] [? ?]].
by move=> [? ?] [? ?].
Qed.
Lemma link_index_uniq n d pd : uniq (link_index n d pd).
Proof.
apply: allpairs_uniq; rewrite ?grid_uniq ?filter_uniq ?iota_uniq //; by move=> [? ?] [? ?].
Qed.

Lemma cube_boundary_uniq n d pd : 0 < n -> uniq (cube_boundary n d pd).
Proof.
move=> n0; rewrite cube_boundary_index map_inj_in_uniq ?bnd_index_uniq //.
move=> [ax [s c]] [ax' [s' c']]; rewrite !mem_bnd_index => /and4P[a1 a2 a3 a4] /and4P[b1 b2 b3 b4] /= e.
by have [] := side_cell_inj a1 b1 _ _ a4 b4 e; [case/orP: a3 => /eqP-> | case/orP: b3 => /eqP-> | move=> -> -> ->].
Qed.

Lemma cube_links_uniq n d pd s : s <= n ->
  uniq [seq side_cell n t.1 s t.2 | t <- link_index n d pd].
Proof.
move=> sn; rewrite map_inj_in_uniq ?link_index_uniq //.
move=> [ax c] [ax' c']; rewrite !mem_link_index => /and3P[a1 a2 a3] /and3P[b1 b2 b3] /= e.
by have [-> _ ->] := side_cell_inj a1 b1 sn sn a3 b3 e.
Qed.

Lemma grid_nonempty n d : 0 < n -> nseq d 0 \in grid n d.
Proof. by move=> n0; rewrite mem_grid size_nseq eqxx all_nseq n0 orbT. Qed.

Lemma side_cell_nonempty n axis s c : side_cell n axis s c != [::].
Proof. by rewrite -size_eq0 size_map size_grid -lt0n expn_gt0. Qed.

Lemma repeat_wf n axes a a' : size (nd_data a) = foldr muln 1 (nd_shape a) ->
  repeat_axes n axes a = inr a' -> size (nd_data a') = foldr muln 1 (nd_shape a').
Proof.
elim: axes a => [|x axes IH] a wf /=; first by case=> <-.
case: ifP => // _; case: ifP => // _; case: ifP => // _; apply: IH.
by rewrite /np_repeat /= size_map size_indices.
Qed.
