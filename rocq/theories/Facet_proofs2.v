(** Proofs about permutations, subsets and the orderings mapping (C22). *)
From mathcomp Require Import all_ssreflect zify.
From Verif Require Import PyDict_model PyDict_proofs Facet_model Facet_spec Facet_proofs.
Set Implicit Arguments.
Unset Strict Implicit.
Unset Printing Implicit Defensive.

Lemma mem_permutations_n n l p : uniq l -> size l = n -> (p \in permutations_n n l) = perm_eq p l.
Proof.
elim: n l p => [|n IH] l p ul sl /=.
  by rewrite (size0nil sl) inE; case: p => [|x p] //; apply/esym/negbTE; apply/negP => /perm_size.
apply/flatten_mapP/idP => [[x xl /mapP[q ql ->]]|pl].
  move: ql; rewrite IH ?rem_uniq ?size_rem ?sl // => ql.
  by rewrite perm_sym (perm_trans (perm_to_rem xl)) // perm_cons perm_sym.
case: p pl => [|x p] pl; first by move: (perm_size pl); rewrite sl.
have xl : x \in l by rewrite -(perm_mem pl) mem_head.
exists x => //; apply: map_f; rewrite IH ?rem_uniq ?size_rem ?sl //.
by have := perm_trans pl (perm_to_rem xl); rewrite perm_cons.
Qed.

Lemma permutations_n_uniq n l : uniq l -> size l = n -> uniq (permutations_n n l).
Proof.
elim: n l => [|n IH] l ul sl //=.
have H (k : seq nat) : uniq k -> {subset k <= l} ->
   uniq (flatten [seq [seq x :: p | p <- permutations_n n (rem x l)] | x <- k]).
  elim: k => [|x k IHk] //= /andP[xk uk] sub.
  rewrite cat_uniq map_inj_uniq ?IH ?rem_uniq ?size_rem ?sl ?sub ?mem_head //; last by move=> a b [].
  rewrite IHk // ?andbT; last by move=> y yk; apply: sub; rewrite inE yk orbT.
  apply/hasPn => s /flatten_mapP[y yk /mapP[r _ ->]].
  by apply/mapP => -[r' _ [e _]]; rewrite -e yk in xk.
exact: H.
Qed.

Lemma size_permutations_n n l : uniq l -> size l = n -> size (permutations_n n l) = n`!.
Proof.
elim: n l => [|n IH] l ul sl //=.
rewrite size_flatten /shape -map_comp.
have H (k : seq nat) : {subset k <= l} ->
   sumn [seq (size \o (fun x => [seq x :: p | p <- permutations_n n (rem x l)])) i | i <- k] = size k * n`!.
  elim: k => [|x k IHk] //= sub.
  rewrite size_map IH ?rem_uniq ?size_rem ?sl ?sub ?mem_head // IHk // => y yk; apply: sub.
  by rewrite inE yk orbT.
by rewrite H // sl factS.
Qed.

(** ** Subsets *)
Lemma mem_combinations r l c : uniq l -> (c \in combinations r l) = subseq c l && (size c == r).
Proof.
elim: l r c => [|x l IH] [|r] c //=.
- by rewrite inE; case: c.
- by rewrite in_nil; case: c.
- by move=> _; rewrite inE; case: c => [|y c] //=; rewrite ?andbF.
case/andP=> xl ul; rewrite mem_cat IH //.
case: c => [|y c]; first by rewrite /= andbF orbF; apply/mapP => -[].
rewrite /= eqSS; case: (eqVneq y x) => [->|ne] /=.
  rewrite mem_map ?IH //; last by move=> a b [].
  case: (subseq c l && (size c == r)) /andP => [//|_] /=.
  by apply/negbTE; rewrite negb_and; apply/orP; left; apply: contra xl => /mem_subseq/(_ x); apply; rewrite mem_head.
case: mapP => [[q _ [e _]]|_] //; by rewrite e eqxx in ne.
Qed.

Lemma combinations_uniq r l : uniq l -> uniq (combinations r l).
Proof.
elim: l r => [|x l IH] [|r] //= /andP[xl ul].
rewrite cat_uniq map_inj_uniq ?IH ?andbT //; last by move=> a b [].
apply/hasPn => s; rewrite mem_combinations // => /andP[sl _].
apply/mapP => -[q _ e]; move: xl; rewrite (mem_subseq sl) // e mem_head //.
Qed.

Lemma size_combinations r l : size (combinations r l) = 'C(size l, r).
Proof.
elim: l r => [|x l IH] [|r] //=; rewrite ?bin0 //.
by rewrite size_cat size_map !IH binS addnC.
Qed.

Lemma mem_powerset l c : uniq l -> (c \in powerset l) = subseq c l.
Proof.
move=> ul; apply/flatten_mapP/idP => [[r _]|cl]; first by rewrite mem_combinations // => /andP[].
exists (size c); last by rewrite mem_combinations // cl eqxx.
by rewrite mem_iota /= add0n ltnS size_subseq.
Qed.

Lemma powerset_uniq l : uniq l -> uniq (powerset l).
Proof.
move=> ul; rewrite /powerset.
have H (k : seq nat) : uniq k -> uniq (flatten [seq combinations r l | r <- k]).
  elim: k => [|r k IHk] //= /andP[rk uk].
  rewrite cat_uniq combinations_uniq // IHk // andbT.
  apply/hasPn => s /flatten_mapP[r' r'k]; rewrite mem_combinations // => /andP[sl /eqP e].
  change (s \notin combinations r l).
  rewrite mem_combinations // sl e /=; by apply: contra rk => /eqP<-.
by rewrite H // iota_uniq.
Qed.

Lemma size_powerset l : size (powerset l) = 2 ^ size l.
Proof.
rewrite /powerset size_flatten /shape -map_comp.
under eq_map do rewrite /= size_combinations.
rewrite -[2]/(1 + 1) expnDn sumnE big_map.
have -> : iota 0 (size l).+1 = index_iota 0 (size l).+1 by rewrite /index_iota subn0.
by rewrite big_mkord; apply: eq_bigr => i _; rewrite !exp1n !muln1.
Qed.

(** ** Symmetries *)
Lemma sym_okP d g : sym_ok d g -> [/\ perm_eq g.1 (iota 0 d), size g.1 = d & size g.2 = d].
Proof. by move=> /andP[p /eqP s]; split=> //; rewrite (perm_size p) size_iota. Qed.

Lemma size_act m d g i : sym_ok d g -> size (act m g i) = d.
Proof. by move=> /sym_okP[_ s1 s2]; rewrite size_map size_zip s1 s2 minnn. Qed.

Lemma nth_act m d g i b : sym_ok d g -> b < d ->
  nth 0 (act m g i) b = rev_if m (nth false g.2 b) (nth 0 i (nth 0 g.1 b)).
Proof.
move=> /sym_okP[_ s1 s2] bd; rewrite /act (nth_map (0, false)) ?size_zip ?s1 ?s2 ?minnn //.
by rewrite nth_zip ?s1 ?s2.
Qed.

Lemma rev_if_lt m f x : x < m -> rev_if m f x < m.
Proof. by case: f => /=; lia. Qed.
Lemma rev_ifK m f x : x < m -> rev_if m f (rev_if m f x) = x.
Proof. by case: f => /=; lia. Qed.

Lemma grid_size m d i : i \in grid m d -> size i = d.
Proof. by rewrite mem_grid => /andP[/eqP]. Qed.
Lemma grid_nth m d i b : i \in grid m d -> b < d -> nth 0 i b < m.
Proof.
by rewrite mem_grid => /andP[/eqP s /allP a] bd; apply: a; rewrite mem_nth // s.
Qed.
Lemma gridP m d i : size i = d -> (forall b, b < d -> nth 0 i b < m) -> i \in grid m d.
Proof.
move=> s h; rewrite mem_grid s eqxx /=; apply/(all_nthP 0) => b; rewrite s; exact: h.
Qed.
Lemma eq_grid m d i j : i \in grid m d -> j \in grid m d -> (forall b, b < d -> nth 0 i b = nth 0 j b) -> i = j.
Proof.
move=> ig jg h; apply: (@eq_from_nth _ 0); rewrite (grid_size ig) ?(grid_size jg) //.
Qed.

Lemma sym_nth_lt d g b : sym_ok d g -> b < d -> nth 0 g.1 b < d.
Proof.
move=> /sym_okP[p s1 _] bd; have : nth 0 g.1 b \in g.1 by rewrite mem_nth ?s1.
by rewrite (perm_mem p) mem_iota.
Qed.

Lemma act_grid m d g i : sym_ok d g -> i \in grid m d -> act m g i \in grid m d.
Proof.
move=> ok ig; apply: gridP; first exact: size_act ok.
move=> b bd; rewrite (nth_act _ _ ok) //; apply: rev_if_lt; apply: grid_nth ig _.
exact: sym_nth_lt ok bd.
Qed.

(** The inverse symmetry. *)
Definition sym_inv (d : nat) (g : sym) : sym :=
  ([seq index b g.1 | b <- iota 0 d], [seq nth false g.2 (index b g.1) | b <- iota 0 d]).

Lemma index_lt d g b : sym_ok d g -> b < d -> index b g.1 < d.
Proof. by move=> /sym_okP[p s1 _] bd; rewrite -[X in _ < X]s1 index_mem (perm_mem p) mem_iota. Qed.

Lemma sym_uniq d g : sym_ok d g -> uniq g.1.
Proof. by move=> /sym_okP[p _ _]; rewrite (perm_uniq p) iota_uniq. Qed.

Lemma sym_nth_index d g b : sym_ok d g -> b < d -> nth 0 g.1 (index b g.1) = b.
Proof. by move=> /sym_okP[p _ _] bd; rewrite nth_index // (perm_mem p) mem_iota. Qed.

Lemma perm_iota d (s : seq nat) : uniq s -> size s = d -> (forall x, x \in s -> x < d) -> perm_eq s (iota 0 d).
Proof.
move=> us ss h.
have sub : {subset s <= iota 0 d} by move=> x /h; rewrite mem_iota.
have [|_ e] := uniq_min_size us sub; first by rewrite size_iota ss.
by apply: uniq_perm => //; apply: iota_uniq.
Qed.

Lemma sym_inv_ok d g : sym_ok d g -> sym_ok d (sym_inv d g).
Proof.
move=> ok; rewrite /sym_ok size_map size_iota eqxx andbT.
apply: perm_iota; last 2 first.
- by rewrite size_map size_iota.
- by move=> x /mapP[b]; rewrite mem_iota => /andP[_ bd] ->; apply: index_lt.
rewrite map_inj_in_uniq ?iota_uniq // => a b; rewrite !mem_iota => /andP[_ ad] /andP[_ bd] e.
by rewrite -(sym_nth_index ok ad) -(sym_nth_index ok bd) e.
Qed.

Lemma nth_map_iota (A : Type) (x0 : A) (f : nat -> A) d b : b < d -> nth x0 [seq f x | x <- iota 0 d] b = f b.
Proof. by move=> bd; rewrite (nth_map 0) ?size_iota // nth_iota. Qed.

Lemma actK m d g i : sym_ok d g -> i \in grid m d -> act m (sym_inv d g) (act m g i) = i.
Proof.
move=> ok ig; have ok' := sym_inv_ok ok.
apply: (eq_grid (m := m) (d := d)) => //; first by rewrite !act_grid.
move=> b bd; rewrite (nth_act _ _ ok') // !nth_map_iota // (nth_act _ _ ok) ?index_lt //.
by rewrite rev_ifK (sym_nth_index ok bd) // (grid_nth ig).
Qed.

Lemma sym_invK d g : sym_ok d g -> sym_inv d (sym_inv d g) = g.
Proof.
move=> ok; have ok' := sym_inv_ok ok; have [_ s1 s2] := sym_okP ok.
have e b : b < d -> index b (sym_inv d g).1 = nth 0 g.1 b.
  move=> bd; have lt := sym_nth_lt ok bd.
  rewrite -[X in index X _](_ : nth 0 (sym_inv d g).1 (nth 0 g.1 b) = b).
    by rewrite index_uniq ?(sym_uniq ok') // size_map size_iota.
  by rewrite nth_map_iota // index_uniq ?s1 // (sym_uniq ok).
rewrite [g]surjective_pairing; congr pair.
  apply: (@eq_from_nth _ 0); rewrite size_map size_iota ?s1 // => b bd.
  by rewrite nth_map_iota // -surjective_pairing e.
apply: (@eq_from_nth _ false); rewrite size_map size_iota ?s2 // => b bd.
rewrite nth_map_iota // -surjective_pairing e // nth_map_iota ?(sym_nth_lt ok) //.
by rewrite index_uniq ?s1 // (sym_uniq ok).
Qed.

Lemma act_invK m d g i : sym_ok d g -> i \in grid m d -> act m g (act m (sym_inv d g) i) = i.
Proof.
move=> ok ig; rewrite -{1}(sym_invK ok) actK //; exact: sym_inv_ok.
Qed.

Lemma act_inj m d g : sym_ok d g -> {in grid m d &, injective (act m g)}.
Proof. by move=> ok i j ig jg e; rewrite -(actK ok ig) e actK. Qed.

Lemma perm_act_grid m d g : sym_ok d g -> perm_eq [seq act m g i | i <- grid m d] (grid m d).
Proof.
move=> ok; apply: uniq_perm; rewrite ?grid_uniq // ?map_inj_in_uniq ?grid_uniq //.
  exact: act_inj.
move=> i; apply/mapP/idP => [[j jg ->]|ig]; first exact: act_grid.
by exists (act m (sym_inv d g) i); rewrite ?act_grid ?act_invK ?sym_inv_ok.
Qed.

Lemma size_sym_table m d g : size (sym_table m d g) = m ^ d.
Proof. by rewrite size_map size_grid. Qed.

Lemma perm_sym_table m d g : sym_ok d g -> perm_eq (sym_table m d g) (iota 0 (m ^ d)).
Proof.
move=> ok; rewrite /sym_table (map_comp (flat m)) -map_flat_grid; apply: perm_map; exact: perm_act_grid.
Qed.

(** Different symmetries reorder the corners differently. *)
Lemma sym_table_inj d : {in [pred g | sym_ok d g] &, injective (sym_table 2 d)}.
Proof.
move=> g h /= okg okh e.
have E i : i \in grid 2 d -> act 2 g i = act 2 h i.
  move=> ig; apply: (@flat_inj 2 d); rewrite ?act_grid //.
  by have := congr1 (nth 0 ^~ (flat 2 i)) e; rewrite !nth_map_grid.
have [_ sg1 sg2] := sym_okP okg; have [_ sh1 sh2] := sym_okP okh.
have zg : nseq d 0 \in grid 2 d by rewrite mem_grid size_nseq eqxx all_nseq orbT.
have F : g.2 = h.2.
  apply: (@eq_from_nth _ false); rewrite sg2 ?sh2 // => b bd.
  have := congr1 (nth 0 ^~ b) (E _ zg); rewrite !(nth_act _ _ _ bd) // !nth_nseq !if_same.
  by case: (nth false g.2 b); case: (nth false h.2 b).
have G : g.1 = h.1.
  apply: (@eq_from_nth _ 0); rewrite sg1 ?sh1 // => b bd.
  set a := nth 0 g.1 b; have ad : a < d := sym_nth_lt okg bd.
  have ig : [seq (x == a : nat) | x <- iota 0 d] \in grid 2 d.
    apply: gridP => [|c cd]; first by rewrite size_map size_iota.
    by rewrite nth_map_iota //; case: eqP.
  have := congr1 (nth 0 ^~ b) (E _ ig); rewrite !(nth_act _ _ _ bd) // -/a F.
  rewrite nth_map_iota // nth_map_iota ?(sym_nth_lt okh) // eqxx.
  by case: (nth false h.2 b); case: eqP.
by rewrite [g]surjective_pairing [h]surjective_pairing F G.
Qed.

(** ** The mapping *)
Definition sym_of (d : nat) (pa : seq nat * seq nat) : sym :=
  ([seq index b pa.1 | b <- iota 0 d], [seq index b pa.1 \in pa.2 | b <- iota 0 d]).

Lemma sym_of_ok d pa : perm_eq pa.1 (iota 0 d) -> sym_ok d (sym_of d pa).
Proof.
move=> p; rewrite /sym_ok size_map size_iota eqxx andbT /=.
have /sym_inv_ok : sym_ok d (pa.1, nseq d false) by rewrite /sym_ok p size_nseq eqxx.
by case/andP.
Qed.

Lemma orderedE m d perm axes : perm_eq perm (iota 0 d) ->
  ordered m d perm axes = sym_table m d (sym_of d (perm, axes)).
Proof.
move=> p; have ok := sym_of_ok (pa := (perm, axes)) p.
rewrite /ordered /np_flip /nd_take -map_comp; apply/eq_in_map => i ig /=.
set j := [seq _ | k <- iota 0 d].
have jg : j \in grid m d.
  apply: gridP => [|b bd]; first by rewrite size_map size_iota.
  by rewrite nth_map_iota //; apply: (@rev_if_lt m (b \in axes)); apply: grid_nth ig bd.
have lt b : b < d -> index b perm < d.
  by move=> bd; rewrite -[X in _ < X](size_iota 0) -(perm_size p) index_mem (perm_mem p) mem_iota.
rewrite /np_transpose /nd_take -map_comp nth_map_grid //=.
have e : [seq nth 0 j (index b perm) | b <- iota 0 d] = act m (sym_of d (perm, axes)) i.
  apply: (@eq_from_nth _ 0); rewrite ?(size_act _ _ ok) size_map size_iota // => b bd.
  by rewrite nth_map_iota // (nth_act _ _ ok) // !nth_map_iota ?lt.
by rewrite e nth_iota ?flat_lt ?act_grid.
Qed.

Definition sym_list (d : nat) : seq sym :=
  [seq sym_of d pa | pa <- [seq (perm, axes) | perm <- py_permutations (iota 0 d), axes <- powerset (iota 0 d)]].

Lemma mem_pairs d pa : (pa \in [seq (perm, axes) | perm <- py_permutations (iota 0 d), axes <- powerset (iota 0 d)])
   = perm_eq pa.1 (iota 0 d) && subseq pa.2 (iota 0 d).
Proof.
case: pa => p a; apply/allpairsP/andP => /= [[[p' a'] /= [h h' [-> ->]]]|[h h']].
  by move: h h'; rewrite mem_permutations_n ?iota_uniq // mem_powerset ?iota_uniq.
by exists (p, a); rewrite /= mem_permutations_n ?iota_uniq // mem_powerset ?iota_uniq.
Qed.

Lemma sym_of_inj d : {in [seq (perm, axes) | perm <- py_permutations (iota 0 d), axes <- powerset (iota 0 d)] &, injective (sym_of d)}.
Proof.
move=> [p a] [p' a']; rewrite !mem_pairs /= => /andP[pp sa] /andP[pp' sa'] e.
have e1 := congr1 fst e; have e2 := congr1 snd e; rewrite /= in e1 e2.
have ok : sym_ok d (p, nseq d false) by rewrite /sym_ok /= pp size_nseq eqxx.
have ok' : sym_ok d (p', nseq d false) by rewrite /sym_ok /= pp' size_nseq eqxx.
have ep : p = p'.
  have f1 := congr1 fst (sym_invK ok); have f2 := congr1 fst (sym_invK ok').
  by rewrite /sym_inv /= in f1 f2; rewrite -f1 -f2 e1.
congr pair => //; rewrite -ep in e2.
have lt b : b < d -> index b p < d := @index_lt _ _ b ok.
have ms : a =i a'.
  move=> x; case: (boolP (x < d)) => xd; last first.
    have nx s : subseq s (iota 0 d) -> (x \in s) = false.
      by move=> ss; apply/negbTE; apply: contra xd => /(mem_subseq ss); rewrite mem_iota.
    by rewrite !nx.
  have := congr1 (nth false ^~ (nth 0 p x)) e2.
  have pd := sym_nth_lt ok xd; rewrite /= in pd.
  by rewrite !nth_map_iota // index_uniq ?(sym_uniq ok) // (perm_size pp) size_iota.
have F s : subseq s (iota 0 d) -> s = [seq x <- iota 0 d | x \in s].
  by move=> h; apply/subseq_uniqP => //; apply: iota_uniq.
by rewrite (F _ sa) [RHS](F _ sa'); apply: eq_filter => x; rewrite ms.
Qed.

Lemma sym_list_ok d g : g \in sym_list d -> sym_ok d g.
Proof. by case/mapP=> pa; rewrite mem_pairs => /andP[p _] ->; apply: sym_of_ok. Qed.

Lemma sym_list_full d g : sym_ok d g -> g \in sym_list d.
Proof.
move=> ok; have [p s1 s2] := sym_okP ok; have /sym_okP[p' _ _] := sym_inv_ok ok.
apply/mapP; exists ((sym_inv d g).1, [seq a <- iota 0 d | nth false g.2 (index a g.1)]).
  by rewrite mem_pairs /= p' filter_subseq.
have e b : b < d -> index b (sym_inv d g).1 = nth 0 g.1 b.
  move=> bd; have := congr1 (fun g : sym => nth 0 g.1 b) (sym_invK ok).
  by rewrite /= nth_map_iota.
rewrite /sym_of; apply: (etrans (surjective_pairing g)); congr pair.
  apply: (@eq_from_nth _ 0); rewrite ?size_map ?size_iota s1 // => b bd.
  by rewrite nth_map_iota //= e.
apply: (@eq_from_nth _ false); rewrite ?size_map ?size_iota s2 // => b bd.
rewrite nth_map_iota // e // mem_filter mem_iota (sym_nth_lt ok) //= andbT.
by rewrite index_uniq ?s1 // (sym_uniq ok).
Qed.

Lemma sym_list_uniq d : uniq (sym_list d).
Proof.
rewrite map_inj_in_uniq; last exact: sym_of_inj.
apply: allpairs_uniq; rewrite ?powerset_uniq ?permutations_n_uniq ?iota_uniq //.
by move=> [a b] [c e] _ _ [-> ->].
Qed.

Lemma size_sym_list d : size (sym_list d) = d`! * 2 ^ d.
Proof.
rewrite size_map size_allpairs /py_permutations size_permutations_n ?iota_uniq ?size_powerset ?size_iota //.
Qed.

Lemma orderings_mappingE d m :
  get_orderings_mapping d m = [seq (sym_table 2 d g, sym_table m d g) | g <- sym_list d].
Proof.
rewrite /get_orderings_mapping.
set l := [seq (_, _) | _ <- _, _ <- _].
have E q : {in l, forall pa, ordered q d pa.1 pa.2 = sym_table q d (sym_of d pa)}.
  by move=> [p a]; rewrite mem_pairs => /andP[pp _]; rewrite orderedE.
have -> : foldl (fun o pa => dset o (ordered 2 d pa.1 pa.2) (ordered m d pa.1 pa.2)) [::] l
  = foldl (fun o pa => dset o (sym_table 2 d (sym_of d pa)) (sym_table m d (sym_of d pa))) [::] l.
  elim: (l) ([::] : seq (seq nat * seq nat)) E => [|pa k IH] o E //=.
  rewrite !E ?mem_head // IH // => q x xk; apply: E; by rewrite inE xk orbT.
rewrite foldl_dset_new /=; first by rewrite /sym_list -map_comp.
rewrite (map_comp (sym_table 2 d) (sym_of d)) map_inj_in_uniq ?sym_list_uniq //.
move=> g h /sym_list_ok okg /sym_list_ok okh; exact: sym_table_inj.
Qed.

Lemma orderings_keys_uniq d m : uniq (dkeys (get_orderings_mapping d m)).
Proof.
rewrite orderings_mappingE /dkeys -map_comp map_inj_in_uniq ?sym_list_uniq //.
move=> g h /sym_list_ok okg /sym_list_ok okh; exact: sym_table_inj.
Qed.

Lemma size_orderings d m : size (get_orderings_mapping d m) = 2 ^ d * d`!.
Proof. by rewrite orderings_mappingE size_map size_sym_list mulnC. Qed.

Lemma orderings_get d m g : sym_ok d g ->
  dget (get_orderings_mapping d m) (sym_table 2 d g) = Some (sym_table m d g).
Proof.
move=> ok; rewrite orderings_mappingE (dget_map _ _ (sym_list_full ok)) //.
rewrite map_inj_in_uniq ?sym_list_uniq // => g' h /sym_list_ok okg /sym_list_ok okh; exact: sym_table_inj.
Qed.

Lemma orderings_get_inv d m k v : dget (get_orderings_mapping d m) k = Some v ->
  exists g, [/\ sym_ok d g, k = sym_table 2 d g & v = sym_table m d g].
Proof.
rewrite orderings_mappingE => H.
have [g [gl kE vE]] := @dget_map_inv _ _ _ (sym_table 2 d) (sym_table m d) _ _ _ H.
exists g; split=> //; exact: sym_list_ok.
Qed.
