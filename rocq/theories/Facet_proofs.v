(** Proofs about facet types, slices and orderings. *)
From mathcomp Require Import all_ssreflect zify.
From Verif Require Import PyDict_model PyDict_proofs Facet_model Facet_spec.
Set Implicit Arguments.
Unset Strict Implicit.
Unset Printing Implicit Defensive.

(** ** Facets tile the element (C21) *)
Lemma perm_flatten_cat (A B : eqType) (f g : A -> seq B) (l : seq A) :
  perm_eq (flatten [seq f x ++ g x | x <- l]) (flatten [seq f x | x <- l] ++ flatten [seq g x | x <- l]).
Proof.
elim: l => [|x l IH] //=.
rewrite -!catA perm_cat2l (perm_trans _ (_ : perm_eq (g x ++ flatten [seq f y | y <- l] ++ flatten [seq g y | y <- l]) _)) //.
  by rewrite perm_cat2l.
by rewrite perm_catCA.
Qed.

Lemma perm_flatten_swap (A B C : eqType) (f : A -> B -> seq C) (l : seq A) (k : seq B) :
  perm_eq (flatten [seq flatten [seq f x y | y <- k] | x <- l]) (flatten [seq flatten [seq f x y | x <- l] | y <- k]).
Proof.
elim: l => [|x l IH] /=; first by elim: k => //= y k.
apply: (perm_trans (perm_cat (perm_refl _) IH)).
rewrite perm_sym; exact: perm_flatten_cat.
Qed.

(** Products of unions are unions of products. *)
Lemma cart_flatten (T A : eqType) (f : T -> seq A) (ts : seq T) n :
  perm_eq (flatten [seq cart [seq f t | t <- ft] | ft <- cart (nseq n ts)])
          (cart (nseq n (flatten [seq f t | t <- ts]))).
Proof.
elim: n => [|n IH] //=.
set k := cart (nseq n ts) in IH *; set k' := cart (nseq n _) in IH *.
have -> : flatten [seq cart [seq f t | t <- ft] | ft <- flatten [seq [seq x :: r | r <- k] | x <- ts]]
  = flatten [seq flatten [seq flatten [seq [seq a :: r | r <- cart [seq f t | t <- ft]] | a <- f x] | ft <- k] | x <- ts].
  elim: (ts) => [|x l IHl] //=; rewrite map_cat flatten_cat IHl; congr cat.
  by rewrite -map_comp.
elim: (ts) => [|x l IHl] //=; rewrite map_cat flatten_cat; apply: perm_cat => //.
apply: (perm_trans (perm_flatten_swap _ _ _)).
elim: (f x) => [|a la IHa] //=; apply: perm_cat => //.
by rewrite -[X in perm_eq X _](_ : [seq a :: r | r <- flatten [seq cart [seq f t | t <- ft] | ft <- k]] = _) ?perm_map // map_flatten -map_comp.
Qed.

Lemma axes_cover m : 2 <= m -> perm_eq (flatten [seq axis_positions m true t | t <- [:: FIRST; LAST; INNER]]) (iota 0 m).
Proof.
case: m => [|[|m]] //= _; rewrite cats0 subSS subn1 /=.
rewrite perm_cons -cat1s perm_catC -[1 :: iota 2 m]/(iota 1 m.+1).
by rewrite -(addn1 m) iotaD addn1 add1n.
Qed.

Lemma slices_tile m n : 2 <= m ->
  perm_eq (flatten [seq slice_positions m true ft | ft <- all_facet_types n]) (grid m n).
Proof.
move=> m2; apply: (perm_trans (cart_flatten _ _ _)).
apply: perm_cart; elim: n => [|n IH] //=; rewrite IH andbT; exact: axes_cover.
Qed.

Lemma mem_axis m t x b : 2 <= m -> x \in axis_positions m b t -> x < m.
Proof. by case: t; case: b => /=; rewrite ?inE ?mem_iota; lia. Qed.

Lemma slice_sub_grid m b ft : 2 <= m -> {subset slice_positions m b ft <= grid m (size ft)}.
Proof.
move=> m2 i; rewrite mem_cart mem_grid.
elim: ft i => [|t ft IH] [|x i] //= /andP[/(mem_axis m2)-> /IH]; by rewrite eqSS.
Qed.

Lemma count_flatten_map (A B : Type) (P : pred B) (f : A -> seq B) l :
  count P (flatten [seq f x | x <- l]) = sumn [seq count P (f x) | x <- l].
Proof. by rewrite count_flatten -map_comp. Qed.

Lemma count_facet_types n k : count (fun ft => facet_dim ft == k) (all_facet_types n) = 'C(n, k) * 2 ^ (n - k).
Proof.
elim: n k => [|n IH] k.
  by rewrite /all_facet_types /= bin0n addn0 eq_sym; case: k.
rewrite /all_facet_types [nseq _ _]/= /cart -/cart -/(all_facet_types n) count_flatten_map /=.
rewrite !count_map /preim /facet_dim /= addn0.
have e0 : count (fun x : seq fdt => 0 + count_mem INNER x == k) (all_facet_types n) = 'C(n, k) * 2 ^ (n - k).
  exact: IH.
rewrite e0.
case: k {e0} (e0) => [|k] e0.
  rewrite (eq_count (a2 := pred0)) ?count_pred0; last by move=> x /=; rewrite add1n.
  by rewrite !bin0 !subn0 expnS; lia.
rewrite (eq_count (a2 := fun ft => facet_dim ft == k)) ?IH; last by move=> x /=; rewrite add1n eqSS.
rewrite binS subSS mulnDl addnA -mulnDr; congr addn.
case: (ltnP k n) => kn; last by rewrite bin_small ?mul0n.
by rewrite addnn -mul2n -expnS subnSK.
Qed.

Lemma facet_types_uniq n : uniq (all_facet_types n).
Proof. by apply: cart_uniq; rewrite all_nseq orbT. Qed.

Lemma size_facet_types n : size (all_facet_types n) = 3 ^ n.
Proof. rewrite size_cart map_nseq /=; elim: n => [|n IH] //=; by rewrite IH expnS. Qed.

Lemma mem_facet_types n ft : (ft \in all_facet_types n) = (size ft == n).
Proof.
rewrite mem_cart; elim: n ft => [|n IH] [|t ft] //=.
by rewrite IH eqSS; case: t.
Qed.

Lemma size_slice m ft : size (slice_positions m true ft) = (m - 2) ^ facet_dim ft.
Proof.
rewrite size_cart /facet_dim; elim: ft => [|t ft IH] //=; rewrite IH.
by case: t => /=; rewrite ?mul1n // size_iota add1n expnS.
Qed.

(** A node lies in the interior of exactly one facet. *)
Definition type_of_axis (m x : nat) : fdt := if x == 0 then FIRST else if x == m.-1 then LAST else INNER.
Definition type_of (m : nat) (i : seq nat) : seq fdt := [seq type_of_axis m x | x <- i].

Lemma mem_axis_interior m t x : 2 <= m -> x < m -> (x \in axis_positions m true t) = (type_of_axis m x == t).
Proof.
move=> m2 xm; rewrite /type_of_axis.
have e0 : FIRST == FIRST by []; have e1 : (x == 0) = ~~ (0 < x) by lia.
have e2 : (x == m.-1) = (m <= x.+1) by lia.
rewrite e2 e1; case: t => /=; rewrite ?inE ?mem_iota ?e2 ?e1; case: (ltnP 0 x) => x0 /=;
  case: (leqP m x.+1) => x1 //=; first lia.
  by rewrite -[LAST == INNER]/false; lia.
by rewrite eqxx; lia.
Qed.

Lemma mem_slice m n ft i : 2 <= m -> i \in grid m n ->
  (i \in slice_positions m true ft) = (type_of m i == ft).
Proof.
move=> m2; rewrite mem_grid => /andP[_]; rewrite mem_cart.
elim: i ft => [|x i IH] [|t ft] //= /andP[xm im].
by rewrite IH // mem_axis_interior.
Qed.

Lemma slices_disjoint m n ft ft' i : 2 <= m -> size ft = n -> size ft' = n ->
  i \in slice_positions m true ft -> i \in slice_positions m true ft' -> ft = ft'.
Proof.
move=> m2 s s' h h'.
have ig : i \in grid m n by rewrite -s; apply: slice_sub_grid h.
by move: h h'; rewrite !(mem_slice _ m2 ig) => /eqP<- /eqP.
Qed.
