(** Weights, low dimensions, decision procedure for conforming meshes,
    discontinuous gridpoints, and the refiner as a whole. *)
From mathcomp Require Import all_ssreflect all_algebra zify.
From Verif Require Import PyDict_model PyDict_proofs Facet_model Facet_spec Facet_proofs Facet_proofs2
  GS_model Premesh_model Refiner_model Refiner_spec Refiner_proofs Refiner_proofs2 Refiner_proofs3 Refiner_proofs4
  Refiner_proofs5 Refiner_proofs6 Refiner_proofs7 Refiner_proofs8.
Set Implicit Arguments.
Unset Strict Implicit.
Unset Printing Implicit Defensive.
Import GRing.Theory.
Local Open Scope ring_scope.
Arguments refine_type : simpl never.

(** ** Linear weights on symmetric gridpoints *)
Definition linear_weights (K : fieldType) (x : nat -> K) (i c : nat) : K :=
  if c == 0%N then (1 - x i) / 2%:R else (1 + x i) / 2%:R.

Lemma linear_weights_ok (K : fieldType) m (x : nat -> K) : 2%:R != 0 :> K -> (0 < m)%N ->
  x 0%N = -1 -> (forall i, (i < m)%N -> x (m.-1 - i)%N = - x i) -> weights_ok m (linear_weights x).
Proof.
move=> t0 m0 x0 xs; have xm : x m.-1 = 1 by have := xs 0%N m0; rewrite subn0 x0 opprK.
rewrite /linear_weights; split=> //=; rewrite ?x0 ?xm ?opprK ?subrr ?addNr ?mul0r //; try by rewrite -mulr2n divff.
by move=> i [|[|]] // il _ /=; rewrite xs // ?opprK.
Qed.

Lemma linear_weights_sum (K : fieldType) (x : nat -> K) i : 2%:R != 0 :> K ->
  linear_weights x i 0 + linear_weights x i 1 = 1.
Proof.
move=> t0; rewrite /linear_weights /= -mulrDl (_ : 1 - x i + (1 + x i) = 2%:R) ?divff //.
by rewrite addrACA addNr addr0.
Qed.

Section Translate.
Variables (R : comRingType) (V : lmodType R) (m : nat) (w : nat -> nat -> R).
Hypothesis wsum : forall i, (i < m)%N -> w i 0%N + w i 1%N = 1.

Lemma multilinear_translate k (X Y : nat -> V) t i : i \in grid m k ->
  (forall p, (p < 2 ^ k)%N -> Y p = X p + t) -> multilinear w k Y i = multilinear w k X i + t.
Proof.
move=> ig h; have si := grid_size ig; rewrite !mlinE //.
have -> : \sum_(c <- grid 2 k) kron_entry w i c *: Y (flat 2 c) =
          \sum_(c <- grid 2 k) (kron_entry w i c *: X (flat 2 c) + kron_entry w i c *: t).
  by apply: eq_big_seq => c cg; rewrite h ?flat_lt // scalerDr.
rewrite big_split /= -scaler_suml; congr (_ + _).
suff -> : \sum_(c <- grid 2 k) kron_entry w i c = 1 by rewrite scale1r.
elim: k i {si h} ig => [|k IH] i ig.
  by rewrite -[grid 2 0]/[:: [::]] big_seq1; have /size0nil -> := grid_size ig.
case: i ig => [|a i]; first by move/grid_size.
rewrite mem_grid /= eqSS => /andP[si /andP[am ai]].
have ig : i \in grid m k by rewrite mem_grid si.
rewrite grid_S /= cats0 big_cat !big_map /=.
under eq_bigr do rewrite kron_cons.
under [X in _ + X]eq_bigr do rewrite kron_cons.
by rewrite -!mulr_sumr (IH _ ig) !mulr1 wsum.
Qed.
End Translate.

(** ** Dimensions 1 and 2 *)
Lemma facet_size2 e ft : facet_dim ft = 1%N -> size (facet e ft) = 2%N.
Proof. by move=> h; rewrite size_facet h. Qed.

Lemma low_conforming n els : (n <= 2)%N -> conforming n els.
Proof.
move=> n2 e e' ft ft' _ _ _ _ kn p; have k1 : facet_dim ft = 1%N by lia.
by rewrite k1; apply: (edge_oriented (facet_size2 e k1) p).1.
Qed.
Lemma low_exchanging n els : (n <= 2)%N -> exchanging n els.
Proof.
move=> n2 e e' ft ft' _ _ _ _ kn p; have k1 : facet_dim ft = 1%N by lia.
exact: (edge_oriented (facet_size2 e k1) p).2.
Qed.
Lemma low_exchanging_facet n els F : (n <= 2)%N -> exchanging_facet n els F.
Proof.
move=> n2 e ft2 ft _ s2 _ kn p; have := dim_le ft2; rewrite s2 => le.
have k1 : facet_dim ft2 = 1%N by lia.
exact: (edge_oriented (facet_size2 F k1) p).2.
Qed.

Lemma low_element_facet n els F j ft : (0 < n <= 2)%N -> (j < size els)%N -> size ft = n -> facet_dim ft = n.-1 ->
  perm_eq (facet (nth [::] els j) ft) F -> is_element_facet n els F.
Proof.
move=> n2 jl sft dft p; exists j, ft; split=> //; case: n n2 sft dft => [|[|[|]]] //= _ _ dft.
  have := size_facet (nth [::] els j) ft; rewrite dft.
  case: (facet _ _) p => [|a [|]] // p _; have := perm_size p; case: F p => [|b [|]] // p _.
  rewrite (_ : [:: b] = [:: a]); first exact: oriented_refl.
  by have := perm_mem p a; rewrite !inE eqxx => /esym/eqP->.
exact: (edge_oriented (facet_size2 _ dft) p).1.
Qed.

(** ** Deciding conformity *)
Definition orientedb (k : nat) (F F' : seq int) : bool :=
  [seq index x F | x <- F'] \in dkeys (get_orderings_mapping k 2).
Definition conformingb (n : nat) (els : seq (seq int)) : bool :=
  all (fun e => all (fun ft => ~~ (0 < facet_dim ft < n)%N || let F := facet e ft in
     all (fun e' => all (fun ft' => let F' := facet e' ft' in perm_eq F F' ==> orientedb (facet_dim ft) F F')
       (all_facet_types n)) els) (all_facet_types n)) els.
Definition mesh_okb (n N : nat) (els : seq (seq int)) : bool :=
  all (fun e => [&& size e == 2 ^ n, uniq e & all (fun x => if x is Posz j then j < N else false) e])%N els.

Lemma mesh_okP n N els : mesh_okb n N els -> mesh_ok n N els.
Proof.
move=> /allP h e /h/and3P[/eqP se ue /allP hv]; split=> // x /hv; case: x => // j jN; by exists j.
Qed.

Lemma orientedP k F F' : uniq F -> size F = (2 ^ k)%N -> perm_eq F F' -> orientedb k F F' -> oriented k F F'.
Proof.
move=> uF sF p; rewrite /orientedb => /mapP[[key v] kv kE].
have [w D] : exists w, dget (get_orderings_mapping k 2) [seq index x F | x <- F'] = Some w.
  move: kv; rewrite kE /=; elim: (get_orderings_mapping _ _) => [|[k' v'] d IH] //=.
  by rewrite inE => /orP[/eqP[<- _]|/IH[w ->]]; rewrite ?eqxx; [eexists | case: eqP; eexists].
have [g [ok gE _]] := orderings_get_inv D.
by exists g => //; apply/(index_table uF sF p ok).
Qed.

Lemma conformingP n N els : mesh_ok n N els -> conformingb n els -> conforming n els.
Proof.
move=> mo /allP h e e' ft ft' el el' sft sft' kn p.
have ftin f : size f = n -> f \in all_facet_types n by rewrite mem_facet_types => ->.
have := h e el => /allP/(_ ft (ftin _ sft)); rewrite kn /= => /allP/(_ e' el')/allP/(_ ft' (ftin _ sft')).
rewrite p /=; apply: orientedP => //; rewrite ?size_facet //.
by have [se ue _] := mo _ el; apply: facet_uniq; rewrite ?sft.
Qed.

(** ** The refiner as a whole *)
Section Whole.
Variables (R : comRingType) (V : lmodType R) (L : Type).
Variables (n m : nat) (M1 : nat -> nat -> R).
Hypothesis m2 : (2 <= m)%N.
Implicit Types pm : premesh V L.

Lemma no_init_error : init_error n m = false.
Proof. by rewrite /init_error; case: (m) m2 => [|[|]]. Qed.

Lemma etcsE (c : seq V) els : [seq Some tc | tc <- [seq element_coords n m M1 c e | e <- els]] = etcs n m M1 c els.
Proof. by rewrite -map_comp. Qed.

Lemma refine_cont pm pm' : refine_premesh n m true M1 1 pm = inr pm' ->
  exists s, [/\ refine_facets n m (RState (pm_coords pm) [::]) (pm_elements pm) n (etcs n m M1 (pm_coords pm) (pm_elements pm))
                 = inr (s, pm_elements pm'),
     pm_coords pm' = rs_coords s, pm_parts pm' = pm_parts pm &
     exists s', refine_groups n m s (pm_groups pm) = inr (s', pm_groups pm') /\
       match pm_links pm, pm_links pm' with
       | Some ls, Some ls' => exists s'', refine_links n m s' ls = inr (s'', ls')
       | None, None => True
       | _, _ => False
       end].
Proof.
rewrite /refine_premesh /refine no_init_error /= /refine_elements /= etcsE.
case E : (refine_facets _ _ _ _ _ _) => [//|[s T]].
case G : (refine_groups _ _ _ _) => [//|[s' gs]].
case K : (pm_links pm) => [ls|]; last first.
  by case=> <-; exists s; split=> //; exists s'.
case E' : (refine_links _ _ _ _) => [//|[s'' ls']] [<-].
by exists s; split=> //; exists s'; split=> //; exists s''.
Qed.

Lemma refine_cont_ok pm : mesh_ok n (size (pm_coords pm)) (pm_elements pm) -> (0 < n)%N ->
  conforming n (pm_elements pm) ->
  (forall i l0, (i < size (pm_groups pm))%N -> flatten (nth (l0, [::]) (pm_groups pm) i).2 != [::]) ->
  (forall i l0 F, (i < size (pm_groups pm))%N -> F \in (nth (l0, [::]) (pm_groups pm) i).2 ->
     is_element_facet n (pm_elements pm) F) ->
  (forall ls l, pm_links pm = Some ls -> l \in ls ->
     is_element_facet n (pm_elements pm) l.1 /\ is_element_facet n (pm_elements pm) l.2) ->
  exists pm', refine_premesh n m true M1 1 pm = inr pm'.
Proof.
move=> mo n0 cf gne gf lf.
rewrite /refine_premesh /refine no_init_error /= /refine_elements /= etcsE.
have [[s T] E] := element_pass_ok M1 m2 mo cf; rewrite E.
have sz F : is_element_facet n (pm_elements pm) F -> size F = (2 ^ n.-1)%N.
  by move=> [j [ft [_ _ dft [g ok ->]]]]; rewrite size_map size_sym_table.
have [|gs ->] := @groups_pass_ok R V L n m s (pm_groups pm).
  move=> i l0 il; split; first exact: gne.
  apply: (plain_success m2 mo n0 E) => F Fin.
  have h := gf i l0 F il Fin; split=> //; exact: sz.
case K : (pm_links pm) => [ls|]; last by eexists.
rewrite /refine_links.
have [|A ->] := plain_success m2 mo n0 E (fs := [seq l.1 | l <- ls]).
  by move=> F /mapP[l ll ->]; have [h _] := lf _ _ K ll; split=> //; apply: sz.
have [|B ->] := plain_success m2 mo n0 E (fs := [seq l.2 | l <- ls]).
  by move=> F /mapP[l ll ->]; have [_ h] := lf _ _ K ll; split=> //; apply: sz.
by eexists.
Qed.
End Whole.

(** ** Discontinuous gridpoints *)
Section Discontinuous.
Variables (R : comRingType) (V : lmodType R) (L : Type).
Variables (n m : nat) (M1 : nat -> nat -> R).

Lemma reshape_iota a E len :
  reshape (nseq E len) [seq Posz k | k <- iota a (E * len)] =
  [seq [seq Posz k | k <- iota (a + j * len) len] | j <- iota 0 E].
Proof.
elim: E a => [|E IH] a //=.
rewrite mulSn iotaD map_cat take_size_cat ?size_map ?size_iota // drop_size_cat ?size_map ?size_iota //.
rewrite IH mul0n addn0 -[1%N]/(1 + 0)%N iotaDl -map_comp; congr cons; apply: eq_map => j /=.
by rewrite mulSn addnA.
Qed.

Lemma refine_disc (pm : premesh V L) : init_error n m = false ->
  refine_premesh n m false M1 1 pm = inr (Premesh
    (flatten [seq element_coords n m M1 (pm_coords pm) e | e <- pm_elements pm])
    [seq [seq Posz k | k <- iota (j * m ^ n) (m ^ n)] | j <- iota 0 (size (pm_elements pm))]
    [::] None (pm_parts pm)).
Proof.
move=> ie; rewrite /refine_premesh /refine ie /= /refine_elements /=.
have -> : size (flatten [seq element_coords n m M1 (pm_coords pm) e | e <- pm_elements pm]) = (size (pm_elements pm) * m ^ n)%N.
  rewrite size_flatten /shape -map_comp.
  have -> : [seq (size \o element_coords n m M1 (pm_coords pm)) e | e <- pm_elements pm] = nseq (size (pm_elements pm)) (m ^ n)%N.
    by elim: (pm_elements pm) => [|e es IH] //=; rewrite IH size_map size_grid.
  by rewrite sumn_nseq mulnC.
by rewrite reshape_iota; case: (pm_links pm).
Qed.

Lemma disc_coords (c : seq V) els j p : (j < size els)%N -> p \in grid m n ->
  nth 0 (flatten [seq element_coords n m M1 c e | e <- els]) (j * m ^ n + flat m p) =
  multilinear M1 n (fun a => at_ c (nth SENT (nth [::] els j) a)) p.
Proof.
move=> jl pg; rewrite -(element_coordsE M1 c (nth [::] els j) pg).
elim: els j jl => [|e els IH] [|j] //= jl; rewrite nth_cat size_map size_grid.
  by rewrite mul0n add0n flat_lt.
rewrite mulSn -addnA ltnNge leq_addr /= addKn; exact: IH.
Qed.
End Discontinuous.
