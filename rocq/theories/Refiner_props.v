(** Properties C23, C24, C25: mesh refinement. *)
From mathcomp Require Import all_ssreflect all_algebra zify.
From Verif Require Import PyDict_model PyDict_proofs Facet_model Facet_spec Facet_proofs Facet_proofs2
  GS_model Premesh_model Refiner_model Refiner_spec Refiner_proofs Refiner_proofs2 Refiner_proofs3 Refiner_proofs4
  Refiner_proofs5 Refiner_proofs6 Refiner_proofs7 Refiner_proofs8 Refiner_proofs9.
Set Implicit Arguments.
Unset Strict Implicit.
Unset Printing Implicit Defensive.
Import GRing.Theory.
Local Open Scope ring_scope.
Arguments refine_type : simpl never.

Section Props.
Variables (R : comRingType) (V : lmodType R) (L : Type).
Variables (n m : nat) (M1 : nat -> nat -> R).
Variables (pm pm' : premesh V L).
Notation els := (pm_elements pm).
Notation els' := (pm_elements pm').
Notation slot j p := (nth SENT (nth [::] els' j) (flat m p)).
Notation corners F := (fun a => at_ (pm_coords pm) (nth SENT F a)).

Hypothesis m2 : (2 <= m)%N.
Hypothesis n0 : (0 < n)%N.
Hypothesis mo : mesh_ok n (size (pm_coords pm)) els.

Section Continuous.
Hypothesis run : refine_premesh n m true M1 1 pm = inr pm'.

Theorem C23_structure :
  [/\ size els' = size els,
      (forall j, (j < size els)%N -> size (nth [::] els' j) = (m ^ n)%N),
      take (size (pm_coords pm)) (pm_coords pm') = pm_coords pm &
      pm_parts pm' = pm_parts pm] /\
  [/\ (forall j p, (j < size els)%N -> p \in grid m n ->
         exists2 x, (x < size (pm_coords pm'))%N & slot j p = Posz x),
      (forall j c, (j < size els)%N -> c \in grid 2 n ->
         slot j [seq (x * m.-1)%N | x <- c] = nth SENT (nth [::] els j) (flat 2 c)) &
      ((forall x, (x < size (pm_coords pm))%N -> exists2 e, e \in els & Posz x \in e) ->
       forall x, (x < size (pm_coords pm'))%N -> exists2 e, e \in els' & Posz x \in e)].
Proof.
have [s [E -> -> _]] := refine_cont m2 run.
by have [[h1 h2 h3] h4] := structure m2 mo E; split.
Qed.

Theorem C23_slots_distinct j : (j < size els)%N -> uniq (nth [::] els' j).
Proof. by have [s [E _ _ _]] := refine_cont m2 run; apply: (slots_uniq m2 mo E). Qed.

(** Two slots hold the same id only if they lie on facets with the same corners;
    nodes inside an element are never shared. *)
Theorem C23_sharing_only_on_common_facets j j' p p' :
  (j < size els)%N -> (j' < size els)%N -> p \in grid m n -> p' \in grid m n ->
  slot j p = slot j' p' ->
  perm_eq (facet (nth [::] els j) (type_of m p)) (facet (nth [::] els j') (type_of m p')) /\
  (facet_dim (type_of m p) = n -> j = j').
Proof.
have [s [E _ _ _]] := refine_cont m2 run.
move=> jl jl' pg pg' e; have [h1 h2] := sharing m2 mo E jl jl' pg pg' e; split=> //; exact: h2.
Qed.

(** Facets with the same corners get the same nodes. *)
Theorem C23_common_facets_shared j j' ft ft' :
  (j < size els)%N -> (j' < size els)%N -> size ft = n -> size ft' = n -> (facet_dim ft < n)%N ->
  perm_eq (facet (nth [::] els j) ft) (facet (nth [::] els j') ft') ->
  perm_eq (nd_take SENT m (nth [::] els' j) (slice_positions m true ft))
          (nd_take SENT m (nth [::] els' j') (slice_positions m true ft')).
Proof.
have [s [E _ _ _]] := refine_cont m2 run.
by move=> *; apply: (shared_rows m2 mo E).
Qed.

(** ** C24 *)
Hypothesis wok : weights_ok m M1.

Theorem C24_coordinates j p :
  ((m <= 3)%N \/ exchanging n els) -> (j < size els)%N -> p \in grid m n ->
  at_ (pm_coords pm') (slot j p) = multilinear M1 n (corners (nth [::] els j)) p.
Proof.
have [s [E -> _ _]] := refine_cont m2 run.
move=> ex jl pg; apply: (element_coords_ok m2 mo wok E) => // e ft el sft kn.
case: ex => [m3|ex]; [by left | right=> e' ft' el' sft' pf; exact: ex].
Qed.

Theorem C24_coordinates_low_dim j p :
  (n <= 2)%N -> (j < size els)%N -> p \in grid m n ->
  at_ (pm_coords pm') (slot j p) = multilinear M1 n (corners (nth [::] els j)) p.
Proof. by move=> n2; apply: C24_coordinates; right; apply: low_exchanging. Qed.

(** ** C25 *)
Theorem C25_groups_follow_facets :
  size (pm_groups pm') = size (pm_groups pm) /\
  forall i l0, (i < size (pm_groups pm))%N ->
    let g := nth (l0, [::]) (pm_groups pm) i in
    let g' := nth (l0, [::]) (pm_groups pm') i in
    [/\ g'.1 = g.1, size g'.2 = size g.2 &
     forall k, (k < size g.2)%N ->
       [/\ size (nth [::] g'.2 k) = (m ^ n.-1)%N,
        (forall j ft, (j < size els)%N -> size ft = n -> facet_dim ft = n.-1 ->
           oriented n.-1 (facet (nth [::] els j) ft) (nth [::] g.2 k) ->
           perm_eq (nth [::] g'.2 k) (nd_take SENT m (nth [::] els' j) (slice_positions m false ft))) &
        (is_element_facet n els (nth [::] g.2 k) -> ((m <= 3)%N \/ exchanging_facet n els (nth [::] g.2 k)) ->
         forall p, p \in grid m n.-1 ->
           at_ (pm_coords pm') (nth SENT (nth [::] g'.2 k) (flat m p)) = multilinear M1 n.-1 (corners (nth [::] g.2 k)) p)]].
Proof.
have [s [E -> _ [s' [G _]]]] := refine_cont m2 run.
have [_ sz h] := groups_pass m2 mo n0 E G; split=> // i l0 il g g'.
have [h1 _ P] := h i l0 il; rewrite -/g -/g' in h1 P.
have [_ sg] := plain_state m2 mo n0 E P; split=> // k kl.
have [ow [vs [I _ _ _ _]]] := element_pass m2 mo E.
have [_ _ pp] := plain_pass m2 mo n0 I P; split; first by have [] := pp k kl.
  by move=> j ft jl sft dft o; apply: (plain_nodes m2 mo n0 E P).
by move=> ief ex p pg; apply: (plain_coords m2 mo n0 E wok P).
Qed.

(** A facet (in two or more dimensions) that is refined is an element facet. *)
Theorem C25_only_element_facets :
  (1 < n)%N ->
  (forall i l0 F, (i < size (pm_groups pm))%N -> F \in (nth (l0, [::]) (pm_groups pm) i).2 ->
     size F = (2 ^ n.-1)%N -> is_element_facet n els F) /\
  (forall ls l, pm_links pm = Some ls -> l \in ls ->
     (size l.1 = (2 ^ n.-1)%N -> is_element_facet n els l.1) /\
     (size l.2 = (2 ^ n.-1)%N -> is_element_facet n els l.2)).
Proof.
have [s [E _ _ [s' [G K]]]] := refine_cont m2 run.
move=> n1; have [s'E _ h] := groups_pass m2 mo n0 E G; split.
  by move=> i l0 F il Fin sF; have [_ _ P] := h i l0 il; apply: (plain_is_facet m2 mo n0 E n1 P).
move=> ls l lsE ll; rewrite lsE s'E in K; case: (pm_links pm') K => // ls' [s'' K].
have [_ _ P1 P2] := links_pass m2 mo n0 E K.
split=> sl; [apply: (plain_is_facet m2 mo n0 E n1 P1) | apply: (plain_is_facet m2 mo n0 E n1 P2)] => //.
  by apply/mapP; exists l.
by apply/mapP; exists l.
Qed.

(** Both sides of a periodic link are refined position by position: if the
    corners of the second facet are those of the first moved by [t], so are all
    its nodes. *)
Theorem C25_links_paired ls :
  pm_links pm = Some ls ->
  exists2 ls', pm_links pm' = Some ls' &
    size ls' = size ls /\
    forall k, (k < size ls)%N ->
      let A := (nth ([::], [::]) ls k).1 in let B := (nth ([::], [::]) ls k).2 in
      let A' := (nth ([::], [::]) ls' k).1 in let B' := (nth ([::], [::]) ls' k).2 in
      [/\ size A' = (m ^ n.-1)%N, size B' = (m ^ n.-1)%N,
       (forall j ft, (j < size els)%N -> size ft = n -> facet_dim ft = n.-1 ->
          oriented n.-1 (facet (nth [::] els j) ft) A ->
          perm_eq A' (nd_take SENT m (nth [::] els' j) (slice_positions m false ft))),
       (forall j ft, (j < size els)%N -> size ft = n -> facet_dim ft = n.-1 ->
          oriented n.-1 (facet (nth [::] els j) ft) B ->
          perm_eq B' (nd_take SENT m (nth [::] els' j) (slice_positions m false ft))) &
       forall t,
         is_element_facet n els A -> is_element_facet n els B ->
         (m <= 3)%N \/ (exchanging_facet n els A /\ exchanging_facet n els B) ->
         (forall i, (i < m)%N -> M1 i 0%N + M1 i 1%N = 1) ->
         (forall a, (a < 2 ^ n.-1)%N -> corners B a = corners A a + t) ->
         forall p, p \in grid m n.-1 ->
           at_ (pm_coords pm') (nth SENT B' (flat m p)) = at_ (pm_coords pm') (nth SENT A' (flat m p)) + t].
Proof.
have [s [E -> _ [s' [G K]]]] := refine_cont m2 run.
have [s'E _ _] := groups_pass m2 mo n0 E G.
move=> lsE; rewrite lsE s'E in K; case: (pm_links pm') K => // ls' [s'' K]; exists ls' => //.
have [_ sz P1 P2] := links_pass m2 mo n0 E K; split=> // k kl A B A' B'.
have [ow [vs [I _ _ _ _]]] := element_pass m2 mo E.
have k1 : (k < size [seq l.1 | l <- ls])%N by rewrite size_map.
have k2 : (k < size [seq l.2 | l <- ls])%N by rewrite size_map.
have aE : nth [::] [seq l.1 | l <- ls] k = A by rewrite (nth_map ([::], [::])).
have bE : nth [::] [seq l.2 | l <- ls] k = B by rewrite (nth_map ([::], [::])).
have aE' : nth [::] [seq l.1 | l <- ls'] k = A' by rewrite (nth_map ([::], [::])) ?sz.
have bE' : nth [::] [seq l.2 | l <- ls'] k = B' by rewrite (nth_map ([::], [::])) ?sz.
have [_ _ pp1] := plain_pass m2 mo n0 I P1; have [_ _ pp2] := plain_pass m2 mo n0 I P2.
split.
- by have [] := pp1 k k1; rewrite aE'.
- by have [] := pp2 k k2; rewrite bE'.
- by move=> j ft jl sft dft o; rewrite -aE'; apply: (plain_nodes m2 mo n0 E P1); rewrite ?aE.
- by move=> j ft jl sft dft o; rewrite -bE'; apply: (plain_nodes m2 mo n0 E P2); rewrite ?bE.
move=> t fa fb ex ws tr p pg.
have ca := plain_coords m2 mo n0 E wok P1 k1; rewrite aE aE' in ca.
have cb := plain_coords m2 mo n0 E wok P2 k2; rewrite bE bE' in cb.
have exA : (m <= 3)%N \/ exchanging_facet n els A by case: ex => [|[]]; [left|right].
have exB : (m <= 3)%N \/ exchanging_facet n els B by case: ex => [|[]]; [left|right].
rewrite (ca p fa exA pg) (cb p fb exB pg).
exact: (multilinear_translate ws).
Qed.
End Continuous.

Theorem C23_refinement_succeeds :
  conforming n els ->
  (forall i l0, (i < size (pm_groups pm))%N -> flatten (nth (l0, [::]) (pm_groups pm) i).2 != [::]) ->
  (forall i l0 F, (i < size (pm_groups pm))%N -> F \in (nth (l0, [::]) (pm_groups pm) i).2 ->
     is_element_facet n els F) ->
  (forall ls l, pm_links pm = Some ls -> l \in ls -> is_element_facet n els l.1 /\ is_element_facet n els l.2) ->
  exists pm2, refine_premesh n m true M1 1 pm = inr pm2.
Proof. exact: refine_cont_ok. Qed.
End Props.

(** In one and two dimensions every mesh is conforming, and a facet with the
    corners of an element facet is an element facet. *)
Theorem C23_low_dim_conforming n (els : seq (seq int)) : (n <= 2)%N -> conforming n els /\ exchanging n els.
Proof. by move=> n2; split; [apply: low_conforming | apply: low_exchanging]. Qed.

Theorem C23_order_rejected (R : comRingType) (V : lmodType R) (L : Type) n m cont (M1 : nat -> nat -> R) order (pm : premesh V L) :
  order <> 1%N -> refine_premesh n m cont M1 order pm = inl RValueError.
Proof. by move/eqP=> h; rewrite /refine_premesh h. Qed.

(** Discontinuous gridpoints: elements get disjoint blocks of new nodes; groups
    and links are dropped. *)
Theorem C23_discontinuous (R : comRingType) (V : lmodType R) (L : Type) n m (M1 : nat -> nat -> R) (pm : premesh V L) :
  ~ (m = 1%N /\ (3 <= n)%N) ->
  exists2 pm', refine_premesh n m false M1 1 pm = inr pm' &
  [/\ size (pm_coords pm') = (size (pm_elements pm) * m ^ n)%N,
      size (pm_elements pm') = size (pm_elements pm),
      (forall j p, (j < size (pm_elements pm))%N -> p \in grid m n ->
         nth SENT (nth [::] (pm_elements pm') j) (flat m p) = Posz (j * m ^ n + flat m p)),
      (forall j p, (j < size (pm_elements pm))%N -> p \in grid m n ->
         at_ (pm_coords pm') (nth SENT (nth [::] (pm_elements pm') j) (flat m p)) =
         multilinear M1 n (fun a => at_ (pm_coords pm) (nth SENT (nth [::] (pm_elements pm) j) a)) p) &
      pm_groups pm' = [::] /\ pm_links pm' = None].
Proof.
move=> h; have ie : init_error n m = false by apply/negbTE; apply/negP => /andP[/eqP a b]; apply: h.
rewrite (refine_disc M1 pm ie); eexists; first by [].
have sl j p : (j < size (pm_elements pm))%N -> p \in grid m n ->
   nth SENT (nth [::] [seq [seq Posz k | k <- iota (j * m ^ n) (m ^ n)] | j <- iota 0 (size (pm_elements pm))] j) (flat m p)
   = Posz (j * m ^ n + flat m p).
  move=> jl pg; rewrite (nth_map 0%N) ?size_iota // nth_iota // add0n.
  by rewrite (nth_map 0%N) ?size_iota ?flat_lt // nth_iota ?flat_lt.
split=> //=.
- rewrite size_flatten /shape -map_comp.
  have -> : [seq (size \o element_coords n m M1 (pm_coords pm)) e | e <- pm_elements pm] = nseq (size (pm_elements pm)) (m ^ n)%N.
    by elim: (pm_elements pm) => [|e es IH] //=; rewrite IH size_map size_grid.
  by rewrite sumn_nseq mulnC.
- by rewrite size_map size_iota.
by move=> j p jl pg; rewrite sl //; exact: disc_coords.
Qed.

(** One gridpoint per direction in three or more dimensions is rejected. *)
Theorem C23_single_gridpoint_rejected (R : comRingType) (V : lmodType R) (L : Type) n cont (M1 : nat -> nat -> R) (pm : premesh V L) :
  (3 <= n)%N -> refine_premesh n 1 cont M1 1 pm = inl RValueError.
Proof. by move=> n3; rewrite /refine_premesh /refine /init_error n3. Qed.

Theorem C25_empty_group_rejected (R : comRingType) (V : lmodType R) (L : Type) n m (M1 : nat -> nat -> R) (pm : premesh V L) i l0 :
  (2 <= m)%N -> (0 < n)%N -> mesh_ok n (size (pm_coords pm)) (pm_elements pm) ->
  (i < size (pm_groups pm))%N -> flatten (nth (l0, [::]) (pm_groups pm) i).2 = [::] ->
  exists e, refine_premesh n m true M1 1 pm = inl e.
Proof.
move=> m2 n0 mo il fl; case E : (refine_premesh _ _ _ _ _ _) => [e|pm']; first by exists e.
have [s [E1 _ _ [s' [G _]]]] := refine_cont m2 E.
by have [_ _ /(_ i l0 il)[_]] := groups_pass m2 mo n0 E1 G; rewrite fl.
Qed.

Theorem C25_empty_group_value_error (R : comRingType) (V : lmodType R) (L : Type) n m (M1 : nat -> nat -> R) (pm : premesh V L) l gs :
  (2 <= m)%N -> (0 < n)%N -> mesh_ok n (size (pm_coords pm)) (pm_elements pm) -> conforming n (pm_elements pm) ->
  pm_groups pm = (l, [::]) :: gs -> refine_premesh n m true M1 1 pm = inl RValueError.
Proof.
move=> m2 n0 mo cf gE; rewrite /refine_premesh /refine (no_init_error n m2) /= /refine_elements /= etcsE.
by have [[s T] ->] := element_pass_ok M1 m2 mo cf; rewrite gE.
Qed.

Theorem C24_linear_weights (K : fieldType) m (x : nat -> K) : 2%:R != 0 :> K -> (0 < m)%N ->
  x 0%N = -1 -> (forall i, (i < m)%N -> x (m.-1 - i)%N = - x i) ->
  weights_ok m (linear_weights x) /\ forall i, linear_weights x i 0 + linear_weights x i 1 = 1.
Proof. by move=> t0 m0 x0 xs; split; [apply: linear_weights_ok | move=> i; apply: linear_weights_sum]. Qed.

(** ** Two unit cubes, the second one turned by a quarter about the common axis *)
Definition ex_V := [lmodType rat of (rat^o * rat^o * rat^o)%type].
Definition ex_coords : seq ex_V :=
  [seq ((p %/ 4)%:R, (p %/ 2 %% 2)%:R, (p %% 2)%:R) | p <- iota 0 12].
Definition ex_els : seq (seq int) :=
  [:: [seq Posz k | k <- iota 0 8]; [seq Posz k | k <- [:: 5; 7; 4; 6; 9; 11; 8; 10]]]%N.
Definition ex_x (i : nat) : rat := (2%:R * i%:R - 3%:R) / 3%:R.
Definition ex_w : nat -> nat -> rat := linear_weights ex_x.
Definition ex_link : link := ([seq Posz k | k <- [:: 0; 1; 2; 3]], [seq Posz k | k <- [:: 8; 9; 10; 11]])%N.
Definition ex_pm (links : option (seq link)) : premesh ex_V nat := Premesh ex_coords ex_els [::] links None.

Lemma ex_ok : mesh_ok 3 (size ex_coords) ex_els. Proof. by apply: mesh_okP. Qed.
Lemma ex_conforming : conforming 3 ex_els. Proof. by apply: (conformingP ex_ok); vm_compute. Qed.
Lemma ex_weights : weights_ok 4 ex_w.
Proof. by apply: linear_weights_ok => // -[|[|[|[|]]]]. Qed.

(** Interpolation written with lists only, so that it computes. *)
Definition interp_c k (F : seq int) p : ex_V :=
  foldr (fun c a => kron_entry ex_w p c *: at_ ex_coords (nth SENT F (flat 2 c)) + a) 0 (grid 2 k).
Lemma interp_cE k F p : size p = k -> interp_c k F p = multilinear ex_w k (fun a => at_ ex_coords (nth SENT F a)) p.
Proof. by move=> sp; rewrite mlinE // /interp_c foldr_sum. Qed.

Theorem C24_quarter_turn_refuted :
  exists (pm : premesh ex_V nat) pm' j p,
    [/\ mesh_ok 3 (size (pm_coords pm)) (pm_elements pm), conforming 3 (pm_elements pm), weights_ok 4 ex_w &
        refine_premesh 3 4 true ex_w 1 pm = inr pm'] /\
    [/\ (j < size (pm_elements pm))%N, p \in grid 4 3 &
      at_ (pm_coords pm') (nth SENT (nth [::] (pm_elements pm') j) (flat 4 p)) <>
      multilinear ex_w 3 (fun a => at_ (pm_coords pm) (nth SENT (nth [::] (pm_elements pm) j) a)) p].
Proof.
have [pm' E] : exists pm', refine_premesh 3 4 true ex_w 1 (ex_pm None) = inr pm'.
  apply: (@C23_refinement_succeeds _ _ _ 3 4 ex_w (ex_pm None) isT isT ex_ok ex_conforming); last 1 first.
  - by move=> ls l.
  - by [].
  - by [].
suff bad : at_ (pm_coords pm') (nth SENT (nth [::] (pm_elements pm') 0) (flat 4 [:: 3; 1; 1]%N)) <>
      multilinear ex_w 3 (fun a => at_ ex_coords (nth SENT (nth [::] ex_els 0) a)) [:: 3; 1; 1]%N.
  have pg : [:: 3; 1; 1]%N \in grid 4 3 by vm_compute.
  exact (ex_intro _ (ex_pm None) (ex_intro _ pm' (ex_intro _ 0%N (ex_intro _ [:: 3; 1; 1]%N
    (conj (And4 ex_ok ex_conforming ex_weights E) (And3 isT pg bad)))))).
rewrite -(interp_cE (nth [::] ex_els 0) (erefl : size [:: 3; 1; 1]%N = 3%N)).
apply/eqP.
have : (if refine_premesh 3 4 true ex_w 1 (ex_pm None) is inr q then
  at_ (pm_coords q) (nth SENT (nth [::] (pm_elements q) 0%N) (flat 4 [:: 3; 1; 1]%N)) != interp_c 3 (nth [::] ex_els 0) [:: 3; 1; 1]%N else false).
  by vm_compute.
by rewrite E.
Qed.

Theorem C25_link_quarter_turn_refuted :
  exists (pm : premesh ex_V nat) ls pm' ls' t p,
    let A := (nth ([::], [::]) ls 0).1 in let B := (nth ([::], [::]) ls 0).2 in
    let A' := (nth ([::], [::]) ls' 0).1 in let B' := (nth ([::], [::]) ls' 0).2 in
    [/\ mesh_ok 3 (size (pm_coords pm)) (pm_elements pm), conforming 3 (pm_elements pm), weights_ok 4 ex_w,
        pm_links pm = Some ls & is_element_facet 3 (pm_elements pm) A /\ is_element_facet 3 (pm_elements pm) B] /\
    [/\ (forall a, (a < 4)%N -> at_ (pm_coords pm) (nth SENT B a) = at_ (pm_coords pm) (nth SENT A a) + t),
        refine_premesh 3 4 true ex_w 1 pm = inr pm', pm_links pm' = Some ls', p \in grid 4 2 &
        at_ (pm_coords pm') (nth SENT B' (flat 4 p)) <> at_ (pm_coords pm') (nth SENT A' (flat 4 p)) + t].
Proof.
have fA : is_element_facet 3 ex_els ex_link.1.
  exists 0%N, [:: FIRST; INNER; INNER]; split=> //; apply: orientedP => //; by vm_compute.
have fB : is_element_facet 3 ex_els ex_link.2.
  exists 1%N, [:: LAST; INNER; INNER]; split=> //; apply: orientedP => //; by vm_compute.
have [pm' E] : exists pm', refine_premesh 3 4 true ex_w 1 (ex_pm (Some [:: ex_link])) = inr pm'.
  apply: (@C23_refinement_succeeds _ _ _ 3 4 ex_w (ex_pm (Some [:: ex_link])) isT isT ex_ok ex_conforming); last 1 first.
  - by move=> ls l [<-]; rewrite inE => /eqP->; split; [exact: fA | exact: fB].
  - by [].
  - by [].
have [ls' K _] := @C25_links_paired _ _ _ 3 4 ex_w (ex_pm (Some [:: ex_link])) pm' isT isT ex_ok E ex_weights [:: ex_link] erefl.
suff bad : at_ (pm_coords pm') (nth SENT (nth ([::], [::]) ls' 0).2 (flat 4 [:: 1; 1]%N)) <>
    at_ (pm_coords pm') (nth SENT (nth ([::], [::]) ls' 0).1 (flat 4 [:: 1; 1]%N)) + (2%:R, 0, 0).
  have pg : [:: 1; 1]%N \in grid 4 2 by vm_compute.
  have tr a : (a < 4)%N -> at_ ex_coords (nth SENT ex_link.2 a) = at_ ex_coords (nth SENT ex_link.1 a) + (2%:R, 0, 0).
    by case: a => [|[|[|[|]]]] // _; apply/eqP; vm_compute.
  exact (ex_intro _ (ex_pm (Some [:: ex_link])) (ex_intro _ [:: ex_link] (ex_intro _ pm' (ex_intro _ ls'
    (ex_intro _ (2%:R, 0, 0) (ex_intro _ [:: 1; 1]%N
    (conj (And5 ex_ok ex_conforming ex_weights erefl (conj fA fB)) (And5 tr E K pg bad)))))))).
apply/eqP.
have : (if refine_premesh 3 4 true ex_w 1 (ex_pm (Some [:: ex_link])) is inr q then
  if pm_links q is Some ls then
    at_ (pm_coords q) (nth SENT (nth ([::], [::]) ls 0).2 (flat 4 [:: 1; 1]%N)) !=
    at_ (pm_coords q) (nth SENT (nth ([::], [::]) ls 0).1 (flat 4 [:: 1; 1]%N)) + (2%:R, 0, 0) else false else false).
  by vm_compute.
by rewrite E K.
Qed.

(** With three gridpoints the same mesh satisfies the hypotheses of the positive
    theorems and the node in the middle of the common face is shared. *)
Example ex_three_points :
  (if refine_premesh 3 3 true (linear_weights (fun i => i%:R - 1)) 1 (ex_pm (Some [:: ex_link])) is inr q then
     [&& nth SENT (nth [::] (pm_elements q) 0%N) (flat 3 [:: 2; 1; 1]%N) == nth SENT (nth [::] (pm_elements q) 1%N) (flat 3 [:: 0; 1; 1]%N),
         at_ (pm_coords q) (nth SENT (nth [::] (pm_elements q) 0%N) (flat 3 [:: 2; 1; 1]%N)) == (1, 1 / 2%:R, 1 / 2%:R) :> ex_V,
         size (pm_coords q) == 45%N &
         if pm_links q is Some [:: (a, b)] then (size a == 9%N) && (size b == 9%N) else false]
   else false).
Proof. by vm_compute. Qed.

(** A two-dimensional mesh with an edge listed in opposite directions. *)
Definition ex2_pm : premesh [lmodType rat of rat^o] nat :=
  Premesh [seq (k%:R : rat^o) | k <- iota 0 6] [:: [seq Posz k | k <- [:: 0; 1; 2; 3]]; [seq Posz k | k <- [:: 3; 2; 4; 5]]]%N
    [:: (7%N, [:: [seq Posz k | k <- [:: 0; 1]]]); (8%N, [:: [seq Posz k | k <- [:: 3; 2]]])]%N None None.
Example ex2_run :
  (if refine_premesh 2 4 true ex_w 1 ex2_pm is inr q then
     (size (pm_coords q) == 28%N) &&
     (pm_groups q == [:: (7%N, [:: [seq Posz k | k <- [:: 0; 6; 7; 1]]]);
                         (8%N, [:: nd_take SENT 4 (nth [::] (pm_elements q) 1%N) (slice_positions 4 false [:: FIRST; INNER])])]%N)
   else false).
Proof. by vm_compute. Qed.

Print Assumptions C23_structure.
Print Assumptions C23_slots_distinct.
Print Assumptions C23_sharing_only_on_common_facets.
Print Assumptions C23_common_facets_shared.
Print Assumptions C23_refinement_succeeds.
Print Assumptions C23_low_dim_conforming.
Print Assumptions C23_order_rejected.
Print Assumptions C23_discontinuous.
Print Assumptions C23_single_gridpoint_rejected.
Print Assumptions C24_coordinates.
Print Assumptions C24_coordinates_low_dim.
Print Assumptions C24_linear_weights.
Print Assumptions C24_quarter_turn_refuted.
Print Assumptions C25_groups_follow_facets.
Print Assumptions C25_only_element_facets.
Print Assumptions C25_links_paired.
Print Assumptions C25_empty_group_rejected.
Print Assumptions C25_empty_group_value_error.
Print Assumptions C25_link_quarter_turn_refuted.
