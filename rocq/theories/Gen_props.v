(** C82: the numerics of the data generator (niles/datagen/datagen.py), modelled in
    [Gen_model]. *)
From Coq Require List.
From mathcomp Require Import all_ssreflect all_algebra polyrcf zify ring.
From Verif Require Import PyDict_model PyDict_proofs Facet_model Facet_spec Facet_proofs GS_model GS_proofs GS_props Interp_model Interp_spec Lagrange_proofs.
From Verif Require Import Legendre_proofs Gauss_proofs2 Interp_proofs2 Tensor_proofs Interp_props FES_model FES_proofs FES_proofs2 FES_props FES_props2 Premesh_model.
From Verif Require Import Refiner_model Refiner_spec UnitCube_model UnitCube_spec UnitCube_proofs UnitCube_proofs2 UnitCube_proofs3 UnitCube_props UnitCube_refine UnitCube_links.
From Verif Require Import CG_model CG_proofs CG_props TimeCoef_model TimeCoef_props Stokes_model Stokes_spec Stokes_proofs Stokes_proofs2 Stokes_proofs3.
From Verif Require Import Stokes_create Stokes_create2 Stokes_create3 Stokes_proofs4 Stokes_create4 Stokes_momentum Stokes_props Stokes_props2 Stokes_family Stokes_instance Stokes_props3 Stokes_props4.
From Verif Require Import Tensor_nodal Unisolvent_proofs Tensor_parts Stokes_cube Stokes_props5 Stokes_props6 Flow_props Steady_props Patch_props.
From Verif Require Import Poly_proofs Poly_props Pipeline_model NS_model NS_props.
From Verif Require Import Datagen_model Datagen_props.
From Verif Require Import Gen_model.
Set Implicit Arguments.
Unset Strict Implicit.
Unset Printing Implicit Defensive.
Import Order.TTheory GRing.Theory Num.Theory.
Local Open Scope ring_scope.

(** ** The smallest distance of two nodes of an element *)
Section Least.
Variables (R : rcfType) (d : nat).
Definition is_least (P : R -> Prop) (o : option R) : Prop :=
  if o is Some r then P r /\ forall x, P x -> r <= x else forall x, ~ P x.
Lemma least_ext (P Q : R -> Prop) o : (forall x, P x <-> Q x) -> is_least P o -> is_least Q o.
Proof.
move=> e; case: o => [r [h1 h2]|h] /=; first by split=> [|x /e]; [apply/e|exact: h2].
by move=> x /e; exact: h.
Qed.
Lemma least_emin (P Q : R -> Prop) o1 o2 : is_least P o1 -> is_least Q o2 -> is_least (fun x => P x \/ Q x) (emin o1 o2).
Proof.
case: o1 => [r|] /=; case: o2 => [t|] /= h1 h2; last by move=> x [/h1|/h2].
- split; first by case: leP => _; [left; case: h1|right; case: h2].
  by move=> x [/h1.2|/h2.2] h; rewrite le_minl h ?orbT.
- by split=> [|x [/h1.2|/h2]] //; left; case: h1.
by split=> [|x [/h1|/h2.2]] //; right; case: h2.
Qed.
Lemma least_foldr (l : seq (option R)) : is_least (fun x => Some x \in l) (foldr (@emin R) None l).
Proof.
elim: l => [|o l IH] //=; apply: (least_ext _ (least_emin (P := fun x => Some x = o) _ IH)) => [x|].
  by rewrite inE; split=> [[->|->]|/orP[/eqP|]]; rewrite ?eqxx ?orbT; [| |left|right].
by case: o => [r|] //=; split=> // x [->].
Qed.
(** [compute_dx] is the smallest distance of two different nodes of one element,
    infinity when there are none. *)
Definition pair_distance (m : FES_model.mesh R d) (x : R) : Prop := exists e i j,
  [/\ (e < FES_model.num_elements m)%N, (i < m_per_element m)%N, (j < m_per_element m)%N, i <> j & x = Gen_model.distance (FES_model.element_coords m e i) (FES_model.element_coords m e j)].
Lemma pairwiseP (m : FES_model.mesh R d) e x : Some x \in pairwise m e <-> exists i j,
  [/\ (i < m_per_element m)%N, (j < m_per_element m)%N, i <> j & x = Gen_model.distance (FES_model.element_coords m e i) (FES_model.element_coords m e j)].
Proof.
split=> [/allpairsP[[i j] [/= hi hj]]|[i [j [hi hj ij ->]]]].
  by case: eqP => // ij [->]; exists i, j; rewrite !mem_iota in hi hj; split=> //; lia.
by apply/allpairsP; exists (i, j); rewrite !mem_iota /= hi hj; split=> //; case: eqP.
Qed.
Theorem C82_least (m : FES_model.mesh R d) : is_least (pair_distance m) (compute_dx m).
Proof.
have H N : is_least (fun x => exists2 e, (e < N)%N & Some x \in pairwise m e)
    (foldl (fun dx e => emin dx (foldr (@emin R) None (pairwise m e))) None (iota 0 N)).
  elim: N => [|N IH]; first by move=> x [].
  rewrite -[N.+1]addn1 iotaD foldl_cat /= add0n; apply: (least_ext _ (least_emin IH (least_foldr _))) => x.
  split=> [[[e h1 h2]|h]|[e h1 h2]]; [by exists e; [lia|]|by exists N; [lia|]|].
  by case: (ltngtP e N) => h; [left; exists e|lia|right; rewrite -h].
apply: (least_ext _ (H _)) => x; split=> [[e h1 /pairwiseP[i [j [h2 h3 h4 h5]]]]|[e [i [j [h1 h2 h3 h4 h5]]]]].
  by exists e, i, j.
by exists e => //; apply/pairwiseP; exists i, j.
Qed.
End Least.

(** ** Trajectories of a scheme that never fails *)
Lemma trajectory (E U P C : Type) (K : nat) (adv : U -> C) (solve : seq U -> seq P -> seq C -> E + (U * P)) (good : seq U -> seq P -> Prop) u0 p0 :
  (0 < K)%N -> good (nseq K u0) (nseq K p0) ->
  (forall us ps, good us ps -> exists u p, solve us ps [seq adv v | v <- us] = inr (u, p) /\ good (push us u) (push ps p)) ->
  exists u p, [/\ (forall i, (i < K)%N -> u i = u0 /\ p i = p0), (forall k, good (Datagen_props.history K u k) (Datagen_props.history K p k)) &
    forall k, solve (Datagen_props.history K u k) (Datagen_props.history K p k) [seq adv v | v <- Datagen_props.history K u k] = inr (u (k + K)%N, p (k + K)%N)].
Proof.
move=> K0 g0 step.
pose next (x : seq U * seq P) : U * P := if solve x.1 x.2 [seq adv v | v <- x.1] is inr y then y else (u0, p0).
pose st := fix st k := if k is k'.+1 then (push (st k').1 (next (st k')).1, push (st k').2 (next (st k')).2) else (nseq K u0, nseq K p0).
pose u i := if (i < K)%N then u0 else (next (st (i - K)%N)).1.
pose p i := if (i < K)%N then p0 else (next (st (i - K)%N)).2.
have uK k : u (k + K)%N = (next (st k)).1 by rewrite /u ltnNge leq_addl addnK.
have pK k : p (k + K)%N = (next (st k)).2 by rewrite /p ltnNge leq_addl addnK.
have hE k : st k = (Datagen_props.history K u k, Datagen_props.history K p k).
  elim: k => [|k IH]; last by rewrite /= -uK -pK IH /= !push_history.
  have const (T : Type) (x : nat -> T) z : (forall i, (i < K)%N -> x i = z) -> Datagen_props.history K x 0 = nseq K z.
    move=> xc; apply: (@eq_from_nth _ z); rewrite size_map size_iota ?size_nseq // => i iK.
    by rewrite (nth_map 0%N) ?size_iota // nth_iota // add0n nth_nseq iK xc.
  by rewrite (const _ _ u0) ?(const _ _ p0) // => i iK; rewrite /u /p iK.
have sg k : good (st k).1 (st k).2 /\ solve (st k).1 (st k).2 [seq adv v | v <- (st k).1] = inr (next (st k)).
  elim: k => [|k [gk sk]].
    have [v [q [e _]]] := step _ _ g0; split=> //; by rewrite /next /= e.
  have [v [q [e1 g1]]] := step _ _ gk; rewrite sk in e1; case: e1 => e1.
  have -> : st k.+1 = (push (st k).1 v, push (st k).2 q) by rewrite /= e1.
  have [w [r [e2 _]]] := step _ _ g1; split=> //.
  by rewrite /next /= e2.
exists u, p; split=> [i iK|k|k]; first by rewrite /u /p iK.
  by have [] := sg k; rewrite hE.
by have [_] := sg k; rewrite uK pK hE => ->; case: (next _).
Qed.

Section Cube.
Variables (R : rcfType) (d : nat) (eps : R) (inv : 'M[R]_d -> 'M[R]_d) (L : eqType) (BCV : Type).
Hypothesis inv_ok : forall J : 'M[R]_d, J \in unitmx -> inv J = invmx J.
Variables (lbl : L) (n : nat) (a b : R) (pd : seq nat) (pm : premesh [lmodType R of 'rV[R]_d] L).
Hypotheses (d0 : (0 < d)%N) (n0 : (0 < n)%N) (ab : a < b).
Hypothesis gen : unit_cube_mesh d lbl n a b pd None = inr pm.
Variables (pg : nodes1d R) (tp : node_type).
Hypotheses (hpg : nodes1d_create R 2 tp = inr pg) (cpg : is_continuous pg).
Variables (order overint : nat) (bcs : seq (L * (bctype * BCV))) (s : sem R d).
Hypothesis hs : sem_create eps inv (refined_mesh pg pm) 1 order bcs overint = inr s.
Hypothesis o2 : (2 < order)%N.
Notation vel := (s_velocity s).
Notation nv := (nv s).
Notation np := (np s).
Notation m := order.+1.
Notation vfield := (seq (seq R)).
Notation conforming := (conforming s).
Notation nd := (nd n order s).
Notation h := ((b - a) / n%:R).
Notation position c p := (UnitCube_refine.global m c p).
Let o0 : (0 < order)%N. Proof. by clear -o2; lia. Qed.
Let hh : 0 < h / 2%:R. Proof. by rewrite !divr_gt0 ?subr_gt0 ?ltr0n. Qed.

(** On a generated cube it is half the edge of an element times the smallest gap of the
    Gauss-Lobatto points. *)
Theorem C82_dx (gv : nodes1d R) : nodes1d_create R m GAUSS_LOBATTO_LEGENDRE = inr gv ->
  let gap k := nth 0 (nd_values gv) k.+1 - nth 0 (nd_values gv) k in
  exists k, [/\ (k < order)%N, compute_dx (v_mesh vel) = Some (h / 2%:R * gap k), 0 < h / 2%:R * gap k & forall l, (l < order)%N -> gap k <= gap l].
Proof.
move=> hgv gap.
have [gp [gv' [rp [rv [quad [M [pm' [cf hM run rvE]]]]]]]] := cube_made d0 n0 ab gen hpg cpg hs.
have gE : gv' = gv by have := cf_gv cf; rewrite hgv => -[].
rewrite gE {gv' gE} in cf hM run rvE *.
have [so sz _ _] : [/\ sorted <%R (nd_values gv), size (nd_values gv) = m, is_continuous gv & True].
  by move: (hgv); rewrite -(prednK o0) => /C33_lobatto_nodes[].
have xs (k l : nat) : (k < l)%N -> (l < m)%N -> nth 0 (nd_values gv) k < nth 0 (nd_values gv) l.
  by move=> kl lo; apply: (sorted_ltn_nth lt_trans) => //; rewrite inE ?sz // (ltn_trans kl).
have gap0 k : (k < order)%N -> 0 < gap k by move=> ko; rewrite subr_gt0 xs.
have [k ko kmin] : exists2 k, (k < order)%N & forall l, (l < order)%N -> gap k <= gap l.
  have : forall N, (0 < N)%N -> exists2 k, (k < N)%N & forall l, (l < N)%N -> gap k <= gap l.
    elim=> [|[|N] IH] // _; first by exists 0%N => // -[].
    have [k kN km] := IH isT; case: (leP (gap k) (gap N.+1)) => hk.
      by exists k => [|l]; [lia|rewrite ltnS leq_eqVlt => /orP[/eqP->|/km]].
    exists N.+1 => // l; rewrite ltnS leq_eqVlt => /orP[/eqP->|/km] //; exact: le_trans (ltW hk).
  by move/(_ _ o0).
exists k; have dk : 0 < h / 2%:R * gap k by rewrite mulr_gt0 ?gap0.
split=> //.
have [cE eE pE grE] := feE (ltn0Sn _) (cf_gv cf) (cf_vm cf).
have nE : FES_model.num_elements (v_mesh vel) = (n ^ d)%N := fe_num (ltn0Sn _) (cf_gv cf) (cf_rv cf) (cf_vm cf).
have cE' e i c p : c \in grid n d -> p \in grid m d -> e = flat n c -> i = flat m p ->
    forall j : 'I_d, FES_model.element_coords (v_mesh vel) e i 0 j = a + ((nth 0%N c j)%:R + 2%:R^-1) * h + h / 2%:R * nth 0 (nd_values gv) (nth 0%N p j).
  move=> cg pg1 -> -> j; rewrite (fe_coords (ltn0Sn _) (cf_gv cf) (cf_rv cf) (cf_vm cf)) ?flat_lt // mxE (point_nd cf pg1) (cube_map gen) //; last first.
    by rewrite size_map (size_grid_in pg1).
  by rewrite cell_mapE (nth_map 0%N) ?(size_grid_in pg1).
have sur N x : (x < N ^ d)%N -> exists2 c, c \in grid N d & x = flat N c.
  by move=> hx; have : x \in iota 0 (N ^ d) by [rewrite mem_iota]; rewrite -map_flat_grid => /mapP[c cg ->]; exists c.
have dE e i l c p q : c \in grid n d -> p \in grid m d -> q \in grid m d -> e = flat n c -> i = flat m p -> l = flat m q ->
    Gen_model.distance (FES_model.element_coords (v_mesh vel) e i) (FES_model.element_coords (v_mesh vel) e l) =
    h / 2%:R * Num.sqrt (\sum_(j < d) (nth 0 (nd_values gv) (nth 0%N p j) - nth 0 (nd_values gv) (nth 0%N q j)) ^+ 2).
  move=> cg pg1 qg e1 e2 e3; rewrite /Gen_model.distance.
  rewrite (eq_bigr (fun j : 'I_d => (h / 2%:R) ^+ 2 * (nth 0 (nd_values gv) (nth 0%N p j) - nth 0 (nd_values gv) (nth 0%N q j)) ^+ 2)) => [|j _]; last first.
    by rewrite (cE' _ _ _ _ cg pg1 e1 e2) (cE' _ _ _ _ cg qg e1 e3) -exprMn mulrBr opprD addrACA subrr add0r.
  by rewrite -mulr_sumr sqrtrM ?sqr_ge0 // sqrtr_sqr gtr0_norm.
have least := C82_least (v_mesh vel).
have att : pair_distance (v_mesh vel) (h / 2%:R * gap k).
  pose c := nseq d 0%N; pose p := k.+1 :: nseq d.-1 0%N; pose q := k :: nseq d.-1 0%N.
  have cg : c \in grid n d by rewrite mem_grid size_nseq eqxx all_nseq n0 orbT.
  have pg1 : p \in grid m d by rewrite mem_grid /= size_nseq prednK // eqxx all_nseq orbT andbT ltnS.
  have qg : q \in grid m d by rewrite mem_grid /= size_nseq prednK // eqxx all_nseq orbT andbT /= ltnS ltnW.
  exists (flat n c), (flat m p), (flat m q); rewrite nE pE !flat_lt //; split=> //.
    by move=> /(flat_inj pg1 qg) -[] /esym; apply: n_Sn.
  rewrite (dE _ _ _ _ _ _ cg pg1 qg) //; congr (_ * _).
  rewrite (bigD1 (Ordinal d0)) //= big1 ?addr0 => [|j j0]; first by rewrite sqrtr_sqr gtr0_norm ?gap0.
  have jn : (0 < j)%N by rewrite lt0n; move: j0; rewrite -val_eqE.
  by rewrite -(prednK jn) /= subrr expr0n.
case E : (compute_dx _) least => [r|] /=; last by move=> /(_ _ att).
move=> [[e [i [l [he hi hl il rE]]]] /(_ _ att) le1]; congr Some; apply: le_anti; rewrite le1 /=.
rewrite nE in he; rewrite pE in hi hl; have [c cg ce] := sur _ _ he; have [p pg1 pe] := sur _ _ hi; have [q qg qe] := sur _ _ hl.
rewrite rE (dE _ _ _ _ _ _ cg pg1 qg) // ler_pmul2l //.
have [j pq] : exists j : 'I_d, nth 0%N p j <> nth 0%N q j.
  have [/existsP[j /eqP hj]|] := boolP [exists j : 'I_d, nth 0%N p j != nth 0%N q j]; first by exists j.
  rewrite negb_exists => /forallP H; case: il; rewrite pe qe; congr flat; apply: (@eq_from_nth _ 0%N) => [|x].
    by rewrite (size_grid_in pg1) (size_grid_in qg).
  by rewrite (size_grid_in pg1) => xd; have /negPn/eqP := H (Ordinal xd).
have sep (x y : nat) : (x < y)%N -> (y < m)%N -> gap k <= nth 0 (nd_values gv) y - nth 0 (nd_values gv) x.
  move=> xy ym; have xo : (x < order)%N by lia.
  apply: (le_trans (kmin _ xo)); rewrite ler_add2r; move: xy; rewrite leq_eqVlt => /orP[/eqP->|xy] //.
  by apply: ltW; apply: xs.
have pl : (nth 0%N p j < m)%N := nth_lt pg1 (ltn_ord j); have ql : (nth 0%N q j < m)%N := nth_lt qg (ltn_ord j).
have far : gap k <= `|nth 0 (nd_values gv) (nth 0%N p j) - nth 0 (nd_values gv) (nth 0%N q j)|.
  case: (ltngtP (nth 0%N p j) (nth 0%N q j)) => // hx; last by rewrite (le_trans (sep _ _ hx pl)) ?ler_norm.
  by rewrite distrC (le_trans (sep _ _ hx ql)) ?ler_norm.
rewrite (le_trans far) // -sqrtr_sqr; apply: ler_wsqrtr; rewrite (bigD1 j) //= ler_addl.
by apply: sumr_ge0 => x _; exact: sqr_ge0.
Qed.

(** ** The initial velocity *)
Lemma wrap_coord c p c' p' (j : 'I_d) : c \in grid n d -> p \in grid m d -> c' \in grid n d -> p' \in grid m d ->
  wrap d n pd m (position c p) = wrap d n pd m (position c' p') ->
  let x := node_at s (nd c p) 0 j in let y := node_at s (nd c' p') 0 j in
  [\/ x = y, x = a /\ y = b | x = b /\ y = a].
Proof.
move=> cg pg1 cg' pg2 wE x y.
have [gp [gv [rp [rv [quad [M [pm' [cf hM run rvE]]]]]]]] := cube_made d0 n0 ab gen hpg cpg hs.
have [sz /andP[/eqP e0 /eqP e1]] : size (nd_values gv) = m /\ is_continuous gv.
  by move: (cf_gv cf); rewrite -(prednK o0) => /C33_lobatto_nodes[].
have el : nth 0 (nd_values gv) order = 1 by move: e1; rewrite -nth_last sz.
have nn : n%:R != 0 :> R by rewrite pnatr_eq0 -lt0n.
have two : 2%:R != 0 :> R by rewrite pnatr_eq0.
have at_j u v : u \in grid n d -> v \in grid m d -> node_at s (nd u v) 0 j = a + ((nth 0%N u j)%:R + 2%:R^-1) * h + h / 2%:R * nth 0 (nd_values gv) (nth 0%N v j).
  by move=> ug vg; rewrite -nth_place (place_nd gen cf ug vg) nth_mkseq // cell_mapE (nth_map 0%N) ?(size_grid_in vg).
have lo u v : u \in grid n d -> v \in grid m d -> nth 0%N (position u v) j = 0%N -> node_at s (nd u v) 0 j = a.
  move=> ug vg; rewrite (nth_global ug vg) // => hz; rewrite at_j //.
  have /eqP := hz; rewrite addn_eq0 muln_eq0 [m.-1]/= (gtn_eqF o0) orbF => /andP[/eqP -> /eqP ->].
  by rewrite e0 mulr0n add0r mulrN1 mulrC addrK.
have hi u v : u \in grid n d -> v \in grid m d -> nth 0%N (position u v) j = (n * order)%N -> node_at s (nd u v) 0 j = b.
  move=> ug vg; have ul := nth_lt ug (ltn_ord j); have vl := nth_lt vg (ltn_ord j).
  rewrite (nth_global ug vg) // => hz; rewrite at_j //.
  rewrite ltnS in vl; have vE := pos_last ul vl hz; move: hz; rewrite /= vE el addnC -mulSn => /eqP; rewrite eqn_pmul2r // => /eqP uE.
  have -> : (nth 0%N u j)%:R = n%:R - 1 :> R by rewrite -uE -addn1 natrD addrK.
  by move: n%:R nn => n' nn'; field.
have := congr1 (nth 0%N ^~ j) wE; rewrite /= !nth_wrap //=.
case: ifP => [/andP[_ /eqP h1]|h1]; case: ifP => [/andP[_ /eqP h2]|h2] e.
- by apply: Or31; apply: (coord_position d0 n0 ab gen hpg cpg hs o2) => //; rewrite h1 h2.
- by apply: Or33; split; [exact: hi|exact: lo].
- by apply: Or32; split; [exact: lo|exact: hi].
by apply: Or31; apply: (coord_position d0 n0 ab gen hpg cpg hs o2).
Qed.

Variables (sine cosine : R -> R) (pi : R).
Hypotheses (d2 : d = 2%N).
(** sin and cos have period 2 pi, and the side of the square is 1. *)
Hypothesis sine_period : forall z, sine (z + 2%:R * pi) = sine z.
Hypothesis cosine_period : forall z, cosine (z + 2%:R * pi) = cosine z.
Hypothesis side : b = a + 1.
Hypothesis per : forall axis, (axis < d)%N -> axis \in pd.
(** The initial velocity at node [i]. *)
Variables (x0 y0 : 'I_d).
Hypotheses (x00 : x0 = 0%N :> nat) (y01 : y0 = 1%N :> nat).
Definition taylor_green (c i : nat) : R :=
  let x := 4%:R * pi * node_at s i 0 x0 in let y := 4%:R * pi * node_at s i 0 y0 in
  if c == 0%N then cosine x * sine y else - (sine x * cosine y).
Lemma u_initE : exists2 u0, u_init sine cosine pi s = Some u0 & vgood s u0 /\ forall c i, (c < d)%N -> (i < nv)%N -> ent u0 c i = taylor_green c i.
Proof.
rewrite /u_init [(d == 2)%N](_ : _ = true); last by rewrite d2.
eexists; first reflexivity.
have lt2 c : (c < d)%N -> (c < 2)%N by rewrite d2.
split; first by apply: goodP => [|c /lt2 hc]; rewrite ?size_map ?size_iota ?d2 // (nth_map 0%N) ?size_iota // size_map.
move=> c i /lt2 c2 hi; rewrite /ent (nth_map 0%N) ?size_iota // nth_iota // add0n (nth_map 0) //.
have sx (x : 'rV[R]_d) : size (coord_row x) = 2%N by rewrite size_map size_enum_ord.
have nx (x : 'rV[R]_d) (j : 'I_d) : nth 0 (coord_row x) j = x 0 j.
  by rewrite (nth_map j) ?size_enum_ord // nth_ord_enum.
have four : 2%:R * 2%:R = 4%:R :> R by rewrite -natrM.
have nx0 (x : 'rV[R]_d) : nth 0 (coord_row x) 0 = x 0 x0 by rewrite -nx x00.
have nx1 (x : 'rV[R]_d) : nth 0 (coord_row x) 1 = x 0 y0 by rewrite -nx y01.
rewrite /u_init_fn sx /= nx0 nx1 four.
by case: c c2 => [|[|c]] //= _; rewrite /taylor_green /= ?mulNr.
Qed.
Theorem C82_initial : exists u0, [/\ u_init sine cosine pi s = Some u0, conforming u0 &
  forall c i, (c < d)%N -> (i < nv)%N -> ent u0 c i = taylor_green c i].
Proof.
have [u0 e [gu v]] := u_initE; exists u0; split=> //.
apply/(C64_conforming d0 n0 ab gen hpg cpg hs); split=> // [k c p kd cg pg1 _ [ax [al]]|k c p c' p' kd cg pg1 cg' pg2 wE]; first by rewrite per.
have [l1 _ _] := C64_nodes d0 n0 ab gen hpg cpg hs cg pg1 cg pg1.
have [l2 _ _] := C64_nodes d0 n0 ab gen hpg cpg hs cg' pg2 cg' pg2.
have P (f : R -> R) : (forall z, f (z + 2%:R * pi) = f z) -> forall j : 'I_d,
    f (4%:R * pi * node_at s (nd c p) 0 j) = f (4%:R * pi * node_at s (nd c' p') 0 j).
  move=> fp j.
  have E : f (4%:R * pi * b) = f (4%:R * pi * a).
    have -> : 4%:R * pi * b = 4%:R * pi * a + 2%:R * pi + 2%:R * pi by rewrite side; move: pi a; clear; move=> q r; ring.
    by rewrite !fp.
  by case: (wrap_coord j cg pg1 cg' pg2 wE) => [->|[-> ->]|[-> ->]].
by rewrite !v // /taylor_green !(P sine) // !(P cosine).
Qed.

(** ** The step and the simulation *)
Variable g : constants R.
Notation K := (TIME_ORDER g).
Hypotheses (k1 : (1 < K)%N) (dt0 : 0 < DT g) (re0 : 0 < REYNOLDS_NUMBER g).
Definition train_config : config R := Config (DRAG_COEFF g) (REYNOLDS_NUMBER g) (DT g) (20%:R^-1) K false 0 0.
Notation zero_field := (zeros_like (s_mass s)).
Let fam := (C61_family d0 n0 ab gen hpg cpg).1.
Let ok : sem_ok s. Proof. by have [gp [gv [rp [rv [quad cf]]]]] := created fam hs; exact: (facts_ok cf). Qed.

Lemma forcingE (x u : seq R) : forcing sine pi g x u = kolmogorov_forcing sine pi train_config x u.
Proof. by rewrite /forcing /kolmogorov_forcing; case: u => [|u1 [|u2 [|u3 u]]]; rewrite ?andbF //= andbT; case: ifP. Qed.
(** The step is that of the training program without a closure term. *)
Theorem C82_step solve us ps cus : size us = K -> (forall j, (j < size us)%N -> vgood s (nth [::] us j)) -> size cus = K ->
  gen_stokes eps sine pi g solve s us ps cus =
  match solve_one_step eps sine pi solve train_config s us ps cus zero_field with
  | inl _ => inl DSolverError | inr (u, p, _) => inr (u, p, tt) end.
Proof.
move=> su gus sc; rewrite /gen_stokes /solve_one_step /=.
have [ext hext [sE _]] := @C43_exact R (K - 1) (ltac:(lia)); rewrite hext /cu_extrapolated.
have -> : (size cus < size ext)%N = false by rewrite sE sc; lia.
case E : us su gus => [|u0 us'] su gus; first by move: k1; rewrite -su.
have gl : vgood s (last u0 us') by rewrite -[last _ _]/(last [::] (u0 :: us')) -nth_last; apply: gus.
have sl : size (last u0 us') = 2%N by rewrite (good_size gl).
rewrite /forcing_field /add_kolmogorov sl eqxx andbT; have dd : (d == 2)%N by rewrite d2.
rewrite dd; set f1 := [seq _ | c <- iota 0 2]; set f2 := [seq _ | c <- iota 0 d].
have -> : f1 = f2.
  rewrite /f1 /f2; have -> : iota 0 d = iota 0 2 by rewrite d2.
  apply/eq_map => c; apply/eq_map => i; rewrite forcingE.
  by rewrite -[X in _ = X + _]/(ent zero_field c i) ent_zeros add0r.
by case: (stokes_one_step _ _ _ _ _ _ _ _ _ _ _ _ _) => [e|[u p]].
Qed.

(** The files of a simulation in which the states [u], [p] follow one another. *)
Definition files (u : nat -> vfield) (p : nat -> seq R) : seq (file R vfield (seq R)) :=
  let n := NUM_STEPS_PER_CYCLE g in
  [seq File (i * n) (i * n + n) (recorded (fun j => j%:R * DT g) (i * n) n)
     (recorded (fun j => u (j + K.-1)%N) (i * n) n) (recorded (fun j => p (j + K.-1)%N) (i * n) n) | i <- iota 0 (NUM_CYCLES g)].
Lemma push_good us ps u p : NS_props.history s train_config us ps -> vgood s u -> size p = np -> NS_props.history s train_config (push us u) (push ps p).
Proof.
move=> [[su gus] [sp gps]] gu szp; rewrite /= in su sp; have kp : K.-1.+1 = K by clear -k1; lia.
have s1 : size (behead us) = K.-1 by rewrite size_behead su.
have s2 : size (behead ps) = K.-1 by rewrite size_behead sp.
split; (split; first by rewrite size_rcons ?s1 ?s2 kp) => j; rewrite size_rcons nth_rcons ?s1 ?s2 => hj; case: ltnP => h.
- by rewrite nth_behead; apply: gus; rewrite su -kp.
- by have -> : j == K.-1 by apply/eqP; clear -hj h; lia.
- by rewrite nth_behead; apply: gps; rewrite sp -kp.
by have -> : j == K.-1 by apply/eqP; clear -hj h; lia.
Qed.
Lemma closed_per : closed_cube d lbl pd bcs. Proof. by right. Qed.
(** With the three values unpacked the simulation runs to the end with any tolerances.
    Every state is computed from the ones before it by the step of the training program.
    With exact solves all velocities are continuous and periodic and all after the
    initial ones have no divergence. *)
Theorem C82_run tol atol : exists u p, [/\
  forall i, (i < K)%N -> Some (u i) = u_init sine cosine pi s /\ p i = nseq np 0,
  forall i, vgood s (u i) /\ size (p i) = np,
  forall k, let us := Datagen_props.history K u k in
    solve_one_step eps sine pi (cg_solver tol atol) train_config s us (Datagen_props.history K p k) [seq v_C eps vel v | v <- us] zero_field =
    inr (u (k + K)%N, p (k + K)%N, v_C eps vel (u (k + K)%N)),
  tol = 0 -> atol = 0 -> forall i, conforming (u i) /\ ((K <= i)%N -> D eps s (u i) = nseq np 0) &
  simulate eps sine cosine pi g (cg_solver tol atol) (@intended_solve _ _ _ _) s =
    (files u p, inr (Datagen_props.history K u (NUM_CYCLES g * NUM_STEPS_PER_CYCLE g), Datagen_props.history K p (NUM_CYCLES g * NUM_STEPS_PER_CYCLE g)))].
Proof.
have [u0 [e0 cu0 _]] := C82_initial; have [gu0 _ _] := (C64_conforming d0 n0 ab gen hpg cpg hs u0).1 cu0.
pose good := NS_props.history s train_config.
have k0 := ltnW k1.
have pE : p_init s = nseq np 0 by [].
have gz : vgood s zero_field := good_zeros (ok_mass ok).
pose step := solve_one_step eps sine pi (cg_solver tol atol) train_config s.
pose slv us ps cus := intended_solve (gen_stokes eps sine pi g (cg_solver tol atol) s) us ps cus.
have slvE us ps : good us ps -> slv us ps [seq v_C eps vel v | v <- us] =
    match step us ps [seq v_C eps vel v | v <- us] zero_field with inl _ => inl DSolverError | inr (u, p, _) => inr (u, p) end.
  move=> [[su gus] _]; rewrite /slv /intended_solve C82_step ?size_map //.
  by rewrite -/(step _ _ _ _); case: (step _ _ _ _) => [//|[[]]].
have g0 : good (nseq K u0) (nseq K (nseq np 0)).
  by split; rewrite !size_nseq; (split=> // j jK); rewrite nth_nseq jK ?size_nseq.
have nxt us ps : good us ps -> exists u p, [/\ step us ps [seq v_C eps vel v | v <- us] zero_field = inr (u, p, v_C eps vel u), vgood s u & size p = np].
  move=> h; have H := @C75_ends R d eps inv L BCV lbl n a b pd pm n0 ab gen pg tp hpg cpg order overint bcs s hs inv_ok o2 sine pi y0 d2 y01 train_config k1 dt0 re0 closed_per.
  exact: (H tol atol us ps zero_field h gz).
have [|u [p [init hg st]]] := @trajectory derror _ _ _ K (v_C eps vel) slv good u0 (nseq np 0) k0 g0.
  move=> us ps h; have [v [q [e1 gv sq]]] := nxt _ _ h; exists v, q; rewrite (slvE _ _ h) e1; split; first by [].
  exact: push_good.
have st' k : step (Datagen_props.history K u k) (Datagen_props.history K p k) [seq v_C eps vel v | v <- Datagen_props.history K u k] zero_field =
    inr (u (k + K)%N, p (k + K)%N, v_C eps vel (u (k + K)%N)).
  have [v [q [e1 gv sq]]] := nxt _ _ (hg k); have := st k; rewrite (slvE _ _ (hg k)) e1 => -[<- <-].
  reflexivity.
pose pr (x : nerror + (vfield * seq R * vfield)) : vfield * seq R := if x is inr y then y.1 else ([::], [::]).
exists u, p; split=> // [i iK|i|t0 a0 i|].
- by have [-> ->] := init i iK; rewrite e0.
- have [hi|hi] := ltnP i K; first by have [-> ->] := init i hi; rewrite size_nseq.
  have [v [q [e1 gv sq]]] := nxt _ _ (hg (i - K)%N); have := congr1 pr (st' (i - K)%N); rewrite e1 (subnK hi) /= => -[<- <-].
  by split.
- have [hi|hi] := ltnP i K; first by have [-> _] := init i hi.
  have H := @C75_exact R d eps inv L BCV lbl n a b pd pm n0 ab gen pg tp hpg cpg order overint bcs s hs inv_ok o2 sine pi y0 d2 y01 train_config k1 dt0 re0 closed_per.
  have [v [q [f [e1 dv cv _ _]]]] := H _ _ _ (hg (i - K)%N) gz.
  by have := congr1 pr (st' (i - K)%N); rewrite /step t0 a0 e1 (subnK hi) /= => -[<- _].
have i00 := init 0%N k0; rewrite /simulate e0 pE -[u0](proj1 i00) -[nseq np 0](proj2 i00).
apply: C50_run => // [i iK|k _]; first by have [-> ->] := init i iK; have [-> ->] := i00.
have := st k; rewrite /slv /intended_solve; case: (gen_stokes _ _ _ _ _ _ _ _ _) => [//|[[v q] aux]] [-> ->]; by exists aux.
Qed.
(** As written it ends with ValueError in the first step. *)
Theorem C82_fails tol atol : (0 < NUM_CYCLES g)%N -> (0 < NUM_STEPS_PER_CYCLE g)%N ->
  simulate eps sine cosine pi g (cg_solver tol atol) (@datagen_solve _ _ _ _) s = ([::], inl DValueError).
Proof.
move=> c0 s0; have [u [p [init gu st _ _]]] := C82_run tol atol; have [e0 ep] := init 0%N (ltnW k1).
have hE (T : Type) (x : nat -> T) z : (forall i, (i < K)%N -> x i = z) -> Datagen_props.history K x 0 = nseq K z.
  move=> xc; apply: (@eq_from_nth _ z); rewrite size_map size_iota ?size_nseq // => i iK.
  by rewrite (nth_map 0%N) ?size_iota // nth_iota // add0n nth_nseq iK xc.
have uE : Datagen_props.history K u 0 = nseq K (u 0%N) by apply: hE => i iK; have [] := init i iK; rewrite -e0 => -[].
have pE : Datagen_props.history K p 0 = nseq K (nseq np 0) by apply: hE => i iK; have [] := init i iK.
have := st 0%N; rewrite /= uE pE map_nseq => e.
rewrite /simulate -e0 -[p_init s]/(nseq np 0).
have := @C50_datagen_fails _ _ _ _ _ (v_C eps vel) (gen_stokes eps sine pi g (cg_solver tol atol) s) (DT g) K _ _ (u 0%N) (nseq np 0) (u K, p K, tt) c0 s0.
apply.
rewrite C82_step ?size_nseq // => [|j jK]; last by rewrite nth_nseq jK; case: (gu 0%N).
by rewrite add0n in e; rewrite e.
Qed.

(** ** The CFL number *)
Lemma maximumP (l : seq R) x : x \in l -> (forall y, y \in l -> y <= x) -> maximum l = x.
Proof.
have ge (t : seq R) z : z <= foldr Num.max z t /\ forall y, y \in t -> y <= foldr Num.max z t.
  elim: t => [|w t [h1 h2]] //=; split; first by rewrite le_maxr h1 orbT.
  by move=> y; rewrite inE le_maxr => /orP[/eqP->|/h2->]; rewrite ?lexx ?orbT.
have inn (t : seq R) z : foldr Num.max z t \in z :: t.
  elim: t => [|w t IH] /=; first by rewrite inE.
  case: leP => _; last by rewrite !inE eqxx orbT.
  by move: IH; rewrite !inE => /orP[->|->]; rewrite ?orbT.
case: l => [//|w l] xl ub; rewrite /maximum /=; apply: le_anti; rewrite ub //=.
by have [h1 h2] := ge l w; move: xl; rewrite inE => /orP[/eqP->|/h2].
Qed.
(** It is right when the largest entry in modulus is not negative ... *)
Theorem C82_cfl (u : vfield) dx M : M \in flatten u -> (forall y, y \in flatten u -> `|y| <= M) -> cfl_number g u dx = M * DT g / dx.
Proof. by move=> Mu ub; rewrite /cfl_number (maximumP Mu) // => y /ub; apply: le_trans; exact: ler_norm. Qed.
(** ... and is negative on a flow to the lower left, however fast. *)
Theorem C82_cfl_refuted v dx : 0 < v -> 0 < dx -> exists2 u, conforming u &
  (forall c i, (c < d)%N -> (i < nv)%N -> ent u c i = - v) /\ cfl_number g u dx = - (v * DT g / dx).
Proof.
move=> v0 dx0; pose u : vfield := nseq d (nseq nv (- v)).
have gu : vgood s u by apply: goodP => [|c hc]; rewrite ?size_nseq // nth_nseq hc size_nseq.
have ue c i : (c < d)%N -> (i < nv)%N -> ent u c i = - v by move=> hc hi; rewrite /ent nth_nseq hc nth_nseq hi.
have nv0 : (0 < nv)%N.
  have cg : nseq d 0%N \in grid n d by rewrite mem_grid size_nseq eqxx all_nseq n0 orbT.
  have pg1 : nseq d 0%N \in grid m d by rewrite mem_grid size_nseq eqxx all_nseq orbT.
  by have [h _ _] := C64_nodes d0 n0 ab gen hpg cpg hs cg pg1 cg pg1; apply: leq_trans h.
exists u; last split=> //.
  apply/(C64_conforming d0 n0 ab gen hpg cpg hs); split=> // [k c p kd cg pg1 _ [ax [al]]|k c p c' p' kd cg pg1 cg' pg2 _]; first by rewrite per.
  have [l1 _ _] := C64_nodes d0 n0 ab gen hpg cpg hs cg pg1 cg pg1.
  have [l2 _ _] := C64_nodes d0 n0 ab gen hpg cpg hs cg' pg2 cg' pg2.
  by rewrite !ue.
have all_v y : y \in flatten u -> y = - v by move=> /flattenP[r]; rewrite mem_nseq => /andP[_ /eqP->]; rewrite mem_nseq => /andP[_ /eqP].
rewrite /cfl_number (@maximumP _ (- v)); first by rewrite !mulNr.
  by apply/flattenP; exists (nseq nv (- v)); rewrite mem_nseq ?d0 ?nv0 eqxx.
by move=> y /all_v->.
Qed.
End Cube.

(** ** Examples *)
(** The constants of the program: 64 x 64 elements of order 8, 500 files with 51 states
    each if the solver's results were unpacked as in train.py, and none as it is. *)
Section Example.
Variables (R : rcfType) (eps : R) (sine cosine : R -> R) (pi : R).
Hypothesis sine_period : forall z, sine (z + 2%:R * pi) = sine z.
Hypothesis cosine_period : forall z, cosine (z + 2%:R * pi) = cosine z.
Notation g := (datagen_constants R).
Lemma ex_any n k : (0 < n)%N -> (2 < k)%N -> exists pm : premesh [lmodType R of 'rV[R]_2] bool, exists s : sem R 2,
  [/\ unit_cube_mesh 2 true n (0 : R) 1 [:: 0; 1]%N None = inr pm,
      sem_create eps invmx (refined_mesh (ex_pg R) pm) 1 k ([::] : seq (bool * (bctype * unit))) 2 = inr s,
      (exists2 dx, compute_dx (v_mesh (s_velocity s)) = Some dx & 0 < dx),
      simulate eps sine cosine pi g (cg_solver (100000%:R^-1) (10000%:R^-1)) (@datagen_solve _ _ _ _) s = ([::], inl DValueError) &
      let fs := (simulate eps sine cosine pi g (cg_solver (100000%:R^-1) (10000%:R^-1)) (@intended_solve _ _ _ _) s).1 in
      size fs = 500%N /\ all (fun f => size (f_u f) == 51%N) fs].
Proof.
move=> n0 k2; have [pm gen] : exists pm : premesh [lmodType R of 'rV[R]_2] bool, unit_cube_mesh 2 true n (0 : R) 1 [:: 0; 1]%N None = inr pm by eexists.
have o1 : (1 < k)%N by apply: ltnW.
have [_ H] := C61_creates eps invmx (isT : (0 < 2)%N) n0 gen (ex_pg_created R) (ex_pg_continuous R) (order := k) 2
  ([::] : seq (bool * (bctype * unit))) o1 (fun h => ltac:(by case: h)).
have [g0 v //|s hs] := H; exists pm, s.
have iv (J : 'M[R]_2) : J \in unitmx -> invmx J = invmx J by [].
have per axis : (axis < 2)%N -> axis \in [:: 0; 1]%N by case: axis => [|[]].
have side : 1 = 0 + 1 :> R by rewrite add0r.
have dt0 : 0 < DT g by rewrite invr_gt0 ltr0n.
have re0 : 0 < REYNOLDS_NUMBER g by rewrite ltr0n.
have [gv hgv] : exists gv, nodes1d_create R k.+1 GAUSS_LOBATTO_LEGENDRE = inr gv.
  by have [gp [gv [rp [rv [quad [M [pm' [cf _ _ _]]]]]]]] := cube_made (isT : (0 < 2)%N) n0 ltr01 gen (ex_pg_created R) (ex_pg_continuous R) hs; exists gv; exact: (cf_gv cf).
split=> //.
- have [l [_ e p _]] := C82_dx (isT : (0 < 2)%N) n0 ltr01 gen (ex_pg_created R) (ex_pg_continuous R) hs k2 hgv.
  by eexists; [exact: e|].
- exact: (@C82_fails R 2 eps invmx _ _ iv true n 0 1 [:: 0; 1]%N pm isT n0 ltr01 gen _ _ (ex_pg_created R) (ex_pg_continuous R) k 2 [::] s hs k2 sine cosine pi erefl sine_period cosine_period side per 0 1 erefl erefl g isT dt0 re0).
have [u [p [_ _ _ _ e]]] := @C82_run R 2 eps invmx _ _ iv true n 0 1 [:: 0; 1]%N pm isT n0 ltr01 gen _ _ (ex_pg_created R) (ex_pg_continuous R) k 2 [::] s hs k2 sine cosine pi erefl sine_period cosine_period side per 0 1 erefl erefl g isT dt0 re0 (100000%:R^-1) (10000%:R^-1).
move=> fs; have -> : fs = files g u p by rewrite /fs e.
rewrite size_map size_iota; split; first by [].
by rewrite all_map; apply/allP => i _.
Qed.
Example ex_datagen := ex_any (isT : (0 < RESOLUTION g)%N) (isT : (2 < ORDER g)%N).
End Example.

Print Assumptions C82_least.
Print Assumptions C82_dx.
Print Assumptions C82_initial.
Print Assumptions C82_step.
Print Assumptions C82_run.
Print Assumptions C82_fails.
Print Assumptions C82_cfl.
Print Assumptions C82_cfl_refuted.
Print Assumptions ex_datagen.
