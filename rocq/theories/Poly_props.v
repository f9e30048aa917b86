(** C79: polynomial solutions of the Stokes equations. *)
From Coq Require List.
From mathcomp Require Import all_ssreflect all_algebra polyrcf zify ring.
From Verif Require Import PyDict_model PyDict_proofs Facet_model Facet_spec Facet_proofs GS_model GS_proofs GS_props Interp_model Interp_spec Lagrange_proofs.
From Verif Require Import Legendre_proofs Gauss_proofs2 Interp_proofs2 Tensor_proofs Interp_props FES_model FES_proofs FES_proofs2 FES_props FES_props2 Premesh_model.
From Verif Require Import Refiner_model Refiner_spec UnitCube_model UnitCube_spec UnitCube_proofs UnitCube_proofs2 UnitCube_proofs3 UnitCube_props UnitCube_refine UnitCube_links.
From Verif Require Import CG_model CG_proofs CG_props TimeCoef_model TimeCoef_props Stokes_model Stokes_spec Stokes_proofs Stokes_proofs2 Stokes_proofs3.
From Verif Require Import Stokes_create Stokes_create2 Stokes_create3 Stokes_proofs4 Stokes_create4 Stokes_momentum Stokes_props Stokes_props2 Stokes_family Stokes_instance Stokes_props3 Stokes_props4.
From Verif Require Import Tensor_nodal Unisolvent_proofs Tensor_parts Stokes_cube Stokes_props5 Stokes_props6 Flow_props Steady_props Patch_props.
From Verif Require Import Poly_proofs.
Set Implicit Arguments.
Unset Strict Implicit.
Unset Printing Implicit Defensive.
Import Order.TTheory GRing.Theory Num.Theory.
Local Open Scope ring_scope.

Section Cube.
Variables (R : rcfType) (d : nat) (eps : R) (inv : 'M[R]_d -> 'M[R]_d) (L : eqType) (BCV : Type).
(** [jnp.linalg.inv] inverts invertible matrices. *)
Hypothesis inv_ok : forall J : 'M[R]_d, J \in unitmx -> inv J = invmx J.
Variables (lbl : L) (n : nat) (a b : R) (pd : seq nat) (pm : premesh [lmodType R of 'rV[R]_d] L).
Hypotheses (d0 : (0 < d)%N) (n0 : (0 < n)%N) (ab : a < b).
Hypothesis gen : unit_cube_mesh d lbl n a b pd None = inr pm.
Variables (pg : nodes1d R) (tp : node_type).
Hypotheses (hpg : nodes1d_create R 2 tp = inr pg) (cpg : is_continuous pg).
Variables (order overint : nat) (bcs : seq (L * (bctype * BCV))) (s : sem R d).
Hypothesis hs : sem_create eps inv (refined_mesh pg pm) 1 order bcs overint = inr s.
Hypothesis o2 : (2 < order)%N.
Notation vel := (s_velocity s).
Notation nv := (nv s).
Notation np := (np s).
Notation vfield := (seq (seq R)).
Notation conforming := (conforming s).
Notation closed := (closed_cube d lbl pd bcs).
Notation matches := (@matches R d pd).
Notation at_node := (@at_node R d s).
Notation poly_field := (@poly_field R d s).
Notation poly_pressure := (@poly_pressure R d s).
Let fam := (C61_family d0 n0 ab gen hpg cpg).1.
Let ori := (C61_family d0 n0 ab gen hpg cpg).2.
Implicit Types (u v w U G : vfield) (hU : nat -> tpoly R) (hp : tpoly R).

(** The Laplacian and the divergence of a polynomial flow, the gradient of a
    polynomial pressure, at velocity node [i]. *)
Definition laplacian hU (c i : nat) : R := \sum_(j < d) at_node (tderiv j (tderiv j (hU c))) i.
Definition divergence hU (i : nat) : R := \sum_(j < d) at_node (tderiv j (hU j)) i.
Definition gradient hp (c i : nat) : R := at_node (tderiv c hp) i.

(** The viscous operator applied to a polynomial flow of degree at most the order
    of the elements is minus the mass matrix times its Laplacian, seen from the
    conforming velocities. *)
Theorem C79_viscous hU U G w : closed -> poly_field hU U -> (forall c, (c < d)%N -> tdeg d order.+1 (hU c) /\ matches (hU c)) ->
  vgood s G -> (forall c i, (c < d)%N -> (i < nv)%N -> ent G c i = laplacian hU c i) -> conforming w ->
  vpair s (A eps s U) w = - vpair s (B s G) w.
Proof.
move=> cl pU dU gG eG cw; have [gU _] := pU.
have [gp [gv [rp [rv [quad [M [pm' [cf hM run rvE]]]]]]]] := cube_made d0 n0 ab gen hpg cpg hs.
rewrite (stiff_sum cf gU cw) (mass_sum cf gG cw).
have E1 : \sum_(e < n ^ d) \sum_(q < order.+1 ^ d)
    (\sum_(j < d) \sum_(c < d) gr s U c j e q * gr s w c j e q) * wt s e q =
    \sum_(j < d) \sum_(c < d) \sum_(e < n ^ d) \sum_(q < order.+1 ^ d) gr s w c j e q * at_node (tderiv j (hU c)) (node_of (vm s) e q) * wt s e q.
  rewrite (eq_bigr (fun e : 'I_(n ^ d) => \sum_(j < d) \sum_(c < d) \sum_(q < order.+1 ^ d) gr s w c j e q * at_node (tderiv j (hU c)) (node_of (vm s) e q) * wt s e q)).
    by rewrite exchange_big /=; apply: eq_bigr => j _; rewrite exchange_big.
  move=> e _; have [ee eg eE] := grid_of (ltn_ord e).
  rewrite (eq_bigr (fun q : 'I_(order.+1 ^ d) => \sum_(j < d) \sum_(c < d) gr s w c j e q * at_node (tderiv j (hU c)) (node_of (vm s) e q) * wt s e q)).
    by rewrite exchange_big /=; apply: eq_bigr => j _; rewrite exchange_big.
  move=> q _; have [p pg' qE] := grid_of (ltn_ord q); rewrite mulr_suml; apply: eq_bigr => j _; rewrite mulr_suml; apply: eq_bigr => c _.
  have -> : gr s U c j e q = at_node (tderiv j (hU c)) (node_of (vm s) e q).
    rewrite eE qE; exact: (gr_poly inv_ok d0 n0 ab gen hpg cpg o2 cf j pU (dU c (ltn_ord c)).1 (ltn_ord c) eg pg').
  by congr (_ * _); exact: mulrC.
rewrite [LHS]E1 exchange_big /= -sumrN.
rewrite (eq_bigr (fun c : 'I_d => \sum_(j < d) - \sum_(e < n ^ d) \sum_(q < order.+1 ^ d) ent w c (node_of (vm s) e q) * at_node (tderiv j (tderiv j (hU c))) (node_of (vm s) e q) * wt s e q)); last first.
  move=> c _; apply: eq_bigr => j _; have [dc mc] := dU c (ltn_ord c).
  apply: (green inv_ok d0 n0 ab gen hpg cpg hs o2 cf hM run rvE j cl) => //; first exact: tdeg_deriv.
  by move=> k kd kp; apply: (flat_deriv j dc) => //; exact: mc.
rewrite (eq_bigr (fun c : 'I_d => - \sum_(e < n ^ d) \sum_(q < order.+1 ^ d) ent w c (node_of (vm s) e q) * ent G c (node_of (vm s) e q) * wt s e q)).
  rewrite !sumrN exchange_big /=; congr (- _); apply: eq_bigr => e _; by rewrite exchange_big.
move=> c _; rewrite sumrN exchange_big /=; congr (- _); apply: eq_bigr => e _; rewrite exchange_big /=; apply: eq_bigr => q _.
have [xl _ _] := node_facts cf (ltn_ord e) (ltn_ord q).
by rewrite eG // /laplacian mulr_sumr mulr_suml.
Qed.

(** The same for the pressure gradient, *)
Theorem C79_gradient hp P G w : closed -> poly_pressure hp P -> tdeg d (order - 1) hp -> matches hp ->
  vgood s G -> (forall c i, (c < d)%N -> (i < nv)%N -> ent G c i = gradient hp c i) -> conforming w ->
  ppair s P (D eps s w) = - vpair s (B s G) w.
Proof.
move=> cl pP dp mp gG eG cw; have [sP _] := pP; have [gw _ _] := cw.
have [gp [gv [rp [rv [quad [M [pm' [cf hM run rvE]]]]]]]] := cube_made d0 n0 ab gen hpg cpg hs.
have -> : ppair s P (D eps s w) = ppair s (D eps s w) P by apply: eq_bigr => i _; exact: mulrC.
rewrite (div_sum fam o2 cf gw sP) (mass_sum cf gG cw).
have dp' : tdeg d order.+1 hp by apply: tdeg_le dp; rewrite (leq_trans (leq_subr _ _)).
rewrite (eq_bigr (fun e : 'I_(n ^ d) => \sum_(j < d) \sum_(q < order.+1 ^ d) gr s w j j e q * at_node hp (node_of (vm s) e q) * wt s e q)); last first.
  move=> e _; rewrite [RHS]exchange_big /=; apply: eq_bigr => q _.
  have [ee eg eE] := grid_of (ltn_ord e); have [p pg' qE] := grid_of (ltn_ord q).
  have -> : at_quad eps (Stokes_proofs2.pm s) (qd_nodes quad) (comp (p_gather (s_pressure s) P) e 0) q = at_node hp (node_of (vm s) e q).
    by rewrite eE qE; exact: (pressure_at d0 n0 ab gen hpg cpg cf pP dp eg pg').
  by rewrite -mulrA mulr_suml; apply: eq_bigr => j _; rewrite mulrA.
rewrite exchange_big /= (eq_bigr (fun j : 'I_d => - \sum_(e < n ^ d) \sum_(q < order.+1 ^ d) ent w j (node_of (vm s) e q) * at_node (tderiv j hp) (node_of (vm s) e q) * wt s e q)); last first.
  by move=> j _; apply: (green inv_ok d0 n0 ab gen hpg cpg hs o2 cf hM run rvE j cl).
rewrite sumrN exchange_big /=; congr (- _); apply: eq_bigr => e _; rewrite exchange_big /=; apply: eq_bigr => q _.
apply: eq_bigr => j _; have [xl _ _] := node_facts cf (ltn_ord e) (ltn_ord q); by rewrite eG.
Qed.
(** the discrete divergence of a flow without divergence is zero, *)
Theorem C79_divergence hU U : poly_field hU U -> (forall c, (c < d)%N -> tdeg d order.+1 (hU c)) ->
  (forall i, (i < nv)%N -> divergence hU i = 0) -> D eps s U = nseq np 0.
Proof.
move=> pU dU dv; have [gU _] := pU; have [gp [gv [rp [rv [quad [M [pm' [cf hM run rvE]]]]]]]] := cube_made d0 n0 ab gen hpg cpg hs.
apply: (@eq_from_nth _ 0); first by rewrite size_D size_nseq.
move=> i; rewrite size_D => hi; rewrite nth_nseq hi; pose p : seq R := [seq (l == i)%:R | l <- iota 0 np].
have sp : size p = np by rewrite size_map size_iota.
have np_ l : (l < np)%N -> nth 0 p l = (l == i)%:R by move=> hl; rewrite (nth_map 0%N) ?size_iota // nth_iota.
have := div_sum fam o2 cf gU sp; rewrite /ppair (bigD1 (Ordinal hi)) //= np_ // eqxx mulr1 big1 ?addr0 => [->|l nl]; last first.
  by rewrite np_ // -[_ == i]/(l == Ordinal hi) (negbTE nl) mulr0.
rewrite big1 // => e _; rewrite big1 // => q _; rewrite [X in X * _](_ : _ = 0) ?mul0r //.
have [xl _ _] := node_facts cf (ltn_ord e) (ltn_ord q).
rewrite [X in X * _](_ : _ = 0) ?mul0r //; apply: (etrans _ (dv _ xl)); apply: eq_bigr => j _.
have [ee eg eE] := grid_of (ltn_ord e); have [p' pg' qE] := grid_of (ltn_ord q); rewrite eE qE.
exact: (gr_poly inv_ok d0 n0 ab gen hpg cpg o2 cf j pU (dU j (ltn_ord j)) (ltn_ord j) eg pg').
Qed.
(** and the filter keeps flows of lower degree. *)
Theorem C79_filter alpha hU U : poly_field hU U -> alpha = 0 \/ (forall c, (c < d)%N -> tdeg d order (hU c)) -> filter eps s alpha U = inr U.
Proof.
move=> [gU eU] [->|dU]; first exact: (C49_identity fam hs gU).
have [gp [gv [rp [rv [quad [M [pm' [cf hM run rvE]]]]]]]] := cube_made d0 n0 ab gen hpg cpg hs.
have [_ _ _ gE] := feE (ltn0Sn _) (cf_gv cf) (cf_vm cf).
pose cell e := nth [::] (grid n d) e.
apply: (C49_keeps fam hs alpha (f := fun c e => pull d (@cell_map R n a b (cell e)) (hU c)) gU) => [c e hc he|c e k hc he hk].
  by apply: pull_deg; [move=> j _; exact: (cell_map_size n0 ab)|exact: dU].
have [xl _ _] := node_facts cf he hk; have [ee eg eE] := grid_of he; have [p pg' kE] := grid_of hk.
rewrite eU // eE kE /cell nth_grid // gE (point_nd cf pg').
exact: (at_nd gen cf (dU c hc) eg pg').
Qed.

(** The boundary values of [U]: given by the lift, which is zero on the other
    nodes, or zero. *)
Definition boundary (lift : option vfield) U : Prop :=
  if lift is Some ub
  then vgood s ub /\ forall c i, (c < d)%N -> (i < nv)%N -> (dirichlet_node s i -> ent ub c i = ent U c i) /\ (~ dirichlet_node s i -> ent ub c i = 0)
  else forall c i, (c < d)%N -> (i < nv)%N -> dirichlet_node s i -> ent U c i = 0.
Lemma boundary_conforming lift hU U : poly_field hU U -> (forall c, (c < d)%N -> tdeg d order.+1 (hU c) /\ matches (hU c)) ->
  boundary lift U -> exists2 V, conforming V & unlifted s lift U V.
Proof.
move=> pU dU bU; have [gU eU] := pU.
have [gp [gv [rp [rv [quad [M [pm' [cf hM run rvE]]]]]]]] := cube_made d0 n0 ab gen hpg cpg hs.
pose V := [seq [seq (if nth 0 (v_mask vel) i == 0 then 0 else ent U c i) | i <- iota 0 nv] | c <- iota 0 d].
have eV c i : (c < d)%N -> (i < nv)%N -> ent V c i = if nth 0 (v_mask vel) i == 0 then 0 else ent U c i.
  by move=> kd hi; rewrite /ent (nth_map 0%N) ?size_iota // nth_iota // (nth_map 0%N) ?size_iota // nth_iota.
have gV : vgood s V.
  apply: goodP => [|k kd]; first by rewrite size_map size_iota.
  by rewrite (nth_map 0%N) ?size_iota // size_map size_iota.
exists V; last first.
  split=> // c i hc hi; rewrite eV //; move: bU; rewrite /boundary; case: lift => [ub [_ /(_ c i hc hi)]|/(_ c i hc hi)]; rewrite /dirichlet_node.
    by case: eqP => [m0 [/(_ m0) -> _]|nm [_ /(_ nm) ->]]; rewrite ?subrr ?subr0.
  by case: eqP => [m0 /(_ m0) ->|_ _]; rewrite subr0.
apply/(C64_conforming d0 n0 ab gen hpg cpg hs); split=> // [c e p hc eg pg1 fx wl|c e1 p1 e2 p2 hc eg1 pg1 eg2 pg2 wE].
  have [hn _ [_ dn]] := C64_nodes d0 n0 ab gen hpg cpg hs eg pg1 eg pg1.
  by rewrite eV //; have /eqP-> : dirichlet_node s (nd n order s e p) by apply: dn.
have [h1 _ d1] := C64_nodes d0 n0 ab gen hpg cpg hs eg1 pg1 eg1 pg1.
have [h2 _ d2] := C64_nodes d0 n0 ab gen hpg cpg hs eg2 pg2 eg2 pg2.
have D12 : dirichlet_node s (nd n order s e1 p1) <-> dirichlet_node s (nd n order s e2 p2).
  apply: (iff_trans d1); apply: iff_sym; apply: (iff_trans d2).
  by split=> -[wf ow]; split=> //; [apply: (wall_wrap (esym wE))|apply: (wall_wrap wE)].
have [dc mc] := dU c hc; rewrite !eV // !eU // (at_wrap d0 n0 ab gen hpg cpg hs o2 dc mc eg1 pg1 eg2 pg2 wE).
by move: D12; rewrite /dirichlet_node; case: eqP => x; case: eqP => y // [H1 H2]; [case: y; exact: H1|case: x; exact: H2].
Qed.

(** One step reproduces polynomial solutions of the Stokes equations: given any
    history, if the velocity [U] and the extrapolated pressure [P] are polynomials,
    of degree at most [order] and [order - 2] along every axis, without divergence
    and with the given boundary values, and satisfy the momentum equation
    (sum_j beta_j u_j + beta_k U) / dt = mu Lap U - grad P + F
    at the nodes without Dirichlet condition, they are the result. *)
Theorem C79_step us ps hU hp U P Fv lift (k : nat) (mu dt alpha : R) (project : bool) : closed ->
  poly_field hU U -> (forall c, (c < d)%N -> tdeg d order.+1 (hU c) /\ matches (hU c)) ->
  poly_pressure hp P -> tdeg d (order - 1) hp -> matches hp -> vgood s Fv ->
  (forall i, (i < nv)%N -> divergence hU i = 0) -> boundary lift U ->
  alpha = 0 \/ (forall c, (c < d)%N -> tdeg d order (hU c)) ->
  0 < dt -> 0 <= mu -> (0 < k)%N -> size us = k -> (forall j, (j < k)%N -> vgood s (nth [::] us j)) ->
  (1 < size ps)%N -> (forall j, (j < size ps)%N -> size (nth [::] ps j) = np) ->
  (forall i, (i < np)%N -> nth 0 P i = 2%:R * nth 0 (nth [::] ps (size ps - 1)) i - nth 0 (nth [::] ps (size ps - 2)) i) ->
  (forall bdf c i, bdfk_coeffs R k = inr bdf -> (c < d)%N -> (i < nv)%N -> ~ dirichlet_node s i ->
    (\sum_(j < k) nth 0 bdf j * ent (nth [::] us j) c i + nth 0 bdf k * ent U c i) / dt = mu * laplacian hU c i - gradient hp c i + ent Fv c i) ->
  stokes_one_step eps (cg_solver 0 0) s us ps (B s Fv) mu dt k alpha lift None project = inr (U, P).
Proof.
move=> cl pU dU pP dp mp gF dv bU flt dt0 mu0 k0 sus gus sps gps eP eq; have [gU eU] := pU; have [sP _] := pP.
have [gp [gv [rp [rv [quad cf]]]]] := created fam hs; have ok := facts_ok cf.
have field (g : nat -> nat -> R) : exists2 G, vgood s G & forall c i, (c < d)%N -> (i < nv)%N -> ent G c i = g c i.
  exists [seq [seq g c i | i <- iota 0 nv] | c <- iota 0 d].
    apply: goodP => [|c hc]; first by rewrite size_map size_iota.
    by rewrite (nth_map 0%N) ?size_iota // size_map size_iota.
  by move=> c i hc hi; rewrite /ent (nth_map 0%N) ?size_iota // nth_iota // (nth_map 0%N) ?size_iota // nth_iota.
have gus' j : (j < size us)%N -> vgood s (nth [::] us j) by rewrite sus; exact: gus.
have f0 : forall c i, (c < d)%N -> (i < nv)%N -> dirichlet_node s i -> ent (B s Fv) c i = 0.
  by move=> c i hc hi; rewrite /dirichlet_node => m0; by rewrite (ent_B ok i gF hc) m0 !mul0r.
apply: (C74_step fam hs project o2 ori dt0 mu0 k0 gus' sus gps sps (good_B ok gF) f0).
- by case: lift bU => // ub [].
- split=> //.
  + exact: (boundary_conforming pU dU bU).
  + by apply: (C79_divergence pU) => // c hc; case: (dU c hc).
  + move=> i; case: (ltnP i np) => hi; first exact: eP.
    have h1 : (size ps - 1 < size ps)%N by clear -sps; lia.
    have h2 : (size ps - 2 < size ps)%N by clear -sps; lia.
    have z x : size x = np -> nth (0 : R) x i = 0 by move=> sx; rewrite nth_default // sx.
    by rewrite (z _ sP) (z _ (gps _ h1)) (z _ (gps _ h2)) mulr0 subrr.
  move=> bdf W w hb gW cw eW; have [Lp gL eL] := field (laplacian hU); have [Gr gG eG] := field (gradient hp).
  rewrite (C79_viscous cl pU dU gL eL cw) (C79_gradient cl pP dp mp gG eG cw).
  rewrite /vpair -!sumrN mulr_sumr -!big_split /=; apply: eq_bigr => c _; rewrite -!sumrN mulr_sumr -!big_split /=; apply: eq_bigr => i _.
  rewrite (ent_B ok i gW) // (ent_B ok i gL) // (ent_B ok i gF) // (ent_B ok i gG) //.
  have [m0|m1] := facts_binary cf (ltn_ord i); first by rewrite m0 !mul0r !oppr0 mulr0.
  rewrite m1 eW (eq bdf c i hb) //; last by rewrite /dirichlet_node m1 => /eqP; rewrite oner_eq0.
  by rewrite eL // eG //; ring.
exact: (C79_filter pU flt).
Qed.

(** The Dirichlet nodes are the nodes on the faces of the cube that are not
    periodic, if the boundary has a Dirichlet condition. *)
Theorem C79_walls i : (i < nv)%N ->
  dirichlet_node s i <-> walls_fixed lbl bcs /\ exists2 j : 'I_d, (j : nat) \notin pd & node_at s i 0 j = a \/ node_at s i 0 j = b.
Proof.
move=> hi; have [c [p [cg pg1 ->]]] := C64_all d0 n0 ab gen hpg cpg hs hi.
have [gp [gv [rp [rv [quad [M [pm' [cf hM run rvE]]]]]]]] := cube_made d0 n0 ab gen hpg cpg hs.
have [_ _ dn] := C64_nodes d0 n0 ab gen hpg cpg hs cg pg1 cg pg1; apply: (iff_trans dn).
pose x (j : 'I_d) := nth 0 (nd_values gv) (nth 0%N p j).
have pl (j : 'I_d) : (nth 0%N p j < order.+1)%N := nth_lt pg1 (ltn_ord j).
have cl (j : 'I_d) : (nth 0%N c j < n)%N := nth_lt cg (ltn_ord j).
pose h := (b - a) / n%:R; have two : 0 < 2%:R :> R by rewrite ltr0n.
have at_j (j : 'I_d) : node_at s (nd n order s c p) 0 j - a = ((nth 0%N c j)%:R + 2%:R^-1 * (1 + x j)) * h.
  rewrite -nth_place (place_nd gen cf cg pg1) nth_mkseq // cell_mapE (nth_map 0%N) ?(size_grid_in pg1) // -/(x j) -/h.
  by move: h (x j) (nth 0%N c j)%:R => h' x' c'; field.
have hn0 : (b - a) / n%:R != 0 by rewrite gt_eqF // divr_gt0 ?subr_gt0 ?ltr0n.
have o0 : (0 < order)%N by clear -o2; lia.
have [so sz /andP[/eqP e0 /eqP e1] _] : [/\ sorted <%R (nd_values gv), size (nd_values gv) = order.+1, is_continuous gv & True].
  by move: (cf_gv cf); rewrite -(prednK o0) => /C33_lobatto_nodes[].
have xs (k l : nat) : (k < l)%N -> (l < order.+1)%N -> nth 0 (nd_values gv) k < nth 0 (nd_values gv) l.
  by move=> kl lo; apply: (sorted_ltn_nth lt_trans) => //; rewrite inE ?sz // (ltn_trans kl).
have el : nth 0 (nd_values gv) order = 1 by move: e1; rewrite -nth_last sz.
have x0 j : -1 <= x j ?= iff (nth 0%N p j == 0%N).
  rewrite /x -e0; case: (posnP (nth 0%N p j)) => [->|h3]; first by split; rewrite ?lexx ?eqxx.
  by have h4 := xs _ _ h3 (pl j); split; rewrite ?ltW // lt_eqF // gtn_eqF.
have x1 j : x j <= 1 ?= iff (nth 0%N p j == order).
  rewrite /x -el; case: (ltngtP (nth 0%N p j) order) => [h3|h3|->]; last by split; rewrite ?lexx ?eqxx.
    by have h4 := xs _ _ h3 (ltnSn _); split; rewrite ?ltW // lt_eqF.
  by have := pl j; rewrite ltnS leqNgt h3.
have half (k : nat) t : 0 <= t -> (k%:R + 2%:R^-1 * t == 0 :> R) = (k == 0%N) && (t == 0).
  by move=> t0; rewrite paddr_eq0 ?ler0n ?mulr_ge0 ?invr_ge0 ?(ltW two) // pnatr_eq0 mulf_eq0 invr_eq0 (gt_eqF two).
have nn : n%:R != 0 :> R by rewrite pnatr_eq0 -lt0n.
have at_a (j : 'I_d) : (node_at s (nd n order s c p) 0 j == a) = (nth 0%N (UnitCube_refine.global order.+1 c p) j == 0%N).
  rewrite (nth_global cg pg1) // -subr_eq0 at_j mulf_eq0 (negbTE hn0) orbF.
  rewrite half; last by rewrite -(subrr 1) ler_add2l; case: (x0 j).
  rewrite addn_eq0 muln_eq0 (gtn_eqF o0) orbF; congr (_ && _).
  by rewrite addr_eq0 -eqr_oppLR; case: (x0 j) => _ <-.
have at_b (j : 'I_d) : (node_at s (nd n order s c p) 0 j == b) = (nth 0%N (UnitCube_refine.global order.+1 c p) j == n * order)%N.
  rewrite (nth_global cg pg1) // -subr_eq0 [X in X == 0](_ : _ = - (((n - (nth 0%N c j).+1)%:R + 2%:R^-1 * (1 - x j)) * h)); last first.
    have S1 : (nth 0%N c j).+1%:R = (nth 0%N c j)%:R + 1 :> R by rewrite -addn1 natrD.
    rewrite natrB // S1 -[_ - b](subrKA a) at_j /h; move: (x j) (nth 0%N c j)%:R n%:R nn => x' c' n' n0'; by field.
  rewrite oppr_eq0 mulf_eq0 (negbTE hn0) orbF half; last by rewrite subr_ge0; case: (x1 j).
  rewrite subr_eq0 [1 == _]eq_sym; have [_ ->] := x1 j; move: (cl j) (pl j); rewrite ltnS /=; clear -o0; move: (nth 0%N c j) (nth 0%N p j) => c' p' cn po.
  apply/andP/eqP => [[/eqP e1 /eqP ->]|e]; first by have -> : n = c'.+1 by [lia]; rewrite mulSn addnC.
  have pE := pos_last cn po e; split; last by rewrite pE.
  by move: e; rewrite pE addnC -mulSn => /eqP; rewrite eqn_pmul2r // => /eqP ->; rewrite subnn.
split=> -[wf]; first by case=> ax [al ap h']; split=> //; exists (Ordinal al) => //; move: h' => [|] /eqP; [rewrite -(at_a (Ordinal al))|rewrite -(at_b (Ordinal al))] => /eqP; [left|right].
by case=> j jp h'; split=> //; exists j; split=> //; case: h' => /eqP; rewrite ?at_a ?at_b => /eqP; [left|right].
Qed.

(** A polynomial solution of the unsteady equations: at every node the velocity is
    a polynomial of degree at most [k] in time, the pressure one of degree at most
    one. From its values at k times a step of order k gives its value at the next. *)
Theorem C79_unsteady us ps hU hp U P Fv lift (k : nat) (mu dt alpha t0 : R) (project : bool) (T : nat -> nat -> {poly R}) (Q : nat -> {poly R}) : closed ->
  poly_field hU U -> (forall c, (c < d)%N -> tdeg d order.+1 (hU c) /\ matches (hU c)) ->
  poly_pressure hp P -> tdeg d (order - 1) hp -> matches hp -> vgood s Fv ->
  (forall i, (i < nv)%N -> divergence hU i = 0) -> boundary lift U ->
  alpha = 0 \/ (forall c, (c < d)%N -> tdeg d order (hU c)) ->
  0 < dt -> 0 <= mu -> (0 < k)%N -> size us = k -> (forall j, (j < k)%N -> vgood s (nth [::] us j)) ->
  (1 < size ps)%N -> (forall j, (j < size ps)%N -> size (nth [::] ps j) = np) ->
  let tk := t0 + k%:R * dt in
  (forall i, (i < np)%N -> [/\ (size (Q i) <= 2)%N, nth 0 P i = (Q i).[tk],
    nth 0 (nth [::] ps (size ps - 1)) i = (Q i).[tk - dt] & nth 0 (nth [::] ps (size ps - 2)) i = (Q i).[tk - 2%:R * dt]]) ->
  (forall c i, (c < d)%N -> (i < nv)%N -> [/\ (size (T c i) <= k.+1)%N,
    (forall j, (j < k)%N -> ent (nth [::] us j) c i = (T c i).[t0 + j%:R * dt]), ent U c i = (T c i).[tk] &
    ~ dirichlet_node s i -> (T c i)^`().[tk] = mu * laplacian hU c i - gradient hp c i + ent Fv c i]) ->
  stokes_one_step eps (cg_solver 0 0) s us ps (B s Fv) mu dt k alpha lift None project = inr (U, P).
Proof.
move=> cl pU dU pP dp mp gF dv bU flt dt0 mu0 k0 sus gus sps gps tk hQ hT.
apply: (C79_step project cl pU dU pP dp mp gF dv bU flt dt0 mu0 k0 sus gus sps gps) => [i hi|bdf c i hb hc hi nd].
  have [sQ -> -> ->] := hQ i hi; move: (Q i) sQ => q sq.
  have [y [z ->]] : exists y z : R, q = y *: 'X + z%:P.
    exists q`_1, q`_0; apply/polyP => -[|[|l]]; rewrite coefD coefZ coefX coefC /= ?mulr0 ?mulr1 ?addr0 ?add0r //.
    by rewrite nth_default // (leq_trans sq).
  by rewrite !hornerE; ring.
have [sT eT eU <- //] := hT c i hc hi.
have [bs hb' [sb /(_ (T c i) t0 dt sT) e]] := C44_exact R k0.
have bE : bs = bdf by move: hb'; rewrite hb => -[].
subst bs; rewrite -[RHS](mulKf (lt0r_neq0 dt0)) mulrC; congr (_ * _).
rewrite -e dot_fun big_ord_recr /= eU; congr (_ + _).
by apply: eq_bigr => j _; rewrite eT.
Qed.

(** Steady solutions are kept. *)
Theorem C79_steady hU hp U P Fv lift (k l : nat) (mu dt alpha : R) (project : bool) : closed ->
  poly_field hU U -> (forall c, (c < d)%N -> tdeg d order.+1 (hU c) /\ matches (hU c)) ->
  poly_pressure hp P -> tdeg d (order - 1) hp -> matches hp -> vgood s Fv ->
  (forall i, (i < nv)%N -> divergence hU i = 0) -> boundary lift U ->
  alpha = 0 \/ (forall c, (c < d)%N -> tdeg d order (hU c)) ->
  0 < dt -> 0 <= mu -> (0 < k)%N -> (1 < l)%N ->
  (forall c i, (c < d)%N -> (i < nv)%N -> ~ dirichlet_node s i -> mu * laplacian hU c i + ent Fv c i = gradient hp c i) ->
  stokes_one_step eps (cg_solver 0 0) s (nseq k U) (nseq l P) (B s Fv) mu dt k alpha lift None project = inr (U, P).
Proof.
move=> cl pU dU pP dp mp gF dv bU flt dt0 mu0 k0 l1 eq; have [gU _] := pU; have [sP _] := pP.
have nl (j : nat) : (j < l)%N -> nth [::] (nseq l P) j = P by move=> h; rewrite nth_nseq h.
apply: (@C79_unsteady _ _ hU hp U P Fv lift k mu dt alpha 0 project (fun c i => (ent U c i)%:P) (fun i => (nth 0 P i)%:P)) => //.
- by rewrite size_nseq.
- by move=> j hj; rewrite nth_nseq hj.
- by rewrite size_nseq.
- by move=> j; rewrite size_nseq => hj; rewrite nl.
- move=> i hi; rewrite size_nseq !hornerC !nl ?(leq_trans (size_polyC_leq1 _)) //; clear -l1; lia.
move=> c i hc hi; rewrite !hornerC (leq_trans (size_polyC_leq1 _)) // derivC hornerC; split=> // [j hj|nd].
  by rewrite nth_nseq hj hornerC.
by rewrite addrAC eq // subrr.
Qed.
End Cube.

(** ** Examples *)
(** Poiseuille flow (y (1 - y), 0) in the channel that is periodic in the first
    direction and has fixed walls in the second, driven by the force (2 mu, 0). *)
Section Channel.
Variables (R : rcfType) (eps mu dt : R).
Hypotheses (dt0 : 0 < dt) (mu0 : 0 <= mu).
Definition parabola (t : R) : nat -> tpoly R := fun c => if c == 0%N then [:: (t, [:: 1; 'X]); (- t, [:: 1; 'X ^+ 2])] else [::].
Lemma parabola_deg t c : (c < 2)%N -> tdeg 2 3 (parabola t c).
Proof. by case: c => [|[|c]] // _; rewrite /tdeg /parabola /= size_poly1 size_polyX size_polyXn. Qed.
Lemma tdeg_leq d l l' (f : tpoly R) : (l <= l')%N -> tdeg d l f -> tdeg d l' f.
Proof.
move=> ll /allP h; apply/allP => t /h /andP[-> /allP h']; apply/allP => q /h' hq; exact: leq_trans ll.
Qed.
Lemma parabola_matches t c : (c < 2)%N -> matches 2 [:: 0%N] (parabola t c).
Proof. by case: c => [|[|c]] // _ j _; rewrite inE => /eqP ->; rewrite /flat_along /parabola /= size_poly1. Qed.
Lemma parabola_at (s : sem R 2) t c i : at_node s (parabola t c) i = if c == 0%N then t * node_at s i 0 1 * (1 - node_at s i 0 1) else 0.
Proof.
rewrite /at_node /parabola; case: ifP => _; last by rewrite /teval big_nil.
have sp := size_place (node_at s i); have p0 := nth_place (node_at s i) 0; have p1 := nth_place (node_at s i) 1.
move: sp p0 p1; case: (place _) => [|x [|y []]] //= _ _ <-.
rewrite /teval !big_cons !big_nil /= !hornerE; change (t * y + - t * y * y = t * y * (1 - y)); ring.
Qed.
Lemma parabola_lap (s : sem R 2) t c i : laplacian s (parabola t) c i = if c == 0%N then - (2%:R * t) else 0.
Proof.
have e0 j : at_node s (tderiv j (tderiv j [::])) i = 0 by rewrite /at_node /teval big_nil.
rewrite /laplacian big_ord_recr big_ord1 /= /parabola; case: ifP => _; last by rewrite !e0 addr0.
rewrite /at_node; have := size_place (node_at s i); case: (place _) => [|x [|y []]] //= _.
rewrite /teval /tderiv /= !big_cons !big_nil /= !(derivC, derivX, derivXn, derivMn, hornerC, hornerMn, hornerX, hornerXn).
by ring.
Qed.
Lemma parabola_div (s : sem R 2) t i : divergence s (parabola t) i = 0.
Proof.
rewrite /divergence big_ord_recr big_ord1 /= /at_node /parabola /= [X in _ + X](_ : _ = 0) ?addr0; last by rewrite /teval big_nil.
have := size_place (node_at s i); case: (place _) => [|x [|y []]] //= _.
by rewrite /teval /= !big_cons !big_nil /= !derivC !hornerC !mul0r !mulr0 !addr0.
Qed.

Section Setup.
Variables (pm : premesh [lmodType R of 'rV[R]_2] bool) (s : sem R 2).
Hypothesis gen : unit_cube_mesh 2 true 3 (0 : R) 1 [:: 0%N] None = inr pm.
Hypothesis hs : sem_create eps invmx (refined_mesh (ex_pg R) pm) 1 3 [:: (true, (DIRICHLET, tt))] 2 = inr s.
Definition flow (t : R) : seq (seq R) := [:: [seq t * (x : 'rV[R]_2) 0 1 * (1 - x 0 1) | x <- FES_model.m_coords (vm s)]; nseq (nv s) 0].
Notation one := ([:: (1, [:: 1; 1])] : tpoly R).
Lemma closed_channel : closed_cube 2 true [:: 0%N] [:: (true, (DIRICHLET, tt))].
Proof. by left; exists tt; left. Qed.
Lemma pair_good (x : seq R) : size x = nv s -> vgood s [:: x; nseq (nv s) 0].
Proof. by move=> sx; apply: goodP => // -[|[|c]] // _; rewrite /= ?size_nseq. Qed.
Lemma flow_at t c i : (c < 2)%N -> (i < nv s)%N -> ent (flow t) c i = at_node s (parabola t c) i.
Proof. by case: c => [|[|c]] // _ hi; rewrite parabola_at /ent /= ?nth_nseq ?hi // (nth_map 0). Qed.
Lemma flow_poly t : poly_field s (parabola t) (flow t).
Proof. by split=> [|c i hc hi]; [apply: pair_good; rewrite size_map|rewrite flow_at]. Qed.
Lemma parabola_ok t c : (c < 2)%N -> tdeg 2 4 (parabola t c) /\ matches 2 [:: 0%N] (parabola t c).
Proof. by move=> hc; split; [exact: (tdeg_leq (isT : (3 <= 4)%N) (parabola_deg t hc))|exact: parabola_matches]. Qed.
Lemma flow_walls t : boundary s None (flow t).
Proof.
move=> c i hc hi; move/(C79_walls (isT : (0 < 2)%N) (isT : (0 < 3)%N) ltr01 gen (ex_pg_created R) (ex_pg_continuous R) hs isT hi) => -[_ [j jp e]].
rewrite flow_at // parabola_at; case: ifP => // _; have j1 : j = 1 by apply: val_inj; case: j jp {e} => -[|[|j]].
by case: e; rewrite j1 => ->; rewrite ?mulr0 ?mul0r ?subrr ?mulr0.
Qed.
Lemma one_pressure : poly_pressure s one (nseq (np s) 1).
Proof.
split; first by rewrite size_nseq.
move=> i hi; rewrite nth_nseq hi /teval big_cons big_nil mul1r addr0.
set p := place _; have : size p = 2%N by rewrite size_place.
by case: p => [|x [|y []]] // _; rewrite !big_cons big_nil /= !hornerC !mulr1.
Qed.
Lemma one_deg : tdeg 2 (3 - 1) one. Proof. by rewrite /tdeg /= size_poly1. Qed.
Lemma one_matches : matches 2 [:: 0%N] one.
Proof. by move=> j _ _; rewrite /flat_along /=; case: j => [|[|j]]; rewrite /= ?nth_nil ?size_poly1 ?size_poly0. Qed.
Lemma one_gradient c i : (c < 2)%N -> gradient s one c i = 0.
Proof.
move=> hc; rewrite /gradient /at_node; have := size_place (node_at s i); case: (place _) => [|x [|y []]] //= _; case: c hc => [|[|c]] // _;
by rewrite /teval /= !big_cons !big_nil /= !derivC !hornerC !mul0r ?mulr0 ?addr0 ?mul0r ?mulr0.
Qed.
End Setup.
Example ex_poiseuille (alpha : R) :
  exists pm : premesh [lmodType R of 'rV[R]_2] bool, exists s : sem R 2,
  [/\ unit_cube_mesh 2 true 3 (0 : R) 1 [:: 0%N] None = inr pm,
      sem_create eps invmx (refined_mesh (ex_pg R) pm) 1 3 [:: (true, (DIRICHLET, tt))] 2 = inr s &
  let f := B s [:: nseq (nv s) (2%:R * mu); nseq (nv s) 0] in
  stokes_one_step eps (cg_solver 0 0) s [:: flow s 1; flow s 1] [:: nseq (np s) 1; nseq (np s) 1] f mu dt 2 alpha None None true
    = inr (flow s 1, nseq (np s) 1)].
Proof.
have [pm [s [gen _ fam ori hs]]] := ex_square eps; exists pm, s; split=> // f.
have T := C79_steady (fun _ _ => erefl) (isT : (0 < 2)%N) (isT : (0 < 3)%N) ltr01 gen (ex_pg_created R) (ex_pg_continuous R) hs isT.
apply: (T (parabola 1) [:: (1, [:: 1; 1])] (flow s 1) (nseq (np s) 1) [:: nseq (nv s) (2%:R * mu); nseq (nv s) 0] None 2%N 2%N mu dt alpha true closed_channel) => //.
- exact: flow_poly.
- exact: parabola_ok.
- exact: one_pressure.
- exact: one_deg.
- exact: one_matches.
- by apply: pair_good; rewrite size_nseq.
- by move=> i hi; rewrite parabola_div.
- exact: (flow_walls gen hs).
- by right; exact: parabola_deg.
move=> c i hc hi _; rewrite parabola_lap one_gradient //.
by case: c hc => [|[|c]] // _; rewrite /ent /= !nth_nseq hi ?mulr0 ?addr0 // mulr1 mulrN mulrC addNr.
Qed.
(** The flow t (y (1 - y), 0), which accelerates. *)
Example ex_startup (alpha t : R) :
  exists pm : premesh [lmodType R of 'rV[R]_2] bool, exists s : sem R 2,
  [/\ unit_cube_mesh 2 true 3 (0 : R) 1 [:: 0%N] None = inr pm,
      sem_create eps invmx (refined_mesh (ex_pg R) pm) 1 3 [:: (true, (DIRICHLET, tt))] 2 = inr s &
  let f := B s [:: [seq (x : 'rV[R]_2) 0 1 * (1 - x 0 1) + 2%:R * mu * (t + dt) | x <- FES_model.m_coords (vm s)]; nseq (nv s) 0] in
  stokes_one_step eps (cg_solver 0 0) s [:: flow s t] [:: nseq (np s) 1; nseq (np s) 1] f mu dt 1 alpha None None false
    = inr (flow s (t + dt), nseq (np s) 1)].
Proof.
have [pm [s [gen _ fam ori hs]]] := ex_square eps; exists pm, s; split=> // f.
have T := C79_unsteady (fun _ _ => erefl) (isT : (0 < 2)%N) (isT : (0 < 3)%N) ltr01 gen (ex_pg_created R) (ex_pg_continuous R) hs isT.
have fg u : vgood s (flow s u) by case: (flow_poly s u).
apply: (T [:: flow s t] [:: nseq (np s) 1; nseq (np s) 1] (parabola (t + dt)) [:: (1, [:: 1; 1])] _ _ _ None 1%N mu dt alpha t false
  (fun c i => (if c == 0%N then node_at s i 0 1 * (1 - node_at s i 0 1) else 0) *: 'X) (fun=> 1%:P) closed_channel) => //.
- exact: flow_poly.
- exact: parabola_ok.
- exact: one_pressure.
- exact: one_deg.
- exact: one_matches.
- by apply: pair_good; rewrite size_map.
- by move=> i hi; rewrite parabola_div.
- exact: (flow_walls gen hs).
- by right; exact: parabola_deg.
- by case=> // _; exact: fg.
- by case=> [|[|j]] // _; rewrite size_nseq.
- by move=> i hi; rewrite !hornerC /= !nth_nseq hi (leq_trans (size_polyC_leq1 _)).
move=> c i hc hi; rewrite (leq_trans (size_scale_leq _ _)) ?size_polyX // !hornerZ !hornerX !derivZ derivX hornerZ hornerC mulr1 !flow_at // !parabola_at parabola_lap one_gradient //.
split=> // [[|j] //= _||_].
- by rewrite flow_at // parabola_at hornerZ hornerX; case: (c == 0%N); ring.
- by case: (c == 0%N); ring.
case: c hc => [|[|c]] // _; rewrite /ent /= ?nth_nseq ?hi; last by rewrite mulr0 subr0 addr0.
by rewrite (nth_map 0) // subr0 /node_at; ring.
Qed.
End Channel.

Print Assumptions C79_viscous.
Print Assumptions C79_gradient.
Print Assumptions C79_divergence.
Print Assumptions C79_filter.
Print Assumptions C79_step.
Print Assumptions C79_walls.
Print Assumptions C79_unsteady.
Print Assumptions C79_steady.
Print Assumptions ex_poiseuille.
Print Assumptions ex_startup.
