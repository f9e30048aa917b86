(** C81: polynomial solutions of the Navier-Stokes equations. *)
From Coq Require List.
From mathcomp Require Import all_ssreflect all_algebra polyrcf zify ring.
From Verif Require Import PyDict_model PyDict_proofs Facet_model Facet_spec Facet_proofs GS_model GS_proofs GS_props Interp_model Interp_spec Lagrange_proofs.
From Verif Require Interp_proofs.
From Verif Require Import Legendre_proofs Gauss_proofs2 Interp_proofs2 Tensor_proofs Interp_props FES_model FES_proofs FES_proofs2 FES_props FES_props2 Premesh_model.
From Verif Require Import Refiner_model Refiner_spec UnitCube_model UnitCube_spec UnitCube_proofs UnitCube_proofs2 UnitCube_proofs3 UnitCube_props UnitCube_refine UnitCube_links.
From Verif Require Import CG_model CG_proofs CG_props TimeCoef_model TimeCoef_props Stokes_model Stokes_spec Stokes_proofs Stokes_proofs2 Stokes_proofs3.
From Verif Require Import Stokes_create Stokes_create2 Stokes_create3 Stokes_proofs4 Stokes_create4 Stokes_momentum Stokes_props Stokes_props2 Stokes_family Stokes_instance Stokes_props3 Stokes_props4.
From Verif Require Import Tensor_nodal Unisolvent_proofs Tensor_parts Stokes_cube Stokes_props5 Stokes_props6 Flow_props Steady_props Patch_props.
From Verif Require Import Poly_proofs Poly_props Pipeline_model NS_model NS_props.
Set Implicit Arguments.
Unset Strict Implicit.
Unset Printing Implicit Defensive.
Import Order.TTheory GRing.Theory Num.Theory.
Local Open Scope ring_scope.

(** The derivative along an axis of a polynomial that does not vary along it. *)
Lemma flat_zero (R : rcfType) l d (f : tpoly R) j x : tdeg d l f -> flat_along j f -> (j < d)%N -> size x = d -> teval (tderiv j f) x = 0.
Proof.
move=> /allP df /allP fl jd sx; rewrite /teval /tderiv big_map big_seq big1 // => t ht /=.
have /andP[/eqP st _] := df _ ht; rewrite prod_zip ?size_map ?size_iota ?st // sx (bigD1 (Ordinal jd)) //=.
rewrite (nth_map 0%N) ?size_iota // nth_iota // add0n eqxx (size1_polyC (fl _ ht)) derivC horner0 mul0r.
exact: mulr0.
Qed.

Section Cube.
Variables (R : rcfType) (d : nat) (eps : R) (inv : 'M[R]_d -> 'M[R]_d) (L : eqType) (BCV : Type).
(** [jnp.linalg.inv] inverts invertible matrices. *)
Hypothesis inv_ok : forall J : 'M[R]_d, J \in unitmx -> inv J = invmx J.
Variables (lbl : L) (n : nat) (a b : R) (pd : seq nat) (pm : premesh [lmodType R of 'rV[R]_d] L).
Hypotheses (d0 : (0 < d)%N) (n0 : (0 < n)%N) (ab : a < b).
Hypothesis gen : unit_cube_mesh d lbl n a b pd None = inr pm.
Variables (pg : nodes1d R) (tp : node_type).
Hypotheses (hpg : nodes1d_create R 2 tp = inr pg) (cpg : is_continuous pg).
Variables (order overint : nat) (bcs : seq (L * (bctype * BCV))) (s : sem R d).
Hypothesis hs : sem_create eps inv (refined_mesh pg pm) 1 order bcs overint = inr s.
Hypothesis o2 : (2 < order)%N.
Notation vel := (s_velocity s).
Notation nv := (nv s).
Notation np := (np s).
Notation vfield := (seq (seq R)).
Notation conforming := (conforming s).
Notation closed := (closed_cube d lbl pd bcs).
Notation matches := (@matches R d pd).
Notation at_node := (@at_node R d s).
Notation poly_field := (@poly_field R d s).
Notation poly_pressure := (@poly_pressure R d s).
Let fam := (C61_family d0 n0 ab gen hpg cpg).1.
Let ori := (C61_family d0 n0 ab gen hpg cpg).2.
Implicit Types (u v w U G : vfield) (hU : nat -> tpoly R) (hp : tpoly R).

Notation laplacian := (@laplacian R d s).
Notation divergence := (@divergence R d s).
Notation gradient := (@gradient R d s).
Notation boundary := (@boundary R d s).
Notation h := ((b - a) / n%:R).

(** [hA] is the advection (U . grad) U of the polynomial flow [hU], with degree less
    than the order of the elements along every axis. *)
Definition advected hU (hA : nat -> tpoly R) : Prop := forall c, (c < d)%N -> tdeg d order (hA c) /\
  forall x, size x = d -> teval (hA c) x = \sum_(i < d) teval (hU i) x * teval (tderiv i (hU c)) x.

Lemma rule_exact nq (q1 : quadrature1d R) ws (f : tpoly R) : (order < nq)%N -> quadrature_create R nq GAUSS_LOBATTO_LEGENDRE = inr q1 ->
  weights_nd q1 d = inr ws -> tdeg d (2 * order) f ->
  \sum_(q < nq ^ d) teval f (grid_point d (qd_nodes q1) q) * nth 0 ws q = tintegral f.
Proof.
move=> on hq hw df; have nq0 : (0 < nq)%N by case: (nq) on.
have [w' hw' [wp _ wx]] := C36_weights_nd d0 nq0 hq.
move: hw'; rewrite hw => -[ww]; rewrite -ww in wp wx => {w' ww}.
have [sw sn _ _] := C36_exact nq0 hq.
have sz : size ws = (nq ^ d)%N by rewrite wp size_map size_cart_nseq sw.
rewrite /tintegral -wx; last by apply: tdeg_le df; rewrite /exactness; clear -on; lia.
rewrite Verif.Interp_proofs.dotE ?size_map ?size_cart_nseq ?sn // sz; apply: eq_bigr => q _.
by rewrite (nth_map [::]) ?size_cart_nseq ?sn // mulrC.
Qed.

(** The advection operator applied to a polynomial flow is the mass matrix times its
    advection, seen from the conforming velocities. *)
Theorem C81_advection hU hA U G w : poly_field hU U -> (forall c, (c < d)%N -> tdeg d order.+1 (hU c)) -> advected hU hA ->
  vgood s G -> (forall c i, (c < d)%N -> (i < nv)%N -> ent G c i = at_node (hA c) i) -> conforming w ->
  vpair s (v_C eps vel U) w = vpair s (B s G) w.
Proof.
move=> pU dU ad gG eG cw; have [gU eU] := pU; have [gw vw _] := cw.
have [gp [gv [rp [rv [quad [M [pm' [cf hM run rvE]]]]]]]] := cube_made d0 n0 ab gen hpg cpg hs.
have [_ _ _ gE] := feE (ltn0Sn _) (cf_gv cf) (cf_vm cf).
have [g hg dg] := interpolated fam hs gw.
pose cell e := nth [::] (grid n d) e.
pose pl c e (f : nat -> tpoly R) := pull d (@cell_map R n a b (cell e)) (f c).
have dpl l c e f : tdeg d l (f c) -> tdeg d l (pl c e f) by apply: pull_deg => j _; exact: (cell_map_size n0 ab).
have gU' : given_by (n ^ d) order s U (fun c e => pl c e hU).
  move=> c e k hc he hk; have [xl _ _] := node_facts cf he hk; have [ee eg eE] := grid_of he; have [p pg' kE] := grid_of hk.
  rewrite eU // eE kE /pl /cell nth_grid // gE (point_nd cf pg').
  exact: (at_nd gen cf (dU c hc) eg pg').
have hJ e x : (e < n ^ d)%N -> size x = d -> jacobian_at (element_map pm e) x = (h / 2%:R)%:M.
  by move=> he; have [se _] := C26_cells gen; rewrite -se in he; exact: (cube_jacobian gen).
have h20 : h / 2%:R != 0 by rewrite gt_eqF // !divr_gt0 ?subr_gt0 ?ltr0n.
have adv e x c : (e < n ^ d)%N -> size x = d -> (c < d)%N -> advects (element_map pm) (fun c e => pl c e hU) e x c = teval (pl c e hA) x.
  move=> he sx hc; have [dA eA] := ad c hc; rewrite (pull_eval _ dA) // eA ?size_mkseq // /advects; apply: eq_bigr => i _.
  rewrite (pull_eval _ (dU i (ltn_ord i))) //; congr (_ * _).
  rewrite /pderiv hJ // invmx_scalar (bigD1 i) //= mxE eqxx mulr1n big1 ?addr0 => [|l li]; last first.
    by rewrite mxE eq_sym (negbTE li) mulr0n mul0r.
  rewrite (pull_deriv (dU c hc) sx (ltn_ord i) (cell_map_deriv n a b (cell e) i)).
  by rewrite mulrA mulVf // mul1r.
pose H e := flatten [seq tmul (pl c e hA) (g c e) | c : 'I_d <- enum 'I_d].
have dA e (c : 'I_d) : tdeg d (order.-1).+1 (pl c e hA).
  by rewrite prednK ?(ltn_trans _ o2) //; apply: dpl; case: (ad c (ltn_ord c)).
have dH e : (e < n ^ d)%N -> tdeg d (2 * order) (H e).
  move=> he; apply: tdeg_flatten; apply/allP => _ /mapP[c _ ->].
  have := tdeg_mul (dA e c) (dg c e (ltn_ord c) he).
  by apply: tdeg_le; clear -o2; lia.
have eH e x : (e < n ^ d)%N -> size x = d -> teval (H e) x = \sum_(c < d) teval (pl c e hA) x * teval (g c e) x.
  move=> he sx; rewrite /H teval_flatten big_map big_enum; apply: eq_bigr => c _.
  by rewrite (teval_mul (dA e c) (dg c e (ltn_ord c) he)).
have [||oq [ws [hoq hw cE]]] := C73_advection inv_ok fam ori hs gU gw _ gU' hg.
- by move=> c e hc he; split; [apply: dpl; exact: dU|exact: dg].
- by move=> c i hc hi dn; exact: vw.
rewrite [LHS]cE (mass_sum cf gG cw).
have nt : (1 < order.+1 + overint)%N by clear -o2; lia.
apply: (@etrans _ _ (\sum_(e < n ^ d) (h / 2%:R) ^+ d * tintegral (H e))).
  apply: eq_bigr => e _; rewrite -(rule_exact _ hoq hw (dH e (ltn_ord e))); last by clear; lia.
  rewrite mulr_sumr; apply: eq_bigr => q _; have [sx _] := lobatto_points nt hoq (ltn_ord q).
  rewrite hJ // det_scalar eH // mulrA [_ ^+ d * _]mulrC; congr (_ * _ * _); apply: eq_bigr => c _.
  by rewrite adv.
apply: esym; have [ws' hw' _] := C36_weights_nd d0 (ltn0Sn _) (cf_quad cf).
have [_ vq _] := fs_basic (ltn0Sn _) (cf_quad cf) (cf_vs cf).
have nt' : (1 < order.+1)%N by clear -o2; lia.
apply: eq_bigr => e _; rewrite -(rule_exact (ltnSn order) (cf_quad cf) hw' (dH e (ltn_ord e))).
rewrite mulr_sumr; apply: eq_bigr => q _; have [sx _] := lobatto_points nt' (cf_quad cf) (ltn_ord q).
have [xl _ _] := node_facts cf (ltn_ord e) (ltn_ord q).
rewrite -mulr_suml /wt vq hw' (point_jac fam cf nt' (cf_quad cf) (cf_vs cf) (ltn_ord e) (ltn_ord q)) hJ // det_scalar eH //= [RHS]mulrCA; congr (_ * _); apply: eq_bigr => c _.
rewrite eG // hg // mulrC gE (quad_gv cf); congr (_ * _).
have [ee eg eE] := grid_of (ltn_ord e); have [p pg' kE] := grid_of (ltn_ord q).
rewrite eE kE /pl /cell nth_grid // (point_nd cf pg').
by have [dc _] := ad c (ltn_ord c); exact: (at_nd gen cf dc eg pg').
Qed.

Definition field (g : nat -> nat -> R) : vfield := [seq [seq g c i | i <- iota 0 nv] | c <- iota 0 d].
Lemma field_good (g : nat -> nat -> R) : vgood s (field g).
Proof.
apply: goodP => [|c hc]; first by rewrite size_map size_iota.
by rewrite (nth_map 0%N) ?size_iota // size_map size_iota.
Qed.
Lemma field_ent (g : nat -> nat -> R) c i : (c < d)%N -> (i < nv)%N -> ent (field g) c i = g c i.
Proof. by move=> hc hi; rewrite /ent (nth_map 0%N) ?size_iota // nth_iota // (nth_map 0%N) ?size_iota // nth_iota. Qed.

(** A history of polynomial flows [hu j] with advections [hA j]. *)
Definition poly_history (k : nat) (us : seq vfield) (hu hA : nat -> nat -> tpoly R) : Prop := size us = k /\
  forall j, (j < k)%N -> [/\ poly_field (hu j) (nth [::] us j), forall c, (c < d)%N -> tdeg d order.+1 (hu j c) & advected (hu j) (hA j)].

(** One step with advection extrapolated from the history reproduces polynomial
    solutions of the Navier-Stokes equations: if the velocity [U] and the extrapolated
    pressure [P] are polynomials without divergence, with the given boundary values,
    and satisfy
    (sum_j beta_j u_j + beta_k U) / dt + sum_j ext_j (u_j . grad) u_j = mu Lap U - grad P + F
    at the nodes without Dirichlet condition, they are the result. *)
Theorem C81_step us ps hU hp U P Fv f lift (k : nat) (mu dt alpha : R) (project : bool) (hu hA : nat -> nat -> tpoly R) ext : closed ->
  poly_field hU U -> (forall c, (c < d)%N -> tdeg d order.+1 (hU c) /\ matches (hU c)) ->
  poly_pressure hp P -> tdeg d (order - 1) hp -> matches hp -> vgood s Fv ->
  (forall i, (i < nv)%N -> divergence hU i = 0) -> boundary lift U ->
  alpha = 0 \/ (forall c, (c < d)%N -> tdeg d order (hU c)) ->
  0 < dt -> 0 <= mu -> (1 < k)%N -> poly_history k us hu hA ->
  (1 < size ps)%N -> (forall j, (j < size ps)%N -> size (nth [::] ps j) = np) ->
  (forall i, (i < np)%N -> nth 0 P i = 2%:R * nth 0 (nth [::] ps (size ps - 1)) i - nth 0 (nth [::] ps (size ps - 2)) i) ->
  extk_coeffs R (k - 1) = inr ext -> vgood s f ->
  (forall c i, (c < d)%N -> (i < nv)%N -> ent f c i = ent (B s Fv) c i - \sum_(j < k) nth 0 ext j * ent (v_C eps vel (nth [::] us j)) c i) ->
  (forall bdf c i, bdfk_coeffs R k = inr bdf -> (c < d)%N -> (i < nv)%N -> ~ dirichlet_node s i ->
    (\sum_(j < k) nth 0 bdf j * ent (nth [::] us j) c i + nth 0 bdf k * ent U c i) / dt + \sum_(j < k) nth 0 ext j * at_node (hA j c) i
      = mu * laplacian hU c i - gradient hp c i + ent Fv c i) ->
  stokes_one_step eps (cg_solver 0 0) s us ps f mu dt k alpha lift None project = inr (U, P).
Proof.
move=> cl pU dU pP dp mp gF dv bU flt dt0 mu0 k1 [sus hist] sps gps eP hext gf ef eq; have [gU eU] := pU; have [sP _] := pP.
have [gp [gv [rp [rv [quad cf]]]]] := created fam hs; have ok := facts_ok cf; have k0 := ltnW k1.
have gus' j : (j < size us)%N -> vgood s (nth [::] us j) by rewrite sus => /hist[[]].
have f0 : forall c i, (c < d)%N -> (i < nv)%N -> dirichlet_node s i -> ent f c i = 0.
  move=> c i hc hi dn; have [_ _ _ hC] := C47_rows fam hs hc hi dn; rewrite ef // big1 => [|j _]; last by rewrite hC mulr0.
  by move: dn; rewrite /dirichlet_node subr0 => m0; rewrite (ent_B ok i gF hc) m0 !mul0r.
apply: (C74_step fam hs project o2 ori dt0 mu0 k0 gus' sus gps sps gf f0).
- by case: lift bU => // ub [].
- split=> //.
  + exact: (boundary_conforming d0 n0 ab gen hpg cpg hs o2 pU dU bU).
  + by apply: (C79_divergence inv_ok d0 n0 ab gen hpg cpg hs o2 pU) => // c hc; case: (dU c hc).
  + move=> i; case: (ltnP i np) => hi; first exact: eP.
    have h1 : (size ps - 1 < size ps)%N by clear -sps; lia.
    have h2 : (size ps - 2 < size ps)%N by clear -sps; lia.
    have z x : size x = np -> nth (0 : R) x i = 0 by move=> sx; rewrite nth_default // sx.
    by rewrite (z _ sP) (z _ (gps _ h1)) (z _ (gps _ h2)) mulr0 subrr.
  move=> bdf W w hb gW cw eW.
  rewrite (C79_viscous inv_ok d0 n0 ab gen hpg cpg hs o2 cl pU dU (field_good (laplacian hU)) (@field_ent _) cw).
  rewrite (C79_gradient inv_ok d0 n0 ab gen hpg cpg hs o2 cl pP dp mp (field_good (gradient hp)) (@field_ent _) cw).
  pose G j := field (fun c i => at_node (hA j c) i).
  have -> : vpair s f w = vpair s (B s Fv) w - \sum_(j < k) nth 0 ext j * vpair s (B s (G j)) w.
    rewrite [X in _ - X](eq_bigr (fun j : 'I_k => nth 0 ext j * vpair s (v_C eps vel (nth [::] us j)) w)) => [|j _]; last first.
      have [pj dj aj] := hist j (ltn_ord j); congr (_ * _); apply: esym.
      exact: (C81_advection pj dj aj (field_good _) (@field_ent _) cw).
    rewrite /vpair (eq_bigr (fun j : 'I_k => \sum_(c < d) \sum_(i < nv) nth 0 ext j * (ent (v_C eps vel (nth [::] us j)) c i * ent w c i))); last first.
      by move=> j _; rewrite mulr_sumr; apply: eq_bigr => c _; rewrite mulr_sumr.
    rewrite [X in _ - X]exchange_big /= -sumrB; apply: eq_bigr => c _; rewrite [X in _ - X]exchange_big /= -sumrB; apply: eq_bigr => i _.
    by rewrite ef // mulrBl mulr_suml; congr (_ - _); apply: eq_bigr => j _; rewrite mulrA.
  rewrite /vpair (eq_bigr (fun j : 'I_k => \sum_(c < d) \sum_(i < nv) nth 0 ext j * (ent (B s (G j)) c i * ent w c i))); last first.
    by move=> j _; rewrite mulr_sumr; apply: eq_bigr => c _; rewrite mulr_sumr.
  rewrite [X in _ - X + _]exchange_big /= -!sumrN mulr_sumr -!big_split /=; apply: eq_bigr => c _.
  rewrite [X in _ - X + _]exchange_big /= -!sumrN mulr_sumr -!big_split /=; apply: eq_bigr => i _.
  rewrite (eq_bigr (fun j : 'I_k => nth 0 (v_mask vel) i * ent (s_mass s) c i * ent w c i * (nth 0 ext j * at_node (hA j c) i))); last first.
    move=> j _; rewrite (ent_B ok i (field_good _)) // field_ent //.
    set x1 := nth 0 _ i; set x2 := ent _ c i; set x3 := ent w c i; set x4 := nth 0 ext j; set x5 := at_node _ _.
    by move: x1 x2 x3 x4 x5; clear; move=> x1 x2 x3 x4 x5; ring.
  rewrite -mulr_sumr (ent_B ok i gW) // (ent_B ok i gF) // !(ent_B ok i (field_good _)) // !field_ent //.
  have [m0|m1] := facts_binary cf (ltn_ord i); first by rewrite m0 !(mul0r, mulr0, oppr0, addr0).
  have e := eq bdf c i hb (ltn_ord c) (ltn_ord i).
  rewrite eW; move: e; rewrite /dirichlet_node m1 => /(_ (fun h : 1 = 0 :> R => elimN eqP (oner_neq0 R) h)).
  set x1 := (_ + _) / dt; set x2 := \sum_(j < k) _; set x3 := laplacian _ _ _; set x4 := gradient _ _ _; set x5 := ent Fv _ _; set x6 := ent _ c i; set x7 := ent w c i.
  move: x1 x2 x3 x4 x5 x6 x7; clear; move=> x1 x2 x3 x4 x5 x6 x7 e.
  have -> : x1 = mu * x3 - x4 + x5 - x2 by rewrite -e addrK.
  by ring.
exact: (C79_filter d0 n0 ab gen hpg cpg hs pU flt).
Qed.

(** ** The step of the training program *)
Section Train.
Variables (sine : R -> R) (pi : R) (y : 'I_d) (cfg : config R).
Hypotheses (d2 : d = 2%N) (y1 : y = 1%N :> nat).
Notation k := (time_order cfg).
Notation dt := (time_step cfg).
Notation Re := (reynolds_number cfg).
Hypotheses (k1 : (1 < k)%N) (dt0 : 0 < dt) (re0 : 0 < Re).
Notation body f u := (body_force s sine pi y (drag_coeff cfg) f u).
Notation step us ps f := (solve_one_step eps sine pi (cg_solver 0 0) cfg s us ps [seq v_C eps vel u | u <- us] f).
Let kE : (k - 1).+1 = k. Proof. by clear -k1; lia. Qed.

(** Same for the step of the training program: closure term, Kolmogorov force and
    drag on the right-hand side. *)
Theorem C81_train us ps hU hp U P f (hu hA : nat -> nat -> tpoly R) : closed ->
  poly_field hU U -> (forall c, (c < d)%N -> tdeg d order.+1 (hU c) /\ matches (hU c)) ->
  poly_pressure hp P -> tdeg d (order - 1) hp -> matches hp -> vgood s f ->
  (forall i, (i < nv)%N -> divergence hU i = 0) -> boundary None U ->
  filter_strength cfg = 0 \/ (forall c, (c < d)%N -> tdeg d order (hU c)) ->
  poly_history k us hu hA ->
  (1 < size ps)%N -> (forall j, (j < size ps)%N -> size (nth [::] ps j) = np) ->
  (forall i, (i < np)%N -> nth 0 P i = 2%:R * nth 0 (nth [::] ps (size ps - 1)) i - nth 0 (nth [::] ps (size ps - 2)) i) ->
  (forall bdf c i, bdfk_coeffs R k = inr bdf -> (c < d)%N -> (i < nv)%N -> ~ dirichlet_node s i ->
    (\sum_(j < k) nth 0 bdf j * ent (nth [::] us j) c i + nth 0 bdf k * ent U c i) / dt +
      \sum_(j < k) (-1) ^+ (k.-1 - j) * 'C(k, j)%:R * at_node (hA j c) i
      = 1 / Re * laplacian hU c i - gradient hp c i + body f (last [::] us) c i) ->
  step us ps f = inr (U, P, v_C eps vel U).
Proof.
move=> cl pU dU pP dp mp gf dv bU flt hist sps gps eP eq; have [sus hj] := hist.
have [gp [gv [rp [rv [quad cf]]]]] := created fam hs; have ok := facts_ok cf.
have gus j : (j < size us)%N -> vgood s (nth [::] us j) by rewrite sus => /hj[[]].
have gc u : vgood s (v_C eps vel u).
  by apply: good_mapc (good_vscatter _ _) _ => c sc; rewrite size_vmul ?(ok_mask ok).
have gcus j : (j < size [seq v_C eps vel u | u <- us])%N -> vgood s (nth [::] [seq v_C eps vel u | u <- us] j).
  by rewrite size_map => h'; rewrite (nth_map [::]).
have [g [[gg eg] ->]] := stepE fam hs sine pi d2 y1 (cg_solver 0 0) ps f k1 sus (etrans (size_map _ _) sus) gus gcus.
have [ext hext [sE _]] := @C43_exact R (k - 1) (ltac:(by clear -k1; lia)).
have xE (j : 'I_k) : nth 0 ext j = (-1) ^+ (k.-1 - j) * 'C(k, j)%:R.
  by have jk := ltn_ord j; rewrite (@C43_values R (k - 1) _ ext j hext) ?subn1 ?prednK //; clear -k1 jk; lia.
have re1 : 0 <= 1 / Re by rewrite div1r invr_ge0 ltW.
rewrite (C81_step (f := g) (Fv := field (body f (last [::] us))) (ext := ext) true cl pU dU pP dp mp (field_good _) dv bU flt dt0 re1 k1 hist sps gps eP) //.
- move=> c i hc hi; rewrite eg // (ent_B ok i (field_good _)) // field_ent //; congr (_ - _); apply: eq_bigr => j _.
  by rewrite xE (nth_map [::]) ?sus.
move=> bdf c i hb hc hi nd; rewrite field_ent // -(eq bdf) //; congr (_ + _); apply: eq_bigr => j _.
by rewrite xE.
Qed.

(** From the values of a polynomial solution at k times: at every node the velocity
    is a polynomial of degree at most k in time, the advection one of degree less
    than k, the pressure one of degree at most one.  The drag is that of the velocity
    of the last step. *)
Theorem C81_unsteady us ps hU hp U P f (hu hA : nat -> nat -> tpoly R) (t0 : R) (T S : nat -> nat -> {poly R}) (Q : nat -> {poly R}) : closed ->
  poly_field hU U -> (forall c, (c < d)%N -> tdeg d order.+1 (hU c) /\ matches (hU c)) ->
  poly_pressure hp P -> tdeg d (order - 1) hp -> matches hp -> vgood s f ->
  (forall i, (i < nv)%N -> divergence hU i = 0) -> boundary None U ->
  filter_strength cfg = 0 \/ (forall c, (c < d)%N -> tdeg d order (hU c)) ->
  poly_history k us hu hA ->
  (1 < size ps)%N -> (forall j, (j < size ps)%N -> size (nth [::] ps j) = np) ->
  let tk := t0 + k%:R * dt in
  (forall i, (i < np)%N -> [/\ (size (Q i) <= 2)%N, nth 0 P i = (Q i).[tk],
    nth 0 (nth [::] ps (size ps - 1)) i = (Q i).[tk - dt] & nth 0 (nth [::] ps (size ps - 2)) i = (Q i).[tk - 2%:R * dt]]) ->
  (forall c i, (c < d)%N -> (i < nv)%N -> [/\ (size (T c i) <= k.+1)%N, (size (S c i) <= k)%N,
    (forall j, (j < k)%N -> ent (nth [::] us j) c i = (T c i).[t0 + j%:R * dt] /\ at_node (hA j c) i = (S c i).[t0 + j%:R * dt]), ent U c i = (T c i).[tk] &
    ~ dirichlet_node s i -> (T c i)^`().[tk] + (S c i).[tk] = 1 / Re * laplacian hU c i - gradient hp c i + body f (last [::] us) c i]) ->
  step us ps f = inr (U, P, v_C eps vel U).
Proof.
move=> cl pU dU pP dp mp gf dv bU flt hist sps gps tk hQ hT.
apply: (C81_train cl pU dU pP dp mp gf dv bU flt hist sps gps) => [i hi|bdf c i hb hc hi nd].
  have [sQ -> -> ->] := hQ i hi; move: (Q i) sQ => q sq.
  have [z [w ->]] : exists z w : R, q = z *: 'X + w%:P.
    exists q`_1, q`_0; apply/polyP => -[|[|l]]; rewrite coefD coefZ coefX coefC /= ?mulr0 ?mulr1 ?addr0 ?add0r //.
    by rewrite nth_default // (leq_trans sq).
  by rewrite !hornerE; ring.
have [sT sS eT eU <- //] := hT c i hc hi; congr (_ + _).
  have [bs hb' [sb /(_ (T c i) t0 dt sT) e]] := C44_exact R (ltnW k1).
  have bE : bs = bdf by move: hb'; rewrite hb => -[].
  subst bs; rewrite -[RHS](mulKf (lt0r_neq0 dt0)) mulrC; congr (_ * _).
  rewrite -e dot_fun big_ord_recr /= eU; congr (_ + _).
  by apply: eq_bigr => j _; rewrite (eT j (ltn_ord j)).1.
have [ext hext [sE]] := @C43_exact R (k - 1) (ltac:(by clear -k1; lia)).
rewrite kE in sE * => /(_ (S c i) t0 dt sS) <-; rewrite /samples dot_fun; apply: eq_bigr => j _; have jk := ltn_ord j.
rewrite (eT j jk).2 (@C43_values R (k - 1) _ ext j hext) ?subn1 ?prednK //; clear -k1 jk; lia.
Qed.

(** Steady solutions of the Navier-Stokes equations are kept, *)
Theorem C81_steady hU hA hp U P f : closed ->
  poly_field hU U -> (forall c, (c < d)%N -> tdeg d order.+1 (hU c) /\ matches (hU c)) -> advected hU hA ->
  poly_pressure hp P -> tdeg d (order - 1) hp -> matches hp -> vgood s f ->
  (forall i, (i < nv)%N -> divergence hU i = 0) -> boundary None U ->
  filter_strength cfg = 0 \/ (forall c, (c < d)%N -> tdeg d order (hU c)) ->
  (forall c i, (c < d)%N -> (i < nv)%N -> ~ dirichlet_node s i ->
     at_node (hA c) i = 1 / Re * laplacian hU c i - gradient hp c i + body f U c i) ->
  solve_one_step eps sine pi (cg_solver 0 0) cfg s (nseq k U) (nseq k P) (nseq k (v_C eps vel U)) f = inr (U, P, v_C eps vel U).
Proof.
move=> cl pU dU ad pP dp mp gf dv bU flt eq; have [gU _] := pU; have [sP _] := pP.
have nl (j : nat) : (j < k)%N -> nth [::] (nseq k P) j = P by move=> h'; rewrite nth_nseq h'.
have lU : last [::] (nseq k U) = U by rewrite -nth_last size_nseq nth_nseq ltn_predL (ltnW k1).
rewrite -map_nseq; apply: (@C81_unsteady _ _ hU hp U P f (fun=> hU) (fun=> hA) 0 (fun c i => (ent U c i)%:P) (fun c i => (at_node (hA c) i)%:P) (fun i => (nth 0 P i)%:P)) => //.
- split; first by rewrite size_nseq.
  by move=> j hj; rewrite nth_nseq hj; split=> // c hc; case: (dU c hc).
- by rewrite size_nseq.
- by move=> j; rewrite size_nseq => hj; rewrite nl.
- move=> i hi; rewrite size_nseq !hornerC !nl ?(leq_trans (size_polyC_leq1 _)) //; clear -k1; lia.
move=> c i hc hi; rewrite !hornerC !(leq_trans (size_polyC_leq1 _)) ?(ltnW k1) // derivC hornerC lU add0r; split=> // [j hj|nd].
  by rewrite nth_nseq hj !hornerC.
exact: eq.
Qed.
(** for any number of steps. *)
Theorem C81_forever hU hA hp U P (net : nat -> seq (seq R) -> seq (seq R)) m i0 : closed ->
  poly_field hU U -> (forall c, (c < d)%N -> tdeg d order.+1 (hU c) /\ matches (hU c)) -> advected hU hA ->
  poly_pressure hp P -> tdeg d (order - 1) hp -> matches hp ->
  (forall i, (i < nv)%N -> divergence hU i = 0) -> boundary None U ->
  filter_strength cfg = 0 \/ (forall c, (c < d)%N -> tdeg d order (hU c)) ->
  (forall l, (i0 <= l < i0 + m)%N -> exists2 f, closure_term cfg s default_perm (net l) U = inr f /\ vgood s f &
    forall c i, (c < d)%N -> (i < nv)%N -> ~ dirichlet_node s i ->
     at_node (hA c) i = 1 / Re * laplacian hU c i - gradient hp c i + body f U c i) ->
  ns_rollout eps sine pi (cg_solver 0 0) cfg s net m i0 (nseq k U) (nseq k P) (nseq k (v_C eps vel U)) = inr (nseq m (U, P)).
Proof.
move=> cl pU dU ad pP dp mp dv bU flt; elim: m i0 => [|m IH] i0 st //=; have kp : k = k.-1.+1 by clear -k1; lia.
have rot (A : Type) (x : A) : rcons (behead (nseq k x)) x = nseq k x.
  by rewrite kp /=; elim: (k.-1) => [|j Hj] //=; rewrite Hj.
have [|f [e gf] hf] := st i0; first by clear; lia.
have -> : forall (A : Type) (x : A) (h : seq (seq R) -> seq (seq (seq R)) -> A),
  (if nseq k U is u0 :: us' then h u0 us' else x) = h U (nseq k.-1 U) by move=> A x h'; rewrite {1}kp.
have -> : last U (nseq k.-1 U) = U by elim: (k.-1).
rewrite e (C81_steady cl pU dU ad pP dp mp gf dv bU flt hf) !rot IH // => l hl; apply: st; clear -hl; lia.
Qed.

(** The drag is taken from the velocity of the last step, so the step is of first
    order in it whatever the order of the scheme: on the periodic square the uniformly
    accelerated flow u = t, which solves du/dt = 1 + drag t_k - drag u at t_k, is
    missed by drag dt^2 / beta. *)
Definition uniform (t : R) : vfield := [seq nseq nv (if c == 0%N then t else 0) | c <- iota 0 d].
Theorem C81_drag_refuted (t0 x : R) f : (forall axis, (axis < d)%N -> axis \in pd) -> vgood s f -> let tk := t0 + k%:R * dt in
  (forall c i, (c < d)%N -> (i < nv)%N -> ent f c i = if c == 0%N then 1 + drag_coeff cfg * tk - sine (2%:R * pi * 4%:R * node_at s i 0 y) else 0) ->
  exists2 U, step (mkseq (fun j => uniform (t0 + j%:R * dt)) k) (nseq k (nseq np x)) f = inr (U, nseq np x, v_C eps vel U) &
    U = uniform (tk + drag_coeff cfg * dt ^+ 2 / harmonic R k).
Proof.
move=> per gf tk ef; set U := uniform _; exists U => //; pose P := nseq np x.
pose hc t : nat -> tpoly R := fun c => if c == 0%N then [:: (t, nseq d 1)] else [::].
have dc t c l : (0 < l)%N -> tdeg d l (hc t c) by rewrite /hc; case: ifP => // _ l0; apply: (tdeg_le l0); have := @tone_deg R d 1%N (ltn0Sn _); rewrite /tdeg /=.
have flc t c j : (j < d)%N -> flat_along j (hc t c).
  by move=> jd; rewrite /hc; case: ifP => // _; rewrite /flat_along /= nth_nseq jd size_poly1.
have at_c t c i : at_node (hc t c) i = if c == 0%N then t else 0.
  by rewrite /Poly_proofs.at_node /hc; case: ifP => _; rewrite /teval ?big_nil // big_seq1 /= const_eval ?mulr1 // size_place.
have eu t c i : (c < d)%N -> (i < nv)%N -> ent (uniform t) c i = if c == 0%N then t else 0.
  by move=> h1 h2; rewrite /ent (nth_map 0%N) ?size_iota // nth_iota // add0n nth_nseq h2.
have pu t : poly_field (hc t) (uniform t).
  split=> [|c i h1 h2]; last by rewrite eu // at_c.
  by apply: goodP => [|c h1]; rewrite ?size_map ?size_iota // (nth_map 0%N) ?size_iota // size_nseq.
have dz t c j z : (j < d)%N -> size z = d -> teval (tderiv j (hc t c)) z = 0.
  by move=> jd sz; apply: (flat_zero (dc t c _ (ltn0Sn 0))) => //; exact: flc.
have dz2 t c j i : (j < d)%N -> at_node (tderiv j (tderiv j (hc t c))) i = 0.
  move=> jd; have d1 := dc t c 1%N isT; apply: (flat_zero (tdeg_deriv j d1)); rewrite ?size_place //.
  by apply: (flat_deriv _ d1) => //; exact: flc.
pose hp : tpoly R := [:: (x, nseq d 1)].
have hp0 : hp = hc x 0%N by [].
apply: (@C81_train _ _ (hc (tk + drag_coeff cfg * dt ^+ 2 / harmonic R k)) hp U P f (fun j => hc (t0 + j%:R * dt)) (fun _ _ => [::])) => //.
- by right.
- exact: pu.
- by move=> c h1; split; [exact: dc|move=> j jd _; exact: flc].
- split; first by rewrite size_nseq.
  by move=> i hi; rewrite nth_nseq hi /hp /teval big_seq1 /= const_eval ?mulr1 // size_place.
- by rewrite hp0; apply: dc; clear -o2; lia.
- by move=> j jd _; rewrite hp0; exact: flc.
- by move=> i hi; rewrite /Poly_props.divergence big1 // => j _; rewrite /Poly_proofs.at_node dz ?size_place.
- move=> c i h1 h2 /(C79_walls d0 n0 ab gen hpg cpg hs o2 h2) -[_ [j jp _]].
  by rewrite per in jp.
- by right=> c h1; apply: dc; clear -o2; lia.
- split; first by rewrite size_mkseq.
  move=> j jk; rewrite nth_mkseq //; split=> [|c h1|c h1]; [exact: pu|exact: dc|split=> // z sz].
  by rewrite /teval big_nil big1 // => l _; rewrite [X in _ * X]dz // mulr0.
- by rewrite size_nseq.
- by move=> j; rewrite size_nseq nth_nseq => ->; rewrite size_nseq.
- move=> i hi; rewrite size_nseq !nth_nseq.
  have -> : (k - 1 < k)%N by clear -k1; lia.
  have -> : (k - 2 < k)%N by clear -k1; lia.
  by rewrite !nth_nseq hi; ring.
move=> bdf c i hb h1 h2 _; have [hh b0] := C44_last (ltnW k1) hb.
rewrite [X in _ + X]big1 => [|j _]; last by rewrite /Poly_proofs.at_node /teval big_nil mulr0.
rewrite [laplacian _ _ _](_ : _ = 0); last by rewrite /Poly_props.laplacian big1 // => j _; exact: dz2.
rewrite [gradient _ _ _](_ : _ = 0); last by rewrite /Poly_props.gradient /Poly_proofs.at_node hp0 dz ?size_place.
have lE : last [::] (mkseq (fun j => uniform (t0 + j%:R * dt)) k) = uniform (tk - dt).
  rewrite -nth_last size_mkseq nth_mkseq ?ltn_predL ?(ltnW k1) //; congr uniform.
  by rewrite /tk -{2}(prednK (ltnW k1)) -addn1 natrD mulrDl mul1r addrA addrK.
rewrite addr0 mulr0 subr0 add0r /body_force lE ef // /U !eu // -hh.
rewrite (eq_bigr (fun j : 'I_k => nth 0 bdf j * (if c == 0%N then t0 + j%:R * dt else 0))) => [|j _]; last by rewrite nth_mkseq // eu.
case: (c =P 0%N) => [_|_]; last by rewrite mulr0 big1 ?addr0 ?mul0r ?mulr0 ?subr0 // => j _; rewrite mulr0.
have [bs hb' [sb /(_ 'X t0 dt)]] := C44_exact R (ltnW k1).
have bE : bs = bdf by move: hb'; rewrite hb => -[].
rewrite size_polyX ltnS (ltnW k1) bE derivX hornerC mulr1 dot_fun big_ord_recr /= hornerX => /(_ isT).
rewrite (eq_bigr (fun j : 'I_k => nth 0 bdf j * (t0 + j%:R * dt))) => [|j _]; last by rewrite hornerX.
rewrite -/tk; move: (\sum_(j < k) _) => S e.
have -> : S = dt - nth 0 bdf k * tk by rewrite -e addrK.
move: (nth 0 bdf k) b0 (lt0r_neq0 dt0) (drag_coeff cfg) (sine _) => be b0 dn dr sn; have bn := lt0r_neq0 b0.
by field; rewrite bn dn.
Qed.
End Train.
End Cube.
(** ** Examples *)
(** A vortex in the unit square with fixed walls, the curl of the stream function
    x^2 (1-x)^2 y^2 (1-y)^2, on four elements of order 8. *)
Section Cavity.
Variables (R : rcfType) (eps : R).
Definition bump : {poly R} := ('X * (1 - 'X)) ^+ 2.
Definition vortex : nat -> tpoly R := fun c => if c == 0%N then [:: (1, [:: bump; bump^`()])] else [:: (- 1, [:: bump^`(); bump])].
Definition vortex_advection : nat -> tpoly R := fun c =>
  if c == 0%N then [:: (1, [:: bump * bump^`(); bump^`() ^+ 2 - bump * bump^`()^`()])]
  else [:: (1, [:: bump^`() ^+ 2 - bump * bump^`()^`(); bump * bump^`()])].
Lemma bump_size : (size bump <= 5)%N /\ (size bump^`() <= 4)%N.
Proof.
have s1 : (size ('X * (1 - 'X) : {poly R})%R <= 3)%N.
  apply: (leq_trans (size_mul_leq _ _)); rewrite size_polyX /=; apply: (leq_trans (size_add _ _)).
  by rewrite size_opp size_polyX size_poly1.
have s2 : (size bump <= 5)%N.
  by rewrite /bump expr2; apply: (leq_trans (size_mul_leq _ _)); move: (size _) s1 => z; clear; lia.
split=> //; have [->|nz] := eqVneq bump 0; first by rewrite deriv0 size_poly0.
by have := lt_size_deriv nz; move: s2; clear; lia.
Qed.
Lemma vortex_deg c : tdeg 2 8 (vortex c).
Proof. by have [b1 b2] := bump_size; rewrite /vortex; case: ifP => _; rewrite /tdeg /= !(leq_trans b1) ?(leq_trans b2). Qed.
Lemma second_size : (size (bump^`() ^+ 2 - bump * bump^`()^`())%R <= 8)%N /\ (size (bump * bump^`())%R <= 8)%N.
Proof.
have [b1 b2] := bump_size; have b3 : (size bump^`()^`() <= 4)%N := leq_trans (leq_size_deriv _) b2.
split; last by apply: (leq_trans (size_mul_leq _ _)); move: (size _) (size _) b1 b2 => x y; clear; lia.
apply: (leq_trans (size_add _ _)); rewrite size_opp geq_max expr2; apply/andP; split; apply: (leq_trans (size_mul_leq _ _)).
  by move: (size _) b2 => x; clear; lia.
by move: (size _) (size _) b1 b3 => x y; clear; lia.
Qed.
Lemma vortex_advected (s : sem R 2) : advected 2 8 vortex vortex_advection.
Proof.
have [b1 b2] := second_size; move=> c hc; split.
  by rewrite /vortex_advection; case: ifP => _; rewrite /tdeg /= b1 b2.
case=> [|x [|z []]] // _; rewrite big_ord_recr big_ord1 /=.
case: c hc => [|[|c]] // _; rewrite /vortex_advection /vortex /teval /= !big_cons !big_nil /= !hornerE /=.
  by set X := bump.[x]; set X1 := (bump^`()).[x]; set Z := bump.[z]; set Z1 := (bump^`()).[z]; set Z2 := (bump^`()^`()).[z]; move: X X1 Z Z1 Z2; clear; move=> X X1 Z Z1 Z2; ring.
by set X := bump.[x]; set X1 := (bump^`()).[x]; set X2 := (bump^`()^`()).[x]; set Z := bump.[z]; set Z1 := (bump^`()).[z]; move: X X1 Z Z1 X2; clear; move=> X X1 Z Z1 X2; ring.
Qed.
Lemma vortex_div (s : sem R 2) i : divergence s vortex i = 0.
Proof.
rewrite /divergence big_ord_recr big_ord1 /= /at_node; have := size_place (node_at s i); case: (place _) => [|x [|z []]] //= _.
by rewrite /vortex /teval /= !big_cons !big_nil /= !hornerE /=; move: (bump^`().[x]) (bump^`().[z]) => X Z; ring.
Qed.
Lemma bump_ends x : x = 0 \/ x = 1 -> bump.[x] = 0 /\ bump^`().[x] = 0.
Proof.
by rewrite /bump expr2 derivM; case=> ->; rewrite !(hornerD, hornerM, hornerN, hornerX, hornerC) ?subrr ?(mulr0, mul0r) ?(mulr0, mul0r, addr0).
Qed.
Lemma vortex_walls (s : sem R 2) c i (j : 'I_2) : node_at s i 0 j = 0 \/ node_at s i 0 j = 1 -> at_node s (vortex c) i = 0.
Proof.
rewrite /at_node -nth_place; have := size_place (node_at s i); case: (place _) => [|x [|z []]] //= _ e.
have [b0 b1] := bump_ends e; case: j e b0 b1 => -[|[|j]] // ? /= e b0 b1; rewrite /vortex; case: ifP => _;
by rewrite /teval /= !big_cons !big_nil /= ?b0 ?b1 ?(mul0r, mulr0) ?(mul0r, mulr0) ?addr0.
Qed.
(** The closure term that balances it, whatever the forcing. *)
Example ex_cavity (sine : R -> R) (pi : R) (cfg : config R) : (1 < time_order cfg)%N -> 0 < time_step cfg -> 0 < reynolds_number cfg ->
  exists pm : premesh [lmodType R of 'rV[R]_2] bool, exists s : sem R 2,
  [/\ unit_cube_mesh 2 true 2 (0 : R) 1 [::] None = inr pm,
      sem_create eps invmx (refined_mesh (ex_pg R) pm) 1 8 [:: (true, (DIRICHLET, tt))] 2 = inr s &
  let U := field s (fun c i => at_node s (vortex c) i) in
  let f := field s (fun c i => at_node s (vortex_advection c) i - 1 / reynolds_number cfg * laplacian s vortex c i
    - (if c == 0%N then sine (2%:R * pi * 4%:R * node_at s i 0 1) else 0) + drag_coeff cfg * ent U c i) in
  solve_one_step eps sine pi (cg_solver 0 0) cfg s (nseq (time_order cfg) U) (nseq (time_order cfg) (nseq (np s) 1))
    (nseq (time_order cfg) (v_C eps (s_velocity s) U)) f = inr (U, nseq (np s) 1, v_C eps (s_velocity s) U)].
Proof.
move=> k1 dt0 re0; case gen : (unit_cube_mesh 2 true 2 (0 : R) 1 [::] None) => [e|pm] //.
have [_ H] := C61_creates eps invmx (isT : (0 < 2)%N) (isT : (0 < 2)%N) gen (ex_pg_created R) (ex_pg_continuous R) (order := 8) 2
  [:: (true, (DIRICHLET, tt))] isT (fun h => ltac:(by case: h)).
have [g v|s hs] := H; first by case=> [[<- _]|[]]; split=> //; exists 1%N.
exists pm, s; split=> // U f.
have gU : poly_field s vortex U by split=> [|c i hc hi]; [exact: field_good|rewrite field_ent].
apply: (@C81_steady R 2 eps invmx _ _ (fun _ _ => erefl) true 2 0 1 [::] pm isT isT ltr01 gen (ex_pg R) _ (ex_pg_created R) (ex_pg_continuous R) 8 2
  [:: (true, (DIRICHLET, tt))] s hs isT sine pi 1 cfg erefl erefl k1 dt0 re0 vortex vortex_advection [:: (1, [:: 1; 1])] U (nseq (np s) 1) f).
- by left; exists tt; left.
- exact: gU.
- by move=> c hc; split=> //; apply: (tdeg_leq (isT : (8 <= 9)%N)); exact: vortex_deg.
- exact: (vortex_advected s).
- exact: one_pressure.
- by rewrite /tdeg /= size_poly1.
- by [].
- exact: field_good.
- by move=> i _; exact: vortex_div.
- move=> c i hc hi /(C79_walls (isT : (0 < 2)%N) (isT : (0 < 2)%N) ltr01 gen (ex_pg_created R) (ex_pg_continuous R) hs isT hi) -[_ [j _ e]].
  by rewrite field_ent // (vortex_walls _ e).
- by right=> c _; exact: vortex_deg.
move=> c i hc hi _; rewrite one_gradient // /body_force !field_ent //; set z := if _ then _ else _.
by move: (at_node _ _ _) (laplacian _ _ _ _) (at_node _ _ _) => x1 x2 x3; ring.
Qed.
End Cavity.

Print Assumptions C81_advection.
Print Assumptions C81_step.
Print Assumptions C81_train.
Print Assumptions C81_unsteady.
Print Assumptions C81_steady.
Print Assumptions C81_forever.
Print Assumptions C81_drag_refuted.
Print Assumptions ex_cavity.
