(** C60, C61: the Stokes discretisation of a premesh. *)
From mathcomp Require Import all_ssreflect all_algebra polyrcf zify ring.
From Verif Require Import PyDict_model PyDict_proofs Facet_model Facet_spec Facet_proofs GS_model FES_model FES_proofs FES_proofs2 FES_props Premesh_model.
From Verif Require Import Refiner_model Refiner_spec Refiner_proofs9 Refiner_props.
From Verif Require Import UnitCube_model UnitCube_spec UnitCube_proofs UnitCube_proofs2 UnitCube_proofs3 UnitCube_props UnitCube_refine.
From Verif Require Import Interp_model Interp_spec Lagrange_proofs Gauss_proofs Gauss_proofs2 Interp_proofs Interp_proofs2 Tensor_proofs Nodes_sym.
From Verif Require Import CG_model Stokes_model Stokes_spec Stokes_proofs Stokes_create Stokes_props Stokes_family.
Set Implicit Arguments.
Unset Strict Implicit.
Unset Printing Implicit Defensive.
Import Order.TTheory GRing.Theory Num.Theory.
Local Open Scope ring_scope.

Arguments nodes1d_create : simpl never.
Arguments quadrature_create : simpl never.
Arguments quadrature_from_nodes : simpl never.

Section Create.
Variables (R : rcfType) (d : nat) (eps : R) (inv : 'M[R]_d -> 'M[R]_d) (L : eqType) (BCV : Type).
Notation V := [lmodType R of 'rV[R]_d].
Notation rmesh := (Premesh_model.mesh [zmodType of 'rV[R]_d] L).
Implicit Types (bcs : seq (L * (bctype * BCV))).

(** On any meshes: the discretisation is created when the two meshes are, unless
    the boundary conditions name an unknown group. *)
Section Abstract.
Variables (refined : nodes1d R -> ierror + rmesh) (K : nat) (F : nat -> 'I_d -> tpoly R).
Hypothesis fam : mesh_family refined K F.

Lemma fe_mesh_ok n t g (rm : rmesh) : (0 < n)%N -> nodes1d_create R n t = inr g -> mesh_on K F n g rm ->
  exists m, [/\ fe_mesh rm g = inr m, m_grid m = g, m_per_element m = (n ^ d)%N & FES_model.m_coords m = m_coords rm].
Proof.
move=> n0 hg mo; have [np _ _ _ _] := created_grid n0 hg.
have h : size (head [::] (m_elements rm)) = (n ^ d)%N.
  rewrite -nth0; apply/eqP; apply: (allP (mo_rows mo)); rewrite mem_nth // (mo_elements mo); exact: mf_some fam.
by rewrite /fe_mesh h /mesh_create np eqxx /=; eexists.
Qed.

Theorem create_succeeds order bcs overint gp gv (rp rv : rmesh) : (1 < order)%N ->
  nodes1d_create R (order - 1) GAUSS_LEGENDRE = inr gp -> nodes1d_create R order.+1 GAUSS_LOBATTO_LEGENDRE = inr gv ->
  refined gp = inr rp -> refined gv = inr rv ->
  (exists s, sem_create eps inv refined 1 order bcs overint = inr s) <-> ~ unknown_group (m_masks rv) bcs.
Proof.
move=> o1 hgp hgv hrp hrv.
have op : (0 < order - 1)%N by rewrite subn_gt0.
have mop := mf_mesh fam op hgp hrp; have mov := mf_mesh fam (ltn0Sn _) hgv hrv.
have [mp [hmp gmp pmp _]] := fe_mesh_ok op hgp mop.
have [mv [hmv gmv pmv cmv]] := fe_mesh_ok (ltn0Sn _) hgv mov.
have [npv tv _ _ _] := created_grid (ltn0Sn _) hgv.
have qex N g : nodes1d_create R N.+2 GAUSS_LOBATTO_LEGENDRE = inr g -> exists q, quadrature_from_nodes g = inr q.
  move=> hg; have := gll_quadrature R N; rewrite /quadrature_create hg => ->; by eexists.
have ordE : order.+1 = order.-1.+2 by lia.
have [quad hquad] : exists q, quadrature_from_nodes gv = inr q by apply: (qex order.-1); rewrite -ordE.
have hq : quadrature_create R order.+1 GAUSS_LOBATTO_LEGENDRE = inr quad by rewrite /quadrature_create hgv.
have d0 := mf_dim fam.
have [fp hfp] : exists fs, fespace_create eps inv mp quad = inr fs.
  apply/(C38_creates eps inv d0 op (ltn0Sn _) _ hq); last exact: pmp.
  by rewrite gmp; exact: hgp.
have hgv' : nodes1d_create R order.+1 GAUSS_LOBATTO_LEGENDRE = inr (m_grid mv) by rewrite gmv.
have [fv hfv] : exists fs, fespace_create eps inv mv quad = inr fs.
  by apply/(C38_creates eps inv d0 (ltn0Sn _) (ltn0Sn _) hgv' hq).
have [og hog] : exists og, nodes1d_create R (order.+1 + overint) GAUSS_LOBATTO_LEGENDRE = inr og.
  by apply: created_exists => //; lia.
have [oq hoq] : exists q, quadrature_from_nodes og = inr q.
  apply: (qex (order.-1 + overint)%N); rewrite -hog; congr nodes1d_create; lia.
have hoq' : quadrature_create R (order.+1 + overint) GAUSS_LOBATTO_LEGENDRE = inr oq by rewrite /quadrature_create hog.
have [fo hfo] : exists fs, fespace_create eps inv mv oq = inr fs.
  by apply/(C38_creates eps inv d0 (ltn0Sn _) _ hgv' hoq').
have [_ H] := C47_unknown R (mo_masks mov) bcs; apply: (iff_trans _ H).
rewrite /sem_create /= hq /= /pressure_create hgp /= hrp /= hmp /= hfp /=.
rewrite /velocity_create hgv /= hrv /= hmv /= hquad /= hfv /= cmv.
case: (dirichlet_bc _ _ _ _) => [e|mask] /=; first by split=> -[].
by rewrite npv hog /= hoq /= hfo /=; split=> _; eexists.
Qed.
End Abstract.

(** ** Any first-order premesh *)
(** A premesh in one piece whose elements meet along whole facets, listed with
    exchanged positions, whose nodes are all used, and whose groups and links are
    made of facets of elements. *)
Record good_premesh (pm : premesh V L) : Prop := GoodPremesh {
  gp_dim : (0 < d)%N;
  gp_some : (0 < size (pm_elements pm))%N;
  gp_ok : mesh_ok d (size (pm_coords pm)) (pm_elements pm);
  gp_used : forall x, (x < size (pm_coords pm))%N -> exists2 e, e \in pm_elements pm & Posz x \in e;
  gp_conforming : conforming d (pm_elements pm);
  gp_exchanging : exchanging d (pm_elements pm);
  gp_nonempty : forall i l0, (i < size (pm_groups pm))%N -> flatten (nth (l0, [::]) (pm_groups pm) i).2 != [::];
  gp_groups : forall i l0 F, (i < size (pm_groups pm))%N -> F \in (nth (l0, [::]) (pm_groups pm) i).2 ->
    is_element_facet d (pm_elements pm) F;
  gp_links : forall ls l, pm_links pm = Some ls -> l \in ls ->
    is_element_facet d (pm_elements pm) l.1 /\ is_element_facet d (pm_elements pm) l.2 }.

Section Premesh.
Variables (pg : nodes1d R) (tp : node_type) (pm : premesh V L).
Hypotheses (hpg : nodes1d_create R 2 tp = inr pg) (cpg : is_continuous pg).
Notation create := (sem_create eps inv (refined_mesh pg pm) 1).

Lemma gl_discontinuous n g : (0 < n)%N -> nodes1d_create R n GAUSS_LEGENDRE = inr g -> is_continuous g = false.
Proof.
move=> n0; rewrite /nodes1d_create (gtn_eqF n0) => -[<-]; apply/negbTE; rewrite negb_and; apply/orP; left => /=.
by rewrite gt_eqF //; case/andP: (gl_in R n0).
Qed.
Lemma gll_continuous n g : nodes1d_create R n GAUSS_LOBATTO_LEGENDRE = inr g -> is_continuous g.
Proof.
case: n => [|[|n]] //; rewrite gll_create => -[<-]; rewrite /is_continuous /gll_nodes /= eqxx last_cat /= eqxx //.
Qed.

(** The pressure mesh *)
Lemma pressure_mesh n g : (0 < n)%N -> nodes1d_create R n GAUSS_LEGENDRE = inr g ->
  exists2 M, interpolation_matrix_1d pg g = inr M &
    refined_mesh pg pm g = if init_error d n then inl IValueError else
      if refine_premesh d n false (mat_entry M) 1 pm is inr pm' then
        if pm_parts pm is None then inr (finalize_serial pm') else inl IValueError
      else inl IValueError.
Proof.
move=> n0 hg; have [np _ sz _ _] := created_grid n0 hg.
have [M hM _] := end_matrix hpg cpg (ltac:(by rewrite sz) : (0 < size (nd_values g))%N).
exists M => //; rewrite /refined_mesh hM np (gl_discontinuous n0 hg).
case ie : (init_error d n); first by rewrite /refine_premesh /refine /= ie.
rewrite (refine_disc _ _ ie) /= /finalize /=; by case: (pm_parts pm).
Qed.

Theorem create_low_order order bcs overint : (order <= 1)%N -> create order bcs overint = inl (SInterp IValueError).
Proof.
by case: order => [|[|]].
Qed.

Theorem create_partitioned order bcs overint : pm_parts pm <> None -> create order bcs overint = inl (SInterp IValueError).
Proof.
move=> pp; case: (leqP order 1) => [/create_low_order-> //|o1].
rewrite /sem_create /=; have oE : order.+1 = order.-1.+2 by lia.
rewrite [in quadrature_create _ _]oE gll_quadrature /= /pressure_create.
have op : (0 < order - 1)%N by lia.
have hg : nodes1d_create R (order - 1) GAUSS_LEGENDRE = inr (Nodes1D (order - 1) GAUSS_LEGENDRE (leggauss_nodes R (order - 1))).
  by rewrite /nodes1d_create gtn_eqF.
have [M _ E] := pressure_mesh op hg; rewrite hg /= E.
by case: ifP => // _; case: (refine_premesh _ _ _ _ _ _) => // pm'; case: (pm_parts pm) pp.
Qed.

Theorem create_order_two bcs overint : (3 <= d)%N -> create 2 bcs overint = inl (SInterp IValueError).
Proof.
move=> d3; rewrite /sem_create (gll_quadrature R 1) [_ != _]/= /pressure_create.
have hg : nodes1d_create R 1 GAUSS_LEGENDRE = inr (Nodes1D 1 GAUSS_LEGENDRE (leggauss_nodes R 1)) by [].
by have [M _ E] := pressure_mesh (isT : (0 < 1)%N) hg; rewrite [nodes1d_create _ (2 - 1) _]hg /= E /init_error d3.
Qed.

Hypothesis gpm : good_premesh pm.

Theorem premesh_family : mesh_family (refined_mesh pg pm) (size (pm_elements pm)) (element_map pm).
Proof. by case: gpm => *; apply: (refined_family hpg cpg). Qed.

(** The velocity mesh *)
Lemma velocity_mesh n g : pm_parts pm = None -> (1 < n)%N -> nodes1d_create R n GAUSS_LOBATTO_LEGENDRE = inr g ->
  exists2 rm, refined_mesh pg pm g = inr rm & dkeys (m_masks rm) = [seq x.1 | x <- pm_groups pm].
Proof.
move=> pn n1 hg; have n0 := ltnW n1; have [np _ sz _ _] := created_grid n0 hg.
have [M hM _] := end_matrix hpg cpg (ltac:(by rewrite sz) : (0 < size (nd_values g))%N).
have cg := gll_continuous hg; have wok := hat_weights hpg cpg n1 hg cg hM.
have [g1 g2 g3 g4 g5 g6 g7 g8 g9] := gpm.
have [pm' run] := C23_refinement_succeeds (mat_entry M) n1 g1 g3 g5 g7 g8 g9.
have [[_ _ _ pp] _] := C23_structure n1 g3 run.
exists (finalize_serial pm'); first by rewrite /refined_mesh hM np cg run /finalize pp pn.
have [sg gr] := C25_groups_follow_facets n1 g1 g3 run wok.
rewrite /dkeys /= -map_comp; case E : (pm_groups pm) => [|[l0 f0] gs].
  by move: sg; rewrite E => /size0nil->.
rewrite -E; apply: (@eq_from_nth _ l0) => [|i]; rewrite !size_map ?sg // => il.
have [h _ _] := gr i l0 il.
by rewrite (nth_map (l0, [::])) ?sg // (nth_map (l0, [::])).
Qed.

Theorem create_premesh order bcs overint : pm_parts pm = None -> (1 < order)%N -> ~ (order = 2%N /\ (3 <= d)%N) ->
  (exists s, create order bcs overint = inr s) <->
  (forall g v, List.In (g, (DIRICHLET, v)) bcs -> g \in [seq x.1 | x <- pm_groups pm]).
Proof.
move=> pn o1 o2.
have op : (0 < order - 1)%N by lia.
have hgp : nodes1d_create R (order - 1) GAUSS_LEGENDRE = inr (Nodes1D (order - 1) GAUSS_LEGENDRE (leggauss_nodes R (order - 1))).
  by rewrite /nodes1d_create gtn_eqF.
have [gv hgv] : exists gv, nodes1d_create R order.+1 GAUSS_LOBATTO_LEGENDRE = inr gv by apply: created_exists => //; lia.
have [M _ E] := pressure_mesh op hgp.
have ie : init_error d (order - 1) = false.
  by apply/negbTE; apply/negP => /andP[/eqP a b]; apply: o2; split=> //; lia.
move: E; rewrite ie (refine_disc _ _ ie) pn => hrp.
have [rv hrv lab] := velocity_mesh pn (ltac:(lia) : (1 < order.+1)%N) hgv.
apply: (iff_trans (create_succeeds premesh_family bcs overint o1 hgp hgv hrp hrv)).
rewrite -lab; split=> [nu g v gin|h [g [v [gin gN]]]].
  rewrite -dget_keys; case gE : (dget (m_masks rv) g) => //; by case: nu; exists g, v.
by have := h g v gin; rewrite -dget_keys gN.
Qed.
End Premesh.
End Create.

(** ** The uniform mesh of a cube *)
Section Cube.
Variables (R : rcfType) (d : nat) (L : eqType) (lbl : L) (n : nat) (a b : R) (pd : seq nat).
Notation V := [lmodType R of 'rV[R]_d].
Hypotheses (n0 : (0 < n)%N) (d0 : (0 < d)%N).
Variable pm : premesh V L.
Hypothesis gen : unit_cube_mesh d lbl n a b pd None = inr pm.
Notation h := ((b - a) / n%:R).

Lemma cube_good : good_premesh pm.
Proof.
have [cE eE gE lE] := run_fields gen; have [sc _] := C26_nodes gen; have [se _] := C26_cells gen.
split=> //.
- by rewrite se expn_gt0 n0.
- exact: (gen_ok gen).
- rewrite sc => x xl; have [i ig ->] := grid_of xl; pose c := [seq minn y n.-1 | y <- i].
  have il y : y \in i -> (y < n.+1)%N by move: ig; rewrite mem_grid => /andP[_ /allP]; apply.
  have cg : c \in grid n d.
    rewrite mem_grid size_map (size_grid_in ig) eqxx /=; apply/allP => y /mapP[z zi ->]; rewrite /= gtn_min; apply/orP; right.
    by rewrite ltn_predL.
  exists (cell n c); first by rewrite eE; apply: map_f.
  rewrite -/(node n i) (mem_cell cg ig) eq_all2 size_map eqxx /=; apply/allP => k; rewrite mem_iota add0n => /andP[_ kl].
  rewrite (nth_map 0%N) // /near; have := il _ (mem_nth 0%N kl); move: (nth 0%N i k) => y yl.
  rewrite /minn; case: ltnP => yn; first by rewrite eqxx.
  have : y = n.-1 \/ y = n by lia.
  by case=> ->; rewrite ?eqxx //= prednK // eqxx orbT.
- by rewrite eE; apply: cube_conforming.
- by rewrite eE; apply: cube_exchanging.
- by move=> i l0; rewrite gE; case: ifP => // fl; case: i => [|i].
- rewrite eE; have [hb _ mem] := C27_boundary_group n0 gen.
  case: hb => [-> //|[e _]] i l0 f; rewrite e; case: i => [|i] // _ /=; rewrite mem.
  by case=> axis [s [c [h1 h2 h3 h4 ->]]]; have [] := side_is_facet n0 d0 h1 h3 h4.
move=> ls l lsE ll; have [_ hb _] := C27_links n0 gen; move: hb; rewrite lsE => /(_ l)[/(_ ll) hb _].
rewrite eE; case: hb => ax [c [al ap cg ->]] /=.
by have [h1 _] := side_is_facet n0 d0 al (or_introl (erefl 0%N)) cg; have [h2 _] := side_is_facet n0 d0 al (or_intror (erefl n)) cg.
Qed.

Lemma cube_corner c k (j : 'I_d) : c \in grid n d -> k \in grid 2 d ->
  corner pm (flat n c) (flat 2 k) 0 j = a + (nth 0 c j + nth 0 k j)%N%:R * h.
Proof.
move=> cg kg; have [_ nc] := C26_nodes gen; have [_ ce] := C26_cells gen; have [_ ce2] := ce c cg.
rewrite /corner; have [-> _] := ce2 k kg.
by rewrite /at_ /node /= nc ?addv_in // mxE nth_addv ?(size_grid_in cg) ?(size_grid_in kg).
Qed.

Lemma hat_deriv c : (hat R c)^`() = (if c == 0%N then - 2%:R^-1 else 2%:R^-1)%:P.
Proof.
rewrite /hat derivZ; case: ifP => _; rewrite ?derivB ?derivD derivC derivX ?add0r ?sub0r.
  by rewrite scalerN -mul_polyC mulr1 polyCN.
by rewrite -mul_polyC mulr1.
Qed.

Lemma cube_jacobian e x : (e < size (pm_elements pm))%N -> size x = d ->
  jacobian_at (element_map pm e) x = (h / 2%:R)%:M.
Proof.
have [se _] := C26_cells gen; rewrite se => /grid_of[c cg ->] sx.
apply/matrixP => i j; rewrite !mxE /teval /tderiv /element_map !big_map.
pose u b k : R := (if b == i :> nat then (if k == 0%N then - 2%:R^-1 else 2%:R^-1) else (hat R k).[nth 0 x b])
  * (if b == j :> nat then a + (nth 0 c j + k)%N%:R * h else 1).
rewrite big_seq (eq_bigr (fun k => \prod_(b < d) u b (nth 0%N k b))); last first.
  move=> k kg; rewrite /= cube_corner // size_map (size_grid_in kg) /u big_split /= mulrC; congr (_ * _).
    by rewrite -big_mkcond big_pred1_eq.
  rewrite (big_nth (0, 0)) size_zip size_map size_iota sx minnn big_mkord; apply: eq_bigr => l _.
  have ll : (l < d)%N := ltn_ord l.
  rewrite nth_zip ?size_map ?size_iota ?sx //= (nth_map 0%N) ?size_iota // nth_iota // add0n.
  rewrite (nth_map 0%N) ?(size_grid_in kg) //; case: ifP => _ //; by rewrite hat_deriv hornerC.
rewrite -big_seq sum_grid_prod.
have t0 : 2%:R != 0 :> R by rewrite pnatr_eq0.
have [ij|ij] := eqVneq i j.
- rewrite -ij in u *; rewrite (bigD1 i) //= [X in _ * X]big1 ?mulr1 => [|l li].
    rewrite !big_cons big_nil /u eqxx /= addn0 natrD mulr1n.
    move: ((b - a) / n%:R) (nth 0%N c i)%:R => z y; rewrite mulNr addr0 addrC -mulrBr mulrC; congr (_ / _); ring.
  rewrite !big_cons big_nil /u (_ : (l == i :> nat) = false); last exact: negbTE.
  by rewrite !mulr1 addr0 hat_sum.
rewrite (bigD1 i) //= !big_cons big_nil /u eqxx /= (_ : (i == j :> nat) = false); last exact: negbTE.
by rewrite !mulr1 addr0 addNr mul0r mulr0n.
Qed.

Theorem cube_oriented : a < b -> oriented_elements (size (pm_elements pm)) (element_map pm).
Proof.
move=> ab e x el sx _; rewrite cube_jacobian // det_scalar exprn_gt0 //.
by rewrite !divr_gt0 ?subr_gt0 ?ltr0n.
Qed.
End Cube.
