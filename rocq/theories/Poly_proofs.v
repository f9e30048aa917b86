(** Polynomials in physical space on the cells of a generated cube, and Green's
    formula for the quadrature of the velocity space. *)
From Coq Require List.
From mathcomp Require Import all_ssreflect all_algebra polyrcf zify ring.
From Verif Require Import PyDict_model PyDict_proofs Facet_model Facet_spec Facet_proofs GS_model GS_proofs GS_props Interp_model Interp_spec Lagrange_proofs.
From Verif Require Import Legendre_proofs Gauss_proofs2 Interp_proofs2 Tensor_proofs Interp_props FES_model FES_proofs FES_proofs2 FES_props FES_props2 Premesh_model.
From Verif Require Import Refiner_model Refiner_spec UnitCube_model UnitCube_spec UnitCube_proofs UnitCube_proofs2 UnitCube_proofs3 UnitCube_props UnitCube_refine UnitCube_links.
From Verif Require Import CG_model CG_proofs CG_props TimeCoef_model Stokes_model Stokes_spec Stokes_proofs Stokes_proofs2 Stokes_proofs3.
From Verif Require Import Stokes_create Stokes_create2 Stokes_create3 Stokes_proofs4 Stokes_create4 Stokes_momentum Stokes_props Stokes_props2 Stokes_family Stokes_instance Stokes_props3 Stokes_props4.
From Verif Require Import Tensor_nodal Unisolvent_proofs Tensor_parts Stokes_cube Stokes_props5 Stokes_props6 Flow_props Steady_props Patch_props.
Set Implicit Arguments.
Unset Strict Implicit.
Unset Printing Implicit Defensive.
Import Order.TTheory GRing.Theory Num.Theory.
Local Open Scope ring_scope.

(** ** Sums of products *)
Section Pull.
Variables (R : rcfType) (d : nat).
Implicit Types (f : tpoly R) (x : seq R).
Lemma teval_prod l f x : tdeg d l f -> size x = d ->
  teval f x = \sum_(t <- f) t.1 * \prod_(b < d) (nth 0 t.2 b).[nth 0 x b].
Proof.
move=> /allP df sx; rewrite /teval; apply: eq_big_seq => t /df /andP[/eqP st _]; congr (_ * _).
rewrite (big_nth (0, 0)) size_zip st sx minnn big_mkord; apply: eq_bigr => b _.
by rewrite nth_zip ?st ?sx.
Qed.
(** The value depends on the coordinates along which the polynomial varies. *)
Definition flat_along (j : nat) f : bool := all (fun t : R * seq {poly R} => leq (size (nth 0 t.2 j)) 1) f.
Lemma flat_eval l f x y : tdeg d l f -> size x = d -> size y = d ->
  (forall j, (j < d)%N -> flat_along j f \/ nth 0 x j = nth 0 y j) -> teval f x = teval f y.
Proof.
move=> df sx sy H; rewrite !(teval_prod df) //; apply: eq_big_seq => t ht; congr (_ * _); apply: eq_bigr => b _.
by case: (H b (ltn_ord b)) => [/allP /(_ t ht) /size1_polyC ->|->] //; rewrite !hornerC.
Qed.
Lemma flat_deriv l j k f : tdeg d l f -> flat_along j f -> (j < d)%N -> flat_along j (tderiv k f).
Proof.
move=> /allP df /allP h jd; apply/allP => _ /mapP[t ht ->] /=; have /andP[/eqP st _] := df _ ht.
rewrite (nth_map 0%N) ?size_iota ?st // nth_iota // add0n; case: ifP => _; last exact: h.
by rewrite (leq_trans (leq_size_deriv _)) ?h.
Qed.

(** Composition with a map that acts on every axis. *)
Variable g : nat -> {poly R}.
Definition pull f : tpoly R := [seq (t.1, mkseq (fun j => nth 0 t.2 j \Po g j) d) | t <- f].
Notation image x := (mkseq (fun j => (g j).[nth 0 x j]) d).
Lemma pull_eval l f x : tdeg d l f -> size x = d -> teval (pull f) x = teval f (image x).
Proof.
move=> df sx; rewrite (teval_prod df) ?size_mkseq // /teval big_map; apply: eq_bigr => t _ /=; congr (_ * _).
rewrite (big_nth (0, 0)) size_zip size_mkseq sx minnn big_mkord; apply: eq_bigr => b _.
by rewrite nth_zip ?size_mkseq ?sx //= !nth_mkseq // horner_comp.
Qed.
Lemma pull_deg l f : (forall j, (j < d)%N -> size (g j) = 2%N) -> tdeg d l f -> tdeg d l (pull f).
Proof.
move=> sg /allP df; apply/allP => _ /mapP[t ht ->] /=; have /andP[/eqP st /(all_nthP 0) h] := df _ ht.
rewrite size_mkseq eqxx /=; apply/(all_nthP 0) => j; rewrite size_mkseq => jd; rewrite nth_mkseq //.
by rewrite size_comp_poly2 ?sg // h ?st.
Qed.
Lemma pull_deriv l f x k (c : R) : tdeg d l f -> size x = d -> (k < d)%N -> (g k)^`() = c%:P ->
  teval (tderiv k (pull f)) x = c * teval (tderiv k f) (image x).
Proof.
move=> df sx kd gd; have := df => /allP df'; rewrite /teval /tderiv !big_map mulr_sumr; apply: eq_big_seq => t ht /=.
have /andP[/eqP st _] := df' _ ht; rewrite mulrCA; congr (_ * _).
have P1 : \prod_(px <- zip [seq if i == k then (nth 0 (mkseq (fun j => nth 0 t.2 j \Po g j) d) i)^`() else nth 0 (mkseq (fun j => nth 0 t.2 j \Po g j) d) i
                              | i <- iota 0 (size (mkseq (fun j => nth 0 t.2 j \Po g j) d))] x) px.1.[px.2] =
    \prod_(b < d) ((if b == k :> nat then c else 1) * (if b == k :> nat then (nth 0 t.2 b)^`() else nth 0 t.2 b).[(g b).[nth 0 x b]]).
  rewrite (big_nth (0, 0)) size_zip size_map size_iota size_mkseq sx minnn big_mkord; apply: eq_bigr => b _.
  rewrite nth_zip ?size_map ?size_iota ?size_mkseq ?sx //= (nth_map 0%N) ?size_iota // nth_iota // add0n nth_mkseq //.
  case: ifP => [/eqP e|_]; last by rewrite mul1r horner_comp.
  by rewrite deriv_comp hornerM horner_comp e gd hornerC mulrC.
have P2 : \prod_(px <- zip [seq if i == k then (nth 0 t.2 i)^`() else nth 0 t.2 i | i <- iota 0 (size t.2)] (image x)) px.1.[px.2] =
    \prod_(b < d) (if b == k :> nat then (nth 0 t.2 b)^`() else nth 0 t.2 b).[(g b).[nth 0 x b]].
  rewrite (big_nth (0, 0)) size_zip size_map size_iota size_mkseq st minnn big_mkord; apply: eq_bigr => b _.
  by rewrite nth_zip ?size_map ?size_iota ?size_mkseq ?st //= (nth_map 0%N) ?size_iota // nth_iota // add0n nth_mkseq.
rewrite P1 P2 big_split /=; congr (_ * _); rewrite -big_mkcond /=.
by rewrite (big_pred1 (Ordinal kd)).
Qed.
End Pull.

(** The value of a polynomial at a point of space. *)
Definition place (R : rcfType) d (x : 'rV[R]_d) : seq R := [seq x 0 j | j <- enum 'I_d].
Lemma size_place (R : rcfType) d (x : 'rV[R]_d) : size (place x) = d.
Proof. by rewrite size_map size_enum_ord. Qed.
Lemma nth_place (R : rcfType) d (x : 'rV[R]_d) (j : 'I_d) : nth 0 (place x) j = x 0 j.
Proof. by rewrite (nth_map j) ?size_enum_ord // nth_ord_enum. Qed.

Section Cube.
Variables (R : rcfType) (d : nat) (eps : R) (inv : 'M[R]_d -> 'M[R]_d) (L : eqType) (BCV : Type).
Hypothesis inv_ok : forall J : 'M[R]_d, J \in unitmx -> inv J = invmx J.
Variables (lbl : L) (n : nat) (a b : R) (pd : seq nat) (pm : premesh [lmodType R of 'rV[R]_d] L).
Hypotheses (d0 : (0 < d)%N) (n0 : (0 < n)%N) (ab : a < b).
Hypothesis gen : unit_cube_mesh d lbl n a b pd None = inr pm.
Notation h := ((b - a) / n%:R).
(** The map to cell [c], along axis [j]. *)
Definition cell_map (c : seq nat) (j : nat) : {poly R} := (a + ((nth 0%N c j)%:R + 2%:R^-1) * h)%:P + (h / 2%:R) *: 'X.
Let h2 : h / 2%:R != 0. Proof. by rewrite gt_eqF // !divr_gt0 ?subr_gt0 ?ltr0n. Qed.
Lemma cell_map_size c j : size (cell_map c j) = 2%N.
Proof.
rewrite /cell_map addrC size_addl size_scale ?size_polyX //; rewrite (leq_ltn_trans (size_polyC_leq1 _)) //.
Qed.
Lemma cell_map_deriv c j : (cell_map c j)^`() = (h / 2%:R)%:P.
Proof. by rewrite /cell_map derivD derivC derivZ derivX add0r alg_polyC. Qed.
Lemma cell_mapE c j x : (cell_map c j).[x] = a + ((nth 0%N c j)%:R + 2%:R^-1) * h + h / 2%:R * x.
Proof. by rewrite /cell_map hornerD hornerC hornerZ hornerX. Qed.
Lemma cube_map c x (j : 'I_d) : c \in grid n d -> size x = d ->
  teval (element_map pm (flat n c) j) x = (cell_map c j).[nth 0 x j].
Proof.
move=> cg sx; rewrite cell_mapE /teval /element_map !big_map.
pose u l k : R := (hat R k).[nth 0 x l] * (if l == j :> nat then a + (nth 0 c j + k)%N%:R * h else 1).
rewrite big_seq (eq_bigr (fun k => \prod_(l < d) u l (nth 0%N k l))); last first.
  move=> k kg; rewrite /= (cube_corner gen) // /u big_split /= mulrC; congr (_ * _).
    by rewrite -big_mkcond big_pred1_eq.
  rewrite (big_nth (0, 0)) size_zip size_map (size_grid_in kg) sx minnn big_mkord; apply: eq_bigr => l _.
  by rewrite nth_zip ?size_map ?(size_grid_in kg) ?sx //= (nth_map 0%N) ?(size_grid_in kg).
rewrite -big_seq sum_grid_prod (bigD1 j) //= [X in _ * X]big1 ?mulr1 => [|l lj].
  rewrite !big_cons big_nil /u eqxx /= addn0 natrD mulr1n /hat /= !hornerZ hornerD hornerN hornerD hornerX !hornerC.
  have t0 : 2%:R != 0 :> R by rewrite pnatr_eq0.
  move: ((b - a) / n%:R) (nth 0%N c j)%:R (nth 0 x j) => z y w.
  by field.
rewrite !big_cons big_nil /u (_ : (l == j :> nat) = false); last exact: negbTE.
by rewrite !mulr1 addr0 hat_sum.
Qed.

Variables (pg : nodes1d R) (tp : node_type).
Hypotheses (hpg : nodes1d_create R 2 tp = inr pg) (cpg : is_continuous pg).
Variables (order overint : nat) (bcs : seq (L * (bctype * BCV))) (s : sem R d).
Hypothesis hs : sem_create eps inv (refined_mesh pg pm) 1 order bcs overint = inr s.
Hypothesis o2 : (2 < order)%N.
Notation vel := (s_velocity s).
Notation nv := (nv s).
Notation np := (np s).
Notation m := order.+1.
Notation vfield := (seq (seq R)).
Notation conforming := (conforming s).
Notation nd := (nd n order s).
Let fam := (C61_family d0 n0 ab gen hpg cpg).1.
Let ori := (C61_family d0 n0 ab gen hpg cpg).2.
Implicit Types (u v w U : vfield) (Z : tpoly R).

(** The value of a polynomial at velocity node [i]. *)
Definition at_node Z i : R := teval Z (place (node_at s i)).
(** The polynomial does not vary along the periodic axes. *)
Definition matches Z : Prop := forall j, (j < d)%N -> j \in pd -> flat_along j Z.

(** A velocity and a pressure with the values of polynomials at their nodes. *)
Definition poly_field (hU : nat -> tpoly R) U : Prop :=
  vgood s U /\ forall c i, (c < d)%N -> (i < nv)%N -> ent U c i = at_node (hU c) i.
Definition poly_pressure (hp : tpoly R) (P : seq R) : Prop :=
  size P = np /\ forall i, (i < np)%N -> nth 0 P i = teval hp (place (nth 0 (FES_model.m_coords (Stokes_proofs2.pm s)) i)).

Section Made.
Variables (gp gv : nodes1d R) (rp rv : Premesh_model.mesh [zmodType of 'rV[R]_d] L) (quad : quadrature1d R) (M : seq (seq R)) (pm' : premesh [lmodType R of 'rV[R]_d] L).
Hypothesis cf : created_facts eps inv (n ^ d)%N (element_map pm) order bcs s gp gv rp rv quad.
Hypothesis hM : interpolation_matrix_1d pg gv = inr M.
Hypothesis run : refine_premesh d m true (mat_entry M) 1 pm = inr pm'.
Hypothesis rvE : rv = finalize_serial pm'.
Notation xv := (nd_values gv).
Notation ws := (qd_weights quad).
Notation pt p := [seq nth 0 xv i | i <- p].
Notation W p := (\prod_(b < d) nth 0 ws (nth 0%N p b)).
Let m2 : (1 < m)%N. Proof. by lia. Qed.
Let szv : size xv = m. Proof. by have [] := created_grid (ltn0Sn _) (cf_gv cf). Qed.
Let uv : uniq xv. Proof. by have [] := created_grid (ltn0Sn _) (cf_gv cf). Qed.

(** Where the nodes are. *)
Lemma place_nd c p : c \in grid n d -> p \in grid m d -> place (node_at s (nd c p)) = mkseq (fun j => (cell_map c j).[nth 0 (pt p) j]) d.
Proof.
move=> cg pg'; have el : (flat n c < n ^ d)%N := flat_lt cg; have kl : (flat m p < m ^ d)%N := flat_lt pg'.
have [x xl [e1 e2]] := fe_index (ltn0Sn _) (cf_gv cf) (cf_rv cf) (cf_vm cf) el kl.
have -> : node_at s (nd c p) = \row_j teval (element_map pm (flat n c) j) (grid_point d gv (flat m p)).
  rewrite -e2 /node_at /Stokes_cube.nd; congr (nth 0 _ _).
  by rewrite /node_of e1.
apply: (@eq_from_nth _ 0); rewrite size_place ?size_mkseq // => j jd.
rewrite -[j]/(nat_of_ord (Ordinal jd)) nth_place mxE nth_mkseq //= (point_nd cf pg') -(cube_map (Ordinal jd) cg) //.
by rewrite size_map (size_grid_in pg').
Qed.
Lemma at_nd l Z c p : tdeg d l Z -> c \in grid n d -> p \in grid m d -> at_node Z (nd c p) = teval (pull d (cell_map c) Z) (pt p).
Proof. by move=> dZ cg pg'; rewrite /at_node place_nd // (pull_eval _ dZ) // size_map (size_grid_in pg'). Qed.
Lemma at_deriv l Z c p (j : 'I_d) : tdeg d l Z -> c \in grid n d -> p \in grid m d ->
  at_node (tderiv j Z) (nd c p) = (h / 2%:R)^-1 * teval (tderiv j (pull d (cell_map c) Z)) (pt p).
Proof.
move=> dZ cg pg'; rewrite (pull_deriv dZ _ (ltn_ord j) (cell_map_deriv c j)) ?size_map ?(size_grid_in pg') //.
by rewrite mulrA mulVf // mul1r /at_node place_nd.
Qed.
(** Periodic copies. *)
Lemma at_wrap l Z c p c' p' : tdeg d l Z -> matches Z -> c \in grid n d -> p \in grid m d -> c' \in grid n d -> p' \in grid m d ->
  UnitCube_links.wrap d n pd m (UnitCube_refine.global m c p) = UnitCube_links.wrap d n pd m (UnitCube_refine.global m c' p') -> at_node Z (nd c p) = at_node Z (nd c' p').
Proof.
move=> dZ fZ cg p1 cg' p2 wE; apply: (flat_eval dZ); rewrite ?size_place // => j jd.
have [jp|jp] := boolP (j \in pd); first by left; exact: fZ.
right; rewrite -[j]/(nat_of_ord (Ordinal jd)) !nth_place.
apply: (coord_position d0 n0 ab gen hpg cpg hs o2) => //.
by have := congr1 (nth 0%N ^~ j) wE; rewrite /= !nth_wrap // (negbTE jp).
Qed.

(** The summation by parts on one cell. *)
Lemma cell_green k (v : seq nat -> R) Z : (k < d)%N -> tdeg d m Z ->
  \sum_(p <- grid m d) W p * teval (tderiv k (nodal d xv v)) (pt p) * teval Z (pt p) =
  outflow d order quad k (fun q => v q * teval Z (pt q)) - \sum_(p <- grid m d) W p * (v p * teval (tderiv k Z) (pt p)).
Proof.
move=> kd dZ; have /andP[/eqP e0 /eqP e1] := gll_continuous (cf_gv cf).
have [sw _ _ ex] := C36_exact (ltn0Sn _) (cf_quad cf).
have := @quad_parts _ d xv ws m; rewrite szv => H; rewrite (H _ _ _ _ _ k v Z) //; first last.
- move=> p q sp sq; have sz : (size (p * q)^`() <= exactness GAUSS_LOBATTO_LEGENDRE m)%N.
    have [->|nz] := eqVneq (p * q) 0; first by rewrite deriv0 size_poly0.
    rewrite -ltnS; apply: (leq_trans (lt_size_deriv nz)); rewrite /exactness.
    apply: (leq_trans (size_mul_leq _ _)); by move: sp sq m2; move: (size p) (size q) => x y; clear; lia.
  have := ex _ sz; rewrite (quad_gv cf) /Interp_spec.quad szv integral_deriv !hornerM => <-.
  apply/eqP; rewrite -subr_eq0 opprB addrA subr_eq0; apply/eqP; rewrite -big_split /=; apply: eq_bigr => i _.
  by rewrite derivM hornerD !hornerM mulrDr.
- by rewrite -nth_last szv in e1.
rewrite /outflow -sumrB; apply: eq_bigr => q _; rewrite mulrBr; congr (_ - _); [by rewrite mulrCA|by rewrite mulrCA].
Qed.

(** The gradient of a nodal field and the quadrature weight at node [q] of element [e]. *)
Definition gr w (c : nat) (j : nat) e q : R := nth 0 (phys_grad (v_space vel) e (comp (v_gather vel w) e c) q) j.
Definition wt e q : R := fs_jacdets (v_space vel) e q * nth 0 (getr (weights_nd (fs_quad (v_space vel)) d)) q.
Lemma wt_nd c p : c \in grid n d -> p \in grid m d -> wt (flat n c) (flat m p) = (h / 2%:R) ^+ d * W p.
Proof.
move=> cg pg'; have [_ vq _] := fs_basic (ltn0Sn _) (cf_quad cf) (cf_vs cf).
by rewrite /wt vq (weight_nd d0 cf pg') (jac_nd d0 n0 ab gen hpg cpg cf o2 cg pg').1.
Qed.
Lemma gr_nd w c (j : 'I_d) e p : e \in grid n d -> p \in grid m d ->
  gr w c j (flat n e) (flat m p) = (h / 2%:R)^-1 * teval (tderiv j (nodal d xv (fun q => ent w c (nd e q)))) (pt p).
Proof.
move=> cg pg'; apply: (phys_nd d0 n0 ab gen hpg cpg cf inv_ok o2) => // q qg.
by rewrite -(gather_nd cf).
Qed.
Lemma sum_elements (f : nat -> nat -> R) :
  \sum_(e < n ^ d) \sum_(q < m ^ d) f e q = \sum_(c <- grid n d) \sum_(p <- grid m d) f (flat n c) (flat m p).
Proof.
rewrite -(sumlE (n ^ d) (fun e => \sum_(q < m ^ d) f e q)) sum_cells; apply: eq_bigr => c _.
by rewrite -(sumlE (m ^ d) (f (flat n c))) sum_cells.
Qed.

(** The flow out of the cells adds up to zero. *)
Lemma total_outflow k u : closed_cube d lbl pd bcs -> conforming u -> (k < d)%N ->
  \sum_(c <- grid n d) outflow d order quad k (fun q => ent u k (nd c q)) = 0.
Proof.
move=> cl cu kd; rewrite (eq_bigr (fun c => face d order quad k order (fun q => ent u k (nd c q)) - face d order quad k 0 (fun q => ent u k (nd c q)))); last first.
  by move=> c _; rewrite outflow_faces.
rewrite sumrB (eq_big_seq (fun c => face d order quad k 0 (fun q => ent u k (nd (next n k c) q)))); last first.
  by move=> c cg; apply: (face_next d0 n0 ab gen hpg cpg cf hM run rvE).
by rewrite (@sum_next R d n n0 k (fun c => face d order quad k 0 (fun q => ent u k (nd c q)))) // subrr.
Qed.
(** The product with a polynomial is conforming. *)
Lemma product_conforming w Z c (j : 'I_d) l : tdeg d l Z -> matches Z -> conforming w -> (c < d)%N ->
  exists2 y, conforming y & forall e p, e \in grid n d -> p \in grid m d -> ent y j (nd e p) = ent w c (nd e p) * at_node Z (nd e p).
Proof.
move=> dZ fZ cw hc; have [gw vw aw] := (cube_conforming d0 n0 ab gen hpg cpg cf hM run rvE w).1 cw.
pose y := [seq [seq (if k == j :> nat then ent w c i * at_node Z i else 0) | i <- iota 0 nv] | k <- iota 0 d].
have ey k i : (k < d)%N -> (i < nv)%N -> ent y k i = if k == j :> nat then ent w c i * at_node Z i else 0.
  by move=> kd hi; rewrite /ent /y (nth_map 0%N) ?size_iota // nth_iota // (nth_map 0%N) ?size_iota // nth_iota.
have nl e p : e \in grid n d -> p \in grid m d -> (nd e p < nv)%N by move=> eg pg'; exact: (nd_lt cf rvE).
exists y => [|e p eg pg']; last by rewrite ey ?nl // eqxx.
apply/(cube_conforming d0 n0 ab gen hpg cpg cf hM run rvE); split.
- apply: goodP => [|k kd]; first by rewrite size_map size_iota.
  by rewrite (nth_map 0%N) ?size_iota // size_map size_iota.
- by move=> k e p kd eg pg' wf ow; rewrite ey ?nl //; case: ifP => // _; rewrite (vw c) // mul0r.
move=> k e p e' p' kd eg p1 eg' p2 wE; rewrite !ey ?nl //; case: ifP => // _.
by rewrite (aw c _ _ _ _ hc eg p1 eg' p2 wE) (at_wrap dZ fZ eg p1 eg' p2 wE).
Qed.

(** Green's formula. *)
Lemma green w Z c (j : 'I_d) : closed_cube d lbl pd bcs -> tdeg d m Z -> matches Z -> conforming w -> (c < d)%N ->
  \sum_(e < n ^ d) \sum_(q < m ^ d) gr w c j e q * at_node Z (node_of (vm s) e q) * wt e q =
  - \sum_(e < n ^ d) \sum_(q < m ^ d) ent w c (node_of (vm s) e q) * at_node (tderiv j Z) (node_of (vm s) e q) * wt e q.
Proof.
move=> cl dZ fZ cw hc.
rewrite (sum_elements (fun e q => gr w c j e q * at_node Z (node_of (vm s) e q) * wt e q)).
rewrite (sum_elements (fun e q => ent w c (node_of (vm s) e q) * at_node (tderiv j Z) (node_of (vm s) e q) * wt e q)).
have [y cy ey] := product_conforming j dZ fZ cw hc; have T := total_outflow cl cy (ltn_ord j).
pose V e := fun q => ent w c (nd e q).
have L1 e : e \in grid n d -> \sum_(p <- grid m d) gr w c j (flat n e) (flat m p) * at_node Z (node_of (vm s) (flat n e) (flat m p)) * wt (flat n e) (flat m p) =
    (h / 2%:R)^-1 * (h / 2%:R) ^+ d * outflow d order quad j (fun q => ent y j (nd e q))
    - \sum_(p <- grid m d) ent w c (node_of (vm s) (flat n e) (flat m p)) * at_node (tderiv j Z) (node_of (vm s) (flat n e) (flat m p)) * wt (flat n e) (flat m p).
  move=> eg; rewrite (eq_big_seq (fun p => (h / 2%:R)^-1 * (h / 2%:R) ^+ d * (W p * teval (tderiv j (nodal d xv (V e))) (pt p) * teval (pull d (cell_map e) Z) (pt p)))); last first.
    move=> p pg' /=; rewrite gr_nd // wt_nd // -[node_of _ _ _]/(nd e p) (at_nd dZ) //.
    rewrite -/(V e); set x1 := teval (tderiv _ _) _; set x2 := teval (pull _ _ _) _; set x3 := W p; set x4 := (h / 2%:R)^-1; set x5 := (h / 2%:R) ^+ d.
    by move: x1 x2 x3 x4 x5; clear; move=> x1 x2 x3 x4 x5; ring.
  rewrite -mulr_sumr cell_green ?pull_deg // => [|k _]; last exact: cell_map_size.
  rewrite mulrBr; congr (_ * _ - _).
    by rewrite /outflow; apply: eq_big_seq => q qg; rewrite ey // (at_nd dZ).
  rewrite mulr_sumr; apply: eq_big_seq => p pg' /=; rewrite -[node_of _ _ _]/(nd e p) (at_deriv j dZ) // wt_nd // /V.
  set x1 := teval _ _; set x2 := ent _ _ _; set x3 := W p; set x4 := (h / 2%:R)^-1; set x5 := (h / 2%:R) ^+ d.
  by move: x1 x2 x3 x4 x5; clear; move=> x1 x2 x3 x4 x5; ring.
by rewrite (eq_big_seq _ L1) sumrB -mulr_sumr T mulr0 sub0r.
Qed.

(** Gradients of polynomials are exact, *)
Lemma gr_poly hU U c (j : 'I_d) e p : poly_field hU U -> tdeg d m (hU c) -> (c < d)%N -> e \in grid n d -> p \in grid m d ->
  gr U c j (flat n e) (flat m p) = at_node (tderiv j (hU c)) (nd e p).
Proof.
move=> [gU eU] dU hc eg pg'; have el : (flat n e < n ^ d)%N := flat_lt eg; have kl : (flat m p < m ^ d)%N := flat_lt pg'.
have [_ _ _ gE] := feE (ltn0Sn _) (cf_gv cf) (cf_vm cf).
have dP : tdeg d m (pull d (cell_map e) (hU c)) by apply: pull_deg => // k _; exact: cell_map_size.
rewrite /gr (grad_at inv_ok fam ori cf m2 (cf_quad cf) (cf_vs cf) j dP el kl); last first.
  move=> k kl'; have [p' pg2 kE] := grid_of kl'; have [xl _ N] := node_facts cf el kl'.
  rewrite /comp /= N -[nth 0 _ _]/(ent U c _) eU // kE gE (point_nd cf pg2) -(at_nd dU eg pg2).
  by rewrite /Stokes_cube.nd.
rewrite /pderiv (quad_gv cf) (point_nd cf pg').
have ep : (flat n e < size (pm_elements pm))%N by have [-> _] := C26_cells gen.
rewrite (cube_jacobian gen ep) ?size_map ?(size_grid_in pg') // invmx_scalar (bigD1 j) //= mxE eqxx mulr1n big1 ?addr0 => [|i ij].
  by rewrite (at_deriv j dU).
by rewrite mxE eq_sym (negbTE ij) mulr0n mul0r.
Qed.
(** and so are the values of the pressure. *)
Lemma pressure_at hp P e p : poly_pressure hp P -> tdeg d (order - 1) hp -> e \in grid n d -> p \in grid m d ->
  at_quad eps (Stokes_proofs2.pm s) (qd_nodes quad) (comp (p_gather (s_pressure s) P) (flat n e) 0) (flat m p) = at_node hp (nd e p).
Proof.
move=> [sP eP] dp eg pg'; have el : (flat n e < n ^ d)%N := flat_lt eg; have kl : (flat m p < m ^ d)%N := flat_lt pg'.
have op : (0 < order - 1)%N by rewrite subn_gt0 (cf_order cf).
have dP : tdeg d (order - 1) (pull d (cell_map e) hp) by apply: pull_deg => // k _; exact: cell_map_size.
rewrite (p_at_quad fam cf dP kl) ?(quad_gv cf) ?(point_nd cf pg') ?(at_nd dp) // => k hk.
have [x xl [e1 e2]] := fe_index op (cf_gp cf) (cf_rp cf) (cf_pm cf) el hk.
have se := fe_rows op (cf_gp cf) (cf_rp cf) (cf_pm cf) el.
have sg : size (grid_point d gp k) = d := size_point op (cf_gp cf) hk.
rewrite /comp /= /gather_comp /gather (nth_map 0) ?se // e1 /at_ /= eP // e2 (pull_eval _ dp sg); congr (teval _ _).
apply: (@eq_from_nth _ 0); rewrite size_place ?size_mkseq // => j jd.
by rewrite -[j]/(nat_of_ord (Ordinal jd)) nth_place mxE nth_mkseq //= (cube_map (Ordinal jd) eg sg).
Qed.
(** The mass matrix is the quadrature. *)
Lemma mass_sum G w : vgood s G -> conforming w -> vpair s (B s G) w =
  \sum_(e < n ^ d) \sum_(q < m ^ d) \sum_(c < d) ent w c (node_of (vm s) e q) * ent G c (node_of (vm s) e q) * wt e q.
Proof.
move=> gG [gw vw _]; have ok := facts_ok cf; have [_ _ per _] := feE (ltn0Sn _) (cf_gv cf) (cf_vm cf).
have eK := fe_num (ltn0Sn _) (cf_gv cf) (cf_rv cf) (cf_vm cf); have [_ vq _] := fs_basic (ltn0Sn _) (cf_quad cf) (cf_vs cf).
rewrite /vpair (eq_bigr (fun c : 'I_d => \sum_(e < n ^ d) \sum_(q < m ^ d) ent w c (node_of (vm s) e q) * ent G c (node_of (vm s) e q) * wt e q)).
  by rewrite exchange_big /=; apply: eq_bigr => e _; rewrite exchange_big.
move=> c _; pose z := mkseq (fun i => ent G c i * ent w c i) nv.
rewrite (eq_bigr (fun i : 'I_nv => nth 0 z i * nth 0 (scatter_comp (vm s) (mass_weight s quad)) i)); last first.
  move=> i _; rewrite (ent_B ok i gG (ltn_ord c)) (mass_entry cf i (ltn_ord c)) nth_mkseq //.
  have [m0|->] := facts_binary cf (ltn_ord i); last by rewrite mul1r -mulrA mulrC.
  by rewrite m0 !mul0r vw // mulr0 mul0r.
rewrite (assembly _ (ok_v ok)) ?size_mkseq // per eK; apply: eq_bigr => e _; apply: eq_bigr => q _.
have [xl _ N] := node_facts cf (ltn_ord e) (ltn_ord q).
by rewrite N nth_mkseq // /mass_weight /wt vq mulrC [ent G _ _ * _]mulrC.
Qed.

End Made.
End Cube.
