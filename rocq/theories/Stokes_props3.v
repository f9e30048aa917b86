(** C60, C61: which discretisations can be created, and what they are on a cube. *)
From mathcomp Require Import all_ssreflect all_algebra polyrcf zify ring.
From Verif Require Import PyDict_model PyDict_proofs Facet_model Facet_spec Facet_proofs GS_model GS_proofs GS_props Interp_model Interp_spec.
From Verif Require Import Gauss_proofs2 Interp_proofs2 Tensor_proofs Interp_props FES_model FES_proofs FES_proofs2 FES_props FES_props2 Premesh_model.
From Verif Require Import UnitCube_model UnitCube_spec UnitCube_proofs UnitCube_props Refiner_spec Nodes_sym.
From Verif Require Import CG_model CG_proofs CG_props TimeCoef_model Stokes_model Stokes_spec Stokes_proofs Stokes_proofs2 Stokes_proofs3.
From Verif Require Import Stokes_create Stokes_create2 Stokes_create3 Stokes_proofs4 Stokes_create4 Stokes_solve Stokes_props Stokes_props2.
From Verif Require Import Stokes_family Stokes_instance.
Set Implicit Arguments.
Unset Strict Implicit.
Unset Printing Implicit Defensive.
Import Order.TTheory GRing.Theory Num.Theory.
Local Open Scope ring_scope.

Arguments nodes1d_create : simpl never.
Arguments quadrature_create : simpl never.
Arguments quadrature_from_nodes : simpl never.

(** ** C60: creation *)
Section Creation.
Variables (R : rcfType) (d : nat) (eps : R) (inv : 'M[R]_d -> 'M[R]_d) (L : eqType) (BCV : Type).
Notation V := [lmodType R of 'rV[R]_d].
Variables (pg : nodes1d R) (tp : node_type) (pm : premesh V L).
Hypotheses (hpg : nodes1d_create R 2 tp = inr pg) (cpg : is_continuous pg).
Implicit Types (bcs : seq (L * (bctype * BCV))).
Notation create o := (sem_create eps inv (refined_mesh pg pm) o).

(** A premesh in one piece with conforming elements can be discretised with any
    order from 2 on (from 3 on in three or more dimensions), as long as the
    Dirichlet conditions name groups of the premesh. *)
Theorem C60_creates order bcs overint : good_premesh pm -> pm_parts pm = None -> (1 < order)%N -> ~ (order = 2%N /\ (3 <= d)%N) ->
  (exists s, create 1%N order bcs overint = inr s) <->
  (forall g v, List.In (g, (DIRICHLET, v)) bcs -> g \in [seq x.1 | x <- pm_groups pm]).
Proof. by move=> gpm; exact: (create_premesh eps inv hpg cpg gpm). Qed.
(** What it refuses *)
Theorem C60_premesh_order o order bcs overint : o <> 1%N -> create o order bcs overint = inl SValueError.
Proof. by move=> /eqP h; rewrite /sem_create h. Qed.
Theorem C60_low_order order bcs overint : (order <= 1)%N -> create 1%N order bcs overint = inl (SInterp IValueError).
Proof. exact: create_low_order. Qed.
(** partitioned premeshes, *)
Theorem C60_partitioned order bcs overint : pm_parts pm <> None -> create 1%N order bcs overint = inl (SInterp IValueError).
Proof. exact: (create_partitioned eps inv hpg cpg). Qed.
(** and order 2 in three or more dimensions. *)
Theorem C60_order_two_3d bcs overint : (3 <= d)%N -> create 1%N 2 bcs overint = inl (SInterp IValueError).
Proof. move=> d3; exact: (create_order_two eps inv pm hpg cpg bcs overint d3). Qed.
(** The meshes of a discretisation are refinements of the same elements: each is
    the multilinear image of the reference cube that has the nodes of the premesh
    at its corners. *)
Theorem C60_family : good_premesh pm -> mesh_family (refined_mesh pg pm) (size (pm_elements pm)) (element_map pm).
Proof. by move=> gpm; exact: (premesh_family hpg cpg gpm). Qed.
(** The nodes of an element of the velocity mesh. *)
Theorem C60_velocity_nodes o order bcs overint s gv : good_premesh pm -> create o order bcs overint = inr s ->
  nodes1d_create R order.+1 GAUSS_LOBATTO_LEGENDRE = inr gv ->
  forall e k, (e < size (pm_elements pm))%N -> (k < order.+1 ^ d)%N ->
    (node_of (vm s) e k < nv s)%N /\
    nth 0 (FES_model.m_coords (vm s)) (node_of (vm s) e k) = \row_j teval (element_map pm e j) (grid_point d gv k).
Proof.
move=> gpm hs hgv e k el kl; have [gp [gv' [rp [rv [quad cf]]]]] := created (C60_family gpm) hs.
have [x xl [e1 e2]] := fe_index (ltn0Sn _) (cf_gv cf) (cf_rv cf) (cf_vm cf) el kl.
have -> : gv = gv' by have := cf_gv cf; rewrite hgv => -[].
by rewrite /node_of e1 /=.
Qed.
End Creation.

(** ** C61: the cube *)
Section Cube.
Variables (R : rcfType) (d : nat) (eps : R) (inv : 'M[R]_d -> 'M[R]_d) (L : eqType) (BCV : Type).
Notation V := [lmodType R of 'rV[R]_d].
Variables (lbl : L) (n : nat) (a b : R) (pd : seq nat) (pm : premesh V L).
Hypotheses (d0 : (0 < d)%N) (n0 : (0 < n)%N) (ab : a < b).
Hypothesis gen : unit_cube_mesh d lbl n a b pd None = inr pm.
Variables (pg : nodes1d R) (tp : node_type).
Hypotheses (hpg : nodes1d_create R 2 tp = inr pg) (cpg : is_continuous pg).
Variables (order overint : nat) (bcs : seq (L * (bctype * BCV))).
Notation create := (sem_create eps inv (refined_mesh pg pm) 1 order bcs overint).

Theorem C61_family : mesh_family (refined_mesh pg pm) (n ^ d) (element_map pm) /\ oriented_elements (n ^ d) (element_map pm).
Proof.
have [<- _] := C26_cells gen; split; first exact: (premesh_family hpg cpg (cube_good n0 d0 gen)).
exact: (cube_oriented n0 gen ab).
Qed.

(** Every uniform mesh of a cube can be discretised; Dirichlet conditions can only
    name the group of the boundary, which exists when some axis is not periodic. *)
Theorem C61_creates : (1 < order)%N -> ~ (order = 2%N /\ (3 <= d)%N) ->
  (exists s, create = inr s) <->
  (forall g v, List.In (g, (DIRICHLET, v)) bcs -> g = lbl /\ exists2 axis, (axis < d)%N & axis \notin pd).
Proof.
move=> o1 o2; have pn : pm_parts pm = None by move: gen; rewrite /unit_cube_mesh => -[<-].
apply: (iff_trans (create_premesh eps inv hpg cpg (cube_good n0 d0 gen) bcs overint pn o1 o2)).
have [gE _ mem] := C27_boundary_group n0 gen.
have G g : g \in [seq x.1 | x <- pm_groups pm] <-> g = lbl /\ exists2 axis, (axis < d)%N & axis \notin pd.
  split=> [|[-> [ax al ap]]].
    case: gE mem => [-> //|[-> bn]]; rewrite /= inE => mem /eqP->; split=> //.
    case E : (pm_groups pm) bn mem => [|[l [|f fs]] gs] bn mem; [by case: bn|by case: bn|].
    by have [/(_ (mem_head _ _))[ax [s [c [al ap _ _ _]]]] _] := mem f; exists ax.
  pose c := nseq d.-1 0%N; have cg : c \in grid n d.-1 by rewrite mem_grid size_nseq eqxx /= all_nseq n0 orbT.
  have [_ /(_ (ex_intro _ ax (ex_intro _ 0%N (ex_intro _ c (And5 al ap (or_introl erefl) cg erefl)))))] := mem (side_cell n ax 0 c).
  by case: gE => [->|[-> _]] //=; rewrite mem_head.
by split=> h g v /h/G.
Qed.

Section Made.
Variable s : sem R d.
Hypothesis hs : create = inr s.

Lemma weights_sum quad : quadrature_create R order.+1 GAUSS_LOBATTO_LEGENDRE = inr quad ->
  \sum_(q < order.+1 ^ d) nth 0 (getr (weights_nd quad d)) q = 2%:R ^+ d.
Proof.
move=> hq; have [w hw [wE s2 _]] := C36_weights_nd d0 (ltn0Sn _) hq; rewrite hw /= -s2 Interp_proofs.foldr_sum (big_nth 0) big_mkord.
by rewrite [size w](_ : _ = (order.+1 ^ d)%N) // wE size_map size_cart_nseq; have [-> _ _ _] := C36_exact (ltn0Sn _) hq.
Qed.
Lemma cells_volume quad : quadrature_create R order.+1 GAUSS_LOBATTO_LEGENDRE = inr quad ->
  \sum_(e < n ^ d) \sum_(q < order.+1 ^ d) ((b - a) / n%:R / 2%:R) ^+ d * nth 0 (getr (weights_nd quad d)) q = (b - a) ^+ d.
Proof.
move=> hq; rewrite (eq_bigr (fun _ => ((b - a) / n%:R) ^+ d)).
  rewrite sumr_const card_ord -mulr_natr natrX -exprMn divfK // pnatr_eq0 -lt0n //.
by move=> e _; rewrite -mulr_sumr weights_sum // -exprMn divfK // pnatr_eq0.
Qed.
(** The weights of the velocity nodes add up to the volume of the cube, *)
Theorem C61_mass c : (c < d)%N -> \sum_(i < nv s) ent (s_mass s) c i = (b - a) ^+ d.
Proof.
have [fam _] := C61_family; move=> hc; have [gp [gv [rp [rv [quad cf]]]]] := created fam hs.
have ok := facts_ok cf; have [_ _ per _] := feE (ltn0Sn _) (cf_gv cf) (cf_vm cf).
have eK := fe_num (ltn0Sn _) (cf_gv cf) (cf_rv cf) (cf_vm cf).
rewrite -(cells_volume (cf_quad cf)).
rewrite (eq_bigr (fun i : 'I_(nv s) => nth 0 (nseq (nv s) 1) i * nth 0 (scatter_comp (vm s) (mass_weight s quad)) i)); last first.
  by move=> i _; rewrite (mass_entry cf) // nth_nseq ltn_ord mul1r.
rewrite (assembly _ (ok_v ok)) ?size_nseq // per eK; apply: eq_bigr => e _; apply: eq_bigr => q _.
have [x xl [e1 _]] := fe_index (ltn0Sn _) (cf_gv cf) (cf_rv cf) (cf_vm cf) (ltn_ord e) (ltn_ord q).
have -> : gather_comp (vm s) (nseq (nv s) 1) e q = 1.
  by rewrite /gather_comp /gather (nth_map 0) ?(fe_rows (ltn0Sn _) (cf_gv cf) (cf_rv cf) (cf_vm cf)) // e1 /at_ /= nth_nseq xl.
rewrite mulr1 /mass_weight (fs_jac fam (ltn0Sn _) (cf_gv cf) (cf_rv cf) (cf_vm cf) (ltn0Sn _) (cf_quad cf) (cf_vs cf)) //; last by have := cf_order cf; lia.
rewrite (cube_jacobian gen) ?det_scalar //; last exact: (proj1 (quad_points cf (ltn_ord q))).
by have [-> _] := C26_cells gen.
Qed.
(** and the integral of the pressure 1 is the volume as well. *)
Theorem C61_volume : (2 < order)%N -> integral_p eps s (nseq (np s) 1) = (b - a) ^+ d.
Proof.
have [fam _] := C61_family; move=> o2; have [gp [gv [rp [rv [quad cf]]]]] := created fam hs.
rewrite /integral_p -(meanE eps) (total_volume fam cf o2) -(cells_volume (cf_quad cf)).
apply: eq_bigr => e _; apply: eq_bigr => q _; congr (_ * _).
rewrite (cube_jacobian gen) ?det_scalar //; last exact: (proj1 (quad_points cf (ltn_ord q))).
by have [-> _] := C26_cells gen.
Qed.
(** The theorems on time steps, operators and masses hold without further
    conditions on the mesh. *)
Theorem C61_operators dt beta p q : (2 < order)%N -> 0 <= dt -> 0 < beta -> size p = np s -> size q = np s ->
  [/\ \sum_(i < np s) nth 0 (E eps s dt beta p) i * nth 0 q i = \sum_(i < np s) nth 0 p i * nth 0 (E eps s dt beta q) i,
      0 <= \sum_(i < np s) nth 0 (E eps s dt beta p) i * nth 0 p i,
      integral_p eps s (project_out eps s p) = 0 &
      forall c i, (c < d)%N -> (i < nv s)%N -> 0 < ent (s_mass s) c i].
Proof.
have [fam ori] := C61_family; move=> o2 dt0 b0 sp sq; split.
- exact: (C48_symmetric fam hs).
- exact: (C48_semidefinite fam hs).
- by have [] := C46_projection fam hs o2 ori sp.
- by move=> c i; exact: (C58_mass_positive fam hs).
Qed.
End Made.
End Cube.

(** ** Examples *)
Section Examples.
Variables (R : rcfType) (eps : R).
Definition ex_pg : nodes1d R := Nodes1D 2 NEWTON_COTES (nc_nodes R 2).
Lemma ex_pg_created : nodes1d_create R 2 NEWTON_COTES = inr ex_pg.
Proof. by []. Qed.
Lemma ex_pg_continuous : is_continuous ex_pg.
Proof. by rewrite /is_continuous /= !mul0r addr0 eqxx /= divr1 mul1r; apply/eqP; ring. Qed.
(** The square cut into nine elements, periodic in the first axis, with walls on
    the others and order 3: the hypotheses of C45-C49, C58, C60 and C61 on the mesh
    and the discretisation hold together, and the cube in 3-D as well. *)
Example ex_square : exists pm : premesh [lmodType R of 'rV[R]_2] bool, exists s,
  [/\ unit_cube_mesh 2 true 3 (0 : R) 1 [:: 0%N] None = inr pm, good_premesh pm,
      mesh_family (refined_mesh ex_pg pm) 9 (element_map pm), oriented_elements 9 (element_map pm) &
      sem_create eps invmx (refined_mesh ex_pg pm) 1 3 [:: (true, (DIRICHLET, tt))] 2 = inr s].
Proof.
case gen : (unit_cube_mesh 2 true 3 (0 : R) 1 [:: 0%N] None) => [e|pm] //.
have [fam ori] := C61_family (isT : (0 < 2)%N) (isT : (0 < 3)%N) ltr01 gen ex_pg_created ex_pg_continuous.
have [_ H] := C61_creates eps invmx (isT : (0 < 2)%N) (isT : (0 < 3)%N) gen ex_pg_created ex_pg_continuous (order := 3) 2
  [:: (true, (DIRICHLET, tt))] isT (fun h => ltac:(by case: h)).
have [g v|s hs] := H; first by case=> [[<- _]|[]]; split=> //; exists 1%N.
by exists pm, s; split=> //; exact: (cube_good _ _ gen).
Qed.
Example ex_cube : exists pm : premesh [lmodType R of 'rV[R]_3] bool, exists s,
  [/\ unit_cube_mesh 3 true 2 (-1 : R) 1 [::] None = inr pm, good_premesh pm,
      mesh_family (refined_mesh ex_pg pm) 8 (element_map pm), oriented_elements 8 (element_map pm) &
      sem_create eps invmx (refined_mesh ex_pg pm) 1 4 [:: (false, (NEUMANN, tt)); (true, (DIRICHLET, tt))] 0 = inr s].
Proof.
have lt : -1 < 1 :> R by rewrite -subr_gt0 opprK addr_gt0 ?ltr01.
case gen : (unit_cube_mesh 3 true 2 (-1 : R) 1 [::] None) => [e|pm] //.
have [fam ori] := C61_family (isT : (0 < 3)%N) (isT : (0 < 2)%N) lt gen ex_pg_created ex_pg_continuous.
have [_ H] := C61_creates eps invmx (isT : (0 < 3)%N) (isT : (0 < 2)%N) gen ex_pg_created ex_pg_continuous (order := 4) 0
  [:: (false, (NEUMANN, tt)); (true, (DIRICHLET, tt))] isT (fun h => ltac:(by case: h)).
have [g v|s hs] := H; first by case=> [//|[[<- _]|[]]]; split=> //; exists 1%N.
by exists pm, s; split=> //; exact: (cube_good _ _ gen).
Qed.
End Examples.

Print Assumptions C60_creates.
Print Assumptions C60_premesh_order.
Print Assumptions C60_low_order.
Print Assumptions C60_partitioned.
Print Assumptions C60_order_two_3d.
Print Assumptions C60_family.
Print Assumptions C60_velocity_nodes.
Print Assumptions C61_family.
Print Assumptions C61_creates.
Print Assumptions C61_mass.
Print Assumptions C61_volume.
Print Assumptions C61_operators.
