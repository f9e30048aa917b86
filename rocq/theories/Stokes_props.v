(** C46-C49, C58: the operators of [StokesSEM]. *)
From mathcomp Require Import all_ssreflect all_algebra polyrcf zify ring.
From Verif Require Import PyDict_model PyDict_proofs GS_model GS_proofs GS_props Interp_model Interp_spec.
From Verif Require Import Gauss_proofs2 Interp_proofs2 Tensor_proofs Interp_props FES_model FES_proofs FES_proofs2 FES_props FES_props2 Premesh_model.
From Verif Require Import CG_model CG_proofs CG_props TimeCoef_model Stokes_model Stokes_spec Stokes_proofs Stokes_proofs2 Stokes_proofs3.
From Verif Require Import Stokes_create Stokes_create2 Stokes_create3 Stokes_proofs4 Stokes_create4.
Set Implicit Arguments.
Unset Strict Implicit.
Unset Printing Implicit Defensive.
Import Order.TTheory GRing.Theory Num.Theory.
Local Open Scope ring_scope.

(** ** C47: the Dirichlet mask *)
Section Mask.
Variables (R : rcfType) (L : eqType) (BCV : Type) (masks : seq (L * seq bool)) (N : nat).
Hypothesis sizes : all (fun gm => size gm.2 == N) masks.
Implicit Types (bcs : seq (L * (bctype * BCV))) (i : nat).
(** Node [i] is in the group of some Dirichlet condition. *)
Definition on_dirichlet bcs i : Prop :=
  exists g v mk, [/\ List.In (g, (DIRICHLET, v)) bcs, dget masks g = Some mk & nth false mk i].
(** Some Dirichlet condition names a group the mesh does not have. *)
Definition unknown_group bcs : Prop := exists g v, List.In (g, (DIRICHLET, v)) bcs /\ dget masks g = None.

Lemma on_dirichletP bcs i : reflect (on_dirichlet bcs i) (has (hit masks i) bcs).
Proof.
apply: (iffP (hasP' _ _)) => [[[g [[] v]] h] //|[g [v [mk [h e n]]]]].
- rewrite /hit /=; case e : (dget masks g) => [mk|] /= n; last by rewrite nth_nil in n.
  by exists g, v, mk.
- by exists (g, (DIRICHLET, v)) => //; rewrite /hit /= e.
Qed.
Lemma unknownP bcs : reflect (unknown_group bcs) (has (missing masks) bcs).
Proof.
apply: (iffP (hasP' _ _)) => [[[g [[] v]] h] //|[g [v [h e]]]].
- by rewrite /missing /=; case e : (dget masks g) => // _; exists g, v.
- by exists (g, (DIRICHLET, v)) => //; rewrite /missing /= e.
Qed.

Theorem C47_mask bcs mask : dirichlet_bc R N masks bcs = inr mask ->
  size mask = N /\ forall i, (i < N)%N ->
    (on_dirichlet bcs i -> nth 0 mask i = 0) /\ (~ on_dirichlet bcs i -> nth 0 mask i = 1).
Proof.
move=> h; have := dirichletE R sizes bcs; rewrite h => -[_ sm H]; split=> // i hi; rewrite H //.
by split; case: on_dirichletP.
Qed.
(** It raises exactly when a Dirichlet group is unknown, and then a KeyError. *)
Theorem C47_unknown bcs : (dirichlet_bc R N masks bcs = inl SKeyError <-> unknown_group bcs) /\
  ((exists mask, dirichlet_bc R N masks bcs = inr mask) <-> ~ unknown_group bcs).
Proof.
have := dirichletE R sizes bcs; case: (dirichlet_bc _ _ _ _) => [e [-> /unknownP h]|mask [h _ _]].
  by split; split=> // -[].
split; split=> //; first by move/unknownP; rewrite (negbTE h).
- by move=> _ /unknownP; rewrite (negbTE h).
- by move=> _; exists mask.
Qed.
(** Only the set of Dirichlet conditions matters: order, repetition and Neumann
    conditions do not. *)
Theorem C47_set bcs bcs' : (forall g, (exists v, List.In (g, (DIRICHLET, v)) bcs) <-> (exists v, List.In (g, (DIRICHLET, v)) bcs')) ->
  dirichlet_bc R N masks bcs = dirichlet_bc R N masks bcs'.
Proof.
move=> same.
pose sub (b b' : seq (L * (bctype * BCV))) := forall g, (exists v : BCV, List.In (g, (DIRICHLET, v)) b) -> exists v, List.In (g, (DIRICHLET, v)) b'.
have [S S'] : sub bcs bcs' /\ sub bcs' bcs by split=> g /same.
have M0 b b' : sub b b' -> has (missing masks) b -> has (missing masks) b'.
  by move=> sb /unknownP[g [v [h e]]]; have [v' h'] := sb g (ex_intro _ v h); apply/unknownP; exists g, v'.
have H0 b b' i : sub b b' -> has (hit masks i) b -> has (hit masks i) b'.
  move=> sb /on_dirichletP[g [v [mk [h e n]]]]; have [v' h'] := sb g (ex_intro _ v h).
  by apply/on_dirichletP; exists g, v', mk.
have M : has (missing masks) bcs = has (missing masks) bcs' by apply/idP/idP; exact: M0.
have H i : has (hit masks i) bcs = has (hit masks i) bcs' by apply/idP/idP; exact: H0.
have := dirichletE R sizes bcs; have := dirichletE R sizes bcs'.
case: (dirichlet_bc _ _ _ bcs) => [e|m]; case: (dirichlet_bc _ _ _ bcs') => [e'|m'].
- by move=> [-> _] [-> _].
- by move=> [h _ _] [_]; rewrite M (negbTE h).
- by move=> [_] h [+ _ _]; rewrite M h.
- move=> [_ s' H'] [_ s0 H1]; congr inr; apply: (@eq_from_nth _ 0); rewrite s0 ?s' // => i hi.
  by rewrite H1 // H' // H.
Qed.
End Mask.

Section Theorems.
Variables (R : rcfType) (d : nat) (eps : R) (inv : 'M[R]_d -> 'M[R]_d) (L : eqType) (BCV : Type).
Notation rmesh := (Premesh_model.mesh [zmodType of 'rV[R]_d] L).
Variables (refined : nodes1d R -> ierror + rmesh) (K : nat) (F : nat -> 'I_d -> tpoly R).
Hypothesis fam : mesh_family refined K F.
Variables (o order overint : nat) (bcs : seq (L * (bctype * BCV))) (s : sem R d).
Hypothesis hs : sem_create eps inv refined o order bcs overint = inr s.
Notation vel := (s_velocity s).
Notation pr := (s_pressure s).
Notation D := (@D R d eps s).
Notation Dt := (@Dt R d eps s).
Notation A := (@A R d eps s).
Notation E := (@E R d eps s).
Notation p_B := (@p_B R d eps pr).
Implicit Types (u v w : seq (seq R)) (p q : seq R).

(** The node number of node [k] of element [e]. *)
Definition node_of (m : FES_model.mesh R d) (e k : nat) : nat := absz (nth 0 (nth [::] (FES_model.m_elements m) e) k).
(** A node with mask 0. *)
Definition dirichlet_node (i : nat) : Prop := nth 0 (v_mask vel) i = 0.

(** The rows of Dirichlet nodes are zero in everything the operators return. *)
Theorem C47_rows i c : (c < d)%N -> (i < nv s)%N -> dirichlet_node i ->
  [/\ forall u, vgood s u -> ent (B s u) c i = 0, forall u, ent (A u) c i = 0, forall p, ent (Dt p) c i = 0 &
      forall u, ent (v_C eps vel u) c i = 0].
Proof.
move=> hc hi m0; have [gp [gv [rp [rv [quad cf]]]]] := created fam hs; have ok := facts_ok cf.
split=> [u gu|u|p|u]; last 3 first.
- exact: (vanishes_masked ok (good_vscatter _ _)).
- exact: (vanishes_Dt eps ok).
- exact: (vanishes_masked ok (good_vscatter _ _)).
by rewrite (ent_B ok _ gu) // m0 !mul0r.
Qed.
(** B, D, B^-1 D^T and their composition E never mix them with the others: with
    the values on Dirichlet nodes zero, B^-1 keeps them zero. *)
Theorem C47_inverse_mass u c i : vgood s u -> (forall c i, (c < d)%N -> (i < nv s)%N -> dirichlet_node i -> ent u c i = 0) ->
  (c < d)%N -> (i < nv s)%N -> dirichlet_node i -> ent (Bi s u) c i = 0.
Proof.
move=> gu vu; have [gp [gv [rp [rv [quad cf]]]]] := created fam hs.
exact: (vanishes_Bi (facts_ok cf) (facts_consistent cf) gu vu).
Qed.

(** ** C48 *)
Theorem C48_adjoint u p : (2 < order)%N -> vgood s u -> size p = np s ->
  (forall c i, (c < d)%N -> (i < nv s)%N -> dirichlet_node i -> ent u c i = 0) ->
  \sum_(i < np s) nth 0 (D u) i * nth 0 p i = \sum_(c < d) \sum_(i < nv s) ent u c i * ent (Dt p) c i.
Proof.
move=> o2 gu sp vu; have [gp [gv [rp [rv [quad cf]]]]] := created fam hs.
exact: (adjoint_masked _ (facts_ok cf) (facts_geometry fam cf o2) (facts_binary cf) gu vu sp).
Qed.
Theorem C48_symmetric dt beta p q : (2 < order)%N -> size p = np s -> size q = np s ->
  \sum_(i < np s) nth 0 (E dt beta p) i * nth 0 q i = \sum_(i < np s) nth 0 p i * nth 0 (E dt beta q) i.
Proof.
move=> o2 sp sq; have [gp [gv [rp [rv [quad cf]]]]] := created fam hs; have ok := facts_ok cf.
have H p' q' := E_inner eps ok dt beta (p := p') (q := q') (facts_geometry fam cf o2) (facts_binary cf) (facts_consistent cf).
apply: (etrans (H _ _ sp sq)); rewrite (Bi_sym ok (good_Dt _ ok _) (good_Dt _ ok _)).
by apply: (etrans (esym (H _ _ sq sp))); apply: pinnerC.
Qed.
Theorem C48_semidefinite dt beta p : (2 < order)%N -> oriented_elements K F -> 0 <= dt -> 0 < beta -> size p = np s ->
  0 <= \sum_(i < np s) nth 0 (E dt beta p) i * nth 0 p i.
Proof.
move=> o2 ori dt0 b0 sp; have [gp [gv [rp [rv [quad cf]]]]] := created fam hs; have ok := facts_ok cf.
have H := E_inner eps ok dt beta (facts_geometry fam cf o2) (facts_binary cf) (facts_consistent cf) sp sp.
move: H; rewrite /pinner => ->; rewrite mulr_ge0 ?divr_ge0 // ?(ltW b0) //.
apply: (Bi_ge0 ok _ (good_Dt _ ok _)); exact: (facts_positive fam cf).
Qed.
(** With order 2 (which [create] accepts) the pressure elements have one node
    each, so their Jacobian is computed as zero: D, E and the pressure mass are
    all zero. *)
Theorem C48_order2_refuted : order = 2%N -> [/\ forall u, D u = nseq (np s) 0, forall dt beta p, E dt beta p = nseq (np s) 0 &
  forall p, p_B p = nseq (np s) 0].
Proof.
move=> o2; have [gp [gv [rp [rv [quad cf]]]]] := created fam hs.
by split=> *; [apply: (D_degenerate fam cf)|apply: (D_degenerate fam cf)|apply: (pB_degenerate fam cf)].
Qed.

(** ** C46: the projection *)
(** The integral of a pressure: the sum of the entries of B p. *)
Definition integral_p p : R := \sum_(i < np s) nth 0 (p_B p) i.
(** It is the quadrature over the mesh of the polynomials interpolating [p]. *)
Theorem C46_integral p (f : nat -> tpoly R) : (2 < order)%N -> size p = np s ->
  (forall e, (e < K)%N -> tdeg d (order - 1) (f e)) ->
  (forall e k, (e < K)%N -> (k < (order - 1) ^ d)%N -> nth 0 p (node_of (pm s) e k) = teval (f e) (grid_point d (m_grid (pm s)) k)) ->
  exists quad (w : seq R), [/\ quadrature_create R order.+1 GAUSS_LOBATTO_LEGENDRE = inr quad, weights_nd quad d = inr w &
    integral_p p = \sum_(e < K) \sum_(q < order.+1 ^ d)
      teval (f e) (grid_point d (qd_nodes quad) q) * \det (jacobian_at (F e) (grid_point d (qd_nodes quad) q)) * nth 0 w q].
Proof.
move=> o2 sp df H; have [gp [gv [rp [rv [quad cf]]]]] := created fam hs.
have op : (0 < order - 1)%N by rewrite subn_gt0 (cf_order cf).
have [_ _ per gE] := feE op (cf_gp cf) (cf_pm cf).
have [w hw _] := C36_weights_nd (mf_dim fam) (ltn0Sn _) (cf_quad cf).
exists quad, w; split=> //; first exact: (cf_quad cf).
rewrite /integral_p -meanE (mean_integral fam cf sp) hw; apply: eq_bigr => e _; apply: eq_bigr => q _.
rewrite (p_at_quad fam cf (f := f e)) //; last 2 first.
- exact: df.
- move=> k hk; have [x hx [e1 _]] := fe_index op (cf_gp cf) (cf_rp cf) (cf_pm cf) (ltn_ord e) hk.
  have se := fe_rows op (cf_gp cf) (cf_rp cf) (cf_pm cf) (ltn_ord e).
  by have := H e k (ltn_ord e) hk; rewrite gE /node_of /gather_comp /gather (nth_map 0) ?se // e1 /at_.
congr (_ * _ * _); apply: (fs_jac fam op (cf_gp cf) (cf_rp cf) (cf_pm cf) (ltn0Sn _) (cf_quad cf) (cf_ps cf)) => //.
by rewrite ltn_subRL.
Qed.
Theorem C46_projection p : (2 < order)%N -> oriented_elements K F -> size p = np s ->
  [/\ size (project_out eps s p) = np s, integral_p (project_out eps s p) = 0,
      (exists c, forall i, (i < np s)%N -> nth 0 (project_out eps s p) i = nth 0 p i - c),
      (integral_p p = 0 -> project_out eps s p = p) &
      project_out eps s (project_out eps s p) = project_out eps s p].
Proof.
move=> o2 ori sp; have [gp [gv [rp [rv [quad cf]]]]] := created fam hs; have ok := facts_ok cf.
have t0 := total_gt0 fam cf o2 ori; have PE q sq := projectE (p := q) eps sq (facts_pexchange cf).
have S q c : size (sub_const q c) = size q by rewrite size_map.
have M q : size q = np s -> mean eps s (project_out eps s q) = 0.
  by move=> sq; rewrite PE // (mean_sub _ ok) // divfK ?subrr ?gt_eqF.
have U q : size q = np s -> mean eps s q = 0 -> project_out eps s q = q.
  by move=> sq m0; rewrite PE // m0 mul0r /sub_const (eq_map (f2 := id)) ?map_id // => x; rewrite subr0.
have sq : size (project_out eps s p) = np s by rewrite PE // S.
split=> //.
- by rewrite /integral_p -meanE M.
- by exists (mean eps s p / mean eps s (ones s)) => i hi; rewrite PE // (nth_map 0) ?sp.
- by rewrite /integral_p -meanE; apply: U.
- by apply: U => //; apply: M.
Qed.
Theorem C46_constants c : (2 < order)%N -> oriented_elements K F -> project_out eps s (nseq (np s) c) = nseq (np s) 0.
Proof.
move=> o2 ori; have [gp [gv [rp [rv [quad cf]]]]] := created fam hs; have ok := facts_ok cf.
have t0 := total_gt0 fam cf o2 ori; have sc := size_nseq (np s) c.
rewrite (projectE eps sc (facts_pexchange cf)).
have -> : mean eps s (nseq (np s) c) = c * mean eps s (ones s) + mean eps s (nseq (np s) 0).
  apply: mean_lin => //; rewrite ?size_nseq // => i; rewrite !nth_nseq; case: ifP => _; by rewrite ?mulr1 ?mulr0 ?addr0.
have -> : mean eps s (nseq (np s) 0) = 0.
  have := @mean_lin _ _ eps _ ok (-1) (nseq (np s) 0) (nseq (np s) 0) (nseq (np s) 0).
  rewrite !size_nseq => -> // => [|i]; first by rewrite mulN1r addNr.
  by rewrite nth_nseq; case: ifP => _; rewrite mulr0 addr0.
rewrite addr0 mulfK ?gt_eqF // /sub_const; elim: (np s) => //= n ->; by rewrite subrr.
Qed.
(** With order 2 the projection divides zero by zero. *)
Theorem C46_order2_refuted p : order = 2%N -> integral_p p = 0 /\ integral_p (nseq (np s) 1) = 0.
Proof.
move=> o2; have [_ _ H] := C48_order2_refuted o2.
by split; rewrite /integral_p H big1 // => i _; rewrite nth_nseq; case: ifP.
Qed.

(** ** C58: the mass *)
Theorem C58_mass_positive c i : oriented_elements K F -> (c < d)%N -> (i < nv s)%N -> 0 < ent (s_mass s) c i.
Proof. move=> ori; have [gp [gv [rp [rv [quad cf]]]]] := created fam hs; exact: (facts_positive fam cf). Qed.
(** The diagonal applied by [B] is the whole (masked) mass matrix, assembled
    with the same quadrature. *)
Theorem C58_mass_assembled u v : vgood s u -> vgood s v ->
  (forall c i, (c < d)%N -> (i < nv s)%N -> dirichlet_node i -> ent v c i = 0) ->
  \sum_(c < d) \sum_(i < nv s) ent (B s u) c i * ent v c i =
  form_integral eps (v_space vel) (@vmass R d)
    [:: fun_of (v_space vel) KVector (Some (v_gather vel u)); fun_of (v_space vel) KVector (Some (v_gather vel v))].
Proof.
move=> gu gv vv; have [gp [gv' [rp [rv [quad cf]]]]] := created fam hs; have ok := facts_ok cf.
set fv := v_space vel.
pose funs := [:: fun_of fv KVector (Some (v_gather vel u)); fun_of fv KVector None].
have [b hb] : exists b, local_covector eps fv (@vmass R d) funs = inr b.
  have [+ _] := @C40_placeholder R d eps fv (@vmass R d) funs; case=> //=; first by rewrite !eqxx.
  by move=> b [-> _]; exists b.
have X := C40_represents (v_gather vel v) hb (@vmass_lin R d 1 isT); rewrite -[RHS]X.
have := assembly_vector b (ok_v ok) gv; rewrite -/(v_scatter vel b) => /esym XX; apply: (etrans _ (esym XX)).
rewrite vinnerC /vinner; apply: eq_bigr => c _; apply: eq_bigr => i _.
have -> : ent (v_scatter vel b) c i = ent (s_mass s) c i * ent u c i.
  by rewrite -(mass_assembled cf gu) // /B_local /covector hb.
rewrite (ent_B ok _ gu) //; have [m0|->] := facts_binary cf (ltn_ord i); last by rewrite mul1r.
by rewrite (vv c i) // !mulr0.
Qed.

(** ** C49: the filter *)
(** The gridpoints of the velocity mesh; [u] is, component by component, given
    on element [e] by the polynomials [f]. *)
Notation gv := (m_grid (vm s)).
Definition given_by u (f : nat -> nat -> tpoly R) : Prop :=
  forall c e k, (c < d)%N -> (e < K)%N -> (k < order.+1 ^ d)%N -> ent u c (node_of (vm s) e k) = teval (f c e) (grid_point d gv k).
(** How often node [i] occurs in the elements. *)
Definition copies (i : nat) : R := \sum_(e < K) \sum_(k < order.+1 ^ d) (node_of (vm s) e k == i)%:R.

(** The filter mixes [u] with the average, over the elements of a node, of the
    polynomials of one degree less that agree with [u] at the Gauss-Lobatto
    points of one degree less. *)
Theorem C49_average alpha u (f g : nat -> nat -> tpoly R) low : vgood s u ->
  nodes1d_create R order GAUSS_LOBATTO_LEGENDRE = inr low ->
  (forall c e, (c < d)%N -> (e < K)%N -> tdeg d order.+1 (f c e) /\ tdeg d order (g c e)) ->
  given_by u f ->
  (forall c e k, (c < d)%N -> (e < K)%N -> (k < order ^ d)%N ->
     teval (g c e) (grid_point d low k) = teval (f c e) (grid_point d low k)) ->
  exists2 v, filter eps s alpha u = inr v & vgood s v /\
    forall c i, (c < d)%N -> (i < nv s)%N -> 0 < copies i /\
      ent v c i = (1 - alpha) * ent u c i +
        alpha * ((\sum_(e < K) \sum_(k < order.+1 ^ d) (node_of (vm s) e k == i)%:R * teval (g c e) (grid_point d gv k)) / copies i).
Proof.
move=> gu hl deg hf hg; have [gp [gv' [rp [rv [quad cf]]]]] := created fam hs; have ok := facts_ok cf.
have [_ _ eN gE] := feE (ltn0Sn _) (cf_gv cf) (cf_vm cf).
have eK : num_elements (vm s) = K := fe_num (ltn0Sn _) (cf_gv cf) (cf_rv cf) (cf_vm cf).
have o0 : (0 < order)%N := ltnW (cf_order cf).
have [_ _ sl _ _] := created_grid o0 hl; have [_ _ sv _ _] := created_grid (ltn0Sn _) (cf_gv cf).
have [low' hl' fE] := filterE fam cf alpha u; eexists; first exact: fE; split.
  exact: (good_filter fam cf gu fE).
move=> c i hc hi.
have N e k : (e < K)%N -> (k < order.+1 ^ d)%N -> (is_node (vm s) i e k : bool) = (node_of (vm s) e k == i) /\
    forall p, gather_comp (vm s) p e k = nth 0 p (node_of (vm s) e k).
  move=> he hk; have [x hx [e1 _]] := fe_index (ltn0Sn _) (cf_gv cf) (cf_rv cf) (cf_vm cf) he hk.
  have se := fe_rows (ltn0Sn _) (cf_gv cf) (cf_rv cf) (cf_vm cf) he.
  split=> [|p]; first by rewrite /is_node /node_of e1 eqz_nat.
  by rewrite /gather_comp /gather (nth_map 0) ?se // /node_of e1 /at_.
have cE : nth 0 (v_qqt vel) i = copies i.
  rewrite (cf_qqt cf) scatter_sum ?eK ?eN //; last exact: (ok_v ok).
  by apply: eq_bigr => e _; apply: eq_bigr => k _; rewrite mul1r (proj1 (N _ _ _ _)).
split; first by rewrite -cE; exact: (qqt_gt0 cf).
rewrite (ent_filter fam cf _ gu hl fE hc) (nth_smoothed cf) // cE; congr (_ + _ * _); rewrite mulrC; congr (_ / _).
rewrite scatter_sum ?eK ?eN //; last exact: (ok_v ok).
apply: eq_bigr => e _; apply: eq_bigr => k _; rewrite mulrC (proj1 (N _ _ _ _)) //; congr (_ * _).
rewrite /filter_local gE eN.
have -> : [seq gather_comp (vm s) (nth [::] u c) e k | k <- iota 0 (order.+1 ^ d)] = [seq teval (f c e) y | y <- cart (nseq d (nd_values gv'))].
  apply: (@eq_from_nth _ 0); first by rewrite !size_map size_iota size_cart_nseq sv.
  move=> j; rewrite size_map size_iota => hj; rewrite (nth_map 0%N) ?size_iota // nth_iota // add0n.
  rewrite (proj2 (N _ _ _ _)) // -[nth 0 _ _]/(ent u c (node_of (vm s) e j)) hf // gE (nth_map [::]) //.
  by rewrite size_cart_nseq sv.
have [df dg] := deg _ _ hc (ltn_ord e).
rewrite (filter_one_agree fam cf hl df dg) => [|j hj]; last exact: hg.
by rewrite /= (nth_map [::]) // size_cart_nseq sv.
Qed.
(** Polynomials of the lower degree are kept. *)
Theorem C49_keeps alpha u f : vgood s u -> (forall c e, (c < d)%N -> (e < K)%N -> tdeg d order (f c e)) -> given_by u f ->
  filter eps s alpha u = inr u.
Proof.
move=> gu deg hf; have [gp [gv' [rp [rv [quad cf]]]]] := created fam hs.
have [low hl] := low_grid cf.
have [||v -> [gf H]] := @C49_average alpha u f f low gu hl _ hf _ => //.
  by move=> c e hc he; split; [exact: (tdeg_le (leqnSn _) (deg c e hc he))|exact: deg].
congr inr; apply: (good_eq gf gu) => c i hc hi; have [c0 ->] := H c i hc hi.
have -> : \sum_(e < K) \sum_(k < order.+1 ^ d) (node_of (vm s) e k == i)%:R * teval (f c e) (grid_point d gv k) = ent u c i * copies i.
  rewrite /copies mulr_sumr; apply: eq_bigr => e _; rewrite mulr_sumr; apply: eq_bigr => k _; rewrite -hf //.
  by case: eqP => [->|_]; rewrite ?mulr0 ?mul0r // mulrC.
by rewrite mulfK ?gt_eqF //; ring.
Qed.
Theorem C49_constants alpha (a : nat -> R) : filter eps s alpha [seq nseq (nv s) (a c) | c <- iota 0 d] = inr [seq nseq (nv s) (a c) | c <- iota 0 d].
Proof.
have [gp [gv' [rp [rv [quad cf]]]]] := created fam hs.
have [_ _ _ gE] := feE (ltn0Sn _) (cf_gv cf) (cf_vm cf).
have gu : vgood s [seq nseq (nv s) (a c) | c <- iota 0 d].
  by apply: goodP; [rewrite size_map size_iota|move=> c hc; rewrite (nth_map 0%N) ?size_iota // size_nseq].
apply: (@C49_keeps alpha _ (fun c _ => [:: (a c, nseq d 1)])) => // [c e _ _|c e k hc he hk].
  have := @tone_deg R d order (ltnW (cf_order cf)); by rewrite /tdeg /=.
have [x hx [e1 _]] := fe_index (ltn0Sn _) (cf_gv cf) (cf_rv cf) (cf_vm cf) he hk.
rewrite /ent (nth_map 0%N) ?size_iota // nth_iota // add0n /node_of e1 /= nth_nseq.
rewrite -[size (FES_model.m_coords _)]/(nv s) in hx; rewrite hx /teval big_seq1 /= const_eval ?mulr1 // gE.
exact: (size_point (ltn0Sn _) (cf_gv cf) hk).
Qed.
Theorem C49_identity u : vgood s u -> filter eps s 0 u = inr u.
Proof.
move=> gu; have [gp [gv' [rp [rv [quad cf]]]]] := created fam hs.
have [low hl fE] := filterE fam cf 0 u; have gf := good_filter fam cf gu fE.
rewrite fE; congr inr; apply: (good_eq gf gu) => c i hc hi.
by rewrite (ent_filter fam cf _ gu hl fE hc) mul0r addr0 subr0 mul1r.
Qed.
Theorem C49_linear alpha a u v : vgood s u -> vgood s v ->
  exists u' v', [/\ filter eps s alpha u = inr u', filter eps s alpha v = inr v' &
    filter eps s alpha (tree_add (tree_scale a u) v) = inr (tree_add (tree_scale a u') v')].
Proof.
move=> gu gv; have [gp [gv' [rp [rv [quad cf]]]]] := created fam hs; have ok := facts_ok cf.
set w := tree_add _ _; have gw : vgood s w by apply: good_add => //; apply: good_scale.
have [low hl fu] := filterE fam cf alpha u; have [l1 _ fv] := filterE fam cf alpha v; have [l2 _ fw] := filterE fam cf alpha w.
have gfu := good_filter fam cf gu fu; have gfv := good_filter fam cf gv fv; have gfw := good_filter fam cf gw fw.
eexists; eexists; split; [exact: fu|exact: fv|rewrite fw; congr inr].
have gs := good_scale a gfu.
apply: (good_eq gfw (good_add gs gfv)) => c i hc hi.
rewrite (ent_add _ _ gs gfv) ent_scale.
rewrite (ent_filter fam cf i gw hl fw hc) (ent_filter fam cf i gu hl fu hc) (ent_filter fam cf i gv hl fv hc).
rewrite (nth_smoothed cf) // (nth_smoothed cf) // (nth_smoothed cf) //.
have -> : ent w c i = a * ent u c i + ent v c i by rewrite (ent_add _ _ (good_scale _ gu) gv) ent_scale.
have -> : nth 0 (scatter_comp (vm s) (filter_local eps (vm s) low (nth [::] w c))) i =
   a * nth 0 (scatter_comp (vm s) (filter_local eps (vm s) low (nth [::] u c))) i +
   nth 0 (scatter_comp (vm s) (filter_local eps (vm s) low (nth [::] v c))) i.
  rewrite -scatter_lin; last exact: (ok_v ok).
  congr nth; apply: scatter_ext => e k _ _; have [M [M' ME]] := filter_localE fam cf hl; rewrite !ME.
  have G j : gather_comp (vm s) (nth [::] w c) e j = a * gather_comp (vm s) (nth [::] u c) e j + gather_comp (vm s) (nth [::] v c) e j.
    apply: gather_lin => [||k']; rewrite ?(good_comp gu hc) ?(good_comp gv hc) ?(good_comp gw hc) //.
    by have := ent_add c k' (good_scale a gu) gv; rewrite ent_scale.
  by apply: matvec2_lin => j _; exact: G.
ring.
Qed.
End Theorems.

Print Assumptions C46_integral.
Print Assumptions C46_projection.
Print Assumptions C46_constants.
Print Assumptions C46_order2_refuted.
Print Assumptions C47_mask.
Print Assumptions C47_unknown.
Print Assumptions C47_set.
Print Assumptions C47_rows.
Print Assumptions C47_inverse_mass.
Print Assumptions C48_adjoint.
Print Assumptions C48_symmetric.
Print Assumptions C48_semidefinite.
Print Assumptions C48_order2_refuted.
Print Assumptions C49_average.
Print Assumptions C49_keeps.
Print Assumptions C49_constants.
Print Assumptions C49_identity.
Print Assumptions C49_linear.
Print Assumptions C58_mass_positive.
Print Assumptions C58_mass_assembled.
