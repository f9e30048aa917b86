(** C65: on generated cubes the pressure has no spurious modes, and every divergence
    that the boundary allows is the divergence of a conforming velocity. *)
From Coq Require List.
From mathcomp Require Import all_ssreflect all_algebra polyrcf zify ring.
From Verif Require Import PyDict_model PyDict_proofs GS_model Interp_model Interp_spec FES_model FES_proofs Premesh_model.
From Verif Require Import Refiner_model Refiner_spec UnitCube_model UnitCube_spec UnitCube_props UnitCube_refine UnitCube_links.
From Verif Require Import CG_model TimeCoef_model Stokes_model Stokes_spec Stokes_proofs Stokes_proofs2 Stokes_proofs3.
From Verif Require Import Stokes_create Stokes_create2 Stokes_create3 Stokes_proofs4 Stokes_create4 Stokes_solve Stokes_momentum Stokes_pressure Stokes_props Stokes_props2 Stokes_family Stokes_instance Stokes_props3 Stokes_props4 Stokes_cube Stokes_props5.
Set Implicit Arguments.
Unset Strict Implicit.
Unset Printing Implicit Defensive.
Import Order.TTheory GRing.Theory Num.Theory.
Local Open Scope ring_scope.

Lemma diff_eq (R : ringType) N (x y z : seq R) : size x = N -> size y = N -> size z = N -> (forall i, nth 0 z i = -1 * nth 0 y i + nth 0 x i) -> x = y <-> z = nseq N 0.
Proof.
move=> sx sy sz e; split=> [exy|z0].
  apply: (@eq_from_nth _ 0) => [|i _]; first by rewrite sz size_nseq.
  by rewrite e exy mulN1r addNr nth_nseq if_same.
apply: (@eq_from_nth _ 0) => [|i _]; first by rewrite sx sy.
have := esym (e i); rewrite z0 nth_nseq if_same mulN1r addrC => /eqP; by rewrite subr_eq0 => /eqP.
Qed.

Section General.
Variables (R : rcfType) (d : nat) (eps : R) (inv : 'M[R]_d -> 'M[R]_d) (L : eqType) (BCV : Type).
Notation rmesh := (Premesh_model.mesh [zmodType of 'rV[R]_d] L).
Variables (refined : nodes1d R -> ierror + rmesh) (K : nat) (F : nat -> 'I_d -> tpoly R).
Hypothesis fam : mesh_family refined K F.
Variables (o order overint : nat) (bcs : seq (L * (bctype * BCV))) (s : sem R d).
Hypothesis hs : sem_create eps inv refined o order bcs overint = inr s.
Hypotheses (o2 : (2 < order)%N) (ori : oriented_elements K F).
Notation np := (np s).

(** The divergences of conforming velocities are what is orthogonal to the unseen pressures. *)
Theorem C65_range g : size g = np ->
  (exists2 u, conforming s u & D eps s u = g) <-> forall z, unseen eps s z -> \sum_(i < np) nth 0 g i * nth 0 z i = 0.
Proof.
move=> sg; split=> [[u cu <-] z [_ uz]|orth]; first exact: uz.
have [gp [gv [rp [rv [quad cf]]]]] := created fam hs; have [ids he mc] := facts_consistent cf; have ok := facts_ok cf.
have comp z : size z = np -> Stokes_model.E eps s 1 1 z = nseq np 0 -> pinner np g z = 0.
  by move=> sz ez; apply: orth; exact: (kernel_unseen fam hs o2 ori ltr01 ltr01 sz ez).
have [dp [gm [n [_ sdp _ h]]]] := pressure_solve_any ok he (facts_binary cf) mc (facts_geometry fam cf o2) (facts_positive fam cf ori) ltr01 ltr01
  (b := g) (project := false) 0 0 sg (facts_pexchange cf) comp (fun h => ltac:(by [])).
have [_ e] := h erefl erefl.
by exists (tree_scale (1 / 1) (Bi s (Dt eps s dp))); first exact: (conforming_correction fam hs).
Qed.
(** Pressures with the same image under E differ by an unseen one. *)
Theorem C65_difference dt beta p q : 0 < dt -> 0 < beta -> size p = np -> size q = np ->
  Stokes_model.E eps s dt beta p = Stokes_model.E eps s dt beta q <-> unseen eps s [seq nth 0 p i - nth 0 q i | i <- iota 0 np].
Proof.
move=> dt0 b0 sp sq; have [gp [gv [rp [rv [quad cf]]]]] := created fam hs; have ok := facts_ok cf.
set z := [seq _ | i <- _]; have sz : size z = np by rewrite size_map size_iota.
have nz i : nth 0 z i = -1 * nth 0 q i + nth 0 p i.
  case: (ltnP i np) => hi; last by rewrite !nth_default ?sz ?sp ?sq // mulr0 addr0.
  by rewrite (nth_map 0%N) ?size_iota // nth_iota // add0n mulN1r addrC.
have el i := E_lin eps ok dt beta i sq sp sz nz.
apply: (iff_trans (diff_eq (size_E eps s dt beta p) (size_E eps s dt beta q) (size_E eps s dt beta z) el)).
by split; [exact: (kernel_unseen fam hs o2 ori dt0 b0 sz)|exact: (unseen_kernel fam hs o2 ori dt0 b0)].
Qed.
End General.

Section Cube.
Variables (R : rcfType) (d : nat) (eps : R) (inv : 'M[R]_d -> 'M[R]_d) (L : eqType) (BCV : Type).
Variables (lbl : L) (n : nat) (a b : R) (pd : seq nat) (pm : premesh [lmodType R of 'rV[R]_d] L).
Hypotheses (d0 : (0 < d)%N) (n0 : (0 < n)%N) (ab : a < b).
Hypothesis gen : unit_cube_mesh d lbl n a b pd None = inr pm.
Variables (pg : nodes1d R) (tp : node_type).
Hypotheses (hpg : nodes1d_create R 2 tp = inr pg) (cpg : is_continuous pg).
Variables (order overint : nat) (bcs : seq (L * (bctype * BCV))) (s : sem R d).
Hypothesis hs : sem_create eps inv (refined_mesh pg pm) 1 order bcs overint = inr s.
Hypothesis inv_ok : forall J : 'M[R]_d, J \in unitmx -> inv J = invmx J.
Hypothesis o2 : (2 < order)%N.
Notation np := (np s).
Let fam := (C61_family d0 n0 ab gen hpg cpg).1.
Let ori := (C61_family d0 n0 ab gen hpg cpg).2.
(** Nothing can leave the cube. *)
Definition closed_cube : Prop := walls_fixed lbl bcs \/ forall axis, (axis < d)%N -> axis \in pd.

(** The pressures no conforming velocity sees are the constants if nothing can leave
    the cube, and 0 otherwise. *)
Theorem C65_kernel z : unseen eps s z <-> exists2 x, z = nseq np x & closed_cube \/ x = 0.
Proof.
have [gp [gv [rp [rv [quad [M [pm' [cf hM run rvE]]]]]]]] := cube_made d0 n0 ab gen hpg cpg hs.
exact: (cube_kernel d0 n0 ab gen hpg cpg cf hM run rvE inv_ok o2 z).
Qed.
(** Conforming velocities have all divergences, with sum zero if nothing can leave. *)
Theorem C65_onto g : size g = np ->
  (exists2 u, conforming s u & D eps s u = g) <-> (closed_cube -> \sum_(i < np) nth 0 g i = 0).
Proof.
move=> sg; apply: (iff_trans (C65_range fam hs o2 ori sg)); split=> [orth cl|sum0 z /C65_kernel[x -> h]].
  have := orth (nseq np 1) ((C65_kernel _).2 (ex_intro2 _ _ 1 erefl (or_introl cl))).
  by under eq_bigr do rewrite nth_nseq ltn_ord mulr1.
under eq_bigr do rewrite nth_nseq ltn_ord; rewrite -mulr_suml.
by case: h => [/sum0->|->]; rewrite ?mul0r ?mulr0.
Qed.
(** The pressure equation has one solution, up to constants if nothing can leave. *)
Theorem C65_unique dt beta p q : 0 < dt -> 0 < beta -> size p = np -> size q = np ->
  Stokes_model.E eps s dt beta p = Stokes_model.E eps s dt beta q <->
  exists2 x, forall i, (i < np)%N -> nth 0 p i = nth 0 q i + x & closed_cube \/ x = 0.
Proof.
move=> dt0 b0 sp sq; apply: (iff_trans (C65_difference fam hs o2 ori dt0 b0 sp sq)).
apply: (iff_trans (C65_kernel _)); split=> -[x e h]; exists x => //.
  move=> i hi; have := congr1 (fun w => nth 0 w i) e; rewrite nth_nseq hi (nth_map 0%N) ?size_iota // nth_iota // add0n => <-.
  by rewrite addrC subrK.
apply: (@eq_from_nth _ 0) => [|i]; first by rewrite size_map size_iota size_nseq.
rewrite size_map size_iota => hi; rewrite nth_nseq hi (nth_map 0%N) ?size_iota // nth_iota // add0n e //.
by rewrite addrC addKr.
Qed.

(** ** Steps with a lift *)
Variables (us : seq (seq (seq R))) (ps : seq (seq R)) (f : seq (seq R)) (mu dt : R) (k : nat) (alpha : R) (project : bool) (ub ub2 : seq (seq R)).
Hypotheses (dt0 : 0 < dt) (mu0 : 0 <= mu) (k0 : (0 < k)%N).
Hypothesis us_good : forall j, (j < size us)%N -> vgood s (nth [::] us j).
Hypothesis ps_good : forall j, (j < size ps)%N -> size (nth [::] ps j) = np.
Hypothesis ps_two : (1 < size ps)%N.
Hypothesis f_good : vgood s f.
Hypothesis f_zero : forall c i, (c < d)%N -> (i < nv s)%N -> dirichlet_node s i -> ent f c i = 0.
Hypothesis projected : project -> closed_cube.
Hypotheses (ub_good : vgood s ub) (ub_filtered : filter eps s alpha ub = inr ub2).
(** As much of the filtered lift flows in as out. *)
Hypothesis balanced : closed_cube -> \sum_(i < np) nth 0 (D eps s ub2) i = 0.
Let proj : project -> enclosed eps s.
Proof. by move=> /projected h; apply/(C64_enclosed d0 n0 ab gen hpg cpg hs inv_ok o2). Qed.
Let bal u2 z : filter eps s alpha ub = inr u2 -> unseen eps s z -> \sum_(i < np) nth 0 (D eps s u2) i * nth 0 z i = 0.
Proof.
rewrite ub_filtered => -[<-] /C65_kernel[x -> h]; under eq_bigr do rewrite nth_nseq ltn_ord; rewrite -mulr_suml.
by case: h => [/balanced->|->]; rewrite ?mul0r ?mulr0.
Qed.
Let keeps := @C64_filter R d eps inv L BCV lbl n a b pd pm d0 n0 ab gen pg tp hpg cpg order overint bcs s hs alpha.

Theorem C65_lift_ends tol atol : exists u p, stokes_one_step eps (cg_solver tol atol) s us ps f mu dt k alpha (Some ub) None project = inr (u, p).
Proof.
exact: (@C59_ends R d eps inv L BCV _ _ _ fam _ order overint bcs s hs tol atol us ps f mu dt k alpha (Some ub) project o2 ori
  dt0 mu0 k0 us_good ps_two f_good f_zero keeps ub_good bal proj).
Qed.
Theorem C65_lift_exact : size us = k -> exists u p,
  [/\ stokes_one_step eps (cg_solver 0 0) s us ps f mu dt k alpha (Some ub) None project = inr (u, p),
      D eps s u = nseq np 0,
      exists2 v, conforming s v & forall c i, (c < d)%N -> (i < nv s)%N -> ent u c i = ent v c i + ent ub2 c i &
      exists bdf p_ext u1, [/\ vgood s u1, corrected eps s ps dt k alpha bdf p_ext u1 u p &
        momentum_of eps s us f mu dt k bdf p_ext u1 (v_exchange (s_velocity s))]].
Proof.
move=> su; have [u [p h]] := C65_lift_ends 0 0.
have [gu hD hv hm] := @C59_exact R d eps inv L BCV _ _ _ fam _ order overint bcs s hs 0 0 us ps f mu dt k alpha (Some ub) project o2 ori
  dt0 mu0 k0 us_good ps_good f_good f_zero keeps ub_good bal proj u p erefl erefl h.
by exists u, p; split=> //; [move: hv; rewrite ub_filtered|exact: hm].
Qed.
End Cube.

(** ** Examples *)
(** Order 3 on 3 x 3 elements: a channel with fixed walls, periodic along [x]. *)
Example ex_channel (R : rcfType) (eps : R) : exists pm : premesh [lmodType R of 'rV[R]_2] bool, exists s : sem R 2,
  [/\ unit_cube_mesh 2 true 3 (0 : R) 1 [:: 0%N] None = inr pm,
      sem_create eps invmx (refined_mesh (ex_pg R) pm) 1 3 [:: (true, (DIRICHLET, tt))] 2 = inr s,
      forall z, unseen eps s z <-> exists x, z = nseq (np s) x &
      forall g, size g = np s -> \sum_(i < np s) nth 0 g i = 0 -> exists2 u, conforming s u & D eps s u = g].
Proof.
have [pm [s [gen _ fam ori hs]]] := ex_square eps; exists pm, s.
have cl : closed_cube 2 true [:: 0%N] [:: (true, (DIRICHLET, tt))] by left; exists tt; left.
split=> //.
  move=> z; apply: (iff_trans (@C65_kernel R 2 eps invmx _ _ _ _ _ _ _ _ (isT : (0 < 2)%N) (isT : (0 < 3)%N) ltr01 gen _ _ (ex_pg_created R) (ex_pg_continuous R)
    _ _ _ _ hs (fun _ _ => erefl) isT z)).
  by split=> -[x e]; exists x => //; left.
move=> g sg g0; apply/(@C65_onto R 2 eps invmx _ _ _ _ _ _ _ _ (isT : (0 < 2)%N) (isT : (0 < 3)%N) ltr01 gen _ _ (ex_pg_created R) (ex_pg_continuous R)
    _ _ _ _ hs (fun _ _ => erefl) isT) => //.
Qed.
(** With outflow through the walls, any lift has a step. *)
Example ex_lifted (R : rcfType) (eps mu alpha : R) : 0 <= mu -> exists pm : premesh [lmodType R of 'rV[R]_2] bool, exists s : sem R 2,
  [/\ unit_cube_mesh 2 true 3 (0 : R) 1 [:: 0%N] None = inr pm,
      sem_create eps invmx (refined_mesh (ex_pg R) pm) 1 3 [:: (true, (NEUMANN, tt))] 2 = inr s &
  forall u0 ub p0 p1, vgood s u0 -> vgood s ub -> size p0 = np s -> size p1 = np s -> exists u p,
    stokes_one_step eps (cg_solver 0 0) s [:: u0] [:: p0; p1] (nseq 2 (nseq (nv s) 0)) mu 1 1 alpha (Some ub) None false = inr (u, p) /\
    D eps s u = nseq (np s) 0].
Proof.
move=> mu0; case gen : (unit_cube_mesh 2 true 3 (0 : R) 1 [:: 0%N] None) => [e|pm] //.
have [_ H] := C61_creates eps invmx (isT : (0 < 2)%N) (isT : (0 < 3)%N) gen (ex_pg_created R) (ex_pg_continuous R) (order := 3) 2
  [:: (true, (NEUMANN, tt))] isT (fun h => ltac:(by case: h)).
have [g v|s hs] := H; first by case.
exists pm, s; split=> // u0 ub p0 p1 g0 gb s0 s1.
have ncl : ~ closed_cube 2 true [:: 0%N] [:: (true, (NEUMANN, tt))] by case=> [[v [|[]]]|/(_ 1%N isT)].
have g : vgood s (nseq 2 (nseq (nv s) 0)) by apply: goodP => [|c hc]; rewrite ?nth_nseq ?hc size_nseq.
have z c i : (c < 2)%N -> (i < nv s)%N -> dirichlet_node s i -> ent (nseq 2 (nseq (nv s) (0 : R))) c i = 0.
  by move=> hc hi _; rewrite /ent nth_nseq hc nth_nseq hi.
have [fam _] := C61_family (isT : (0 < 2)%N) (isT : (0 < 3)%N) ltr01 gen (ex_pg_created R) (ex_pg_continuous R).
have [gp [gv [rp [rv [quad cf]]]]] := created fam hs; have [low _ fE] := filterE fam cf alpha ub.
have [||||u [p [h1 h2 _ _]]] := @C65_lift_exact R 2 eps invmx _ _ _ _ _ _ _ _ (isT : (0 < 2)%N) (isT : (0 < 3)%N) ltr01 gen _ _ (ex_pg_created R) (ex_pg_continuous R)
  _ _ _ _ hs (fun _ _ => erefl) isT [:: u0] [:: p0; p1] _ mu 1 1 alpha false ub _ ltr01 mu0 isT _ _ isT g z _ gb fE _ erefl.
- by case=> // j; rewrite /= ltnS ltn0.
- by case=> [|[|j]] //.
- by [].
- by move=> /ncl.
by exists u, p.
Qed.

Print Assumptions C65_range.
Print Assumptions C65_difference.
Print Assumptions C65_kernel.
Print Assumptions C65_onto.
Print Assumptions C65_unique.
Print Assumptions C65_lift_ends.
Print Assumptions C65_lift_exact.
