(** C74, continued: affine flows on general meshes. *)
From Coq Require List.
From mathcomp Require Import all_ssreflect all_algebra polyrcf zify ring.
From Verif Require Import PyDict_model PyDict_proofs GS_model GS_proofs GS_props Interp_model Interp_spec.
From Verif Require Import Lagrange_proofs Interp_proofs Gauss_proofs2 Interp_proofs2 Tensor_proofs Interp_props FES_model FES_proofs FES_proofs2 FES_props FES_props2 Premesh_model.
From Verif Require Import Refiner_model Refiner_spec UnitCube_model UnitCube_spec UnitCube_proofs UnitCube_proofs2 UnitCube_proofs3 UnitCube_props UnitCube_refine UnitCube_links.
From Verif Require Import CG_model CG_proofs CG_props CG_props2 CG_props3 TimeCoef_model TimeCoef_props Stokes_model Stokes_spec Stokes_proofs Stokes_proofs2 Stokes_proofs3.
From Verif Require Import Stokes_create Stokes_create2 Stokes_create3 Stokes_proofs4 Stokes_create4 Stokes_solve Stokes_momentum Stokes_pressure Stokes_props Stokes_props2 Stokes_family Stokes_instance Stokes_cube Unisolvent_proofs UnitCube_props Stokes_props3 Stokes_props4 Stokes_props5 Stokes_props6 Flow_props.
From Verif Require Import Steady_props.
Set Implicit Arguments.
Unset Strict Implicit.
Unset Printing Implicit Defensive.
Import Order.TTheory GRing.Theory Num.Theory.
Local Open Scope ring_scope.

Section Affine.
Variables (R : rcfType) (d : nat) (eps : R) (inv : 'M[R]_d -> 'M[R]_d) (L : eqType) (BCV : Type).
Hypothesis inv_ok : forall J : 'M[R]_d, J \in unitmx -> inv J = invmx J.
Notation rmesh := (Premesh_model.mesh [zmodType of 'rV[R]_d] L).
Variables (refined : nodes1d R -> ierror + rmesh) (K : nat) (F : nat -> 'I_d -> tpoly R).
Hypothesis fam : mesh_family refined K F.
Hypothesis ori : oriented_elements K F.
Variables (o order overint : nat) (bcs : seq (L * (bctype * BCV))) (s : sem R d).
Hypothesis hs : sem_create eps inv refined o order bcs overint = inr s.
Notation vel := (s_velocity s).
Notation D := (@D R d eps s).
Notation A := (@A R d eps s).
Notation np := (np s).
Notation nv := (nv s).
Notation vfield := (seq (seq R)).
Notation conforming := (conforming s).
Hypothesis o2 : (2 < order)%N.
Implicit Types (U v w : vfield) (a : nat -> R) (S : nat -> 'rV[R]_d).

(** A velocity that is affine in space, a + S x at the node at [x]. *)
Definition affine a S U : Prop := vgood s U /\
  forall c i, (c < d)%N -> (i < nv)%N -> ent U c i = a c + \sum_j S c 0 j * node_at s i 0 j.

Section Facts.
Variables (gp gv' : nodes1d R) (rp rv : rmesh) (quad : quadrature1d R).
Hypothesis cf : created_facts eps inv K F order bcs s gp gv' rp rv quad.
Let ok := facts_ok cf.
Let nt : (1 < order.+1)%N. Proof. by have := cf_order cf; lia. Qed.
Let eK : num_elements (vm s) = K := fe_num (ltn0Sn _) (cf_gv cf) (cf_rv cf) (cf_vm cf).

Lemma affine_node c e n a S U : affine a S U -> (c < d)%N -> (e < K)%N -> (n < order.+1 ^ d)%N ->
  comp (v_gather vel U) e c n = a c + \sum_j S c 0 j * (FES_model.element_coords (vm s) e n) 0 j.
Proof.
move=> [gU hU] hc he hn.
have [xn _ N] := node_facts cf he hn; rewrite /comp /= N -[nth 0 _ _]/(ent U c (node_of (vm s) e n)) hU //.
congr (_ + _); apply: eq_bigr => l _; congr (_ * _).
have [x hx [e1 _]] := fe_index (ltn0Sn _) (cf_gv cf) (cf_rv cf) (cf_vm cf) he hn.
have se := fe_rows (ltn0Sn _) (cf_gv cf) (cf_rv cf) (cf_vm cf) he.
by rewrite /FES_model.element_coords /gather (nth_map 0) ?se // /node_at /node_of e1 /at_.
Qed.
Lemma affine_grad a S U c (j : 'I_d) e k : affine a S U -> (c < d)%N -> (e < K)%N -> (k < order.+1 ^ d)%N ->
    nth 0 (phys_grad (v_space vel) e (comp (v_gather vel U) e c) k) j = S c 0 j.
Proof.
move=> aU hc he hk; have J0 : fs_jacdets (v_space vel) e k != 0.
  by rewrite (point_jac fam cf nt (cf_quad cf) (cf_vs cf)) // gt_eqF ?(point_det ori nt (cf_quad cf)).
have d0 : (0 < d)%N := mf_dim fam.
have st : standard eps inv (vm s) quad (v_space vel) order.+1 GAUSS_LOBATTO_LEGENDRE.
  split=> //; [exact: (cf_vs cf)|exact: (cf_quad cf)|].
  have [_ _ _ gE] := feE (ltn0Sn _) (cf_gv cf) (cf_vm cf).
  by exists order.+1, GAUSS_LOBATTO_LEGENDRE; rewrite gE; split=> //; exact: (cf_gv cf).
have := C39_affine inv_ok (a c) (S c) st hk J0; set w := (fun n => _) => H.
rewrite (@phys_grad_ext _ _ _ _ _ w); first by rewrite H (nth_map j) ?size_enum_ord // nth_ord_enum.
have [_ _ eN _] := feE (ltn0Sn _) (cf_gv cf) (cf_vm cf); rewrite -/(vm s) eN => n hn.
exact: affine_node.
Qed.

(** Weights of the quadrature points, and gradients there. *)
Let J e q : R := fs_jacdets (v_space vel) e q * nth 0 (getr (weights_nd (fs_quad (v_space vel)) d)) q.
Let gr w c j e q : R := nth 0 (phys_grad (v_space vel) e (comp (v_gather vel w) e c) q) j.
Lemma stiff_sum U w : vgood s U -> conforming w ->
  vpair s (A U) w = \sum_(e < K) \sum_(q < order.+1 ^ d) (\sum_(j < d) \sum_(c < d) gr U c j e q * gr w c j e q) * J e q.
Proof.
move=> gU [gw vw _]; have [ids he mc] := facts_consistent cf; have mb := facts_binary cf.
have [vmE vq vnq] := fs_basic (ltn0Sn _) (cf_quad cf) (cf_vs cf).
rewrite vpairC [LHS](masked_inner ok mb gw (good_vscatter _ _) vw) vinnerC (stiffness_form eps ok gU gw).
rewrite /form_integral /integrate vnq vmE eK sumlE; apply: eq_bigr => e _; rewrite sumlE; apply: eq_bigr => q _.
rewrite -mulrA -/(J e q); congr (_ * _); rewrite /vstiff sumlE; apply: eq_bigr => j _; rewrite sumlE; apply: eq_bigr => c _.
by rewrite /arg [nth _ _ 0]/= [nth _ _ 1]/= !vgrad_nodal.
Qed.
Lemma div_sum v p : vgood s v -> size p = np ->
  ppair s (D v) p = \sum_(e < K) \sum_(q < order.+1 ^ d) ((\sum_(j < d) gr v j j e q) *
     at_quad eps (Stokes_proofs2.pm s) (qd_nodes quad) (comp (p_gather (s_pressure s) p) e 0) q) * J e q.
Proof.
move=> gv sp; have sg := facts_geometry fam cf o2.
have [vmE vq vnq] := fs_basic (ltn0Sn _) (cf_quad cf) (cf_vs cf).
have [pmE pq pnq] := fs_basic (ltn0Sn _) (cf_quad cf) (cf_ps cf).
apply: (etrans (divergence_form eps ok sg gv sp)); rewrite forms_agree //.
rewrite /form_integral /integrate vnq vmE eK sumlE; apply: eq_bigr => e _; rewrite sumlE; apply: eq_bigr => q _.
rewrite -mulrA -/(J e q); congr (_ * _); rewrite /divq sumlE /arg [nth _ _ 0]/= [nth _ _ 1]/=; congr (_ * _).
  by apply: eq_bigr => j _; rewrite vgrad_nodal.
by rewrite /vval /= /evalpoints pmE pq.
Qed.
(** The integral of a derivative of a component of a conforming velocity. *)
Lemma grad_total w c (j : 'I_d) : enclosed eps s -> conforming w -> (c < d)%N ->
  \sum_(e < K) \sum_(q < order.+1 ^ d) gr w c j e q * J e q = 0.
Proof.
move=> [_ en] cw hc; have [ids he mc] := facts_consistent cf.
have [gw vw aw] := proj1 (conformingP he _) cw.
pose v := [seq (if b == j :> nat then nth [::] w c else nseq nv 0) | b <- iota 0 d].
have gv : vgood s v.
  by apply: goodP; [rewrite size_map size_iota|move=> b hb; rewrite (nth_map 0%N) ?size_iota // nth_iota // add0n; case: ifP => _; rewrite ?size_nseq ?(good_comp gw hc)].
have ev b i : (b < d)%N -> (i < nv)%N -> ent v b i = if b == j :> nat then ent w c i else 0.
  by move=> hb hi; rewrite /ent (nth_map 0%N) ?size_iota // nth_iota // add0n; case: ifP => _ //; rewrite nth_nseq hi.
have cv : conforming v.
  apply/(conformingP he); split=> // [b i hb hi m0|b hb i l hi hl sh].
    by rewrite ev //; case: ifP => // _; exact: vw.
  have [si _] := he; have hi' : (i < nv)%N by rewrite -si.
  have hl' : (l < nv)%N by rewrite -si.
  by rewrite !ev //; case: ifP => // _; exact: aw.
have sp : size (nseq np (1 : R)) = np by rewrite size_nseq.
rewrite -[RHS](en v cv) [RHS](div_sum gv sp); apply: eq_bigr => e _; apply: eq_bigr => q _; congr (_ * _).
have op : (0 < order - 1)%N by rewrite subn_gt0 (cf_order cf).
rewrite (p_at_quad fam cf (f := tone R d)) //; last first.
- by move=> k hk; rewrite tone_eval; [exact: (gather_ones cf (ltn_ord e) hk)|exact: (size_point op (cf_gp cf) hk)].
- exact: tone_deg.
rewrite tone_eval; last exact: (proj1 (quad_points cf (ltn_ord q))).
have [_ _ eN _] := feE (ltn0Sn _) (cf_gv cf) (cf_vm cf).
rewrite mulr1 (bigD1 j) //= big1 ?addr0 => [|b nb].
  rewrite /gr; congr (nth 0 _ j); apply: phys_grad_ext; rewrite -/(vm s) eN => n hn.
  by have [xn _ N] := node_facts cf (ltn_ord e) hn; rewrite /comp /= !N -[nth 0 _ _ in RHS]/(ent v j _) ev // eqxx.
have -> : gr v b b e q = nth 0 (phys_grad (v_space vel) e (fun=> 0 * 0 + 0) q) b.
  rewrite /gr; congr (nth 0 _ b); apply: phys_grad_ext; rewrite -/(vm s) eN => n hn.
  have [xn _ N] := node_facts cf (ltn_ord e) hn; rewrite /comp /= N -[nth 0 _ _ in LHS]/(ent v b _) ev // mul0r addr0.
  by rewrite -[b == j :> nat]/(b == j) (negbTE nb).
have -> : phys_grad (v_space vel) e (fun=> 0 * 0 + 0) q = phys_grad (v_space vel) e (fun n => -1 * (fun=> 0) n + (fun=> 0) n) q.
  by apply: phys_grad_ext => n _; rewrite mul0r mulr0.
by rewrite phys_grad_linear mulN1r addNr.
Qed.
End Facts.

(** An affine flow without divergence has no discrete divergence, *)
Lemma affine_divergence a S U : affine a S U -> \sum_(j < d) S j 0 j = 0 -> D U = nseq np 0.
Proof.
move=> aU tr; have [gU _] := aU; have [gp [gv' [rp [rv [quad cf]]]]] := created fam hs.
apply: (@eq_from_nth _ 0); first by rewrite size_D size_nseq.
move=> i; rewrite size_D => hi; rewrite nth_nseq hi; pose p : seq R := [seq (l == i)%:R | l <- iota 0 np].
have sp : size p = np by rewrite size_map size_iota.
have np_ l : (l < np)%N -> nth 0 p l = (l == i)%:R by move=> hl; rewrite (nth_map 0%N) ?size_iota // nth_iota.
have := div_sum cf gU sp; rewrite /ppair (bigD1 (Ordinal hi)) //= np_ // eqxx mulr1 big1 ?addr0 => [->|l nl]; last first.
  by rewrite np_ // -[_ == i]/(l == Ordinal hi) (negbTE nl) mulr0.
rewrite big1 // => e _; rewrite big1 // => q _; rewrite [X in X * _](_ : _ = 0) ?mul0r ?mul0r //.
rewrite [X in X * _](_ : _ = 0) ?mul0r //; apply: (etrans _ tr); apply: eq_bigr => j _.
exact: (affine_grad cf j aU).
Qed.
(** no viscous force on conforming velocities, *)
Lemma affine_stiffness a S U w : enclosed eps s -> affine a S U -> conforming w -> vpair s (A U) w = 0.
Proof.
move=> en aU cw; have [gU _] := aU; have [gp [gv' [rp [rv [quad cf]]]]] := created fam hs.
rewrite (stiff_sum cf gU cw).
pose G c j e q := nth 0 (phys_grad (v_space vel) e (comp (v_gather vel w) e c) q) j.
pose J e q : R := fs_jacdets (v_space vel) e q * nth 0 (getr (weights_nd (fs_quad (v_space vel)) d)) q.
rewrite (eq_bigr (fun e : 'I_K => \sum_(j < d) \sum_(c < d) S c 0 j * \sum_(q < order.+1 ^ d) G c j e q * J e q)) => [|e _].
  rewrite exchange_big big1 //= => j _; rewrite exchange_big big1 //= => c _; rewrite -mulr_sumr.
  by rewrite [X in _ * X](grad_total cf j en cw (ltn_ord c)) mulr0.
rewrite (eq_bigr (fun q : 'I_(order.+1 ^ d) => \sum_(j < d) \sum_(c < d) S c 0 j * (G c j e q * J e q))) => [|q _].
  by rewrite exchange_big; apply: eq_bigr => j _; rewrite exchange_big; apply: eq_bigr => c _; rewrite mulr_sumr.
rewrite mulr_suml; apply: eq_bigr => j _; rewrite mulr_suml; apply: eq_bigr => c _; rewrite -mulrA; congr (_ * _).
exact: (affine_grad cf j aU).
Qed.
(** and the filter keeps it. *)
Lemma affine_filter alpha a S U : affine a S U -> filter eps s alpha U = inr U.
Proof.
move=> aU; have [gU _] := aU; have [gp [gv' [rp [rv [quad cf]]]]] := created fam hs.
have [_ _ eN gE] := feE (ltn0Sn _) (cf_gv cf) (cf_vm cf).
have h2 : (1 < order)%N by lia.
pose f c e : tpoly R := (a c, nseq d 1) :: flatten [seq tscale (S c 0 j) (F e j) | j <- enum 'I_d].
have fE c e x : size x = d -> teval (f c e) x = a c + \sum_j S c 0 j * teval (F e j) x.
  move=> sx; rewrite /teval big_cons /= const_eval // mulr1; congr (_ + _).
  rewrite big_flatten big_map big_enum /=; apply: eq_bigr => j _; exact: teval_scale.
apply: (C49_keeps fam hs alpha (f := f)) => // [c e hc he|c e k hc he hk].
  rewrite /f /tdeg /= -/(tdeg d order _) tdeg_flatten ?andbT.
    have := @tone_deg R d order (ltnW (cf_order cf)); by rewrite /tdeg /= andbT.
  apply/allP => _ /mapP[j _ ->]; apply: tdeg_scale; exact: (tdeg_le h2 (mf_multilinear fam j he)).
have := affine_node cf aU hc he hk; have [xn _ N] := node_facts cf he hk; rewrite /comp /= N /ent => ->.
rewrite fE ?gE; last exact: (size_point (ltn0Sn _) (cf_gv cf) hk).
congr (_ + _); apply: eq_bigr => j _; congr (_ * _).
have [_ _ sz _ _] := created_grid (ltn0Sn _) (cf_gv cf).
have := congr1 (nth 0 ^~ k) (fe_node_list (ltn0Sn _) (cf_gv cf) (cf_rv cf) (cf_vm cf) j he).
by rewrite /= /node_list eN (nth_map 0%N) ?size_iota // nth_iota // add0n (nth_map [::]) // size_cart_nseq sz.
Qed.

(** The patch test: with the boundary values of the flow as lift, and a constant
    pressure, one step keeps every affine flow without divergence, for every
    time step, viscosity and filter strength, and on every mesh that conforming
    velocities do not cross. *)
Theorem C74_affine a S U x (k m : nat) (mu dt alpha : R) (lift : option vfield) (project : bool) :
  enclosed eps s -> affine a S U -> \sum_(j < d) S j 0 j = 0 ->
  (exists2 V, conforming V & unlifted s lift U V) -> (if lift is Some ub then vgood s ub else True) ->
  0 < dt -> 0 <= mu -> (0 < k)%N -> (1 < m)%N ->
  stokes_one_step eps (cg_solver 0 0) s (nseq k U) (nseq m (nseq np x)) (nseq d (nseq nv 0)) mu dt k alpha lift None project
    = inr (U, nseq np x).
Proof.
move=> en aU tr bU gl dt0 mu0 k0 m1; have [gU _] := aU.
have z c i : (c < d)%N -> (i < nv)%N -> ent (nseq d (nseq nv (0 : R))) c i = 0.
  by move=> hc hi; rewrite /ent nth_nseq hc nth_nseq hi.
apply: (C74_steady fam hs project o2 ori dt0 mu0 k0 _ _ _ _ _ _ gl erefl erefl _ (affine_filter alpha aU)) => //.
- by move=> j; rewrite size_nseq nth_nseq => ->.
- by rewrite size_nseq.
- by move=> j; rewrite size_nseq nth_nseq => ->; rewrite size_nseq.
- by rewrite size_nseq.
- by apply: goodP => [|c hc]; rewrite ?nth_nseq ?hc size_nseq.
- by move=> c i hc hi _; exact: z.
split=> //; first by rewrite size_nseq.
  exact: (affine_divergence aU tr).
move=> w cw; rewrite (affine_stiffness en aU cw) mulr0 [X in X + _](_ : _ = 0) ?add0r.
  have [_ /(_ w cw) e] := en; rewrite -[LHS](mulr0 x) -[X in x * X]e /ppair mulr_sumr.
  by apply: eq_bigr => i _; rewrite !nth_nseq ltn_ord mulr1 mulrC.
by apply: big1 => c _; apply: big1 => i _; rewrite z // mul0r.
Qed.
End Affine.


(** On generated cubes with fixed walls, or without walls. *)
Section Cube.
Variables (R : rcfType) (d : nat) (eps : R) (inv : 'M[R]_d -> 'M[R]_d) (L : eqType) (BCV : Type).
Variables (lbl : L) (n : nat) (a b : R) (pd : seq nat) (pm : premesh [lmodType R of 'rV[R]_d] L).
Hypotheses (d0 : (0 < d)%N) (n0 : (0 < n)%N) (ab : a < b).
Hypothesis gen : unit_cube_mesh d lbl n a b pd None = inr pm.
Variables (pg : nodes1d R) (tp : node_type).
Hypotheses (hpg : nodes1d_create R 2 tp = inr pg) (cpg : is_continuous pg).
Variables (order overint : nat) (bcs : seq (L * (bctype * BCV))) (s : sem R d).
Hypothesis hs : sem_create eps inv (refined_mesh pg pm) 1 order bcs overint = inr s.
Hypothesis inv_ok : forall J : 'M[R]_d, J \in unitmx -> inv J = invmx J.
Hypothesis o2 : (2 < order)%N.
Notation np := (np s).
Notation nv := (nv s).
Notation m := order.+1.
Notation at_point c p := (nd n order s c p).
Notation position c p := (global m c p).
Notation closed := (closed_cube d lbl pd bcs).
Let fam := (C61_family d0 n0 ab gen hpg cpg).1.
Let ori := (C61_family d0 n0 ab gen hpg cpg).2.

(** A coordinate of a node depends on the position of the node along that axis. *)
Lemma node_coord : exists g : nat -> nat -> R, forall c p (j : 'I_d), c \in grid n d -> p \in grid m d ->
  node_at s (at_point c p) 0 j = g (nth 0%N c j) (nth 0%N p j).
Proof.
have [gp [gv [rp [rv [quad [M [pm' [cf hM run rvE]]]]]]]] := cube_made d0 n0 ab gen hpg cpg hs.
have m2 : (2 <= m)%N by lia.
have wok : weights_ok m (mat_entry M) := hat_weights hpg cpg m2 (cf_gv cf) (gll_continuous (cf_gv cf)) hM.
have sz : size (nd_values gv) = m by have [_ _ -> _ _] := created_grid (ltn0Sn _) (cf_gv cf).
have w1 i : (i < m)%N -> mat_entry M i 0%N + mat_entry M i 1%N = 1.
  have [M' hM' ME] := end_matrix hpg cpg (ltac:(by rewrite sz) : (0 < size (nd_values gv))%N).
  by move: hM'; rewrite hM => -[->] il; rewrite !ME ?sz // hat_sum.
exists (fun c p => a + (c%:R + mat_entry M p 1%N) * ((b - a) / n%:R)) => c p j cg pg'.
have := cube_refined_coordinates gen m2 wok w1 run cg pg'; have [-> _] := slotE cf rvE cg pg'.
have [cE _ _ _] := feE (ltn0Sn _) (cf_gv cf) (cf_vm cf).
have -> : node_at s (at_point c p) = at_ (pm_coords pm') (Posz (at_point c p)) by rewrite /node_at cE rvE.
by move=> ->; rewrite mxE.
Qed.
Lemma coord_position c p c' p' (j : 'I_d) : c \in grid n d -> p \in grid m d -> c' \in grid n d -> p' \in grid m d ->
  nth 0%N (position c p) j = nth 0%N (position c' p') j -> node_at s (at_point c p) 0 j = node_at s (at_point c' p') 0 j.
Proof.
move=> cg pg1 cg' pg2 e; have [g gE] := node_coord.
pose mix (x y : seq nat) := [seq if l == j :> nat then nth 0%N y l else nth 0%N x l | l <- iota 0 d].
have mixg N (x y : seq nat) : x \in grid N d -> y \in grid N d -> mix x y \in grid N d.
  rewrite !mem_grid => /andP[/eqP sx /allP hx] /andP[/eqP sy /allP hy]; rewrite size_map size_iota eqxx /=.
  apply/allP => _ /mapP[l + ->]; rewrite mem_iota add0n => /andP[_ hl].
  by case: ifP => _; [apply: hy|apply: hx]; rewrite mem_nth // ?sx ?sy.
have nmix x y l : (l < d)%N -> nth 0%N (mix x y) l = if l == j :> nat then nth 0%N y l else nth 0%N x l.
  by move=> hl; rewrite (nth_map 0%N) ?size_iota // nth_iota.
have c2 := mixg _ _ _ cg cg'; have p2 := mixg _ _ _ pg1 pg2.
have [_ [_ h] _] := C64_nodes d0 n0 ab gen hpg cpg hs cg pg1 c2 p2.
rewrite h; first by rewrite !gE // !nmix // eqxx.
have s1 : size (position c p) = d by rewrite size_map size_zip (size_grid_in cg) (size_grid_in pg1) minnn.
have s2 : size (position (mix c c') (mix p p')) = d by rewrite size_map size_zip !size_map size_iota minnn.
apply: (@eq_from_nth _ 0%N) => [|l]; first by rewrite s1 s2.
rewrite s1 => hl; rewrite (nth_global cg pg1 hl) (nth_global c2 p2 hl) !nmix //; case: ifP => // /eqP lj.
by rewrite -(nth_global cg' pg2 hl) -(nth_global cg pg1 hl) lj.
Qed.

(** Flows past the walls: an affine flow that does not vary along the periodic
    axes, with its values on the walls as boundary values (the lift is zero on
    the other nodes), is kept by a step.  Couette flow is an example. *)
Theorem C74_walls a0 S U ub x (k l : nat) (mu dt alpha : R) (project : bool) : closed ->
  affine s a0 S U -> \sum_(j < d) S j 0 j = 0 -> (forall c (j : 'I_d), (c < d)%N -> nat_of_ord j \in pd -> S c 0 j = 0) ->
  vgood s ub -> (forall c i, (c < d)%N -> (i < nv)%N ->
    (dirichlet_node s i -> ent ub c i = ent U c i) /\ (~ dirichlet_node s i -> ent ub c i = 0)) ->
  0 < dt -> 0 <= mu -> (0 < k)%N -> (1 < l)%N ->
  stokes_one_step eps (cg_solver 0 0) s (nseq k U) (nseq l (nseq np x)) (nseq d (nseq nv 0)) mu dt k alpha (Some ub) None project
    = inr (U, nseq np x).
Proof.
move=> cl aU tr Sp gub hub dt0 mu0 k0 l1; have [gU eU] := aU.
apply: (C74_affine inv_ok fam ori hs o2 x alpha project _ aU tr) => //.
  by apply/(C64_enclosed d0 n0 ab gen hpg cpg hs inv_ok o2).
have gV : vgood s (tree_sub U ub) := good_sub gU gub.
exists (tree_sub U ub); last by split=> // c i hc hi; rewrite (ent_sub _ _ gU gub).
have eV c i : ent (tree_sub U ub) c i = ent U c i - ent ub c i by rewrite (ent_sub _ _ gU gub).
apply/(C64_conforming d0 n0 ab gen hpg cpg hs); split=> // [c cc p hc cg pg1 fx wl|c c1 p1 c2 p2 hc cg1 pg1 cg2 pg2 wE].
  have [hn _ [_ dn]] := C64_nodes d0 n0 ab gen hpg cpg hs cg pg1 cg pg1.
  by have [h _] := hub c _ hc hn; rewrite eV h ?subrr //; exact: dn.
have [h1 _ d1] := C64_nodes d0 n0 ab gen hpg cpg hs cg1 pg1 cg1 pg1.
have [h2 _ d2] := C64_nodes d0 n0 ab gen hpg cpg hs cg2 pg2 cg2 pg2.
have wn j : (j < d)%N -> j \notin pd -> nth 0%N (position c1 p1) j = nth 0%N (position c2 p2) j.
  by move=> jd jp; have := congr1 (nth 0%N ^~ j) wE; rewrite /= !nth_wrap // (negbTE jp).
have UU : ent U c (at_point c1 p1) = ent U c (at_point c2 p2).
  rewrite !eU //; congr (_ + _); apply: eq_bigr => j _.
  case jp : (nat_of_ord j \in pd); first by rewrite Sp // !mul0r.
  by congr (_ * _); apply: coord_position => //; apply: wn => //; rewrite jp.
have ww : on_wall d n pd order (position c1 p1) <-> on_wall d n pd order (position c2 p2).
  by split=> -[ax [al ap h]]; exists ax; split=> //; [rewrite -wn|rewrite wn].
have [[i1 o1] [i2 o2']] := (hub c _ hc h1, hub c _ hc h2); rewrite !eV UU; congr (_ - _).
have [->|ne] := eqVneq (ent ub c (at_point c1 p1)) (ent ub c (at_point c2 p2)); first by [].
exfalso; have dec (g : seq nat) : on_wall d n pd order g \/ ~ on_wall d n pd order g.
  have [/hasP[ax]|/hasPn H] := boolP (has (fun ax => (ax \notin pd) && ((nth 0%N g ax == 0%N) || (nth 0%N g ax == n * m.-1)%N)) (iota 0 d)).
    rewrite mem_iota add0n => /andP[_ ad] /andP[ap h]; left; exists ax; split=> //.
    by case/orP: h => /eqP; [left|right].
  right=> -[ax [al ap h]]; have := H ax; rewrite mem_iota add0n al => /(_ isT); rewrite ap /= => /negP; apply.
  by apply/orP; case: h => ->; [left|right].
case: (dec (position c1 p1)) => [w1|nw1].
  have w2 := proj1 ww w1.
  move/eqP: ne; apply.
  case: cl => [fx|all_p]; last by have [ax [al /negP[]]] := w1; exact: all_p.
  by rewrite i1 ?i2 ?UU //; [apply: (proj2 d2)|apply: (proj2 d1)].
move/eqP: ne; apply; rewrite o1 ?o2' // => dn; first by have [_ /(proj2 ww)] := proj1 d2 dn.
by have [_] := proj1 d1 dn.
Qed.
(** Without walls, uniform flows, without boundary values. *)
Theorem C74_uniform (v : nat -> R) x (k l : nat) (mu dt alpha : R) (project : bool) : (forall axis, (axis < d)%N -> axis \in pd) ->
  0 < dt -> 0 <= mu -> (0 < k)%N -> (1 < l)%N ->
  let U := [seq nseq nv (v c) | c <- iota 0 d] in
  stokes_one_step eps (cg_solver 0 0) s (nseq k U) (nseq l (nseq np x)) (nseq d (nseq nv 0)) mu dt k alpha None None project
    = inr (U, nseq np x).
Proof.
move=> per dt0 mu0 k0 l1 U; have gU : vgood s U.
  by apply: goodP; [rewrite size_map size_iota|move=> c hc; rewrite (nth_map 0%N) ?size_iota // size_nseq].
have eU c i : (c < d)%N -> (i < nv)%N -> ent U c i = v c.
  by move=> hc hi; rewrite /ent (nth_map 0%N) ?size_iota // nth_iota // add0n nth_nseq hi.
have aU : affine s v (fun=> 0) U.
  by split=> // c i hc hi; rewrite eU // big1 ?addr0 // => j _; rewrite mxE mul0r.
apply: (C74_affine inv_ok fam ori hs o2 x alpha project _ aU) => //.
- by apply/(C64_enclosed d0 n0 ab gen hpg cpg hs inv_ok o2); right.
- by rewrite big1 // => j _; rewrite mxE.
exists U; last by split=> // c i hc hi; rewrite subr0.
apply/(C64_conforming d0 n0 ab gen hpg cpg hs); split=> // [c cc p hc cg pg1 fx|c c1 p1 c2 p2 hc cg1 pg1 cg2 pg2 wE].
  by case=> ax [al /negP[]]; exact: per.
have [h1 _ _] := C64_nodes d0 n0 ab gen hpg cpg hs cg1 pg1 cg1 pg1.
have [h2 _ _] := C64_nodes d0 n0 ab gen hpg cpg hs cg2 pg2 cg2 pg2.
by rewrite !eU.
Qed.
End Cube.

(** ** Example *)
(** Couette flow (y, 0) on the square that is periodic in the first direction and
    has fixed walls in the second, with the second-order scheme. *)
Example ex_couette (R : rcfType) (eps mu dt alpha : R) : 0 < dt -> 0 <= mu ->
  exists pm : premesh [lmodType R of 'rV[R]_2] bool, exists s : sem R 2,
  [/\ unit_cube_mesh 2 true 3 (0 : R) 1 [:: 0%N] None = inr pm,
      sem_create eps invmx (refined_mesh (ex_pg R) pm) 1 3 [:: (true, (DIRICHLET, tt))] 2 = inr s &
  let y := [seq (x : 'rV[R]_2) 0 1 | x <- FES_model.m_coords (vm s)] in
  let wall := map2 (fun t z => if t == 0 then z else 0) (v_mask (s_velocity s)) y in
  let zero := nseq (nv s) (0 : R) in
  stokes_one_step eps (cg_solver 0 0) s [:: [:: y; zero]; [:: y; zero]] [:: nseq (np s) 1; nseq (np s) 1] [:: zero; zero]
    mu dt 2 alpha (Some [:: wall; zero]) None true = inr ([:: y; zero], nseq (np s) 1)].
Proof.
move=> dt0 mu0; have [pm [s [gen _ fam ori hs]]] := ex_square eps; exists pm, s; split=> // y wall zero.
have [gp [gv' [rp [rv [quad cf]]]]] := created fam hs; have ok := facts_ok cf.
have sy : size y = nv s by rewrite size_map.
have sw : size wall = nv s by rewrite size_map2 // (ok_mask ok) sy.
have cl : closed_cube 2 true [:: 0%N] [:: (true, (DIRICHLET, tt))] by left; exists tt; left.
pose S (c : nat) : 'rV[R]_2 := if c == 0%N then delta_mx 0 1 else 0.
have S01 c : S c 0 0 = 0 by rewrite /S; case: ifP => _; rewrite mxE.
have ey i : (i < nv s)%N -> nth 0 y i = node_at s i 0 1 by move=> hi; rewrite (nth_map 0).
have g2 (x : seq R) : size x = nv s -> vgood s [:: x; zero].
  by move=> sx; apply: goodP => // -[|[|c]] // _; rewrite /= ?size_nseq.
apply: (C74_walls (isT : (0 < 2)%N) (isT : (0 < 3)%N) ltr01 gen (ex_pg_created R) (ex_pg_continuous R) hs (fun _ _ => erefl) isT 1
  (k := 2) (l := 2) alpha true cl (a0 := fun=> 0) (S := S)) => //.
- split; first exact: g2.
  move=> [|[|c]] // i _ hi; rewrite add0r big_ord_recr big_ord1 /= /ent /=.
    by rewrite ey // /S /= !mxE /= mul0r add0r mul1r; congr (_ _ _); apply: val_inj.
  by rewrite /S /= ![fun_of_matrix 0 _ _]mxE !mul0r addr0 nth_nseq hi.
- by rewrite big_ord_recr big_ord1 /= /S /= !mxE /= addr0.
- by move=> c j _; rewrite inE => /eqP j0; have -> : j = 0 by apply: val_inj.
- exact: g2.
move=> [|[|c]] // i _ hi; rewrite /ent /=; last by rewrite nth_nseq hi.
rewrite nth_map2d ?(ok_mask ok) ?sy //; rewrite /dirichlet_node; case: eqP => // h; by split.
Qed.

Print Assumptions C74_affine.
Print Assumptions C74_walls.
Print Assumptions C74_uniform.
Print Assumptions ex_couette.
