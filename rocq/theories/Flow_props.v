(** C73: the advection operator and the vorticity of [StokesSEM]
    (navier_stokes/navier_stokes.py l.201-205, 238-245, 309-311, 484-494),
    modelled as [v_C] and [vorticity] in [Stokes_model]. *)
From mathcomp Require Import all_ssreflect all_algebra polyrcf zify ring.
From Verif Require Import PyDict_model PyDict_proofs GS_model GS_proofs GS_props Interp_model Interp_spec.
From Verif Require Import Lagrange_proofs Interp_proofs Gauss_proofs2 Interp_proofs2 Tensor_proofs Interp_props FES_model FES_proofs FES_proofs2 FES_props FES_props2 Premesh_model.
From Verif Require Import CG_model CG_proofs CG_props TimeCoef_model Stokes_model Stokes_spec Stokes_proofs Stokes_proofs2 Stokes_proofs3.
From Verif Require Import Stokes_create Stokes_create2 Stokes_create3 Stokes_proofs4 Stokes_create4 Stokes_props Stokes_cube Unisolvent_proofs UnitCube_model UnitCube_props Stokes_family Stokes_instance Stokes_props3.
Set Implicit Arguments.
Unset Strict Implicit.
Unset Printing Implicit Defensive.
Import Order.TTheory GRing.Theory Num.Theory.
Local Open Scope ring_scope.

(** ** Products of sums of products *)
Section Products.
Variables (R : rcfType) (d : nat).
Implicit Types (f g : tpoly R).
Definition tscale (k : R) f : tpoly R := [seq (k * t.1, t.2) | t <- f].
Definition tmul f g : tpoly R := [seq (a.1 * b.1, map2 *%R a.2 b.2) | a <- f, b <- g].
Lemma teval_scale k f x : teval (tscale k f) x = k * teval f x.
Proof. by rewrite /teval big_map mulr_sumr; apply: eq_bigr => t _; rewrite mulrA. Qed.
Lemma teval_mul f g x n m : tdeg d n f -> tdeg d m g -> size x = d -> teval (tmul f g) x = teval f x * teval g x.
Proof.
move=> /allP df /allP dg sx; rewrite /teval big_allpairs_dep mulr_suml big_seq [RHS]big_seq; apply: eq_bigr => t ht.
rewrite mulr_sumr big_seq [RHS]big_seq; apply: eq_bigr => t' ht' /=; rewrite mulrACA; congr (_ * _).
have [/andP[/eqP s1 _] /andP[/eqP s2 _]] := (df _ ht, dg _ ht').
have {s1} e1 := etrans s1 (esym sx); have {s2} e2 := etrans s2 (esym sx).
elim: x (t.2) (t'.2) e1 e2 {sx} => [|x xs IH] [|p ps] [|q qs] //=.
  by rewrite !big_nil mulr1.
move=> [e1] [e2]; rewrite !big_cons /= IH //; by rewrite hornerM mulrACA.
Qed.
Lemma tdeg_mul f g n m : tdeg d n.+1 f -> tdeg d m.+1 g -> tdeg d (n + m).+1 (tmul f g).
Proof.
move=> /allP df /allP dg; apply/allP => _ /allpairsP[[t t'] /= [ht ht' ->]] /=.
have [/andP[/eqP s1 z1] /andP[/eqP s2 z2]] := (df _ ht, dg _ ht').
rewrite size_map size_zip s1 s2 minnn eqxx /=; have {s1 s2} e := etrans s1 (esym s2).
move: z1 z2 e; elim: (t.2) (t'.2) => [|p ps IH] [|q qs] //= /andP[zp zps] /andP[zq zqs] [e].
apply/andP; split; last exact: (IH qs zps zqs e).
apply: leq_trans (size_mul_leq _ _) _; have := leq_add zp zq; rewrite addSn addnS; by case: (_ + _)%N => //= k; rewrite ltnS.
Qed.
Lemma tdeg_deriv k f n : tdeg d n f -> tdeg d n (tderiv k f).
Proof.
move=> /allP df; apply/allP => _ /mapP[t ht ->] /=; have /andP[/eqP s1 /(all_nthP 0) z1] := df _ ht.
rewrite size_map size_iota; move: (s1) => ->; rewrite eqxx /=; apply/allP => _ /mapP[j hj ->].
move: hj; rewrite mem_iota add0n => /andP[_ hj]; rewrite -s1 in hj; have zj := z1 _ hj; case: ifP => // _.
exact: leq_trans (size_poly _ _) (leq_trans (leq_pred _) zj).
Qed.
Lemma tdeg_scale k f n : tdeg d n f -> tdeg d n (tscale k f).
Proof. by move=> /allP df; apply/allP => _ /mapP[t ht ->] /=; exact: df. Qed.
Lemma tdeg_flatten (fs : seq (tpoly R)) n : all (tdeg d n) fs -> tdeg d n (flatten fs).
Proof. by rewrite /tdeg; elim: fs => //= f fs IH /andP[h /IH h']; rewrite all_cat h. Qed.
(** The integral over the reference cube. *)
Definition tintegral f : R := \sum_(t <- f) t.1 * \prod_(p <- t.2) integral p.
End Products.

Section Theorems.
Variables (R : rcfType) (d : nat) (eps : R) (inv : 'M[R]_d -> 'M[R]_d) (L : eqType) (BCV : Type).
(** [jnp.linalg.inv] inverts invertible matrices. *)
Hypothesis inv_ok : forall J : 'M[R]_d, J \in unitmx -> inv J = invmx J.
Notation rmesh := (Premesh_model.mesh [zmodType of 'rV[R]_d] L).
Variables (refined : nodes1d R -> ierror + rmesh) (K : nat) (F : nat -> 'I_d -> tpoly R).
Hypothesis fam : mesh_family refined K F.
Hypothesis ori : oriented_elements K F.
Variables (o order overint : nat) (bcs : seq (L * (bctype * BCV))) (s : sem R d).
Hypothesis hs : sem_create eps inv refined o order bcs overint = inr s.
Notation vel := (s_velocity s).
Notation gv := (m_grid (vm s)).
Implicit Types (u v : seq (seq R)) (f g : nat -> nat -> tpoly R).

(** The derivative in direction [j] of physical space of the function that is
    [h] in reference coordinates, on the element with map [G]. *)
Definition pderiv (G : 'I_d -> tpoly R) (h : tpoly R) (j : 'I_d) (x : seq R) : R :=
  \sum_(i < d) invmx (jacobian_at G x) j i * teval (tderiv i h) x.
(** It is the chain rule solved for the physical derivatives. *)
Lemma pderiv_chain G h x (r : 'I_d -> R) : \det (jacobian_at G x) != 0 ->
  (forall i : 'I_d, \sum_(j < d) jacobian_at G x i j * r j = teval (tderiv i h) x) <-> forall j, r j = pderiv G h j x.
Proof.
move=> J0; have U : jacobian_at G x \in unitmx by rewrite unitmxE unitfE.
pose t : 'cV[R]_d := \col_i teval (tderiv i h) x; pose rr : 'cV[R]_d := \col_j r j.
have P j : pderiv G h j x = (invmx (jacobian_at G x) *m t) j 0 by rewrite mxE; apply: eq_bigr => i _; rewrite [t _ _]mxE.
split=> H => [j|i].
  have E : jacobian_at G x *m rr = t.
    by apply/colP => i; rewrite !mxE -[teval _ x]H; apply: eq_bigr => j' _; rewrite !mxE.
  by rewrite P -E mulKmx // mxE.
have -> : teval (tderiv i h) x = (jacobian_at G x *m (invmx (jacobian_at G x) *m t)) i 0 by rewrite mulKVmx // mxE.
by rewrite [RHS]mxE; apply: eq_bigr => j _; rewrite H P.
Qed.

(** The vector field [f] on element [e], at the reference point [x]: advection
    of component [c], (u . grad) u_c. *)
Definition advects f (e : nat) (x : seq R) (c : nat) : R :=
  \sum_(i < d) teval (f i e) x * pderiv (F e) (f c e) i x.

(** The Gauss-Lobatto rule used for advection. *)
Definition overint_rule (oq : quadrature1d R) : Prop := quadrature_create R (order.+1 + overint) GAUSS_LOBATTO_LEGENDRE = inr oq.

Section Facts.
Variables (gp gv' : nodes1d R) (rp rv : rmesh) (quad : quadrature1d R).
Hypothesis cf : created_facts eps inv K F order bcs s gp gv' rp rv quad.
Let d0 : (0 < d)%N := mf_dim fam.
Let vE := feE (ltn0Sn _) (cf_gv cf) (cf_vm cf).
Let eK : num_elements (vm s) = K := fe_num (ltn0Sn _) (cf_gv cf) (cf_rv cf) (cf_vm cf).
Let eN : m_per_element (vm s) = (order.+1 ^ d)%N. Proof. by have [] := vE. Qed.
Let o1 : (1 < order.+1)%N. Proof. by have := cf_order cf; lia. Qed.

Lemma overint_space : exists2 oq, overint_rule oq & fespace_create eps inv (vm s) oq = inr (v_overint vel).
Proof.
have [? [? [? [? [? [og [oq [_ [_ [[_ _ h1 h2 h3] _]]]]]]]]]] := sem_createE hs.
by exists oq => //; rewrite /overint_rule /quadrature_create h1.
Qed.

(** A nodal field given on an element by a polynomial. *)
Lemma node_listE (h : tpoly R) (w : nat -> R) : (forall k, (k < order.+1 ^ d)%N -> w k = teval h (grid_point d gv k)) ->
  node_list (vm s) w = [seq teval h x | x <- cart (nseq d (nd_values gv'))].
Proof.
move=> H; have [_ _ per gE] := vE; have [_ _ sz _ _] := created_grid (ltn0Sn _) (cf_gv cf).
apply: (@eq_from_nth _ 0); first by rewrite size_node_list per size_map size_cart_nseq sz.
move=> k; rewrite size_node_list per => hk; rewrite /node_list per (nth_map 0%N) ?size_iota // nth_iota // add0n H //.
by rewrite gE (nth_map [::]) // size_cart_nseq sz.
Qed.

Section Space.
Variables (nq : nat) (q1 : quadrature1d R) (fs : fespace R d).
Hypotheses (nq1 : (1 < nq)%N) (hq : quadrature_create R nq GAUSS_LOBATTO_LEGENDRE = inr q1) (hf : fespace_create eps inv (vm s) q1 = inr fs).
Let nq0 : (0 < nq)%N := ltnW nq1.
Notation pt q := (grid_point d (qd_nodes q1) q).
Let e0 : nd_values (qd_nodes q1) != [::].
Proof. by have [_ _ sq] := quad_facts nq0 hq; rewrite -size_eq0 sq -lt0n. Qed.

Lemma lobatto_points q : (q < nq ^ d)%N -> size (pt q) = d /\ all (fun y => -1 <= y <= 1) (pt q).
Proof.
have [_ hn sq] := quad_facts nq0 hq => hlt.
have hm : pt q \in cart (nseq d (nd_values (qd_nodes q1))) by apply: mem_nth; rewrite size_cart_nseq sq.
split; first exact: (size_cart_mem hm).
case: nq hn nq1 => [|[|N]] // hn _.
have [srt sz cont _] := C33_lobatto_nodes hn.
have B y : y \in nd_values (qd_nodes q1) -> -1 <= y <= 1.
  move=> /(nthP 0)[i hi <-]; move: cont; rewrite /is_continuous -nth_last sz /= => /andP[/eqP f0 /eqP f1].
  have h := sorted_leq_nth le_trans le_refl 0 (sub_sorted (@ltW _ _) srt).
  apply/andP; split; [rewrite -f0|rewrite -f1]; apply: h; rewrite ?inE ?sz //; move: hi; by rewrite sz.
apply/allP => y hy; apply: B.
move: hm hy; move: (grid_point _ _ _) => x; rewrite mem_cart; elim: x (d) => [|a x IH] [|k] //= /andP[ha hx].
by rewrite inE => /orP[/eqP ->|/(IH k)] //; apply.
Qed.
Lemma point_det e q : (e < K)%N -> (q < nq ^ d)%N -> 0 < \det (jacobian_at (F e) (pt q)).
Proof. by move=> he hlt; have [sx bx] := lobatto_points hlt; exact: ori. Qed.
Lemma point_jac e q : (e < K)%N -> (q < nq ^ d)%N -> fs_jacdets fs e q = \det (jacobian_at (F e) (pt q)).
Proof. exact: (fs_jac fam (ltn0Sn _) (cf_gv cf) (cf_rv cf) (cf_vm cf) nq0 hq hf). Qed.
Lemma value_at (h : tpoly R) (w : nat -> R) q : tdeg d order.+1 h -> (q < nq ^ d)%N ->
  (forall k, (k < order.+1 ^ d)%N -> w k = teval h (grid_point d gv k)) ->
  at_quad eps (vm s) (qd_nodes q1) w q = teval h (pt q).
Proof.
move=> dh hlt H; have [_ _ per gE] := vE; have [np _ sz _ _] := created_grid (ltn0Sn _) (cf_gv cf).
have [_ hqd sq] := quad_facts nq0 hq.
have sx : size [seq teval h x | x <- cart (nseq d (nd_values gv'))] = (order.+1 ^ d)%N by rewrite size_map size_cart_nseq sz.
have [M hM e] := @C37_interpolate_matrix R eps d _ _ _ _ _ _ _ d0 (ltn0Sn _) nq0 (cf_gv cf) hqd sx.
have [M' hM' [_ X]] := C35_tensor_exact (ltn0Sn _) d0 (cf_gv cf) e0.
rewrite /at_quad (node_listE H) gE e /=; move: hM'; rewrite hM => -[EM]; rewrite EM X // (nth_map [::]) //.
by rewrite size_cart_nseq sq.
Qed.
Lemma grad_at (h : tpoly R) (w : nat -> R) e q (j : 'I_d) : tdeg d order.+1 h -> (e < K)%N -> (q < nq ^ d)%N ->
  (forall k, (k < order.+1 ^ d)%N -> w k = teval h (grid_point d gv k)) ->
  nth 0 (phys_grad fs e w q) j = pderiv (F e) h j (pt q).
Proof.
move=> dh he hlt H; have [_ _ per gE] := vE.
have [gs [HM hN fm fq _]] := fespace_createE hf; have [_ _ sq] := quad_facts nq0 hq.
have RG (g : tpoly R) (y : nat -> R) (i : 'I_d) : tdeg d order.+1 g -> node_list (vm s) y = [seq teval g x | x <- cart (nseq d (nd_values gv'))] ->
    ref_grad (vm s) (qd_nodes q1) y q i = teval (tderiv i g) (pt q).
  move=> dg nl; rewrite /ref_grad nl gE (C35_interpolate_grad (ltn0Sn _) d0 (cf_gv cf) e0 dg) /=.
  by rewrite (nth_map 0%N) ?size_iota // nth_iota // (nth_map [::]) // size_cart_nseq sq.
have J0 : fs_jacdets fs e q != 0 by rewrite point_jac // gt_eqF ?point_det.
move: j; apply: (proj1 (@pderiv_chain _ _ _ _ _)); first by rewrite gt_eqF ?point_det.
move=> i; have := chain_rule w i inv_ok hf J0; rewrite (RG h) // ?(node_listE H) // => <-.
apply: eq_bigr => j _; congr (_ * _); rewrite mxE (RG (F e j)) //.
  exact: (tdeg_le o1 (mf_multilinear fam j he)).
exact: (fe_node_list (ltn0Sn _) (cf_gv cf) (cf_rv cf) (cf_vm cf)).
Qed.
End Space.

Lemma node_facts e k : (e < K)%N -> (k < order.+1 ^ d)%N ->
  [/\ (node_of (vm s) e k < nv s)%N, forall i, (is_node (vm s) i e k : bool) = (node_of (vm s) e k == i) &
      forall p, gather_comp (vm s) p e k = nth 0 p (node_of (vm s) e k)].
Proof.
move=> he hk; have [x hx [e1 _]] := fe_index (ltn0Sn _) (cf_gv cf) (cf_rv cf) (cf_vm cf) he hk.
have se := fe_rows (ltn0Sn _) (cf_gv cf) (cf_rv cf) (cf_vm cf) he.
split=> [|i|p]; rewrite ?/is_node ?/node_of ?e1 ?eqz_nat //.
by rewrite /gather_comp /gather (nth_map 0) ?se // e1 /at_.
Qed.
Lemma given_comp u f c e : given_by K order s u f -> (c < d)%N -> (e < K)%N ->
  forall k, (k < order.+1 ^ d)%N -> comp (v_gather vel u) e c k = teval (f c e) (grid_point d gv k).
Proof. by move=> H hc he k hk; have [_ _ N] := node_facts he hk; rewrite /comp /= N -H. Qed.
End Facts.

(** ** Vorticity *)
Lemma vort_entry u i : (1 < d)%N -> vgood s u -> (i < nv s)%N ->
  size (vorticity eps s u) = nv s /\ 0 < copies K order s i /\
  nth 0 (vorticity eps s u) i =
    (\sum_(e < K) \sum_(k < order.+1 ^ d) (node_of (vm s) e k == i)%:R *
       (nth 0 (phys_grad (v_space vel) e (comp (v_gather vel u) e 0) k) 1 -
        nth 0 (phys_grad (v_space vel) e (comp (v_gather vel u) e 1) k) 0)) / copies K order s i.
Proof.
move=> d1 gu hi; have [gp [gv' [rp [rv [quad cf]]]]] := created fam hs; have ok := facts_ok cf.
have [_ _ eN gE] := feE (ltn0Sn _) (cf_gv cf) (cf_vm cf).
have eK : num_elements (vm s) = K := fe_num (ltn0Sn _) (cf_gv cf) (cf_rv cf) (cf_vm cf).
have cE : nth 0 (v_qqt vel) i = copies K order s i.
  rewrite (cf_qqt cf) scatter_sum ?eK ?eN //; last exact: (ok_v ok).
  by apply: eq_bigr => e _; apply: eq_bigr => k _; rewrite mul1r; have [_ -> _] := node_facts cf (ltn_ord e) (ltn_ord k).
have sq := size_qqt cf; have si : size (vinv (v_qqt vel)) = nv s by rewrite size_map.
split; first by rewrite size_vmul ?si size_scatter_comp.
split; first by rewrite -cE; exact: (qqt_gt0 cf).
rewrite nth_vmul ?si ?size_scatter_comp // (nth_map 0) ?sq // cE mul1r mulrC; congr (_ / _).
rewrite scatter_sum ?eK ?eN //; last exact: (ok_v ok).
apply: eq_bigr => e _; apply: eq_bigr => k _; rewrite mulrC; have [_ -> _] := node_facts cf (ltn_ord e) (ltn_ord k).
congr (_ * _); rewrite /= -[X in vgrad d X 1 0]/(evaluate_nodal eps (v_space vel) KVector (v_gather vel u) e k).
by rewrite -[X in _ - vgrad d X 0 1]/(evaluate_nodal eps (v_space vel) KVector (v_gather vel u) e k) !vgrad_nodal // ltnW.
Qed.
(** At every node, the average over the elements of the node of the derivative
    of the first component in direction 1 minus the derivative of the second
    component in direction 0, of the polynomials that interpolate [u]. *)
Theorem C73_vorticity u f (x0 y0 : 'I_d) i : x0 = 0%N :> nat -> y0 = 1%N :> nat -> vgood s u ->
  (forall c e, (c < d)%N -> (e < K)%N -> tdeg d order.+1 (f c e)) -> given_by K order s u f -> (i < nv s)%N ->
  size (vorticity eps s u) = nv s /\ 0 < copies K order s i /\
  nth 0 (vorticity eps s u) i =
    (\sum_(e < K) \sum_(k < order.+1 ^ d) (node_of (vm s) e k == i)%:R *
       (pderiv (F e) (f 0%N e) y0 (grid_point d gv k) - pderiv (F e) (f 1%N e) x0 (grid_point d gv k))) / copies K order s i.
Proof.
move=> xE yE gu deg hf hi; have [gp [gv' [rp [rv [quad cf]]]]] := created fam hs; have ok := facts_ok cf.
have [_ _ _ gE] := feE (ltn0Sn _) (cf_gv cf) (cf_vm cf).
have qE : qd_nodes quad = gv'.
  by have [_ + _] := quad_facts (ltn0Sn _) (cf_quad cf); rewrite (cf_gv cf) => -[].
have nt : (1 < order.+1)%N by have := cf_order cf; lia.
have dx := ltn_ord x0; have dy := ltn_ord y0; rewrite xE in dx; rewrite yE in dy.
have [sz [c0 vE]] := vort_entry dy gu hi; split=> //; split=> //; rewrite vE; congr (_ / _).
apply: eq_bigr => e _; apply: eq_bigr => k _; congr (_ * _).
have H1 := grad_at cf nt (cf_quad cf) (cf_vs cf) y0 (deg 0%N e dx (ltn_ord e)) (ltn_ord e) (ltn_ord k) (given_comp cf hf dx (ltn_ord e)).
have H2 := grad_at cf nt (cf_quad cf) (cf_vs cf) x0 (deg 1%N e dy (ltn_ord e)) (ltn_ord e) (ltn_ord k) (given_comp cf hf dy (ltn_ord e)).
by rewrite yE in H1; rewrite xE in H2; rewrite H1 H2 gE qE.
Qed.
(** The vorticity of a field that is affine in space: a constant.  [node_at i]
    is the position of node [i]. *)
Definition node_at (i : nat) : 'rV[R]_d := nth 0 (FES_model.m_coords (vm s)) i.
Theorem C73_affine u (a : nat -> R) (S : nat -> 'rV[R]_d) (x0 y0 : 'I_d) : x0 = 0%N :> nat -> y0 = 1%N :> nat -> vgood s u ->
  (forall c i, (c < d)%N -> (i < nv s)%N -> ent u c i = a c + \sum_j S c 0 j * node_at i 0 j) ->
  vorticity eps s u = nseq (nv s) (S 0%N 0 y0 - S 1%N 0 x0).
Proof.
move=> xE yE gu hu; have [gp [gv' [rp [rv [quad cf]]]]] := created fam hs; have ok := facts_ok cf.
have nt : (1 < order.+1)%N by have := cf_order cf; lia.
have dx := ltn_ord x0; have dy := ltn_ord y0; rewrite xE in dx; rewrite yE in dy.
have st : standard eps inv (vm s) quad (v_space vel) order.+1 GAUSS_LOBATTO_LEGENDRE.
  split=> //; [exact: (cf_vs cf)|exact: (cf_quad cf)|].
  have [_ _ _ gE] := feE (ltn0Sn _) (cf_gv cf) (cf_vm cf).
  by exists order.+1, GAUSS_LOBATTO_LEGENDRE; rewrite gE; split=> //; exact: (cf_gv cf).
have G c (j : 'I_d) e k : (c < d)%N -> (e < K)%N -> (k < order.+1 ^ d)%N ->
    nth 0 (phys_grad (v_space vel) e (comp (v_gather vel u) e c) k) j = S c 0 j.
  move=> hc he hk; have J0 : fs_jacdets (v_space vel) e k != 0.
    by rewrite (point_jac cf nt (cf_quad cf) (cf_vs cf)) // gt_eqF ?(point_det nt (cf_quad cf)).
  have := C39_affine inv_ok (a c) (S c) st hk J0; set w := (fun n => _) => H.
  rewrite (@phys_grad_ext _ _ _ _ _ w); first by rewrite H (nth_map j) ?size_enum_ord // nth_ord_enum.
  have [_ _ eN _] := feE (ltn0Sn _) (cf_gv cf) (cf_vm cf); rewrite -/(vm s) eN => n hn.
  have [xn _ N] := node_facts cf he hn; rewrite /comp /= N -[nth 0 _ _]/(ent u c (node_of (vm s) e n)) hu // /w.
  congr (_ + _); apply: eq_bigr => l _; congr (_ * _).
  have [x hx [e1 _]] := fe_index (ltn0Sn _) (cf_gv cf) (cf_rv cf) (cf_vm cf) he hn.
  have se := fe_rows (ltn0Sn _) (cf_gv cf) (cf_rv cf) (cf_vm cf) he.
  by rewrite /FES_model.element_coords /gather (nth_map 0) ?se // /node_at /node_of e1 /at_.
have P : (0 < nv s)%N.
  have k0 : (0 < order.+1 ^ d)%N by rewrite expn_gt0.
  by have [h _ _] := node_facts cf (mf_some fam) k0; apply: leq_trans h.
apply: (@eq_from_nth _ 0); first by have [-> _] := vort_entry dy gu P; rewrite size_nseq.
have [sz _] := vort_entry dy gu P; rewrite sz => i hi; have [_ [c0 ->]] := vort_entry dy gu hi.
rewrite nth_nseq hi; apply: (canLR (mulfK _)); first by rewrite gt_eqF.
rewrite mulrC /copies mulr_suml; apply: eq_bigr => e _; rewrite mulr_suml; apply: eq_bigr => k _; congr (_ * _).
have H1 := G 0%N y0 e k dx (ltn_ord e) (ltn_ord k); have H2 := G 1%N x0 e k dy (ltn_ord e) (ltn_ord k).
by rewrite yE in H1; rewrite xE in H2; rewrite H1 H2.
Qed.
(** Its sign is the opposite of the usual one: a counterclockwise rotation
    (-y, x), whose curl is 2, has "vorticity" -2. *)
Theorem C73_curl_refuted u (x0 y0 : 'I_d) : x0 = 0%N :> nat -> y0 = 1%N :> nat -> vgood s u ->
  (forall i, (i < nv s)%N -> [/\ ent u 0 i = - node_at i 0 y0, ent u 1 i = node_at i 0 x0 &
     forall c, (1 < c < d)%N -> ent u c i = 0]) ->
  vorticity eps s u = nseq (nv s) (- 2%:R).
Proof.
move=> xE yE gu hu; have ne : x0 != y0 by apply/eqP => /(congr1 (@nat_of_ord d)); rewrite xE yE.
pose S (c : nat) : 'rV[R]_d := if c == 0%N then - delta_mx 0 y0 else if c == 1%N then delta_mx 0 x0 else 0.
rewrite (@C73_affine u (fun=> 0) S x0 y0) // => [|c i hc hi].
  by rewrite /S /= !mxE !eqxx /=; congr nseq; ring.
have [h0 h1 h2] := hu i hi; rewrite add0r; case: c hc => [|[|c]] hc.
- by rewrite h0 (bigD1 y0) //= big1 ?addr0 => [|j ny]; rewrite !mxE eqxx ?eqxx ?mulN1r //= (negbTE ny) oppr0 mul0r.
- by rewrite h1 (bigD1 x0) //= big1 ?addr0 => [|j ny]; rewrite !mxE eqxx ?eqxx ?mul1r //= (negbTE ny) mul0r.
- by rewrite h2 // big1 // => j _; rewrite !mxE mul0r.
Qed.

(** ** Advection *)
Lemma vval_nodal (fs : fespace R d) (a : larray R) e q c : (c < d)%N ->
  vval (evaluate_nodal eps fs KVector a e q) c = at_quad eps (fs_mesh fs) (evalpoints fs) (comp a e c) q.
Proof. by move=> hc; rewrite /vval /evaluate_nodal nth_cat size_map size_iota hc (nth_map 0%N) ?size_iota // nth_iota. Qed.
(** Tested with a field that vanishes on the Dirichlet nodes, [C(u)] is the
    integral of ((u . grad) u) . v by the over-integrating Gauss-Lobatto rule; it
    vanishes on the Dirichlet nodes. *)
Theorem C73_advection u v f g : vgood s u -> vgood s v ->
  (forall c e, (c < d)%N -> (e < K)%N -> tdeg d order.+1 (f c e) /\ tdeg d order.+1 (g c e)) ->
  given_by K order s u f -> given_by K order s v g ->
  (forall c i, (c < d)%N -> (i < nv s)%N -> dirichlet_node s i -> ent v c i = 0) ->
  exists oq (w : seq R), [/\ overint_rule oq, weights_nd oq d = inr w &
    \sum_(c < d) \sum_(i < nv s) ent (v_C eps vel u) c i * ent v c i =
    \sum_(e < K) \sum_(q < (order.+1 + overint) ^ d)
      (\sum_(c < d) advects f e (grid_point d (qd_nodes oq) q) c * teval (g c e) (grid_point d (qd_nodes oq) q)) *
      \det (jacobian_at (F e) (grid_point d (qd_nodes oq) q)) * nth 0 w q].
Proof.
move=> gu gv deg hf hg vv; have [gp [gv' [rp [rv [quad cf]]]]] := created fam hs; have ok := facts_ok cf.
have eK : num_elements (vm s) = K := fe_num (ltn0Sn _) (cf_gv cf) (cf_rv cf) (cf_vm cf).
have [oq hoq hos] := overint_space; have nt : (1 < order.+1 + overint)%N by have := cf_order cf; lia.
have [w hw _] := C36_weights_nd (mf_dim fam) (ltnW nt) hoq; exists oq, w; split=> //.
set fo := v_overint vel in hos.
have [fm fq fn] := fs_basic (ltnW nt) hoq hos.
pose fu := fun_of fo KVector (Some (v_gather vel u)).
pose funs := [:: fu; fu; fun_of fo KVector None].
have [b hb] : exists b, local_covector eps fo (@vconv R d) funs = inr b.
  have [+ _] := @C40_placeholder R d eps fo (@vconv R d) funs; case=> //=; first by rewrite !eqxx.
  by move=> b [-> _]; exists b.
have X := C40_represents (v_gather vel v) hb (@vconv_lin R d).
have Y : \sum_(c < d) \sum_(i < nv s) ent (v_C eps vel u) c i * ent v c i = vinner d (nv s) (v_scatter vel b) v.
  rewrite /vinner; apply: eq_bigr => c _; apply: eq_bigr => i _.
  have -> : ent (v_C eps vel u) c i = nth 0 (v_mask vel) i * ent (v_scatter vel b) c i.
    rewrite /v_C /v_masked /C_local /covector hb /ent (ent_map _ (good_vscatter _ _)) // nth_vmul //.
    by rewrite (ok_mask ok) (good_comp (good_vscatter _ _)).
  have [m0|->] := facts_binary cf (ltn_ord i); last by rewrite mul1r.
  by rewrite (vv c i) // !mulr0.
rewrite Y; have := assembly_vector b (ok_v ok) gv; rewrite -/(v_scatter vel b) => XX; rewrite vinnerC.
apply: (etrans XX); move: X; rewrite /FES_props2.pairing fm => X; apply: (etrans X).
rewrite /form_integral /integrate fm fq fn eK hw sumlE; apply: eq_bigr => e _; rewrite sumlE; apply: eq_bigr => q _.
rewrite (point_jac cf nt hoq hos) //; congr (_ * _ * _).
rewrite /vconv sumlE; under eq_bigr do rewrite sumlE; rewrite exchange_big; apply: eq_bigr => c _.
rewrite /advects mulr_suml; apply: eq_bigr => i _; rewrite /arg [nth _ _ 0]/= [nth _ _ 1]/= [nth _ _ 2]/=.
have [df dg] := deg c e (ltn_ord c) (ltn_ord e); have [di _] := deg i e (ltn_ord i) (ltn_ord e).
rewrite !vval_nodal // vgrad_nodal // fm /evalpoints fq.
rewrite (value_at cf nt hoq di (ltn_ord q) (given_comp cf hf (ltn_ord i) (ltn_ord e))).
rewrite (value_at cf nt hoq dg (ltn_ord q) (given_comp cf hg (ltn_ord c) (ltn_ord e))).
by rewrite (grad_at cf nt hoq hos i df (ltn_ord e) (ltn_ord q) (given_comp cf hf (ltn_ord c) (ltn_ord e))).
Qed.

(** Every nodal field is given by polynomials of the degree of the space. *)
Lemma interpolated v : vgood s v -> exists2 g, given_by K order s v g & forall c e, (c < d)%N -> (e < K)%N -> tdeg d order.+1 (g c e).
Proof.
move=> gv0; have [gp [gv' [rp [rv [quad cf]]]]] := created fam hs.
have [_ _ _ gE] := feE (ltn0Sn _) (cf_gv cf) (cf_vm cf).
have [_ _ sz U _] := created_grid (ltn0Sn _) (cf_gv cf).
pose vals c e := [seq ent v c (node_of (vm s) e k) | k <- iota 0 (order.+1 ^ d)].
have sv c e : size (vals c e) = (size (nd_values gv') ^ d)%N by rewrite size_map size_iota sz.
exists (fun c e => interpolant d (nd_values gv') (vals c e)) => [c e k hc he hk|c e hc he]; last first.
  by have [h _] := tinterp U (sv c e); rewrite sz in h.
have [_ h] := tinterp U (sv c e); have := congr1 (nth 0 ^~ k) h; rewrite /= /vals (nth_map 0%N) ?size_iota // nth_iota // add0n => ->.
by rewrite gE (nth_map [::]) // size_cart_nseq sz.
Qed.
(** A uniform flow is not advected. *)
Theorem C73_uniform (a : nat -> R) : v_C eps vel [seq nseq (nv s) (a c) | c <- iota 0 d] = nseq d (nseq (nv s) 0).
Proof.
have [gp [gv' [rp [rv [quad cf]]]]] := created fam hs; have ok := facts_ok cf.
set u := [seq nseq (nv s) (a c) | c <- iota 0 d].
have gk (b : nat -> R) : vgood s [seq nseq (nv s) (b c) | c <- iota 0 d].
  by apply: goodP; [rewrite size_map size_iota|move=> c hc; rewrite (nth_map 0%N) ?size_iota // size_nseq].
have gu : vgood s u := gk a.
have gz : vgood s (nseq d (nseq (nv s) 0)) by apply: goodP; rewrite ?size_nseq // => c hc; rewrite nth_nseq hc size_nseq.
have gC : vgood s (v_C eps vel u).
  apply: good_mapc (good_vscatter _ _) _ => c sc; by rewrite size_vmul ?(ok_mask ok).
apply: (good_eq gC gz) => c i hc hi.
rewrite [RHS](_ : _ = 0); last by rewrite /ent nth_nseq hc nth_nseq hi.
case: (facts_binary cf hi) => [m0|m1].
  by have [_ _ _ H] := C47_rows fam hs hc hi m0; exact: H.
pose v := [seq [seq (c' == c)%:R * (i' == i)%:R : R | i' <- iota 0 (nv s)] | c' <- iota 0 d].
have gv0 : vgood s v.
  by apply: goodP; [rewrite size_map size_iota|move=> c' hc'; rewrite (nth_map 0%N) ?size_iota // size_map size_iota].
have vE c' i' : (c' < d)%N -> (i' < nv s)%N -> ent v c' i' = (c' == c)%:R * (i' == i)%:R.
  by move=> h1 h2; rewrite /ent (nth_map 0%N) ?size_iota // nth_iota // (nth_map 0%N) ?size_iota // nth_iota.
have [g hg dg] := interpolated gv0.
have [||c' i' h1 h2 D|oq [w [hoq hw H]]] := @C73_advection u v (fun c _ => [:: (a c, nseq d 1)]) g gu gv0 _ _ hg.
- move=> c' e h1 h2; split; last exact: dg.
  have := @tone_deg R d order.+1 (ltn0Sn _); by rewrite /tdeg /=.
- move=> c' e k h1 he hk; have [hx _ _] := node_facts cf he hk; have [_ _ _ gE] := feE (ltn0Sn _) (cf_gv cf) (cf_vm cf).
  rewrite /ent (nth_map 0%N) ?size_iota // nth_iota // add0n nth_nseq hx /teval big_seq1 /= const_eval ?mulr1 // gE.
  exact: (size_point (ltn0Sn _) (cf_gv cf) hk).
- rewrite vE //; case: (i' =P i) => [ei|_]; last by rewrite mulr0.
  by move: D; rewrite /dirichlet_node ei m1 => /eqP; rewrite oner_eq0.
have : \sum_(c' < d) \sum_(i' < nv s) ent (v_C eps vel u) c' i' * ent v c' i' = ent (v_C eps vel u) c i.
  rewrite (bigD1 (Ordinal hc)) //= [X in _ + X]big1 ?addr0 => [|c' nc]; last first.
    by apply: big1 => i' _; rewrite vE // -val_eqE /= in nc *; rewrite (negbTE nc) mul0r mulr0.
  rewrite (bigD1 (Ordinal hi)) //= big1 ?addr0 => [|i' ni]; first by rewrite vE // !eqxx !mulr1.
  by rewrite vE // -val_eqE /= in ni *; rewrite (negbTE ni) mulr0 mulr0.
rewrite H => <-; apply: big1 => e _; apply: big1 => q _.
have [sx _] := lobatto_points (ltn_addr _ (ltnW (cf_order cf)) : (1 < order.+1 + overint)%N) hoq (ltn_ord q).
rewrite big1 ?mul0r // => c' _; rewrite /advects big1 ?mul0r // => j _; rewrite /pderiv big1 ?mulr0 // => l _.
rewrite [teval (tderiv _ _) _](_ : _ = 0) ?mulr0 // /teval /tderiv /= big_seq1 /= prod_zip ?size_map ?size_iota ?size_nseq //.
rewrite sx (bigD1 l) //= (nth_map 0%N) ?size_iota ?size_nseq // nth_iota ?size_nseq // add0n eqxx nth_nseq ltn_ord.
by rewrite derivC horner0 mul0r mulr0.
Qed.
(** On meshes of parallelepipeds the integral is exact when twice the number of
    over-integration nodes exceeds the order. *)
Theorem C73_exact u v f g (J : nat -> 'M[R]_d) : (order < 2 * overint)%N -> vgood s u -> vgood s v ->
  (forall e x, (e < K)%N -> size x = d -> jacobian_at (F e) x = J e) ->
  (forall c e, (c < d)%N -> (e < K)%N -> tdeg d order.+1 (f c e) /\ tdeg d order.+1 (g c e)) ->
  given_by K order s u f -> given_by K order s v g ->
  (forall c i, (c < d)%N -> (i < nv s)%N -> dirichlet_node s i -> ent v c i = 0) ->
  exists h : nat -> tpoly R,
    (forall e x, (e < K)%N -> size x = d -> teval (h e) x = \sum_(c < d) advects f e x c * teval (g c e) x) /\
    \sum_(c < d) \sum_(i < nv s) ent (v_C eps vel u) c i * ent v c i = \sum_(e < K) \det (J e) * tintegral (h e).
Proof.
move=> oo gu gv0 hJ deg hf hg vv; have [gp [gv' [rp [rv [quad cf]]]]] := created fam hs.
pose term e (c i l : 'I_d) := tscale (invmx (J e) i l) (tmul (tmul (f i e) (tderiv l (f c e))) (g c e)).
pose h e := flatten [seq flatten [seq flatten [seq term e c i l | l <- enum 'I_d] | i <- enum 'I_d] | c <- enum 'I_d].
have dt e (c i l : 'I_d) : (e < K)%N -> tdeg d (order + order + order).+1 (term e c i l).
  move=> he; have [df dg] := deg c e (ltn_ord c) he; have [di _] := deg i e (ltn_ord i) he.
  by apply: tdeg_scale; apply: tdeg_mul dg; apply: tdeg_mul di (tdeg_deriv _ df).
have dh e : (e < K)%N -> tdeg d (order + order + order).+1 (h e).
  move=> he; apply: tdeg_flatten; apply/allP => _ /mapP[c _ ->]; apply: tdeg_flatten; apply/allP => _ /mapP[i _ ->].
  by apply: tdeg_flatten; apply/allP => _ /mapP[l _ ->]; apply: dt.
have hE e x : (e < K)%N -> size x = d -> teval (h e) x = \sum_(c < d) advects f e x c * teval (g c e) x.
  move=> he sx; rewrite /h teval_flatten big_map big_enum; apply: eq_bigr => c _.
  rewrite teval_flatten big_map big_enum mulr_suml; apply: eq_bigr => i _.
  rewrite teval_flatten big_map big_enum /pderiv [teval (f i e) x * _]mulr_sumr mulr_suml; apply: eq_bigr => l _.
  have [df dg] := deg c e (ltn_ord c) he; have [di _] := deg i e (ltn_ord i) he.
  have dl := tdeg_deriv l df.
  by rewrite teval_scale (teval_mul (tdeg_mul di dl) dg) // (teval_mul di dl) // hJ // mulrA mulrCA !mulrA.
exists h; split=> //; have [oq [w [hoq hw ->]]] := C73_advection gu gv0 deg hf hg vv.
have nt : (1 < order.+1 + overint)%N by have := cf_order cf; lia.
have [w' hw' [wp _ wx]] := C36_weights_nd (mf_dim fam) (ltnW nt) hoq.
move: hw'; rewrite hw => -[ww]; rewrite -ww in wp wx => {w' ww}.
have [sw sn _ _] := C36_exact (ltnW nt) hoq.
have sz : size w = ((order.+1 + overint) ^ d)%N by rewrite wp size_map size_cart_nseq sw.
apply: eq_bigr => e _; rewrite /tintegral -wx; last first.
  by apply: tdeg_le (dh _ (ltn_ord e)); rewrite /exactness; lia.
rewrite dotE ?size_map ?size_cart_nseq ?sn // sz mulr_sumr; apply: eq_bigr => q _.
rewrite (nth_map [::]) ?size_cart_nseq ?sn // -/(grid_point d (qd_nodes oq) q).
have [sx _] := lobatto_points nt hoq (ltn_ord q).
by rewrite hJ // hE //; rewrite mulrAC [LHS]mulrC [nth _ _ _ * _]mulrC.
Qed.
End Theorems.

(** Generated cubes with [n] cells per axis: the elements are cubes of edge
    (b - a) / n. *)
Section Cube.
Variables (R : rcfType) (d : nat) (eps : R) (inv : 'M[R]_d -> 'M[R]_d) (L : eqType) (BCV : Type).
Hypothesis inv_ok : forall J : 'M[R]_d, J \in unitmx -> inv J = invmx J.
Notation V := [lmodType R of 'rV[R]_d].
Variables (lbl : L) (n : nat) (a b : R) (pd : seq nat) (pm : premesh V L).
Hypotheses (d0 : (0 < d)%N) (n0 : (0 < n)%N) (ab : a < b).
Hypothesis gen : unit_cube_mesh d lbl n a b pd None = inr pm.
Variables (pg : nodes1d R) (tp : node_type).
Hypotheses (hpg : nodes1d_create R 2 tp = inr pg) (cpg : is_continuous pg).
Variables (order overint : nat) (bcs : seq (L * (bctype * BCV))) (s : sem R d).
Hypothesis hs : sem_create eps inv (refined_mesh pg pm) 1 order bcs overint = inr s.
Theorem C73_cube u v f g : (order < 2 * overint)%N -> vgood s u -> vgood s v ->
  (forall c e, (c < d)%N -> (e < n ^ d)%N -> tdeg d order.+1 (f c e) /\ tdeg d order.+1 (g c e)) ->
  given_by (n ^ d) order s u f -> given_by (n ^ d) order s v g ->
  (forall c i, (c < d)%N -> (i < nv s)%N -> dirichlet_node s i -> ent v c i = 0) ->
  exists h : nat -> tpoly R,
    (forall e x, (e < n ^ d)%N -> size x = d -> teval (h e) x =
       \sum_(c < d) (\sum_(i < d) teval (f i e) x * (2%:R * n%:R / (b - a) * teval (tderiv i (f c e)) x)) * teval (g c e) x) /\
    \sum_(c < d) \sum_(i < nv s) ent (v_C eps (s_velocity s) u) c i * ent v c i =
    \sum_(e < n ^ d) ((b - a) / n%:R / 2%:R) ^+ d * tintegral (h e).
Proof.
move=> oo gu gv deg hf hg vv.
have [fam ori] := C61_family d0 n0 ab gen hpg cpg.
have hJ e x : (e < n ^ d)%N -> size x = d -> jacobian_at (element_map pm e) x = ((b - a) / n%:R / 2%:R)%:M.
  by move=> he; have [se _] := C26_cells gen; rewrite -se in he; exact: (cube_jacobian gen).
have [h [h1 h2]] := C73_exact inv_ok fam ori hs oo gu gv hJ deg hf hg vv; exists h; split=> [e x he sx|].
  rewrite h1 //; apply: eq_bigr => c _; congr (_ * _); apply: eq_bigr => i _; congr (_ * _).
  rewrite /pderiv hJ // (bigD1 i) //= big1 ?addr0 => [|l nl].
    rewrite invmx_scalar mxE eqxx mulr1n !invf_div; congr (_ * _).
    by rewrite mulrA.
  by rewrite invmx_scalar mxE eq_sym (negbTE nl) mul0r.
by rewrite h2; apply: eq_bigr => e _; rewrite det_scalar.
Qed.
End Cube.

(** ** Examples *)
(** Nine elements of order 3, periodic along [x], walls on the other sides, two
    over-integration nodes as by default: the rotation (-y, x), the uniform flow
    and the exact advection of any field. *)
Example ex_rotation (R : rcfType) (eps : R) : exists pm : premesh [lmodType R of 'rV[R]_2] bool, exists s : sem R 2,
  [/\ unit_cube_mesh 2 true 3 (0 : R) 1 [:: 0%N] None = inr pm,
      sem_create eps invmx (refined_mesh (ex_pg R) pm) 1 3 [:: (true, (DIRICHLET, tt))] 2 = inr s,
      vorticity eps s [:: [seq - (x : 'rV[R]_2) 0 1 | x <- FES_model.m_coords (vm s)];
          [seq (x : 'rV[R]_2) 0 0 | x <- FES_model.m_coords (vm s)]] = nseq (nv s) (- 2%:R) &
      v_C eps (s_velocity s) [:: nseq (nv s) 3%:R; nseq (nv s) 1] = nseq 2 (nseq (nv s) 0)].
Proof.
have [pm [s [gen _ fam ori hs]]] := ex_square eps; exists pm, s; split=> //; last first.
  exact: (C73_uniform (fun _ _ => erefl) fam ori hs (fun c => if c == 0%N then 3%:R else 1)).
apply: (C73_curl_refuted (fun _ _ => erefl) fam ori hs (x0 := 0) (y0 := 1)) => //.
  by apply: goodP => // -[|[|c]] // _; rewrite /= size_map.
by move=> i hi; split=> [||[|[|c]]] //; rewrite /ent /= (nth_map 0).
Qed.

Print Assumptions C73_vorticity.
Print Assumptions C73_affine.
Print Assumptions C73_curl_refuted.
Print Assumptions C73_advection.
Print Assumptions C73_uniform.
Print Assumptions C73_exact.
Print Assumptions C73_cube.
