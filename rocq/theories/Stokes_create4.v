(** Facts about what [sem_create] makes: pressure integrals, the degenerate
    case, what the filter keeps. *)
From mathcomp Require Import all_ssreflect all_algebra polyrcf zify ring.
From Verif Require Import PyDict_model PyDict_proofs GS_model GS_proofs GS_props Interp_model Interp_spec.
From Verif Require Import Gauss_proofs2 Interp_proofs2 Tensor_proofs Interp_props FES_model FES_proofs FES_proofs2 FES_props FES_props2 Premesh_model.
From Verif Require Import CG_model CG_proofs CG_props TimeCoef_model Stokes_model Stokes_spec Stokes_proofs Stokes_proofs2 Stokes_proofs3.
From Verif Require Import Stokes_create Stokes_create2 Stokes_create3 Stokes_proofs4.
Set Implicit Arguments.
Unset Strict Implicit.
Unset Printing Implicit Defensive.
Import Order.TTheory GRing.Theory Num.Theory.
Local Open Scope ring_scope.

Section Matvec.
Variable R : fieldType.
Implicit Types (x y z : seq R).
Definition lcomb_of (a : R) x y z : Prop := [/\ size x = size z, size y = size z & forall j, nth 0 z j = a * nth 0 x j + nth 0 y j].
Lemma dot_lin a (row : seq R) x y z : lcomb_of a x y z -> dot row z = a * dot row x + dot row y.
Proof.
rewrite /dot; elim: row x y z => [|r row IH] [|x xs] [|y ys] [|z zs] [//= sx sy H]; rewrite ?mulr0 ?addr0 //.
have [H0 HS] : z = a * x + y /\ forall j, nth 0 zs j = a * nth 0 xs j + nth 0 ys j by split=> [|j]; [exact: (H 0%N)|exact: (H j.+1)].
have I : lcomb_of a xs ys zs by split=> //; apply: succn_inj.
by rewrite /= (IH _ _ _ I) H0 !mulrDr addrACA [r * (a * x)]mulrCA.
Qed.
Lemma matvec_lin a (M : seq (seq R)) x y z : lcomb_of a x y z -> lcomb_of a (matvec M x) (matvec M y) (matvec M z).
Proof.
move=> H; split; rewrite ?size_map // => j.
case: (ltnP j (size M)) => hj; last by rewrite !nth_default ?size_map // mulr0 addr0.
by rewrite !(nth_map [::]) //; apply: dot_lin.
Qed.
Lemma matvec2_lin a (M M' : seq (seq R)) n (x y z : nat -> R) k : (forall j, (j < n)%N -> z j = a * x j + y j) ->
  nth 0 (matvec M' (matvec M (mkseq z n))) k = a * nth 0 (matvec M' (matvec M (mkseq x n))) k + nth 0 (matvec M' (matvec M (mkseq y n))) k.
Proof.
move=> H; have [|_ _ ->] // := @matvec_lin a M' (matvec M (mkseq x n)) (matvec M (mkseq y n)) (matvec M (mkseq z n)).
apply: matvec_lin; split; rewrite ?size_mkseq // => j.
case: (ltnP j n) => hj; first by rewrite !nth_mkseq // H.
by rewrite !nth_default ?size_mkseq // mulr0 addr0.
Qed.
End Matvec.

Section Create.
Variables (R : rcfType) (d : nat) (eps : R) (inv : 'M[R]_d -> 'M[R]_d) (L : eqType) (BCV : Type).
Notation rmesh := (Premesh_model.mesh [zmodType of 'rV[R]_d] L).
Variables (refined : nodes1d R -> ierror + rmesh) (K : nat) (F : nat -> 'I_d -> tpoly R).
Hypothesis fam : mesh_family refined K F.
Variables (order : nat) (bcs : seq (L * (bctype * BCV))) (s : sem R d).
Variables (gp gv : nodes1d R) (rp rv : rmesh) (quad : quadrature1d R).
Hypothesis cf : created_facts eps inv K F order bcs s gp gv rp rv quad.
Let d0 : (0 < d)%N := mf_dim fam.
Let op : (0 < order - 1)%N. Proof. by rewrite subn_gt0 (cf_order cf). Qed.
Let vE := feE (ltn0Sn _) (cf_gv cf) (cf_vm cf).
Let pE := feE op (cf_gp cf) (cf_pm cf).
Let ok := facts_ok cf.
Let eK : num_elements (vm s) = K := fe_num (ltn0Sn _) (cf_gv cf) (cf_rv cf) (cf_vm cf).
Let eKp : num_elements (pm s) = K := fe_num op (cf_gp cf) (cf_rp cf) (cf_pm cf).
Let eN : m_per_element (vm s) = (order.+1 ^ d)%N. Proof. by have [] := vE. Qed.
Notation pr := (s_pressure s).
Notation vel := (s_velocity s).
Notation wq q := (nth 0 (getr (weights_nd quad d)) q).

(** Interpolation is exact on the polynomials of the space. *)
Lemma p_at_quad (f : tpoly R) (u : nat -> R) (q : nat) : tdeg d (order - 1) f -> (q < order.+1 ^ d)%N ->
  (forall k, (k < (order - 1) ^ d)%N -> u k = teval f (grid_point d gp k)) ->
  at_quad eps (pm s) (qd_nodes quad) u q = teval f (grid_point d (qd_nodes quad) q).
Proof.
move=> df hq H; have [_ _ per gE] := pE; have [np _ sz _ _] := created_grid op (cf_gp cf).
have [_ hqd sq] := quad_facts (ltn0Sn _) (cf_quad cf).
have e0 : nd_values (qd_nodes quad) != [::] by rewrite -size_eq0 sq.
have nl : node_list (pm s) u = [seq teval f x | x <- cart (nseq d (nd_values gp))].
  apply: (@eq_from_nth _ 0); first by rewrite size_node_list per size_map size_cart_nseq sz.
  move=> k; rewrite size_node_list per => hk; rewrite /node_list per (nth_map 0%N) ?size_iota // nth_iota // add0n H //.
  by rewrite (nth_map [::]) // size_cart_nseq sz.
have sx : size [seq teval f x | x <- cart (nseq d (nd_values gp))] = ((order - 1) ^ d)%N by rewrite size_map size_cart_nseq sz.
have [M hM e] := @C37_interpolate_matrix R eps d _ _ _ _ _ _ _ d0 op (ltn0Sn _) (cf_gp cf) hqd sx.
have [M' hM' [_ X]] := C35_tensor_exact op d0 (cf_gp cf) e0.
rewrite /at_quad nl gE e /=; move: hM'; rewrite hM => -[EM]; rewrite EM X // (nth_map [::]) //.
by rewrite size_cart_nseq sq.
Qed.
Definition tone : tpoly R := [:: (1, nseq d 1)].
Lemma tone_eval (x : seq R) : size x = d -> teval tone x = 1.
Proof. by move=> sx; rewrite /teval big_seq1 /= const_eval // mulr1. Qed.
Lemma tone_deg n : (0 < n)%N -> tdeg d n tone.
Proof.
move=> n0; rewrite /tdeg /= andbT size_nseq eqxx /=; apply/allP => p; rewrite mem_nseq => /andP[_ /eqP ->].
by rewrite size_poly1.
Qed.
Lemma size_point n t (g : nodes1d R) k : (0 < n)%N -> nodes1d_create R n t = inr g -> (k < n ^ d)%N -> size (grid_point d g k) = d.
Proof.
move=> n0 hg hk; have [_ _ sz _ _] := created_grid n0 hg.
by apply: (size_cart_mem (mem_nth _ _)); rewrite size_cart_nseq sz.
Qed.
Lemma gather_ones (e k : nat) : (e < K)%N -> (k < (order - 1) ^ d)%N -> gather_comp (pm s) (ones s) e k = 1.
Proof.
move=> he hk; have [x hx [e1 _]] := fe_index op (cf_gp cf) (cf_rp cf) (cf_pm cf) he hk.
have se := fe_rows op (cf_gp cf) (cf_rp cf) (cf_pm cf) he.
by rewrite /gather_comp /gather (nth_map 0) ?se // e1 /at_ /= nth_ones.
Qed.
(** The mean is the integral of the pressure by the quadrature. *)
Lemma mean_integral p : size p = np s ->
  mean eps s p = \sum_(e < K) \sum_(q < order.+1 ^ d)
    at_quad eps (pm s) (qd_nodes quad) (gather_comp (pm s) p e) q * fs_jacdets (p_space pr) e q * wq q.
Proof.
move=> sp; have [pm' pq pnq] := fs_basic (ltn0Sn _) (cf_quad cf) (cf_ps cf).
rewrite /mean (pmass_form _ ok sp (size_ones s)) /form_integral /integrate pq pnq pm' eKp sumlE.
apply: eq_bigr => e _; rewrite sumlE; apply: eq_bigr => q _; congr (_ * _ * _).
rewrite /pmass /arg /= /vval /comp /= /evalpoints pq pm'; rewrite -[RHS]mulr1; congr (_ * _); rewrite (p_at_quad (f := tone)) //.
- rewrite tone_eval //; exact: (proj1 (quad_points cf (ltn_ord q))).
- exact: tone_deg.
- by move=> k hk; rewrite gather_ones // tone_eval //; apply: size_point hk; last exact: (cf_gp cf).
Qed.
Lemma total_volume : (2 < order)%N -> mean eps s (ones s) =
  \sum_(e < K) \sum_(q < order.+1 ^ d) \det (jacobian_at (F e) (grid_point d (qd_nodes quad) q)) * wq q.
Proof.
move=> o2; rewrite mean_integral ?size_ones //; apply: eq_bigr => e _; apply: eq_bigr => q _.
rewrite (p_at_quad (f := tone)) //; first last.
- by move=> k hk; rewrite gather_ones // tone_eval //; apply: size_point hk; last exact: (cf_gp cf).
- exact: tone_deg.
rewrite tone_eval; last exact: (proj1 (quad_points cf (ltn_ord q))).
rewrite mul1r (fs_jac fam op (cf_gp cf) (cf_rp cf) (cf_pm cf) (ltn0Sn _) (cf_quad cf) (cf_ps cf)) //.
by rewrite ltn_subRL.
Qed.
Lemma total_gt0 : (2 < order)%N -> oriented_elements K F -> 0 < mean eps s (ones s).
Proof.
move=> o2 ori; rewrite total_volume //.
have T (e q : nat) : (e < K)%N -> (q < order.+1 ^ d)%N ->
    0 < \det (jacobian_at (F e) (grid_point d (qd_nodes quad) q)) * wq q.
  move=> he hq; have [sx bx] := quad_points cf hq; rewrite mulr_gt0 //; first exact: ori.
  exact: (weights_gt0 fam cf).
have q0 : (0 < order.+1 ^ d)%N by rewrite expn_gt0.
rewrite (bigD1 (Ordinal (mf_some fam))) //= (bigD1 (Ordinal q0)) //= -addrA; apply: ltr_paddr; last by apply: T => //; exact: (mf_some fam).
apply: addr_ge0; apply: sumr_ge0 => i _; first by apply/ltW; apply: T => //; exact: (mf_some fam).
by apply: sumr_ge0 => j _; apply/ltW/T.
Qed.

(** ** Order 2 *)
Lemma integrate_degenerate (w : nat -> nat -> R) : order = 2%N -> integrate (p_space pr) w = 0.
Proof.
move=> o2; have [pm' pq pnq] := fs_basic (ltn0Sn _) (cf_quad cf) (cf_ps cf).
rewrite /integrate pnq pm' eKp sumlE big1 // => e _; rewrite sumlE big1 // => q _.
rewrite (facts_degenerate fam cf) ?mulr0 ?mul0r //; case: q => q /=; by rewrite o2.
Qed.
Lemma covector_degenerate fm funs e n c : order = 2%N -> la_data (covector eps (p_space pr) fm funs) e n c = 0.
Proof.
move=> o2; rewrite /covector; case H : (local_covector _ _ _ _) => [//|b]; move: H; rewrite /local_covector.
case: eqP => // _; case: eqP => // _; case: eqP => // _; case: ifP => // _ [<-].
exact: integrate_degenerate.
Qed.
Lemma scatter0 m (b : nat -> nat -> R) : proper m -> (forall e k, b e k = 0) -> scatter_comp m b = nseq (nn (m : FES_model.mesh R d)) 0.
Proof.
move=> pm b0; apply: (@eq_from_nth _ 0); first by rewrite size_scatter_comp size_nseq.
move=> i; rewrite size_scatter_comp => hi; rewrite nth_scatter_comp // nth_nseq hi big1 // => e _.
by rewrite big1 // => k _; rewrite b0 mul0r.
Qed.
Lemma D_degenerate u : order = 2%N -> D eps s u = nseq (np s) 0.
Proof. by move=> o2; apply: scatter0; [exact: (ok_p ok)|move=> e k; apply: covector_degenerate]. Qed.
Lemma pB_degenerate p : order = 2%N -> p_B eps pr p = nseq (np s) 0.
Proof. by move=> o2; apply: scatter0; [exact: (ok_p ok)|move=> e k; apply: covector_degenerate]. Qed.

Lemma facts_weights : oriented_elements K F -> weights_ge0 s.
Proof.
move=> ori e k; have [_ vq vnq] := fs_basic (ltn0Sn _) (cf_quad cf) (cf_vs cf).
rewrite eK vnq vq => he hk; apply/ltW; exact: (mass_weight_gt0 fam cf).
Qed.

(** ** The filter *)
Lemma filter_localE low : nodes1d_create R order GAUSS_LOBATTO_LEGENDRE = inr low ->
  exists M M', forall (c : seq R) e n,
    filter_local eps (vm s) low c e n = nth 0 (matvec M' (matvec M (mkseq (gather_comp (vm s) c e) (order.+1 ^ d)))) n.
Proof.
move=> hl; have [_ _ _ gE] := vE.
have [M [M' [hM hM' _]]] := filter_oneE fam cf hl (size_nseq (order.+1 ^ d) 0).
exists M, M' => c e n; rewrite /filter_local gE eN.
have [N [N' [hN hN' ->]]] := filter_oneE fam cf hl (size_mkseq (gather_comp (vm s) c e) (order.+1 ^ d)).
by move: hN hN'; rewrite hM hM' => -[<-] [<-].
Qed.
(** Polynomials that agree on the lower grid are filtered to the same. *)
Lemma filter_one_agree low (f g : tpoly R) : nodes1d_create R order GAUSS_LOBATTO_LEGENDRE = inr low ->
  tdeg d order.+1 f -> tdeg d order g -> (forall k, (k < order ^ d)%N -> teval g (grid_point d low k) = teval f (grid_point d low k)) ->
  filter_one d eps gv low [seq teval f y | y <- cart (nseq d (nd_values gv))] = inr [seq teval g y | y <- cart (nseq d (nd_values gv))].
Proof.
move=> hl df dg H; have o0 : (0 < order)%N := ltnW (cf_order cf).
have [_ _ sz _ _] := created_grid o0 hl; have l0 : nd_values low != [::] by rewrite -size_eq0 sz -lt0n.
have [_ _ sv _ _] := created_grid (ltn0Sn _) (cf_gv cf); have v0 : nd_values gv != [::] by rewrite -size_eq0 sv.
have sx : size [seq teval f y | y <- cart (nseq d (nd_values gv))] = (order.+1 ^ d)%N by rewrite size_map size_cart_nseq sv.
have [M [M' [hM hM' ->]]] := filter_oneE fam cf hl sx.
have [N1 e1 [_ H1]] := C35_tensor_exact (ltn0Sn _) d0 (cf_gv cf) l0.
have [N2 e2 [_ H2]] := C35_tensor_exact o0 d0 hl v0.
move: e1 e2 H1 H2; rewrite hM hM' => -[<-] [<-] H1 H2; rewrite H1 //.
have -> : [seq teval f x | x <- cart (nseq d (nd_values low))] = [seq teval g x | x <- cart (nseq d (nd_values low))].
  apply: (@eq_from_nth _ 0); first by rewrite !size_map.
  by move=> k; rewrite size_map => hk; rewrite !(nth_map [::]) //; rewrite size_cart_nseq sz in hk; rewrite -[LHS]H.
by rewrite H2.
Qed.
End Create.
