(** Quadrature weights are positive; affine elements; the representation of
    linear forms. *)
From mathcomp Require Import all_ssreflect all_algebra polyrcf zify ring.
From Verif Require Import PyDict_model PyDict_proofs GS_model Interp_model Interp_spec Lagrange_proofs Interp_proofs.
From Verif Require Import Legendre_proofs Gauss_proofs Gauss_proofs2 Interp_proofs2 Tensor_proofs Interp_props FES_model FES_proofs.
Set Implicit Arguments.
Unset Strict Implicit.
Unset Printing Implicit Defensive.
Import Order.TTheory GRing.Theory Num.Theory.
Local Open Scope ring_scope.

Section Positive.
Variable R : rcfType.

Lemma weights_pos n t (q : quadrature1d R) : (0 < n)%N -> quadrature_create R n t = inr q ->
  all (fun w => 0 < w) (qd_weights q).
Proof.
move=> n0; case: t => //.
- case: n n0 => [|[|n]] // _ [<-].
  have h : 0 < 1 / (n.+2%:R - 1) :> R by rewrite mul1r invr_gt0 subr_gt0 ltr1n.
  apply/allP => w /mapP[c + ->]; rewrite pmulr_rgt0 // inE mem_cat inE => /or3P[/eqP->|/nseqP[->]|/eqP->] //.
  - by rewrite ltr01.
  - by move=> _; rewrite ltr0n.
  - by rewrite ltr01.
- rewrite /quadrature_create /= (gtn_eqF n0) /quadrature_from_nodes /= (gtn_eqF n0) => -[<-] /=.
  rewrite gl_weights //; apply/allP => w /mapP[k]; rewrite mem_iota add0n => /andP[_ hk] ->.
  rewrite gl_lam // divr_gt0 ?ltr0n // mulr_gt0 ?gl_1mx2 //.
  by rewrite lt_def sqr_ge0 expf_neq0 // gl_deriv_neq0.
case: n n0 => [|[|N]] // _; rewrite gll_quadrature => -[<-]; change (is_true (all (fun w => 0 < w) (gll_weights N.+2 (gll_nodes R N)))).
apply/allP => w /(nthP 0)[k]; rewrite size_map gll_size => hk <-.
rewrite (nth_map 0) ?gll_size // divr_gt0 ?divr_gt0 ?ltr0n ?muln_gt0 ?subn_gt0 //.
by rewrite lt_def sqr_ge0 expf_neq0 // gll_P_neq0.
Qed.

Lemma weights_nd_pos d n t (q : quadrature1d R) w : (0 < n)%N -> quadrature_create R n t = inr q ->
  weights_nd q d = inr w -> all (fun x => 0 < x) w.
Proof.
move=> n0 hq; have /allP hw := weights_pos n0 hq.
case: d => // d; rewrite /weights_nd [nseq d.+1 _]/= reduce_outer => E.
have -> : w = outers (nseq d.+1 (qd_weights q)) by case: E.
rewrite outersE; apply/allP => x /mapP[c hc ->].
have: all (fun y => 0 < y) c.
  move: hc; rewrite mem_cart; move: (d.+1) => k.
  by elim: c k => [|y c IH] [|k] //= /andP[/hw -> /IH].
by elim: c {hc} => [|y c IH] /=; rewrite ?big_nil ?big_cons ?ltr01 // => /andP[y0 /IH]; apply: mulr_gt0.
Qed.
End Positive.

Section Affine.
Variables (R : rcfType) (d : nat) (eps : R) (inv : 'M[R]_d -> 'M[R]_d).

(** Reference coordinates of point number [n] of the tensor-product grid. *)
Definition ref_point (g : nodes1d R) (n : nat) : 'rV[R]_d :=
  \row_i nth 0 (nth [::] (cart (nseq d (nd_values g))) n) i.
(** Element [e] is the parallelepiped with corner [x0] and edge vectors the rows
    of [B]: the reference point [xi] sits at [x0 + sum_i (1 + xi_i)/2 B_i]. *)
Definition parallelepiped (m : mesh R d) (e : nat) (x0 : 'rV[R]_d) (B : 'M[R]_d) : Prop :=
  forall n, (n < m_per_element m)%N ->
    element_coords m e n = x0 + \sum_i ((1 + ref_point (m_grid m) n 0 i) / 2%:R) *: row i B.

Lemma size_cart_mem (xs : seq R) c : c \in cart (nseq d xs) -> size c = d.
Proof. by move/size_mem_cart; rewrite size_nseq. Qed.

(** The coordinates of a parallelepiped as a sum of products. *)
Definition para_poly (x0 : 'rV[R]_d) (B : 'M[R]_d) (j : 'I_d) : tpoly R :=
  aff d (x0 0 j + \sum_i B i j / 2%:R) (fun i => if insub i is Some i' then B i' j / 2%:R else 0).

Lemma para_coords m e x0 B n t (j : 'I_d) : (0 < n)%N -> nodes1d_create R n t = inr (m_grid m) ->
  m_per_element m = (n ^ d)%N -> parallelepiped m e x0 B ->
  node_list m (fun k => element_coords m e k 0 j) = [seq teval (para_poly x0 B j) x | x <- cart (nseq d (nd_values (m_grid m)))].
Proof.
move=> n0 hg hN hp; have [np _ sz _ _] := created_grid n0 hg.
apply: (@eq_from_nth _ 0) => [|k]; first by rewrite !size_map size_iota size_cart_nseq sz.
rewrite size_node_list => hk; rewrite (nth_map 0%N) ?size_iota // nth_iota // add0n.
have hk' : (k < size (cart (nseq d (nd_values (m_grid m)))))%N by rewrite size_cart_nseq sz -hN.
rewrite (nth_map [::]) // aff_eval ?(size_cart_mem (mem_nth _ hk')) // hp // mxE summxE -addrA; congr (_ + _).
rewrite -big_split /=; apply: eq_bigr => i _.
rewrite !mxE valK mulrDl mul1r mulrDl; congr (_ + _); first by rewrite mulrC.
by rewrite mulrAC [_ * B i j]mulrC mulrAC.
Qed.

Lemma para_jacobian m e x0 B n t ev gs q : (1 < n)%N -> nodes1d_create R n t = inr (m_grid m) ->
  m_per_element m = (n ^ d)%N -> parallelepiped m e x0 B -> nd_values ev != [::] ->
  interpolation_matrix_grad d (m_grid m) ev = inr gs -> (q < size (nd_values ev) ^ d)%N ->
  jacobian m gs e q = 2%:R^-1 *: B.
Proof.
move=> n1 hg hN hp e0 H hq; have n0 := ltnW n1; have [np _ sz _ _] := created_grid n0 hg.
case: (posnP d) => [d0|d0]; first by apply/matrixP => i; have := ltn_ord i; rewrite [X in (_ < X)%N]d0.
apply/matrixP => i j; rewrite (jacobianE e q i j _ H) ?np // mxE mulrC.
rewrite /ref_grad (para_coords _ n0 hg hN hp).
rewrite (C35_interpolate_grad n0 d0 hg e0 (aff_deg d _ _ n1)) /=.
rewrite (nth_map 0%N) ?size_iota // nth_iota // add0n (nth_map [::]) ?size_cart_nseq //.
rewrite aff_deriv ?valK //; apply: size_cart_mem; apply: mem_nth; by rewrite size_cart_nseq.
Qed.
End Affine.
