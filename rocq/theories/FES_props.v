(** C38-C40: finite element spaces. *)
From mathcomp Require Import all_ssreflect all_algebra polyrcf zify ring.
From Verif Require Import PyDict_model PyDict_proofs GS_model Interp_model Interp_spec Lagrange_proofs Interp_proofs.
From Verif Require Import Interp_proofs2 Tensor_proofs Interp_props FES_model FES_proofs FES_proofs2.
Set Implicit Arguments.
Unset Strict Implicit.
Unset Printing Implicit Defensive.
Import Order.TTheory GRing.Theory Num.Theory.
Local Open Scope ring_scope.

Section Props.
Variables (R : rcfType) (d : nat) (eps : R) (inv : 'M[R]_d -> 'M[R]_d).
Notation mesh := (mesh R d).
Notation fespace := (fespace R d).
Implicit Types (m : mesh) (fs : fespace).

(** ** C38 *)
Theorem C38_linear fs a (w w' : nat -> nat -> R) :
  integrate fs (fun e q => a * w e q + w' e q) = a * integrate fs w + integrate fs w'.
Proof.
rewrite /integrate !sumlE mulr_sumr -big_split /=; apply: eq_bigr => e _.
rewrite !sumlE mulr_sumr -big_split /=; apply: eq_bigr => q _.
by rewrite !mulrDl !mulrA.
Qed.

(** The setting of the exactness theorems: created gridpoints (at least two per
    direction) and a created quadrature. *)
Definition standard m (quad : quadrature1d R) (fs : fespace) nq tq : Prop :=
  [/\ fespace_create eps inv m quad = inr fs, (0 < d)%N, (0 < nq)%N,
      quadrature_create R nq tq = inr quad &
      exists n t, (1 < n)%N /\ nodes1d_create R n t = inr (m_grid m)].

Lemma quad_facts n t (q : quadrature1d R) : (0 < n)%N -> quadrature_create R n t = inr q ->
  [/\ qd_num_points q = n, nodes1d_create R n t = inr (qd_nodes q) & size (nd_values (qd_nodes q)) = n].
Proof.
move=> n0; rewrite /quadrature_create; case E : (nodes1d_create R n t) => [|g] //.
have [np ty sz _ _] := created_grid n0 E; rewrite /quadrature_from_nodes np ty.
by case: t E {ty} => // E; case: ifP => // _ [<-].
Qed.

(** A space is created whenever the mesh has [n^d] nodes per element. *)
Theorem C38_creates m nq tq quad n t : (0 < d)%N -> (0 < n)%N -> (0 < nq)%N ->
  nodes1d_create R n t = inr (m_grid m) -> quadrature_create R nq tq = inr quad ->
  (exists fs, fespace_create eps inv m quad = inr fs) <-> m_per_element m = (n ^ d)%N.
Proof.
move=> d0 n0 nq0 hg hq; have [np _ sz _ _] := created_grid n0 hg.
have [qn qc qs] := quad_facts nq0 hq.
split=> [[fs] /fespace_createE[gs [_ + _ _ _]]|hN]; first by rewrite np.
have sx : size (node_list m (fun=> 0)) = (n ^ d)%N by rewrite size_node_list.
have [M _ ME] := C37_interpolate_matrix eps d0 n0 nq0 hg qc sx.
have e0 : nd_values (qd_nodes quad) != [::] by rewrite -size_eq0 qs -lt0n.
have [Ms HM _] := C35_gradient_exact n0 d0 hg e0.
by rewrite /fespace_create ME HM; eexists.
Qed.

Lemma standard_jac m quad fs nq tq e x0 B q : standard m quad fs nq tq -> parallelepiped m e x0 B ->
  (q < nq ^ d)%N -> fs_jacdets fs e q = \det B / 2%:R ^+ d.
Proof.
move=> [hf d0 nq0 hq [n [t [n1 hg]]]] hp hlt.
have [gs [H hN fm fq [_ [-> _]]]] := fespace_createE hf.
have [qn qc qs] := quad_facts nq0 hq; have [np _ _ _ _] := created_grid (ltnW n1) hg.
rewrite (para_jacobian n1 hg _ hp _ H) ?qs //; first by rewrite detZ exprVn mulrC.
  by rewrite hN np.
by rewrite -size_eq0 qs -lt0n.
Qed.

(** On a mesh of parallelepipeds, integrating 1 gives the sum of the (signed)
    volumes: the determinants of the edge vectors. *)
Theorem C38_volume m quad fs nq tq x0 B : standard m quad fs nq tq ->
  (forall e, (e < num_elements m)%N -> parallelepiped m e (x0 e) (B e)) ->
  integrate fs (fun _ _ => 1) = \sum_(e < num_elements m) \det (B e).
Proof.
move=> st hp; have [hf d0 nq0 hq [n [t [n1 hg]]]] := st.
have [gs [_ _ fm fq _]] := fespace_createE hf.
have [qn qc qs] := quad_facts nq0 hq.
have [w wE [wp ws _]] := C36_weights_nd d0 nq0 hq.
rewrite /integrate fm fq wE [getr _]/= sumlE; apply: eq_bigr => e _.
have [sw _ _ _] := C36_exact nq0 hq.
have sz : size w = (nq ^ d)%N by rewrite wp size_map size_cart_nseq sw.
rewrite sumlE /num_quad fq qn -sz.
transitivity (\det (B e) / 2%:R ^+ d * \sum_(q < size w) nth 0 w q).
  rewrite mulr_sumr; apply: eq_bigr => q _.
  by rewrite (standard_jac st (hp _ (ltn_ord e))) ?mul1r // -sz.
have -> : \sum_(q < size w) nth 0 w q = 2%:R ^+ d by rewrite -ws foldr_sum (big_nth 0) big_mkord.
by rewrite divfK // expf_neq0 // pnatr_eq0.
Qed.

(** More generally, integrands that on each element are sums of products of
    polynomials (in reference coordinates) within the degree of the quadrature. *)
Theorem C38_polynomials m quad fs nq tq x0 B (f : nat -> tpoly R) : standard m quad fs nq tq ->
  (forall e, (e < num_elements m)%N -> parallelepiped m e (x0 e) (B e)) ->
  (forall e, (e < num_elements m)%N -> tdeg d (exactness tq nq) (f e)) ->
  integrate fs (fun e q => teval (f e) (nth [::] (cart (nseq d (nd_values (qd_nodes quad)))) q)) =
  \sum_(e < num_elements m) (\det (B e) / 2%:R ^+ d) * \sum_(u <- f e) u.1 * \prod_(p <- u.2) integral p.
Proof.
move=> st hp hdeg; have [hf d0 nq0 hq [n [t [n1 hg]]]] := st.
have [gs [_ _ fm fq _]] := fespace_createE hf.
have [qn qc qs] := quad_facts nq0 hq.
have [w wE [wp _ wx]] := C36_weights_nd d0 nq0 hq.
have [sw _ _ _] := C36_exact nq0 hq.
have sz : size w = (nq ^ d)%N by rewrite wp size_map size_cart_nseq sw.
rewrite /integrate fm fq wE [getr _]/= sumlE; apply: eq_bigr => e _.
rewrite -(wx _ (hdeg _ (ltn_ord e))) dotE ?size_map ?size_cart_nseq ?qs // sumlE /num_quad fq qn -sz mulr_sumr.
apply: eq_bigr => q _; have hlt : (q < nq ^ d)%N by rewrite -sz.
rewrite (standard_jac st (hp _ (ltn_ord e))) // (nth_map [::]) ?size_cart_nseq ?qs //.
by rewrite mulrAC mulrC [_ * teval _ _]mulrC mulrC.
Qed.

(** The stored quadrature coordinates of a parallelepiped are the images of the
    reference quadrature points. *)
Theorem C38_quad_coords m quad fs nq tq e x0 B q : standard m quad fs nq tq ->
  parallelepiped m e x0 B -> (q < nq ^ d)%N ->
  fs_quad_coords fs e q = x0 + \sum_i ((1 + ref_point d (qd_nodes quad) q 0 i) / 2%:R) *: row i B.
Proof.
move=> [hf d0 nq0 hq [n [t [n1 hg]]]] hp hlt; have n0 := ltnW n1.
have [gs [_ hN fm fq [_ [_ ->]]]] := fespace_createE hf.
have [qn qc qs] := quad_facts nq0 hq; have [np _ sz _ _] := created_grid n0 hg.
have e0 : nd_values (qd_nodes quad) != [::] by rewrite -size_eq0 qs -lt0n.
apply/rowP => j; rewrite mxE /at_quad (para_coords _ n0 hg _ hp) ?hN ?np //.
have sx : size [seq teval (para_poly x0 B j) x | x <- cart (nseq d (nd_values (m_grid m)))] = (n ^ d)%N.
  by rewrite size_map size_cart_nseq sz.
have [M HM ->] := C37_interpolate_matrix eps d0 n0 nq0 hg qc sx.
have [M' HM' [_ ex]] := C35_tensor_exact n0 d0 hg e0.
move: HM'; rewrite HM => -[ME]; rewrite /= ME ex ?aff_deg //.
rewrite (nth_map [::]) ?size_cart_nseq ?qs // aff_eval; last first.
  by apply: (@size_cart_mem _ _ (nd_values (qd_nodes quad))); rewrite mem_nth // size_cart_nseq qs.
rewrite mxE summxE -addrA; congr (_ + _); rewrite -big_split; apply: eq_bigr => i _ /=.
symmetry; rewrite !mxE valK mulrDl mul1r mulrDl; congr (_ + _); first by rewrite mulrC.
by rewrite mulrAC [_ * B i j]mulrC mulrAC.
Qed.

(** Integration does not depend on the order of the elements: integrands that
    are computed from the element's row of node numbers (coordinates, gathered
    nodal values). *)
Theorem C38_element_order m m' quad fs fs' (g : seq int -> nat -> R) :
  fespace_create eps inv m quad = inr fs -> fespace_create eps inv m' quad = inr fs' ->
  m_coords m' = m_coords m -> m_grid m' = m_grid m -> perm_eq (m_elements m) (m_elements m') ->
  integrate fs (fun e q => g (nth [::] (m_elements m) e) q) =
  integrate fs' (fun e q => g (nth [::] (m_elements m') e) q).
Proof.
move=> /fespace_createE[gs [H hN fm fq [_ [fd _]]]] /fespace_createE[gs' [H' hN' fm' fq' [_ [fd' _]]]] ec eg pe.
have gE : gs' = gs by move: H'; rewrite eg H => -[].
pose jac (el : seq int) q : 'M[R]_d := \matrix_(i, j) suml (m_per_element m)
  (fun n => nth 0 (gather 0 (m_coords m) el) n 0 j * nth 0 (nth [::] (nth [::] gs i) q) n).
pose G (el : seq int) : R := suml (num_quad fs) (fun q =>
  g el q * \det (jac el q) * nth 0 (getr (weights_nd quad d)) q).
have E1 : integrate fs (fun e q => g (nth [::] (m_elements m) e) q) = \sum_(el <- m_elements m) G el.
  rewrite /integrate sumlE fm (big_nth [::]) big_mkord; apply: eq_bigr => e _.
  by apply: eq_suml => q _; rewrite fq fd.
have E2 : integrate fs' (fun e q => g (nth [::] (m_elements m') e) q) = \sum_(el <- m_elements m') G el.
  rewrite /integrate sumlE fm' (big_nth [::]) big_mkord; apply: eq_bigr => e _.
  rewrite /num_quad fq' /G /num_quad fq; apply: eq_suml => q _.
  by rewrite fd' /jacobian /element_coords ec gE hN' eg -hN.
by rewrite E1 E2 (perm_big _ pe).
Qed.

(** Padding elements (all node numbers -1) contribute nothing, but their
    Jacobian is the zero matrix, of which [create] takes the inverse. *)
Theorem C38_padding m quad fs e q : fespace_create eps inv m quad = inr fs -> (0 < d)%N ->
  nth [::] (m_elements m) e = nseq (m_per_element m) SENT ->
  fs_jacdets fs e q = 0 /\ fs_invjacs fs e q = inv 0.
Proof.
move=> /fespace_createE[gs [H hN fm fq [fi [fd _]]]] d0 pad.
have J0 : jacobian m gs e q = 0.
  apply/matrixP => i j; rewrite !mxE sumlE big1 // => n _.
  rewrite /element_coords pad /gather map_nseq nth_nseq ltn_ord /= mxE mul0r //.
by rewrite fi fd J0 -[in \det _](scale0r (1%:M : 'M[R]_d)) detZ expr0n (gtn_eqF d0) mul0r.
Qed.

(** ** C39 *)
Section Gradients.
(** [jnp.linalg.inv] inverts invertible matrices. *)
Hypothesis inv_ok : forall J : 'M[R]_d, J \in unitmx -> inv J = invmx J.

Theorem C39_linear fs e a (u v : nat -> R) q j :
  nth 0 (phys_grad fs e (fun n => a * u n + v n) q) j =
  a * nth 0 (phys_grad fs e u q) j + nth 0 (phys_grad fs e v q) j.
Proof. exact: phys_grad_linear. Qed.

Theorem C39_coordinates m quad fs e q (j : 'I_d) : fespace_create eps inv m quad = inr fs ->
  fs_jacdets fs e q != 0 ->
  phys_grad fs e (fun n => element_coords m e n 0 j) q = [seq (k == j)%:R | k <- enum 'I_d].
Proof. exact: phys_grad_coord. Qed.

(** The chain rule: the reference derivatives are the Jacobian times the
    physical gradient. *)
Theorem C39_chain_rule m quad fs e q u (i : 'I_d) : fespace_create eps inv m quad = inr fs ->
  fs_jacdets fs e q != 0 ->
  \sum_(j < d) ref_grad m (qd_nodes quad) (fun n => element_coords m e n 0 j) q i * nth 0 (phys_grad fs e u q) j =
  ref_grad m (qd_nodes quad) u q i.
Proof. exact: chain_rule. Qed.

Theorem C39_constant m quad fs nq tq e q c : standard m quad fs nq tq -> (q < nq ^ d)%N ->
  phys_grad fs e (fun=> c) q = nseq d 0.
Proof.
move=> [hf d0 nq0 hq [n [t [n1 hg]]]] hlt; have n0 := ltnW n1.
have [gs [H hN fm fq _]] := fespace_createE hf.
have [qn qc qs] := quad_facts nq0 hq; have [np _ sz _ _] := created_grid n0 hg.
have e0 : nd_values (qd_nodes quad) != [::] by rewrite -size_eq0 qs -lt0n.
apply: (@eq_from_nth _ 0) => [|k]; rewrite size_phys_grad ?size_nseq // => hk.
rewrite nth_nseq hk -[k]/(nat_of_ord (Ordinal hk)) nth_phys_grad big1 // => i _.
rewrite /evalpoints fm fq /ref_grad.
have -> : node_list m (fun=> c) = [seq teval (aff d c (fun=> 0)) x | x <- cart (nseq d (nd_values (m_grid m)))].
  apply: (@eq_from_nth _ 0) => [|j]; first by rewrite !size_map size_iota size_cart_nseq sz hN np.
  rewrite size_node_list => hj; rewrite (nth_map 0%N) ?size_iota //.
  have hj' : (j < size (cart (nseq d (nd_values (m_grid m)))))%N by rewrite size_cart_nseq sz -np -hN.
  rewrite (nth_map [::]) // aff_eval ?(size_cart_mem (mem_nth _ hj')) // big1 ?addr0 // => k' _.
  by rewrite mul0r.
rewrite (C35_interpolate_grad n0 d0 hg e0 (aff_deg d _ _ n1)) /=.
rewrite (nth_map 0%N) ?size_iota // nth_iota // add0n (nth_map [::]) ?size_cart_nseq ?qs //.
rewrite aff_deriv ?mul0r //; apply: (@size_cart_mem _ _ (nd_values (qd_nodes quad))).
by rewrite mem_nth // size_cart_nseq qs.
Qed.

(** On every element with invertible Jacobian, also a curved one, the gradient of
    an affine function of the coordinates is its slope. *)
Theorem C39_affine m quad fs nq tq e q c (s : 'rV[R]_d) : standard m quad fs nq tq ->
  (q < nq ^ d)%N -> fs_jacdets fs e q != 0 ->
  phys_grad fs e (fun n => c + \sum_j s 0 j * element_coords m e n 0 j) q = [seq s 0 j | j <- enum 'I_d].
Proof.
move=> st hlt J0; have [hf _ _ _ _] := st.
apply: (@eq_from_nth _ 0) => [|k]; rewrite size_phys_grad; first by rewrite size_map size_enum_ord.
move=> hk; rewrite [RHS](nth_map (Ordinal hk)) ?size_enum_ord //.
rewrite -[k in nth _ (enum _) k]/(nat_of_ord (Ordinal hk)) nth_ord_enum.
have H (l : seq 'I_d) : nth 0 (phys_grad fs e (fun n => c + \sum_(j <- l) s 0 j * element_coords m e n 0 j) q) k =
    \sum_(j <- l) s 0 j * (Ordinal hk == j)%:R.
  elim: l => [|j l IH].
    rewrite big_nil (@phys_grad_ext _ _ fs e _ (fun=> c)) => [|n _]; last by rewrite big_nil addr0.
    by rewrite (C39_constant _ _ st hlt) nth_nseq hk.
  rewrite big_cons -IH (@phys_grad_ext _ _ fs e _ (fun n => s 0 j * element_coords m e n 0 j +
    (c + \sum_(j <- l) s 0 j * element_coords m e n 0 j))) => [|n _]; last by rewrite big_cons addrCA.
  rewrite phys_grad_linear (C39_coordinates _ hf J0) (nth_map j) ?size_enum_ord //.
  by rewrite -[k in nth _ (enum _) k]/(nat_of_ord (Ordinal hk)) nth_ord_enum.
rewrite H (bigD1 (Ordinal hk)) //= eqxx mulr1 big1 ?addr0 // => j jk.
by rewrite eq_sym (negbTE jk) mulr0.
Qed.

(** The gradient of the coordinate vector field is the identity matrix: row [j]
    of the listed gradient holds the derivatives in direction [j]. *)
Theorem C39_vector_identity m quad fs e q (a : larray R) : fespace_create eps inv m quad = inr fs ->
  fs_jacdets fs e q != 0 ->
  (forall n (c : 'I_d), la_data a e n c = element_coords m e n 0 c) ->
  grad_list fs a d e q = flatten [seq [seq (j == c)%:R | c <- iota 0 d] | j <- iota 0 d].
Proof.
move=> hf J0 ha; rewrite /grad_list; congr flatten; apply/eq_in_map => j.
rewrite mem_iota add0n => /andP[_ hj]; apply/eq_in_map => c; rewrite mem_iota add0n => /andP[_ hc].
rewrite (@phys_grad_ext _ _ fs e _ (fun n => element_coords m e n 0 (Ordinal hc))) => [|n _]; last exact: (ha n (Ordinal hc)).
rewrite (C39_coordinates _ hf J0) (nth_map (Ordinal hc)) ?size_enum_ord //.
by rewrite -[j in nth _ (enum _) j]/(nat_of_ord (Ordinal hj)) nth_ord_enum.
Qed.
End Gradients.
End Props.
