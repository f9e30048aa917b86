(** Facts about what [sem_create] makes. *)
From mathcomp Require Import all_ssreflect all_algebra polyrcf zify ring.
From Verif Require Import PyDict_model PyDict_proofs GS_model GS_proofs GS_props Interp_model Interp_spec.
From Verif Require Import Gauss_proofs2 Interp_proofs2 Tensor_proofs Interp_props FES_model FES_proofs FES_proofs2 FES_props FES_props2 Premesh_model.
From Verif Require Import CG_model CG_proofs CG_props TimeCoef_model Stokes_model Stokes_spec Stokes_proofs Stokes_proofs2 Stokes_proofs3.
Set Implicit Arguments.
Unset Strict Implicit.
Unset Printing Implicit Defensive.
Import Order.TTheory GRing.Theory Num.Theory.
Local Open Scope ring_scope.

Lemma ibindP (A B : Type) (x : ierror + A) (f : A -> serror + B) b : ibind x f = inr b -> exists2 a, x = inr a & f a = inr b.
Proof. by case: x => //= a e; exists a. Qed.
Lemma sbindP (A B : Type) (x : serror + A) (f : A -> serror + B) b : sbind x f = inr b -> exists2 a, x = inr a & f a = inr b.
Proof. by case: x => //= a e; exists a. Qed.

Section Create.
Variables (R : rcfType) (d : nat) (eps : R) (inv : 'M[R]_d -> 'M[R]_d) (L : eqType) (BCV : Type).
Notation rmesh := (Premesh_model.mesh [zmodType of 'rV[R]_d] L).
Variables (refined : nodes1d R -> ierror + rmesh) (K : nat) (F : nat -> 'I_d -> tpoly R).
Hypothesis fam : mesh_family refined K F.
Let d0 : (0 < d)%N := mf_dim fam.

(** ** One mesh *)
Section OneMesh.
Variables (n : nat) (t : node_type) (g : nodes1d R) (rm : rmesh) (m : FES_model.mesh R d).
Hypotheses (n0 : (0 < n)%N) (hg : nodes1d_create R n t = inr g) (mo : mesh_on K F n g rm) (hm : fe_mesh rm g = inr m).

Lemma feE : [/\ FES_model.m_coords m = m_coords rm, FES_model.m_elements m = m_elements rm, m_per_element m = (n ^ d)%N & m_grid m = g].
Proof.
have [np _ _ _ _] := created_grid n0 hg.
by move: hm; rewrite /fe_mesh /mesh_create np; case: eqP => // e [<-].
Qed.
Lemma fe_num : num_elements m = K.
Proof. by have [_ e _ _] := feE; rewrite /num_elements e (mo_elements mo). Qed.
Lemma fe_index e k : (e < K)%N -> (k < n ^ d)%N ->
  exists2 x, (x < size (FES_model.m_coords m))%N &
    nth 0 (nth [::] (FES_model.m_elements m) e) k = Posz x /\
    nth 0 (FES_model.m_coords m) x = \row_j teval (F e j) (grid_point d g k).
Proof. by have [-> -> _ _] := feE; apply: mo_nodes. Qed.
Lemma fe_rows e : (e < K)%N -> size (nth [::] (FES_model.m_elements m) e) = (n ^ d)%N.
Proof.
have [_ -> _ _] := feE => he; apply/eqP; apply: (allP (mo_rows mo)); apply: mem_nth; by rewrite (mo_elements mo).
Qed.
Lemma fe_entry z : z \in flatten (FES_model.m_elements m) -> exists2 x, (x < size (FES_model.m_coords m))%N & z = Posz x.
Proof.
case/flattenP => el /(nthP [::])[e] he <- /(nthP 0)[k hk <-].
have he' : (e < K)%N by rewrite -fe_num.
by rewrite fe_rows // in hk; have [x hx [e1 _]] := fe_index he' hk; exists x.
Qed.
Lemma fe_proper : proper m.
Proof.
have [_ eE per _] := feE; split; first by rewrite eE per; exact: (mo_rows mo).
move=> i hi; right; have [x hx e] := fe_entry (mem_nth 0 hi); by exists x.
Qed.
Lemma fe_coords e k : (e < K)%N -> (k < n ^ d)%N -> FES_model.element_coords m e k = \row_j teval (F e j) (grid_point d g k).
Proof.
move=> he hk; have [x hx [e1 e2]] := fe_index he hk.
by rewrite /FES_model.element_coords /gather (nth_map 0) ?fe_rows // e1 /at_ /=.
Qed.
Lemma fe_node_list e j : (e < K)%N ->
  node_list m (fun k => FES_model.element_coords m e k 0 j) = [seq teval (F e j) x | x <- cart (nseq d (nd_values g))].
Proof.
move=> he; have [_ _ per _] := feE; have [_ _ sz _ _] := created_grid n0 hg.
apply: (@eq_from_nth _ 0) => [|k]; first by rewrite !size_map size_iota size_cart_nseq sz per.
rewrite size_node_list per => hk; rewrite (nth_map 0%N) ?size_iota ?per // nth_iota // add0n.
by rewrite fe_coords // mxE (nth_map [::]) // size_cart_nseq sz.
Qed.
Lemma tdeg_le k k' (f : tpoly R) : (k <= k')%N -> tdeg d k f -> tdeg d k' f.
Proof.
move=> le /allP H; apply/allP => x /H /andP[-> /allP H'] /=; apply/allP => p /H' sp; exact: leq_trans sp le.
Qed.

Section Space.
Variables (nq : nat) (tq : node_type) (quad : quadrature1d R) (fs : fespace R d).
Hypotheses (nq0 : (0 < nq)%N) (hq : quadrature_create R nq tq = inr quad) (hf : fespace_create eps inv m quad = inr fs).
Lemma fs_basic : [/\ fs_mesh fs = m, fs_quad fs = quad & num_quad fs = (nq ^ d)%N].
Proof.
have [gs [_ _ -> e _]] := fespace_createE hf; split=> //; rewrite /num_quad e.
by have [-> _ _] := quad_facts nq0 hq.
Qed.
Lemma fs_jac e q : (1 < n)%N -> (e < K)%N -> (q < nq ^ d)%N ->
  fs_jacdets fs e q = \det (jacobian_at (F e) (grid_point d (qd_nodes quad) q)).
Proof.
move=> n1 he hlt; have [gs [H hN _ _ [_ [-> _]]]] := fespace_createE hf.
have [qn _ sq] := quad_facts nq0 hq; have [_ _ per gE] := feE.
congr (\det _); apply/matrixP => i j; rewrite (jacobianE e q i j hN H) mxE.
rewrite /ref_grad fe_node_list // gE.
rewrite (C35_interpolate_grad n0 d0 hg _ (tdeg_le n1 (mf_multilinear fam j he))) /=; last by rewrite -size_eq0 sq -lt0n.
by rewrite (nth_map 0%N) ?size_iota // nth_iota // (nth_map [::]) // size_cart_nseq sq.
Qed.
(** One gridpoint per axis: all coordinates of an element are equal. *)
Lemma fs_jac1 e q : n = 1%N -> (e < K)%N -> (q < nq ^ d)%N -> fs_jacdets fs e q = 0.
Proof.
move=> n1 he hlt; have [gs [H hN _ _ [_ [-> _]]]] := fespace_createE hf.
have [qn _ sq] := quad_facts nq0 hq; have [_ _ per gE] := feE.
suff -> : jacobian m gs e q = 0%:M by rewrite det_scalar expr0n (gtn_eqF d0).
rewrite raddf0.
apply/matrixP => i j; rewrite (jacobianE e q i j hN H) mxE.
pose c := FES_model.element_coords m e 0 0 j.
rewrite (@ref_grad_ext _ _ m (qd_nodes quad) _ (fun=> c)) => [|k]; last by rewrite per n1 exp1n; case: k.
rewrite /ref_grad (_ : node_list m _ = [seq teval [:: (c, nseq d 1)] x | x <- cart (nseq d (nd_values g))]); last first.
  have [_ _ sz _ _] := created_grid n0 hg.
  apply: (@eq_from_nth _ 0) => [|k]; first by rewrite !size_map size_iota size_cart_nseq sz per.
  rewrite size_node_list per => hk; rewrite (nth_map 0%N) ?size_iota ?per // (nth_map [::]) ?size_cart_nseq ?sz //.
  by rewrite /teval big_seq1 /= const_eval ?mulr1 //; apply: size_cart_mem; apply: mem_nth; rewrite size_cart_nseq sz.
rewrite gE (C35_interpolate_grad n0 d0 hg) /=; last 2 first.
- by rewrite -size_eq0 sq -lt0n.
- by rewrite /tdeg /= size_nseq eqxx all_nseq size_poly1 n0 orbT.
rewrite (nth_map 0%N) ?size_iota // nth_iota // (nth_map [::]) ?size_cart_nseq ?sq //.
rewrite /teval /tderiv /= big_seq1 /= prod_zip; last first.
  rewrite size_map size_iota size_nseq; apply/esym; apply: size_cart_mem; apply: mem_nth; by rewrite size_cart_nseq sq.
set x := nth _ _ _; have sx : size x = d by apply: size_cart_mem; apply: mem_nth; rewrite size_cart_nseq sq.
rewrite sx (bigD1 i) //= (nth_map 0%N) ?size_iota ?size_nseq // nth_iota ?size_nseq // add0n eqxx nth_nseq ltn_ord.
by rewrite derivC horner0 mul0r mulr0.
Qed.
End Space.
End OneMesh.

(** ** Created instances *)
Notation create := (sem_create eps inv refined).
Variables (o order overint : nat) (bcs : seq (L * (bctype * BCV))) (s : sem R d).
Hypothesis hs : create o order bcs overint = inr s.

Lemma sem_createE : exists gp gv rp rv quad og oquad,
  [/\ o = 1%N, (1 < order)%N,
      nodes1d_create R (order - 1) GAUSS_LEGENDRE = inr gp & nodes1d_create R order.+1 GAUSS_LOBATTO_LEGENDRE = inr gv] /\
  [/\ refined gp = inr rp, refined gv = inr rv, fe_mesh rp gp = inr (pm s), fe_mesh rv gv = inr (vm s) &
      quadrature_create R order.+1 GAUSS_LOBATTO_LEGENDRE = inr quad] /\
  [/\ fespace_create eps inv (pm s) quad = inr (p_space (s_pressure s)),
      fespace_create eps inv (vm s) quad = inr (v_space (s_velocity s)),
      nodes1d_create R (order.+1 + overint) GAUSS_LOBATTO_LEGENDRE = inr og,
      quadrature_from_nodes og = inr oquad & fespace_create eps inv (vm s) oquad = inr (v_overint (s_velocity s))] /\
  [/\ dirichlet_bc R (nv s) (m_masks rv) bcs = inr (v_mask (s_velocity s)),
      v_qqt (s_velocity s) = scatter_comp (vm s) (fun _ _ => 1),
      (p_gi (s_pressure s) = m_gi rp) /\ (p_ui (s_pressure s) = m_ui rp),
      (v_gi (s_velocity s) = m_gi rv) /\ (v_ui (s_velocity s) = m_ui rv) &
      s_mass s = v_scatter (s_velocity s) (B_local eps (s_velocity s) (ones_local (s_velocity s)))].
Proof.
move: hs; rewrite /sem_create; case: ifP => // /negbFE/eqP ->.
move=> hh; have [quad hq {}hh] := ibindP hh; move: hh; cbv beta.
move=> hh; have [pr hp {}hh] := sbindP hh; move: hh; cbv beta.
move=> hh; have [v hv {}hh] := sbindP hh; move: hh => [<-]; move: hp; rewrite /pressure_create.
move=> hh; have [gp hgp {}hh] := ibindP hh; move: hh; cbv beta.
move=> hh; have [rp hrp {}hh] := ibindP hh; move: hh; cbv beta.
move=> hh; have [mp hmp {}hh] := ibindP hh; move: hh; cbv beta.
move=> hh; have [fp hfp {}hh] := ibindP hh; move: hh; cbv beta.
case=> <-; move: hv; rewrite /velocity_create.
move=> hh; have [gv hgv {}hh] := ibindP hh; move: hh; cbv beta.
move=> hh; have [rv hrv {}hh] := ibindP hh; move: hh; cbv beta.
move=> hh; have [mv hmv {}hh] := ibindP hh; move: hh; cbv beta.
move=> hh; have [qv hqv {}hh] := ibindP hh; move: hh; cbv beta.
move=> hh; have [fv hfv {}hh] := ibindP hh; move: hh; cbv beta.
move=> hh; have [mask hmask {}hh] := sbindP hh; move: hh; cbv beta.
move=> hh; have [og hog {}hh] := ibindP hh; move: hh; cbv beta.
move=> hh; have [oq hoq {}hh] := ibindP hh; move: hh; cbv beta.
move=> hh; have [fo hof {}hh] := ibindP hh; move: hh; cbv beta.
case=> <-.
have o1 : (1 < order)%N by move: hgp; case: (order) => [|[|]].
have [npv _ _ _ _] := created_grid (ltn0Sn _) hgv.
have eq : qv = quad by move: hq; rewrite /quadrature_create hgv hqv => -[].
rewrite npv in hog; rewrite eq in hfv.
have em : fs_mesh fv = mv by have [gs [_ _ -> _ _]] := fespace_createE hfv.
have ep : fs_mesh fp = mp by have [gs [_ _ -> _ _]] := fespace_createE hfp.
exists gp, gv, rp, rv, quad, og, oq; rewrite /pm /vm /nv /vm /p_mesh /v_mesh /= em ep.
by do !split.
Qed.
End Create.
