(** The forms of [solve_poisson] on a bar, as integrals of piecewise polynomials. *)
From mathcomp Require Import all_ssreflect all_algebra polyrcf zify ring.
From Verif Require Import PyDict_model GS_model GS_props Interp_model Interp_spec Lagrange_proofs Legendre_proofs Tensor_proofs Interp_proofs Interp_proofs2 Interp_props FES_model FES_proofs FES_proofs2 FES_props FES_props2.
From Verif Require Import CG_model TimeCoef_model Stokes_model Unisolvent_proofs Poisson_model Poisson_spec Poisson_proofs Poisson_props.
Set Implicit Arguments.
Unset Strict Implicit.
Unset Printing Implicit Defensive.
Import Order.TTheory GRing.Theory Num.Theory.
Local Open Scope ring_scope.

Lemma cart_one (T : Type) (xs : seq T) : cart (nseq 1 xs) = [seq [:: y] | y <- xs].
Proof. by elim: xs => //= y l ->. Qed.
Lemma teval_one (F : fieldType) (p : {poly F}) x : teval [:: (1, [:: p])] [:: x] = p.[x].
Proof. by rewrite /teval big_seq1 /= big_seq1 mul1r. Qed.

Section Bar.
Variables (R : rcfType) (eps : R) (inv : 'M[R]_1 -> 'M[R]_1) (K p : nat) (g : nodes1d R) (brk : nat -> R).
Hypotheses (K0 : (0 < K)%N) (hg : nodes1d_create R p.+2 GAUSS_LOBATTO_LEGENDRE = inr g) (inc : forall i, brk i < brk i.+1).
Hypothesis inv_ok : forall J : 'M[R]_1, J \in unitmx -> inv J = invmx J.
Notation n := p.+1.
Notation N := (K * n).+1.
Notation bar := (bar K p g brk).
Notation xs := (nd_values g).
Variables (fs : fespace R 1) (sp : space_of eps inv bar fs).

Let sx : size xs = n.+1. Proof. by have [_ -> _ _] := C33_lobatto_nodes hg. Qed.
Let ux : uniq xs.
Proof. by have [srt _ _ _] := C33_lobatto_nodes hg; exact: (sorted_uniq lt_trans (@ltxx _ _) srt). Qed.
Lemma bar_first : nth 0 xs 0 = -1.
Proof. by have [_ _ + _] := C33_lobatto_nodes hg; rewrite /is_continuous => /andP[/eqP]; case: (xs) sx. Qed.
Lemma bar_last : nth 0 xs n = 1.
Proof. by have [_ _ + _] := C33_lobatto_nodes hg; rewrite /is_continuous -nth_last sx => /andP[_ /eqP]. Qed.

(** The nodal vector [u] on element [e], as a polynomial on [-1, 1]. *)
Definition on (e : nat) (u : seq R) : {poly R} := \sum_(k < n.+1) nth 0 u (e * n + k) *: lag xs k.
Lemma size_on e u : (size (on e u) <= n.+1)%N.
Proof.
apply: (leq_trans (size_sum _ _ _)); apply/bigmax_leqP => k _.
by apply: (leq_trans (size_scale_leq _ _)); rewrite -[X in (_ <= X)%N]sx size_lag ?sx.
Qed.
Lemma on_node e u k : (k <= n)%N -> (on e u).[nth 0 xs k] = nth 0 u (e * n + k).
Proof.
move=> hk; rewrite horner_sum (bigD1 (Ordinal (hk : (k < n.+1)%N))) //= hornerZ lag_node ?sx // eqxx mulr1.
rewrite big1 ?addr0 // => i ik; rewrite hornerZ lag_node ?sx // (_ : (k == i) = false) ?mulr0 //.
by apply/negbTE; move: ik; rewrite -val_eqE /= eq_sym.
Qed.
Lemma on_unique e u (P : {poly R}) : (size P <= n.+1)%N -> (forall k, (k <= n)%N -> P.[nth 0 xs k] = nth 0 u (e * n + k)) -> on e u = P.
Proof.
move=> sP H; rewrite [RHS](lag_interp ux) ?sx //; apply: eq_bigr => k _; by rewrite H // -ltnS.
Qed.
Lemma on_left e u : (on e u).[-1] = nth 0 u (e * n).
Proof. by rewrite -bar_first on_node // addn0. Qed.
Lemma on_right e u : (on e u).[1] = nth 0 u (e.+1 * n).
Proof. by rewrite -bar_last on_node // -mulSnr. Qed.

(** The map from [-1, 1] to element [e]. *)
Definition half (e : nat) : R := (brk e.+1 - brk e) / 2%:R.
Definition cell (e : nat) : {poly R} := (brk e + half e)%:P + half e *: 'X.
Lemma half_gt0 e : 0 < half e.
Proof. by rewrite /half divr_gt0 ?ltr0n // subr_gt0. Qed.
Lemma cellE e x : (cell e).[x] = brk e + half e + half e * x.
Proof. by rewrite /cell hornerD hornerZ hornerX hornerC. Qed.
Lemma cell_left e : (cell e).[-1] = brk e.
Proof. by rewrite cellE mulrN1 addrK. Qed.
Lemma cell_right e : (cell e).[1] = brk e.+1.
Proof. by rewrite cellE mulr1 -addrA -mulr2n -[half e *+ 2]mulr_natr /half divfK ?pnatr_eq0 // addrC subrK. Qed.
Lemma cell_deriv e : (cell e)^`() = (half e)%:P.
Proof. by rewrite /cell derivD derivC derivZ derivX add0r alg_polyC. Qed.
Lemma size_cell e : size (cell e) = 2%N.
Proof.
rewrite /cell addrC size_addl ?size_scale ?size_polyX ?gt_eqF ?half_gt0 //.
by rewrite ltnS size_polyC leq_b1.
Qed.
Lemma comp_size e (P : {poly R}) : (size (P \Po cell e) <= size P)%N.
Proof. by have [->|nz] := eqVneq P 0; [rewrite comp_poly0 size_poly0|rewrite size_comp_poly2 ?size_cell]. Qed.
Lemma bar_coordE e k : (e < K)%N -> (k <= n)%N -> element_coords bar e k 0 0 = (cell e).[nth 0 xs k].
Proof.
move=> he hk; rewrite bar_coord // cellE /half; move: (brk e) (brk e.+1 - brk e) (nth 0 xs k) => b c y; by field.
Qed.

(** The space. *)
Let np : nd_num_points g = n.+1. Proof. by have [-> _ _ _ _] := created_grid (ltn0Sn _) hg. Qed.
Lemma bar_quad : quadrature_points bar = n.+1.
Proof. by rewrite /quadrature_points /= np addn1. Qed.
Lemma bar_facts : exists quad, [/\ quadrature_create R n.+1 GAUSS_LEGENDRE = inr quad, fespace_create eps inv bar quad = inr fs,
  fs_mesh fs = bar, fs_quad fs = quad & size (nd_values (qd_nodes quad)) = n.+1].
Proof.
have [quad hq hf] := sp; rewrite bar_quad in hq; have [gs [_ _ fm fq _]] := fespace_createE hf.
by have [_ _ sq] := quad_facts (ltn0Sn _) hq; exists quad.
Qed.
Lemma bar_nodes (w : nat -> R) (P : {poly R}) : (forall k, (k <= n)%N -> w k = P.[nth 0 xs k]) ->
  node_list bar w = [seq teval [:: (1, [:: P])] x | x <- cart (nseq 1 xs)].
Proof.
move=> H; rewrite cart_one -map_comp (eq_map (f2 := fun y => P.[y])) => [|y]; last by rewrite /= teval_one.
apply: (@eq_from_nth _ 0) => [|k]; rewrite /node_list -[m_per_element _]/(n.+1) ?size_map ?size_iota ?sx // => hk.
by rewrite (nth_map 0%N) ?size_iota // nth_iota // (nth_map 0) ?sx // H.
Qed.
Lemma bar_value (w : nat -> R) (P : {poly R}) q : (size P <= n.+1)%N -> (forall k, (k <= n)%N -> w k = P.[nth 0 xs k]) -> (q < n.+1)%N ->
  at_quad eps bar (evalpoints fs) w q = P.[nth 0 (nd_values (qd_nodes (fs_quad fs))) q].
Proof.
move=> sP H hq'; have [quad [hq hf fm fq sq]] := bar_facts; have [_ hqd _] := quad_facts (ltn0Sn _) hq.
rewrite /evalpoints fq /at_quad (bar_nodes H).
have dh : tdeg 1 n.+1 [:: (1, [:: P])] by rewrite /tdeg /= sP.
have sl : size [seq teval [:: (1, [:: P])] x | x <- cart (nseq 1 xs)] = (n.+1 ^ 1)%N by rewrite size_map size_cart_nseq sx.
have [M hM e] := @C37_interpolate_matrix R eps 1 _ _ _ _ _ _ _ isT (ltn0Sn _) (ltn0Sn _) hg hqd sl.
have e0 : nd_values (qd_nodes quad) != [::] by rewrite -size_eq0 sq.
have [M' hM' [_ X]] := C35_tensor_exact (ltn0Sn _) (ltn0Sn 0) hg e0.
rewrite e /=; move: hM'; rewrite hM => -[EM]; rewrite EM X // cart_one -map_comp (nth_map 0) ?sq //=; exact: teval_one.
Qed.
Lemma bar_ref (w : nat -> R) (P : {poly R}) q : (size P <= n.+1)%N -> (forall k, (k <= n)%N -> w k = P.[nth 0 xs k]) -> (q < n.+1)%N ->
  ref_grad bar (qd_nodes (fs_quad fs)) w q 0 = P^`().[nth 0 (nd_values (qd_nodes (fs_quad fs))) q].
Proof.
move=> sP H hq'; have [quad [hq hf fm fq sq]] := bar_facts.
have dh : tdeg 1 n.+1 [:: (1, [:: P])] by rewrite /tdeg /= sP.
have e0 : nd_values (qd_nodes quad) != [::] by rewrite -size_eq0 sq.
rewrite fq /ref_grad (bar_nodes H) (C35_interpolate_grad (ltn0Sn _) (ltn0Sn 0) hg e0 dh).
rewrite cart_one [getr _]/=; rewrite [nth [::] _ _]/=; by rewrite -map_comp (nth_map 0) ?sq //= teval_one.
Qed.
Lemma bar_jac e q : (e < K)%N -> (q < n.+1)%N -> fs_jacdets fs e q = half e.
Proof.
move=> he hq'; have [quad [hq hf fm fq sq]] := bar_facts.
have st : standard eps inv bar quad fs n.+1 GAUSS_LEGENDRE by split=> //; exists p.+2, GAUSS_LOBATTO_LEGENDRE.
have P : parallelepiped bar e (brk e)%:M (brk e.+1 - brk e)%:M.
  move=> k hk; apply/rowP => j; rewrite (ord1 j) bar_coord // !mxE big_ord1 !mxE !eqxx !mulr1n; congr (_ + _ * _).
  by congr ((1 + _) / _); rewrite cart_one (nth_map 0) ?sx.
by rewrite (standard_jac st P) ?expn1 // det_scalar !expr1.
Qed.
Lemma bar_grad (w : nat -> R) (P : {poly R}) e q : (size P <= n.+1)%N -> (forall k, (k <= n)%N -> w k = P.[nth 0 xs k]) -> (e < K)%N -> (q < n.+1)%N ->
  nth 0 (phys_grad fs e w q) 0 = (half e)^-1 * P^`().[nth 0 (nd_values (qd_nodes (fs_quad fs))) q].
Proof.
move=> sP H he hq'; have [quad [hq hf fm fq sq]] := bar_facts.
have J0 : fs_jacdets fs e q != 0 by rewrite bar_jac // gt_eqF ?half_gt0.
have := chain_rule w ord0 inv_ok hf J0; rewrite big_ord1 -fq (bar_ref sP H) // (@bar_ref _ (cell e)) // ?size_cell // => [|k hk]; last exact: bar_coordE.
by rewrite cell_deriv hornerC => <-; rewrite mulKf // gt_eqF ?half_gt0.
Qed.
Lemma bar_elem u e k : (e < K)%N -> (k <= n)%N -> elem_val bar u e k = (on e u).[nth 0 xs k].
Proof.
move=> he hk; rewrite on_node // /elem_val /= (nth_map 0%N) ?size_iota // nth_iota // add0n.
by rewrite -[_ :: _]/[seq Posz (e * n + k) | k <- iota 0 n.+1] (nth_map 0%N) ?size_iota // nth_iota.
Qed.
(** The integral of a function given by polynomials on the elements. *)
Lemma bar_integrate (w : nat -> nat -> R) (P : nat -> {poly R}) : (forall e, (size (P e) <= 2 * n.+1)%N) ->
  (forall e q, (e < K)%N -> (q < n.+1)%N -> w e q = (P e).[nth 0 (nd_values (qd_nodes (fs_quad fs))) q]) ->
  integrate fs w = \sum_(e < K) half e * integral (P e).
Proof.
move=> sP H; have [quad [hq hf fm fq sq]] := bar_facts; have [sw _ _ ex] := C36_exact (ltn0Sn _) hq.
have [w' hw [wE _ _]] := C36_weights_nd (ltn0Sn 0) (ltn0Sn _) hq.
have [qn _ _] := quad_facts (ltn0Sn _) hq.
rewrite /integrate fm fq; have -> : num_elements bar = K by rewrite /num_elements size_map size_iota.
rewrite sumlE; apply: eq_bigr => e _.
have -> : num_quad fs = n.+1 by rewrite /num_quad fq qn expn1.
rewrite -(ex (P e)) ?sP // /Interp_spec.quad sq sumlE mulr_sumr; apply: eq_bigr => q _.
rewrite H // hw /= wE cart_one -map_comp (nth_map 0) ?sw //= big_seq1 bar_jac // fq.
by rewrite mulrAC mulrC [nth 0 (qd_weights _) _ * _]mulrC.
Qed.
Lemma bar_energy u v : energy fs u v = \sum_(e < K) (half e)^-1 * integral ((on e u)^`() * (on e v)^`()).
Proof.
have [quad [hq hf fm fq sq]] := bar_facts.
rewrite /energy (bar_integrate (P := fun e => (half e) ^- 2 *: ((on e u)^`() * (on e v)^`()))).
- apply: eq_bigr => e _; rewrite linearZ /= mulrA expr2 invfM mulrA divff ?mul1r // gt_eqF ?half_gt0 //.
- move=> e; apply: (leq_trans (size_scale_leq _ _)); apply: (leq_trans (size_mul_leq _ _)).
  have := size_on e u; have := size_on e v; have := leq_size_deriv (on e u); have := leq_size_deriv (on e v).
  by move: (size _) (size _) (size _) (size _) => a b c d; clear; lia.
move=> e q he hq'; have G w : nth 0 (phys_grad fs e (elem_val bar w e) q) 0 = (half e)^-1 * (on e w)^`().[nth 0 (nd_values (qd_nodes (fs_quad fs))) q].
  by apply: bar_grad => // [|k hk]; [exact: size_on|exact: bar_elem].
rewrite big_ord1 fm !G.
by rewrite [LHS]mulrACA hornerZ hornerM -exprVn expr2.
Qed.
Lemma bar_l2 u v : l2 eps fs u v = \sum_(e < K) half e * integral (on e u * on e v).
Proof.
have [quad [hq hf fm fq sq]] := bar_facts.
rewrite /l2 (bar_integrate (P := fun e => on e u * on e v)) // => [e|e q he hq'].
  apply: (leq_trans (size_mul_leq _ _)); have := size_on e u; have := size_on e v.
  by move: (size _) (size _) => a b; clear; lia.
have G w : at_quad eps bar (evalpoints fs) (elem_val bar w e) q = (on e w).[nth 0 (nd_values (qd_nodes (fs_quad fs))) q].
  by apply: bar_value => // [|k hk]; [exact: size_on|exact: bar_elem].
by rewrite fm !G hornerM.
Qed.
End Bar.
