(** Interpolatory quadrature, Gauss-Legendre and Gauss-Lobatto-Legendre weights. *)
From mathcomp Require Import all_ssreflect all_algebra polyrcf zify ring.
From Verif Require Import Interp_model Interp_spec Lagrange_proofs Interp_proofs Legendre_proofs Gauss_proofs.
Set Implicit Arguments.
Unset Strict Implicit.
Unset Printing Implicit Defensive.
Import Order.TTheory GRing.Theory Num.Theory.
Local Open Scope ring_scope.

Section Interpolatory.
Variables (F : numFieldType) (xs : seq F).
Hypothesis Ux : uniq xs.
Notation n := (size xs).
Notation x_ k := (nth 0 xs k).
Notation W := (nodal xs).
Notation B := (nodal_but xs).
Definition lam (k : nat) : F := integral (lag xs k).

Lemma lam_exact_low (p : {poly F}) : (size p <= n)%N -> \sum_(k < n) lam k * p.[x_ k] = integral p.
Proof.
move=> sp; rewrite {2}(lag_interp Ux sp) linear_sum /=.
by apply: eq_bigr => k _; rewrite linearZ /= mulrC.
Qed.

Variable m : nat.
Hypothesis orth : forall q : {poly F}, (size q <= m)%N -> integral (W * q) = 0.

Lemma lam_exact (p : {poly F}) : (size p <= n + m)%N -> \sum_(k < n) lam k * p.[x_ k] = integral p.
Proof.
move=> sp; have nzW := nodal_neq0 xs.
have e := divp_eq p W.
rewrite [in RHS]e linearD /= mulrC orth; last first.
  by rewrite size_divp // size_nodal /= leq_subLR.
rewrite add0r -lam_exact_low; last by rewrite -ltnS -(size_nodal xs) ltn_modp.
apply: eq_bigr => k _; rewrite [in LHS]e hornerD hornerM root_nodal // mulr0 add0r //.
Qed.

(** [2 q W' = q^2 + ((X - x) q^2)'] for [W = (X - x) q] *)
Lemma but_identity k : (k < n)%N ->
  (B k * W^`()) *+ 2 = B k ^+ 2 + (('X - (x_ k)%:P) * B k ^+ 2)^`().
Proof.
move=> hk; rewrite (nodalE hk) expr2 !derivM derivXsubC.
by move: ('X - _) (B k)^`() (B k) => a b c; ring.
Qed.

Lemma quad_but_sq k : (k < n)%N -> \sum_(j < n) lam j * (B k ^+ 2).[x_ j] = lam k * node_product xs k ^+ 2.
Proof.
move=> hk; rewrite (bigD1 (Ordinal hk)) //= horner_exp nodal_but_node big1 ?addr0 // => j jk.
by rewrite horner_exp nodal_but_other // expr0n mulr0.
Qed.
Lemma quad_but_deriv k : (k < n)%N -> \sum_(j < n) lam j * (B k * W^`()).[x_ j] = lam k * node_product xs k ^+ 2.
Proof.
move=> hk; rewrite (bigD1 (Ordinal hk)) //= hornerM nodal_but_node nodal_deriv // -expr2 big1 ?addr0 // => j jk.
by rewrite hornerM nodal_but_other // mul0r mulr0.
Qed.
End Interpolatory.

Section GL.
Variables (R : rcfType) (n : nat).
Hypothesis n0 : (0 < n)%N.
Notation P := (legendre R).
Let xs := leggauss_nodes R n.
Notation x_ k := (nth 0 xs k).

Lemma gl_size : size xs = n. Proof. exact: size_leggauss. Qed.
Lemma gl_uniq : uniq xs. Proof. exact: uniq_roots. Qed.
Lemma gl_root k : (k < n)%N -> (P n).[x_ k] = 0.
Proof. by move=> hk; apply/rootP; apply: (@root_roots _ _ (-1) 1); rewrite mem_nth // gl_size. Qed.
Lemma gl_in k : (k < n)%N -> -1 < x_ k < 1.
Proof.
move=> hk; have : x_ k \in xs by rewrite mem_nth // gl_size.
by move/roots_in; rewrite in_itv /=.
Qed.

Lemma legendre_nodal : P n = lead_coef (P n) *: nodal xs.
Proof.
have nz := nodal_neq0 xs.
have sp : size (P n) = size (nodal xs) by rewrite size_leg size_nodal gl_size.
have : nodal xs %| P n.
  rewrite /nodal -(big_mkord xpredT (fun j => 'X - (x_ j)%:P)) -(big_nth 0 xpredT (fun x => 'X - x%:P)).
  apply: uniq_roots_dvdp; last by rewrite uniq_rootsE gl_uniq.
  by apply/allP => x; apply: root_roots.
move/dvdpP => [r e].
have r0 : r != 0 by apply: contra_neq (leg_neq0 R n) => r0; rewrite e r0 mul0r.
have sr : size r = 1%N.
  have := size_mul r0 nz; rewrite -e sp size_nodal; case: (size r) => [|[|a]] //=; lia.
move/eqP: sr => /size_poly1P[c c0 rc]; rewrite e rc lead_coefM lead_coefC.
by rewrite (monicP (nodal_monic xs)) mulr1 mul_polyC.
Qed.

Lemma gl_orth (q : {poly R}) : (size q <= n)%N -> integral (nodal xs * q) = 0.
Proof.
move=> sq; have [_ l0] := leg_size_lead R n.
have /eqP := leg_orth_low sq; rewrite legendre_nodal -scalerAl linearZ /= mulf_eq0 (negbTE l0).
by move/eqP.
Qed.

Lemma gl_lam k : (k < n)%N -> lam xs k = 2%:R / ((1 - x_ k ^+ 2) * ((P n)^`().[x_ k]) ^+ 2).
Proof.
move=> hk; have hk' : (k < size xs)%N by rewrite gl_size.
have Ux := gl_uniq.
pose q := nodal_but xs k.
have sq : size q = n by rewrite size_nodal_but // gl_size.
have sW' : (size (nodal xs)^`() <= n)%N.
  by apply: leq_trans (size_deriv_pred _) _; rewrite size_nodal gl_size.
have e1 : integral (q * (nodal xs)^`()) = lam xs k * node_product xs k ^+ 2.
  rewrite -(lam_exact Ux gl_orth) ?quad_but_deriv //.
  apply: leq_trans (size_mul_leq _ _) _; rewrite sq gl_size.
  by apply: leq_trans (leq_pred _) _; rewrite leq_add2l.
have e2 : integral (q ^+ 2) = lam xs k * node_product xs k ^+ 2.
  rewrite -(lam_exact Ux gl_orth) ?quad_but_sq //.
  rewrite expr2; apply: leq_trans (size_mul_leq _ _) _; rewrite sq gl_size.
  exact: leq_pred.
have /(congr1 (@integral R)) := but_identity hk'.
rewrite -/q linearMn linearD /= integral_deriv e1 e2 mulr2n => /addrI.
have hE y : (('X - (x_ k)%:P) * q ^+ 2).[y] = (y - x_ k) * q.[y] ^+ 2 by rewrite hornerM hornerXsubC horner_exp.
rewrite !hE => E.
have /andP[x1 x2] := gl_in hk.
have a1 : 1 - x_ k != 0 by rewrite subr_eq0 gt_eqF.
have a2 : 1 + x_ k != 0 by rewrite addrC -[1]opprK subr_eq0 gt_eqF.
have [_ l0] := leg_size_lead R n.
set l := lead_coef _ in l0.
have pE y : (P n).[y] = l * ((y - x_ k) * q.[y]).
  by rewrite legendre_nodal hornerZ (nodalE hk') hornerM hornerXsubC.
have q1 : q.[1] ^+ 2 = (l * (1 - x_ k)) ^- 2.
  have := pE 1; rewrite leg_at1 mulrA => /(congr1 (fun z => z ^+ 2)); rewrite expr1n exprMn => e.
  have c0 : (l * (1 - x_ k)) ^+ 2 != 0 by rewrite expf_neq0 // mulf_neq0.
  by apply: (mulfI c0); rewrite -e divff.
have q2 : q.[-1] ^+ 2 = (l * (1 + x_ k)) ^- 2.
  have := pE (-1); rewrite leg_atN1 mulrA => /(congr1 (fun z => z ^+ 2)).
  rewrite -exprM mulnC exprM sqrrN !expr1n exprMn => e.
  have -> : (l * (1 + x_ k)) ^+ 2 = (l * (-1 - x_ k)) ^+ 2 by ring.
  have c0 : (l * (-1 - x_ k)) ^+ 2 != 0 by rewrite expf_neq0 // mulf_neq0 // -opprD oppr_eq0.
  by apply: (mulfI c0); rewrite -e divff.
rewrite q1 q2 in E.
have -> : (P n)^`().[x_ k] = l * node_product xs k.
  by rewrite legendre_nodal derivZ hornerZ nodal_deriv.
have np0 := node_product_neq0 Ux hk'.
have -> : lam xs k = (lam xs k * node_product xs k ^+ 2) / node_product xs k ^+ 2 by rewrite mulfK // expf_neq0.
rewrite {}E {pE q1 q2}; move: l0 np0 a1 a2; move: l (node_product xs k) (x_ k) => l N x l0 N0 a1 a2.
have -> : 1 - x ^+ 2 = (1 - x) * (1 + x) by ring.
by field; rewrite l0 N0 a1 a2.
Qed.

Lemma gl_deriv_neq0 k : (k < n)%N -> (P n)^`().[x_ k] != 0.
Proof. by move=> hk; apply: leg_simple; apply: gl_root. Qed.
Lemma gl_1mx2 k : (k < n)%N -> 0 < 1 - x_ k ^+ 2.
Proof.
move=> /gl_in /andP[h1 h2]; have -> : 1 - x_ k ^+ 2 = (1 - x_ k) * (x_ k - -1) by ring.
by rewrite mulr_gt0 // subr_gt0.
Qed.

Lemma gl_raw k : (k < n)%N -> leggauss_raw n (x_ k) = n%:R / 2%:R * lam xs k.
Proof.
move=> hk; rewrite gl_lam // /leggauss_raw.
have d0 := gl_deriv_neq0 hk; have a0 := lt0r_neq0 (gl_1mx2 hk).
have h : (P n.-1).[x_ k] = (1 - x_ k ^+ 2) * (P n)^`().[x_ k] / n%:R.
  have rt := gl_root hk; case: n n0 rt => // m _ rt /=.
  have /(congr1 (fun p : {poly R} => p.[x_ k])) := leg_ode0 R m.
  have wE : ('X ^+ 2 - 1 : {poly R}).[x_ k] = x_ k ^+ 2 - 1 by rewrite hornerD hornerN hornerXn hornerE.
  have rE : ('X * P m.+1 - P m).[x_ k] = - (P m).[x_ k] by rewrite hornerD hornerN hornerM rt mulr0 sub0r.
  rewrite -scale_nat hornerZ hornerM wE rE mulrN => e.
  by rewrite -opprB mulNr e opprK mulrAC divff ?mul1r // pnatr_eq0.
rewrite h; have n0' : (n%:R : R) != 0 by rewrite pnatr_eq0 -lt0n.
have t0 : (2%:R : R) != 0 by rewrite pnatr_eq0.
move: d0 a0 n0' t0; move: (1 - x_ k ^+ 2) ((P n)^`().[x_ k]) (n%:R : R) (2%:R : R) => a d m t d0 a0 m0 t0.
by field; rewrite d0 a0 m0 t0.
Qed.

Lemma gl_lam_sum : \sum_(k < n) lam xs k = 2%:R.
Proof.
have := @lam_exact_low _ xs gl_uniq 1; rewrite size_poly1 gl_size integral1 => <- //.
by apply: eq_bigr => k _; rewrite hornerE mulr1.
Qed.

Lemma gl_weights : leggauss_weights R n = [seq lam xs k | k <- iota 0 n].
Proof.
rewrite /leggauss_weights -/xs.
have -> : [seq leggauss_raw n x | x <- xs] = [seq n%:R / 2%:R * lam xs k | k <- iota 0 n].
  apply: (@eq_from_nth _ 0) => [|k]; rewrite !size_map ?size_iota ?gl_size // => hk.
  by rewrite (nth_map 0) ?gl_size // (nth_map 0%N) ?size_iota // nth_iota // gl_raw.
rewrite foldr_sum sum_iota -mulr_sumr gl_lam_sum -map_comp; apply: eq_map => k /=.
have n0' : (n%:R : R) != 0 by rewrite pnatr_eq0 -lt0n.
have t0 : (2%:R : R) != 0 by rewrite pnatr_eq0.
by rewrite divfK // !mulrA divfK // divff // mul1r.
Qed.

Lemma gl_exact (p : {poly R}) : (size p <= n + n)%N -> quad xs (leggauss_weights R n) p = integral p.
Proof.
move=> sp; rewrite -(lam_exact gl_uniq gl_orth) ?gl_size // /quad gl_weights.
rewrite gl_size; apply: eq_bigr => k _.
by rewrite (nth_map 0%N) ?size_iota // nth_iota.
Qed.
End GL.

Lemma horner1 (R : ringType) (x : R) : (1 : {poly R}).[x] = 1. Proof. exact: hornerC. Qed.

Section GLL.
Variables (R : rcfType) (N : nat).
(** [N.+2] nodes *)
Notation P := (legendre R).
Definition gll_nodes : seq R := -1 :: roots (P N.+1)^`() (-1) 1 ++ [:: 1].
Arguments gll_nodes : simpl never.
Notation xs := gll_nodes.
Notation x_ k := (nth 0 xs k).
Notation V := (('X ^+ 2 - 1) * (P N.+1)^`()).

Lemma gll_size : size xs = N.+2.
Proof. by rewrite /gll_nodes /= size_cat size_dleg_roots addn1. Qed.
Lemma gll_sorted : sorted <%R xs.
Proof.
rewrite /gll_nodes /= cats1 rcons_path path_roots /= ?andbT.
by apply: last_roots_le; rewrite (lt_trans (y := 0)) ?oppr_lt0 ?ltr01.
Qed.
Lemma gll_uniq : uniq xs.
Proof. exact: sorted_uniq lt_trans ltxx _ gll_sorted. Qed.
Lemma gll_root x : x \in xs -> V.[x] = 0.
Proof.
rewrite hornerM inE mem_cat inE => /or3P[/eqP->|/root_roots/rootP ->|/eqP->].
- by rewrite w_atN1 mul0r.
- by rewrite mulr0.
- by rewrite w_at1 mul0r.
Qed.
Lemma size_V : size V = N.+3.
Proof.
rewrite size_mul ?leg_deriv_size; first by rewrite size_addl ?size_polyXn ?size_opp ?size_poly1.
  by rewrite -size_poly_eq0 size_addl ?size_polyXn ?size_opp ?size_poly1.
by rewrite -size_poly_eq0 leg_deriv_size.
Qed.
Lemma V_neq0 : V != 0. Proof. by rewrite -size_poly_eq0 size_V. Qed.

Lemma V_nodal : V = lead_coef V *: nodal xs.
Proof.
have nz := nodal_neq0 xs.
have sp : size V = size (nodal xs) by rewrite size_V size_nodal gll_size.
have : nodal xs %| V.
  rewrite /nodal -(big_mkord xpredT (fun j => 'X - (x_ j)%:P)) -(big_nth 0 xpredT (fun x => 'X - x%:P)).
  apply: uniq_roots_dvdp; last by rewrite uniq_rootsE gll_uniq.
  by apply/allP => x /gll_root/rootP.
move/dvdpP => [r e].
have r0 : r != 0 by apply: contra_neq V_neq0 => r0; rewrite e r0 mul0r.
have sr : size r = 1%N.
  have := size_mul r0 nz; rewrite -e sp size_nodal; case: (size r) => [|[|a]] //=; lia.
move/eqP: sr => /size_poly1P[c c0 rc]; rewrite e rc lead_coefM lead_coefC.
by rewrite (monicP (nodal_monic xs)) mulr1 mul_polyC.
Qed.
Lemma lV : lead_coef V != 0. Proof. by rewrite lead_coef_eq0 V_neq0. Qed.

Lemma gll_orth (q : {poly R}) : (size q <= N)%N -> integral (nodal xs * q) = 0.
Proof.
move=> sq; have /eqP := dleg_orth sq; rewrite V_nodal -scalerAl linearZ /= mulf_eq0 (negbTE lV).
by move/eqP.
Qed.

Definition gll_test (k : nat) : {poly R} := (nodal_but xs k * (nodal xs)^`()) *+ 2 - nodal_but xs k ^+ 2.

Lemma gll_test_integral k : (k < size xs)%N -> integral (gll_test k) = 0.
Proof.
move=> hk; rewrite /gll_test but_identity // addrC addKr integral_deriv.
have end0 y : y \in xs -> (('X - (x_ k)%:P) * nodal_but xs k ^+ 2).[y] = 0.
  move=> yx; rewrite expr2 mulrA -(nodalE hk) hornerM.
  by rewrite -(nth_index 0 yx) root_nodal ?index_mem // mul0r.
by rewrite !end0 ?subrr // /xs !(inE, mem_cat) eqxx ?orbT.
Qed.

Lemma lead_coefMn2 (p : {poly R}) i : (p *+ 2)`_i = p`_i *+ 2. Proof. exact: coefMn. Qed.

Lemma gll_test_size j k : (j < size xs)%N -> (k < size xs)%N -> (size (gll_test j - gll_test k)%R <= N.+2 + N)%N.
Proof.
move=> hj hk.
have sB i : (i < size xs)%N -> size (nodal_but xs i) = N.+2 by move=> hi; rewrite size_nodal_but // gll_size.
have mB i : (i < size xs)%N -> nodal_but xs i \is monic.
  by move=> hi; rewrite /nodal_but big_mkcond; apply: monic_prod => l _; case: ifP => _; rewrite ?monicXsubC ?monic1.
pose D := nodal_but xs j - nodal_but xs k.
have sD : (size D <= N.+1)%N.
  apply/leq_sizeP => i; rewrite leq_eqVlt => /predU1P[<-|h].
    have := monicP (mB j hj); have := monicP (mB k hk).
    by rewrite !lead_coefE !sB //= coefB => -> ->; rewrite subrr.
  by rewrite coefB !nth_default ?sB // subrr.
have sW : (size (nodal xs)^`() <= N.+2)%N.
  by apply: leq_trans (size_deriv_pred _) _; rewrite size_nodal gll_size.
have -> : gll_test j - gll_test k = D * ((nodal xs)^`() *+ 2 - (nodal_but xs j + nodal_but xs k)).
  by rewrite /gll_test /D; move: (nodal_but xs j) (nodal_but xs k) (nodal xs)^`() => a b c; ring.
apply: leq_trans (size_mul_leq _ _) _.
have : (size ((nodal xs)^`() *+ 2 - (nodal_but xs j + nodal_but xs k))%R <= N.+2)%N.
  apply: leq_trans (size_add _ _) _; rewrite size_opp geq_max; apply/andP; split.
    by rewrite mulr2n; apply: leq_trans (size_add _ _) _; rewrite maxnn.
  by apply: leq_trans (size_add _ _) _; rewrite !sB ?maxnn.
move: sD; move: (size D) => a sD.
by move=> h; rewrite -subn1; apply: leq_trans (leq_sub2r 1 (leq_add sD h)) _; lia.
Qed.

Lemma gll_const j k : (j < size xs)%N -> (k < size xs)%N ->
  lam xs j * node_product xs j ^+ 2 = lam xs k * node_product xs k ^+ 2.
Proof.
move=> hj hk.
have T i : (i < size xs)%N -> \sum_(l < size xs) lam xs l * (gll_test i).[x_ l] = lam xs i * node_product xs i ^+ 2.
  move=> hi; rewrite /gll_test.
  under eq_bigr => l _ do rewrite hornerD hornerMn hornerN mulrDr mulrN mulrnAr.
  rewrite big_split /= sumrN sumrMnl.
  rewrite (quad_but_deriv hi) (quad_but_sq hi).
  by rewrite mulr2n addrK.
rewrite -T // -T //; apply/eqP; rewrite -subr_eq0 -sumrB.
under eq_bigr => l _ do rewrite -mulrBr -hornerN -hornerD.
rewrite (lam_exact gll_uniq gll_orth); last by rewrite gll_size gll_test_size.
by rewrite linearB /= !gll_test_integral ?subrr.
Qed.

Lemma gll_last_lam : lam xs N.+1 = 2%:R / (N.+1 * N.+2)%:R.
Proof.
pose p : {poly R} := ('X + 1) * (P N.+1)^`().
have x1 : x_ N.+1 = 1 by rewrite /gll_nodes /= nth_cat size_dleg_roots ltnn subnn.
have hk : (N.+1 < size xs)%N by rewrite gll_size.
have sp : (size p <= N.+2 + N)%N.
  apply: leq_trans (size_mul_leq _ _) _; rewrite leg_deriv_size.
  rewrite size_addl ?size_polyX ?size_poly1 //=; lia.
have e1 : \sum_(l < size xs) lam xs l * p.[x_ l] = lam xs N.+1 * (2%:R * (P N.+1)^`().[1]).
  have pE : p.[1] = 2%:R * (P N.+1)^`().[1] by rewrite hornerM hornerD hornerX horner1.
  have rest (l : 'I_(size xs)) : l != Ordinal hk -> lam xs l * p.[x_ l] = 0.
    move=> lk; have : x_ l \in xs by rewrite mem_nth.
    have ne : x_ l != 1 by rewrite -x1 nth_uniq ?gll_uniq.
    rewrite inE mem_cat inE (negbTE ne) orbF hornerM hornerD hornerX horner1.
    by case/orP => [/eqP ->|/root_roots/rootP ->]; rewrite ?addNr ?mul0r ?mulr0 ?mulr0.
  rewrite (bigD1 (Ordinal hk)) // big1; last by move=> l /andP[_]; apply: rest.
  by rewrite -pE -x1; exact: addr0.
have e2 : integral p = 2%:R.
  have := integral_deriv (('X + 1) * P N.+1).
  rewrite derivM derivD derivX deriv1 addr0 mul1r linearD /= -/p => /eqP.
  have -> : integral (P N.+1) = 0 by rewrite -[P N.+1]mulr1 leg_orth_low ?size_poly1.
  rewrite add0r => /eqP ->.
  by rewrite !hornerM !hornerD !hornerX !horner1 addNr mul0r subr0 leg_at1 mulr1.
have e3 : 2%:R * (P N.+1)^`().[1] = (N.+1 * N.+2)%:R.
  have /(congr1 (fun q : {poly R} => q.[1])) := leg_ode R N.+1.
  rewrite derivM hornerD !hornerM w_at1 mul0r addr0 -polyC_natr hornerC leg_at1 mulr1 => <-.
  by congr (_ * _); rewrite derivB derivXn deriv1 subr0 /= expr1 hornerMn hornerX.
have sp' : (size p <= size xs + N)%N by rewrite gll_size.
have := lam_exact gll_uniq gll_orth sp'; rewrite e1 e2 e3 => e.
have nz : ((N.+1 * N.+2)%:R : R) != 0 by rewrite pnatr_eq0.
by apply: (mulIf nz); rewrite e divfK.
Qed.

Lemma gll_np k : (k < N.+2)%N -> node_product xs k = (N.+1 * N.+2)%:R / lead_coef V * (P N.+1).[x_ k].
Proof.
move=> hk; rewrite -nodal_deriv ?gll_size //.
have /(congr1 (fun q : {poly R} => q^`().[x_ k])) := V_nodal.
rewrite leg_ode derivZ hornerZ -scale_nat hornerZ => e.
by rewrite mulrAC e mulrAC divff ?mul1r // lV.
Qed.

Lemma gll_P_neq0 k : (k < N.+2)%N -> (P N.+1).[x_ k] != 0.
Proof.
move=> hk; have hk' : (k < size xs)%N by rewrite gll_size.
have := node_product_neq0 gll_uniq hk'; rewrite gll_np //.
by apply: contraNneq => ->; rewrite mulr0.
Qed.

Lemma gll_lam k : (k < N.+2)%N -> lam xs k = (2%:R / (N.+1 * N.+2)%:R) / ((P N.+1).[x_ k]) ^+ 2.
Proof.
move=> hk; have hk' : (k < size xs)%N by rewrite gll_size.
have hN : (N.+1 < size xs)%N by rewrite gll_size.
have x1 : x_ N.+1 = 1 by rewrite /gll_nodes /= nth_cat size_dleg_roots ltnn subnn.
have := gll_const hk' hN; rewrite !gll_np // x1 leg_at1 mulr1 gll_last_lam exprMn => e.
have c0 : ((N.+1 * N.+2)%:R / lead_coef V) ^+ 2 != 0.
  by rewrite expf_neq0 // mulf_neq0 ?pnatr_eq0 // invr_eq0 lV.
have p0 : (P N.+1).[x_ k] ^+ 2 != 0 by rewrite expf_neq0 // gll_P_neq0.
apply: (mulIf p0); rewrite divfK //; apply: (mulIf c0); rewrite -e.
by rewrite -mulrA [_ ^+ 2 * (_ / _) ^+ 2]mulrC.
Qed.

Lemma gll_weightsE : gll_weights N.+2 xs = [seq lam xs k | k <- iota 0 N.+2].
Proof.
apply: (@eq_from_nth _ 0) => [|k]; rewrite !size_map ?size_iota ?gll_size // => hk.
rewrite (nth_map 0) ?gll_size // (nth_map 0%N) ?size_iota // nth_iota // gll_lam //.
by rewrite subn1 mulnC.
Qed.

Lemma gll_exact (p : {poly R}) : (size p <= N.+2 + N)%N -> quad xs (gll_weights N.+2 xs) p = integral p.
Proof.
move=> sp; rewrite -(lam_exact gll_uniq gll_orth) ?gll_size // /quad gll_weightsE.
rewrite gll_size; apply: eq_bigr => k _.
by rewrite (nth_map 0%N) ?size_iota // nth_iota.
Qed.

Lemma gll_nodes_jacobi : -1 :: roots_jacobi11 R N ++ [:: 1] = xs.
Proof.
rewrite /roots_jacobi11 jacobi_legendre rootsZ //.
by rewrite mulf_neq0 ?invr_eq0 ?pnatr_eq0.
Qed.
End GLL.
