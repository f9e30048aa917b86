(** Roots of Legendre polynomials and Gauss quadrature over a real closed field. *)
From mathcomp Require Import all_ssreflect all_algebra polyrcf zify ring.
From Verif Require Import Interp_model Interp_spec Lagrange_proofs Legendre_proofs.
Set Implicit Arguments.
Unset Strict Implicit.
Unset Printing Implicit Defensive.
Import Order.TTheory GRing.Theory Num.Theory.
Local Open Scope ring_scope.

Section Roots.
Variable R : rcfType.
Notation P := (legendre R).

Lemma many_roots (q : {poly R}) : {in `[-1, 1], forall x, q.[x] = 0} -> q = 0.
Proof.
move=> h; apply/eqP/negPn/negP => q0.
pose N := size q.
pose f (k : nat) : R := k%:R / N.+1%:R.
have N0 : 0 < (N.+1%:R : R) by rewrite ltr0n.
have r : all (root q) [seq f k | k <- iota 0 N.+1].
  rewrite all_map; apply/allP => k; rewrite mem_iota add0n => /andP[_ kN] /=.
  rewrite rootE; apply/eqP/h; rewrite in_itv /= /f.
  rewrite ler_pdivr_mulr // mul1r ler_nat (ltnW kN) andbT.
  by rewrite (le_trans (y := 0)) ?oppr_le0 ?ler01 // divr_ge0 // ?ler0n // ltW.
have u : uniq [seq f k | k <- iota 0 N.+1].
  rewrite map_inj_uniq ?iota_uniq // => a b /(congr1 (fun x => x * N.+1%:R)).
  by rewrite /f !divfK ?gt_eqF // => /eqP; rewrite eqr_nat => /eqP.
have := max_poly_roots q0 r u.
by rewrite size_map size_iota -/N ltnNge leqnSn.
Qed.

Lemma integral_gt0 (p : {poly R}) : p != 0 -> {in `]-1, 1[, forall x, 0 <= p.[x]} -> 0 < integral p.
Proof.
move=> p0 pp.
have hd : {in `]-1, 1[, forall x, 0 <= (primitive p)^`().[x]}.
  by move=> x hx; rewrite primitive_deriv; exact: pp.
have mon := ler_hornerW hd.
have le11 : (-1 : R) <= 1 by rewrite (le_trans (y := 0)) ?oppr_le0 ?ler01.
have i1 : (1 : R) \in `[-1, 1] by rewrite in_itv /= lexx le11.
have iN : (-1 : R) \in `[-1, 1] by rewrite in_itv /= lexx le11.
have ge0 : 0 <= integral p by rewrite subr_ge0; apply: mon.
rewrite lt_neqAle ge0 andbT; apply: contra p0 => /eqP e.
have e2 : (primitive p).[1] = (primitive p).[-1] by apply/eqP; rewrite -subr_eq0 -/(integral p) -e.
have -> : p = (primitive p - ((primitive p).[-1])%:P)^`() by rewrite derivB derivC subr0 primitive_deriv.
rewrite (_ : primitive p - _ = 0) ?deriv0 //; apply: many_roots => x hx.
rewrite hornerD hornerN hornerC; apply/eqP; rewrite subr_eq0 eq_le.
move: (hx); rewrite in_itv /= => /andP[x1 x2].
by rewrite -{1}e2 !mon.
Qed.

Lemma roots_count (p w : {poly R}) n : p != 0 -> {in `]-1, 1[, forall x, 0 < w.[x]} ->
  (forall q : {poly R}, (size q <= n)%N -> integral (w * p * q) = 0) ->
  (forall x, x \in `]-1, 1[ -> p.[x] = 0 -> p^`().[x] != 0) -> (n <= size (roots p (-1) 1))%N.
Proof.
move=> p0 wpos orth simple; rewrite leqNgt; apply/negP => lt.
set xs := roots p (-1) 1 in lt.
pose q : {poly R} := \prod_(x <- xs) ('X - x%:P).
have sq : size q = (size xs).+1 by rewrite size_prod_XsubC.
have [r pE] : exists r, p = r * q.
  apply/dvdpP; apply: uniq_roots_dvdp; last by rewrite uniq_rootsE uniq_roots.
  by apply/allP => x; apply: root_roots.
have i0 : (0 : R) \in `]-1, 1[ by rewrite in_itv /= oppr_lt0 ltr01.
have nr : {in `]-1, 1[, forall x, ~~ root r x}.
  move=> x hx; apply/negP => /rootP rx.
  have px : p.[x] = 0 by rewrite pE hornerM rx mul0r.
  have qx : q.[x] = 0.
    by apply/rootP; rewrite root_prod_XsubC; apply: root_in_roots => //; apply/rootP.
  have := simple x hx px; rewrite pE derivM hornerD !hornerM rx qx mulr0 mul0r addr0.
  by rewrite eqxx.
pose s := Num.sg r.[0].
have s0 : s != 0 by rewrite sgr_eq0; apply: nr.
have sr x : x \in `]-1, 1[ -> 0 < s * r.[x].
  move=> hx; rewrite /s (polyrN0_itv nr hx i0) -normrEsg normr_gt0.
  exact: nr.
have w0 : w != 0.
  by apply: contraTneq (wpos 0 i0) => ->; rewrite horner0 ltxx.
have r0 : r != 0 by apply: contraNneq p0; rewrite pE => ->; rewrite mul0r.
have q0 : q != 0 by rewrite -size_poly_eq0 sq.
have : 0 < integral (s *: (w * p * q)).
  apply: integral_gt0.
    by rewrite scaler_eq0 (negbTE s0) /= !mulf_neq0.
  move=> x hx; rewrite hornerZ pE !hornerM.
  have -> : s * (w.[x] * (r.[x] * q.[x]) * q.[x]) = w.[x] * (s * r.[x]) * (q.[x] ^+ 2) by ring.
  by rewrite mulr_ge0 ?sqr_ge0 // mulr_ge0 // ltW // ?wpos // sr.
by rewrite linearZ /= orth ?sq // mulr0 ltxx.
Qed.

(** ** Legendre *)
Lemma leg_no_common n (x : R) : (P n).[x] = 0 -> (P n.+1).[x] = 0 -> False.
Proof.
elim: n => [|n IH] h1 h2.
  by move: h1; rewrite legendre0 hornerE => /eqP; rewrite oner_eq0.
apply: IH => //; apply/eqP.
have /(congr1 (fun p : {poly R} => p.[x])) := bonnet R n.
rewrite -!scale_nat !hornerE /= h1 h2 !mulr0 sub0r => /esym/eqP.
by rewrite oppr_eq0 mulf_eq0 pnatr_eq0.
Qed.

Lemma leg_simple n (x : R) : (P n).[x] = 0 -> (P n)^`().[x] != 0.
Proof.
case: n => [|n] h; first by move/eqP: h; rewrite legendre0 hornerE oner_eq0.
apply/negP => /eqP d; apply: (@leg_no_common n x) => //; apply/eqP.
have /(congr1 (fun p : {poly R} => p.[x])) := leg_ode0 R n.
rewrite -scale_nat hornerM d mulr0 hornerZ hornerD hornerN hornerM h mulr0 sub0r => /esym/eqP.
by rewrite mulrN oppr_eq0 mulf_eq0 pnatr_eq0.
Qed.

Lemma size_leggauss n : size (leggauss_nodes R n) = n.
Proof.
apply/eqP; rewrite eqn_leq; apply/andP; split.
  rewrite -ltnS -(size_leg R n); apply: max_poly_roots; first exact: leg_neq0.
    by apply/allP => x; apply: root_roots.
  exact: uniq_roots.
apply: (@roots_count _ 1) => [||q sq|x _].
- exact: leg_neq0.
- by move=> x _; rewrite hornerE ltr01.
- by rewrite mul1r leg_orth_low.
- exact: leg_simple.
Qed.

Lemma leg_deriv_size n : size (P n.+1)^`() = n.+1.
Proof.
rewrite /deriv size_leg /= size_poly_eq // -mulr_natr mulf_neq0 ?pnatr_eq0 //.
by have [e] := leg_size_lead R n.+1; rewrite lead_coefE e.
Qed.

Lemma dleg_simple n (x : R) : (P n.+1)^`().[x] = 0 -> (P n.+1)^`()^`().[x] != 0.
Proof.
move=> d1; apply/negP => /eqP d2.
have d0 : (P n.+1).[x] = 0.
  apply/eqP; have /(congr1 (fun p : {poly R} => p.[x])) := leg_ode R n.+1.
  rewrite derivM -scale_nat hornerD !hornerM d1 d2 !mulr0 add0r hornerZ => /esym/eqP.
  by rewrite mulf_eq0 pnatr_eq0.
by have := leg_simple d0; rewrite d1 eqxx.
Qed.

Lemma dleg_orth n (q : {poly R}) : (size q <= n)%N -> integral (('X ^+ 2 - 1) * (P n.+1)^`() * q) = 0.
Proof.
move=> sq; set w := _ * _^`().
have := integral_deriv (w * primitive q).
rewrite derivM primitive_deriv linearD /= !hornerM w_at1 w_atN1 !mul0r subrr.
rewrite leg_ode -scale_nat -scalerAl linearZ /= leg_orth_low ?mulr0 ?add0r //.
by apply: leq_trans (size_poly _ _) _; rewrite ltnS.
Qed.

Lemma size_dleg_roots n : size (roots (P n.+1)^`() (-1) 1) = n.
Proof.
apply/eqP; rewrite eqn_leq; apply/andP; split.
  rewrite -ltnS -[X in (_ < X)%N](leg_deriv_size n); apply: max_poly_roots.
  - by rewrite -size_poly_eq0 leg_deriv_size.
  - by apply/allP => x; apply: root_roots.
  - exact: uniq_roots.
apply: (@roots_count _ (1 - 'X ^+ 2)) => [||q sq|x _].
- by rewrite -size_poly_eq0 leg_deriv_size.
- move=> x; rewrite in_itv /= => /andP[x1 x2].
  rewrite hornerD hornerN hornerXn hornerE.
  have -> : 1 - x ^+ 2 = (1 - x) * (x - -1) by ring.
  by rewrite mulr_gt0 // subr_gt0.
- by rewrite -opprB !mulNr linearN /= dleg_orth ?oppr0.
- exact: dleg_simple.
Qed.
End Roots.
