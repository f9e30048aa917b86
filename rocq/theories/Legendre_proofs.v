(** Legendre polynomials from Bonnet's recurrence; integrals of polynomials. *)
From mathcomp Require Import all_ssreflect all_algebra zify ring.
From Verif Require Import Interp_model Interp_spec.
Set Implicit Arguments.
Unset Strict Implicit.
Unset Printing Implicit Defensive.
Import Order.TTheory GRing.Theory Num.Theory.
Local Open Scope ring_scope.

Section Leg.
Variable F : numFieldType.
Notation P := (legendre F).

Lemma leg_pairE n : leg_pair F n = (P n, P n.+1).
Proof. by rewrite /legendre /=; case: (leg_pair F n). Qed.
Lemma legendre0 : P 0 = 1. Proof. by []. Qed.
Lemma legendre1 : P 1 = 'X. Proof. by []. Qed.
Lemma legendreSS n : P n.+2 = n.+2%:R^-1 *: ((n.*2 + 3)%:R *: ('X * P n.+1) - n.+1%:R *: P n).
Proof. by rewrite /legendre /=; case: (leg_pair F n). Qed.

Lemma polyC_natr (n : nat) : n%:R%:P = n%:R :> {poly F}.
Proof. by rewrite rmorph_nat. Qed.
Lemma deriv1 : (1 : {poly F})^`() = 0. Proof. exact: derivC. Qed.
Lemma natp_inj (n : nat) : injective (fun p : {poly F} => n.+1%:R * p).
Proof. by apply: mulfI; rewrite -polyC_natr polyC_eq0 pnatr_eq0. Qed.
Lemma scale_nat (n : nat) (p : {poly F}) : n%:R *: p = n%:R * p.
Proof. by rewrite -mul_polyC polyC_natr. Qed.

Lemma bonnet n : n.+2%:R * P n.+2 = (n.*2 + 3)%:R * ('X * P n.+1) - n.+1%:R * P n.
Proof. by rewrite legendreSS -scale_nat scalerA divff ?pnatr_eq0 // scale1r !scale_nat. Qed.

(** (a) and (b): the two derivative recurrences *)
Lemma leg_deriv n : ((P n.+1)^`() = n.+1%:R * P n + 'X * (P n)^`()) /\
                    ('X * (P n.+1)^`() - (P n)^`() = n.+1%:R * P n.+1).
Proof.
elim: n => [|n [a b]].
  by rewrite legendre0 legendre1 derivX deriv1 mulr0 addr0 subr0 !mulr1 mul1r.
have a' : (P n.+2)^`() = n.+2%:R * P n.+1 + 'X * (P n.+1)^`().
  apply: (@natp_inj n.+1).
  have /(congr1 (fun p : {poly F} => p^`())) := bonnet n.
  rewrite !(derivB, derivM, derivX) -!polyC_natr !derivC !polyC_natr !mul0r !add0r mul1r => ->.
  have -> : (P n)^`() = 'X * (P n.+1)^`() - n.+1%:R * P n.+1 by rewrite -b; ring.
  rewrite -addnn; ring.
split=> //; rewrite a' bonnet.
have c : ('X * 'X) * (P n.+1)^`() = n.+1%:R * ('X * P n.+1) + (P n.+1)^`() - n.+1%:R * P n.
  rewrite [in RHS]a -mulrA.
  have -> : 'X * (P n.+1)^`() = n.+1%:R * P n.+1 + (P n)^`() by rewrite -b; ring.
  ring.
rewrite mulrDr (mulrA 'X 'X) c -addnn; ring.
Qed.

Lemma leg_ode0 n : ('X ^+ 2 - 1) * (P n.+1)^`() = n.+1%:R * ('X * P n.+1 - P n).
Proof.
have [a b] := leg_deriv n.
rewrite mulrBl mul1r {2}a expr2 -mulrA.
have -> : 'X * (P n.+1)^`() = n.+1%:R * P n.+1 + (P n)^`() by rewrite -b; ring.
ring.
Qed.

Lemma leg_ode n : (('X ^+ 2 - 1) * (P n)^`())^`() = (n * n.+1)%:R * P n.
Proof.
case: n => [|n]; first by rewrite legendre0 deriv1 mulr0 deriv0 mul0n mul0r.
have [a b] := leg_deriv n.
rewrite leg_ode0 derivM -polyC_natr derivC polyC_natr mul0r add0r derivB derivM derivX.
have -> : (P n)^`() = 'X * (P n.+1)^`() - n.+1%:R * P n.+1 by rewrite -b; ring.
ring.
Qed.

Lemma leg_three n : n.+1%:R * (P n.+2)^`() = (n.*2 + 3)%:R * ('X * (P n.+1)^`()) - n.+2%:R * (P n)^`().
Proof.
have [_ b] := leg_deriv n; have [a _] := leg_deriv n.+1.
rewrite a.
have -> : (P n)^`() = 'X * (P n.+1)^`() - n.+1%:R * P n.+1 by rewrite -b; ring.
rewrite -addnn; ring.
Qed.

Lemma leg_at1 n : (P n).[1] = 1.
Proof.
suff [] : (P n).[1] = 1 /\ (P n.+1).[1] = 1 by [].
elim: n => [|n [IH1 IH2]]; first by rewrite legendre0 legendre1 hornerX hornerE.
split=> //; rewrite legendreSS !hornerE /= IH1 IH2.
rewrite ?mulr1 -natrB; last by lia.
have -> : (n.*2 + 3 - n.+1 = n.+2)%N by lia.
by rewrite mulVf // pnatr_eq0.
Qed.

Lemma leg_atN1 n : (P n).[-1] = (-1) ^+ n.
Proof.
suff [] : (P n).[-1] = (-1) ^+ n /\ (P n.+1).[-1] = (-1) ^+ n.+1 by [].
elim: n => [|n [IH1 IH2]]; first by rewrite legendre0 legendre1 hornerX hornerE expr1.
split=> //; rewrite legendreSS !hornerE /= IH1 IH2.
have -> : (n.*2 + 3)%:R * -1 * (-1) ^+ n.+1 - n.+1%:R * (-1) ^+ n = n.+2%:R * ((-1) ^+ n.+2 : F).
  rewrite !exprS -addnn; ring.
by rewrite mulrA mulVf ?mul1r // pnatr_eq0.
Qed.

Lemma leg_size_lead n : size (P n) = n.+1 /\ lead_coef (P n) != 0.
Proof.
suff [] : size (P n) = n.+1 /\ size (P n.+1) = n.+2.
  by move=> e _; split=> //; rewrite lead_coef_eq0 -size_poly_eq0 e.
elim: n => [|n [IH1 IH2]]; first by rewrite legendre0 legendre1 size_poly1 size_polyX.
split=> //; rewrite legendreSS size_scale ?invr_eq0 ?pnatr_eq0 // size_addl.
  rewrite size_scale ?pnatr_eq0 ?addn3 // mulrC size_mulX ?IH2 //.
  by rewrite -size_poly_eq0 IH2.
rewrite size_opp !size_scale ?pnatr_eq0 ?addn3 // IH1 mulrC size_mulX ?IH2 //.
by rewrite -size_poly_eq0 IH2.
Qed.
Lemma size_leg n : size (P n) = n.+1. Proof. by case: (leg_size_lead n). Qed.
Lemma leg_neq0 n : P n != 0. Proof. by rewrite -size_poly_eq0 size_leg. Qed.

(** Jacobi polynomials with both parameters 1 are multiples of derivatives. *)
Notation J := (jacobi F 1 1).
Lemma jacobi_pairE n : jac_pair F 1 1 n = (J n, J n.+1).
Proof. by rewrite /jacobi /=; case: (jac_pair F 1 1 n). Qed.
Lemma jacobi_legendre n : J n = (2%:R / n.+2%:R) *: (P n.+1)^`().
Proof.
suff [] : J n = (2%:R / n.+2%:R) *: (P n.+1)^`() /\ J n.+1 = (2%:R / n.+3%:R) *: (P n.+2)^`() by [].
elim: n => [|n [IH1 IH2]].
  split; first by rewrite legendre1 derivX divff ?pnatr_eq0 // scale1r.
  have [a _] := leg_deriv 1; rewrite a legendre1 derivX mulr1.
  rewrite /jacobi /=.
  have -> : (1 + 1 + 2)%:R / 2%:R = 2%:R :> F by rewrite (natrM _ 2 2) mulfK // pnatr_eq0.
  have -> : 2%:R * 'X + 'X = 3%:R * 'X :> {poly F} by ring.
  rewrite -scale_nat scalerA divfK ?pnatr_eq0 // !scale_nat polyC_natr polyC1.
  by rewrite mulrBr mulr1 addrC subrK.
split=> //.
have -> : J n.+2 = (2 * n.+2 * (n.+2 + 1 + 1) * (n.+2.*2 + 1 + 1 - 2))%:R^-1 *:
   ((n.+2.*2 + 1 + 1 - 1)%:R *: ((((n.+2.*2 + 1 + 1) * (n.+2.*2 + 1 + 1 - 2))%:R *: 'X + 0%:P) * J n.+1)
         - (2 * (n.+2 + 1 - 1) * (n.+2 + 1 - 1) * (n.+2.*2 + 1 + 1))%:R *: J n).
  by rewrite /jacobi /= subrr; case: (jac_pair F 1 1 n).
rewrite IH1 IH2 addr0.
have nz k : (k.+1%:R : F) != 0 by rewrite pnatr_eq0.
have T := leg_three n.+1.
have {T}T : (P n.+3)^`() = n.+2%:R^-1 *: ((n.*2 + 5)%:R *: ('X * (P n.+2)^`()) - n.+3%:R *: (P n.+1)^`()).
  rewrite !scale_nat; have -> : (n.*2 + 5 = n.+1.*2 + 3)%N by lia.
  by rewrite -T -scale_nat scalerA mulVf // scale1r.
rewrite {}T -!scalerAl -!scalerAr !scalerBr !scalerA.
congr (_ *: _ - _ *: _).
- have -> : (n.+2.*2 + 1 + 1 - 2 = 2 * n.+2)%N by lia.
  have -> : (n.+2.*2 + 1 + 1 - 1 = n.*2 + 5)%N by lia.
  have -> : (n.+2.*2 + 1 + 1 = 2 * n.+3)%N by lia.
  have -> : (n.+2 + 1 + 1 = n.+4)%N by lia.
  rewrite !natrM; move: (nz 1%N) (nz n.+1) (nz n.+2) (nz n.+3) (n.*2 + 5)%:R; move: (2%:R : F) n.+2%:R n.+3%:R n.+4%:R.
  by move=> t a b c t0 a0 b0 c0 e; field; rewrite t0 a0 b0 c0.
- have -> : (n.+2.*2 + 1 + 1 - 2 = 2 * n.+2)%N by lia.
  have -> : (n.+2 + 1 - 1 = n.+2)%N by lia.
  have -> : (n.+2.*2 + 1 + 1 = 2 * n.+3)%N by lia.
  have -> : (n.+2 + 1 + 1 = n.+4)%N by lia.
  rewrite !natrM; move: (nz 1%N) (nz n.+1) (nz n.+2) (nz n.+3); move: (2%:R : F) n.+2%:R n.+3%:R n.+4%:R.
  by move=> t a b c t0 a0 b0 c0; field; rewrite t0 a0 c0.
Qed.

(** ** Integrals *)
Lemma coef_primitive (p : {poly F}) i : (primitive p)`_i = if i is j.+1 then p`_j / j.+1%:R else 0.
Proof.
rewrite coef_poly; case: i => [|j] //.
by rewrite ltnS; case: ltnP => // h; rewrite nth_default ?mul0r.
Qed.

Lemma primitive_deriv (p : {poly F}) : (primitive p)^`() = p.
Proof.
apply/polyP => i; rewrite coef_deriv coef_primitive -mulr_natr divfK //.
by rewrite pnatr_eq0.
Qed.

Lemma primitive_linear : linear (@primitive F).
Proof.
move=> a p q; apply/polyP => i; rewrite coefD coefZ !coef_primitive.
by case: i => [|i]; rewrite ?mulr0 ?addr0 // coefD coefZ mulrDl mulrA.
Qed.

Lemma integral_linear : linear_for *%R (@integral F).
Proof.
move=> a p q; rewrite /integral primitive_linear !hornerD !hornerZ; ring.
Qed.
Canonical integral_linear_struct := Linear integral_linear.

Lemma integral_deriv (p : {poly F}) : integral p^`() = p.[1] - p.[-1].
Proof.
have -> : integral p^`() = (p - (p`_0)%:P).[1] - (p - (p`_0)%:P).[-1].
  congr (_.[1] - _.[-1]); apply/polyP => -[|i]; rewrite coef_primitive coefB coefC ?subrr //=.
    by rewrite coef_deriv -mulr_natr mulfK ?subr0 // pnatr_eq0.
  by rewrite coef_deriv -mulr_natr mulfK ?subr0 // pnatr_eq0.
by rewrite !hornerD !hornerN !hornerC; ring.
Qed.

Lemma integral1 : integral (1 : {poly F}) = 2%:R.
Proof. by rewrite -derivX integral_deriv !hornerX opprK. Qed.

Lemma w_at1 : ('X ^+ 2 - 1 : {poly F}).[1] = 0.
Proof. by rewrite hornerD hornerN hornerXn hornerE expr1n subrr. Qed.
Lemma w_atN1 : ('X ^+ 2 - 1 : {poly F}).[-1] = 0.
Proof. by rewrite hornerD hornerN hornerXn hornerE sqrrN expr1n subrr. Qed.

(** Orthogonality *)
Lemma leg_orth m n : m != n -> integral (P m * P n) = 0.
Proof.
move=> mn.
have E k l : (k * k.+1)%:R * integral (P k * P l) = - integral (('X ^+ 2 - 1) * (P k)^`() * (P l)^`()).
  have -> : (k * k.+1)%:R * integral (P k * P l) = integral ((('X ^+ 2 - 1) * (P k)^`())^`() * P l).
    by rewrite leg_ode -mulrA -scale_nat linearZ.
  have := integral_deriv (('X ^+ 2 - 1) * (P k)^`() * P l).
  rewrite (derivM (_ * _) (P l)) linearD /= !hornerM w_at1 w_atN1 !mul0r subrr => /eqP.
  by rewrite addr_eq0 => /eqP.
have em := E m n; have en := E n m.
rewrite (mulrC (P n)) [_ * (P n)^`() * _]mulrAC -em in en; move/eqP: en.
rewrite -subr_eq0 -mulrBl mulf_eq0 => /orP[|/eqP //].
rewrite subr_eq0 eqr_nat => /eqP e; exfalso; move/eqP: mn; apply; nia.
Qed.

Lemma leg_orth_low n (q : {poly F}) : (size q <= n)%N -> integral (P n * q) = 0.
Proof.
elim: {q}(size q) {-2}q (leqnn (size q)) => [|m IH] q sq qn.
  by move: sq; rewrite leqn0 size_poly_eq0 => /eqP ->; rewrite mulr0 linear0.
have [|sm] := leqP (size q) m; first by move=> sm; apply: IH.
have {sq sm}sq : size q = m.+1 by apply/eqP; rewrite eqn_leq sq sm.
have [sP lP] := leg_size_lead m.
pose r := q - (lead_coef q / lead_coef (P m)) *: P m.
have -> : q = r + (lead_coef q / lead_coef (P m)) *: P m by rewrite /r subrK.
rewrite mulrDr linearD /= -scalerAr linearZ /= leg_orth ?mulr0 ?addr0; last first.
  by move: qn; rewrite sq => /gtn_eqF ->.
have sr : (size r <= m)%N.
  apply/leq_sizeP => j; rewrite leq_eqVlt => /predU1P[<-|mj].
    have lq : lead_coef q = q`_m by rewrite lead_coefE sq.
    have lp : lead_coef (P m) = (P m)`_m by rewrite lead_coefE sP.
    by rewrite coefB coefZ -lq -lp divfK // subrr.
  have h : (size q <= j)%N by rewrite sq.
  have h' : (size (P m) <= j)%N by rewrite sP.
  by rewrite coefB coefZ (nth_default _ h) (nth_default _ h') mulr0 subr0.
apply: IH => //; apply: leq_trans sr _; apply: leq_trans (leqnSn m) _; by rewrite -sq.
Qed.
End Leg.
