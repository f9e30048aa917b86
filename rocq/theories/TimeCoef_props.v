(** C43-C44: extrapolation and backward differentiation coefficients. *)
From mathcomp Require Import all_ssreflect all_algebra zify ring.
From Verif Require Import Interp_model Interp_spec Lagrange_proofs Interp_proofs Interp_proofs2 FES_proofs.
From Verif Require Import TimeCoef_model.
Set Implicit Arguments.
Unset Strict Implicit.
Unset Printing Implicit Defensive.
Import Order.TTheory GRing.Theory Num.Theory.
Local Open Scope ring_scope.

Section Props.
Variables (R : rcfType) (k : nat).
Hypothesis k0 : (0 < k)%N.
Notation xs := (nc_nodes R k.+1).
Let kn0 : k%:R != 0 :> R. Proof. by rewrite pnatr_eq0 -lt0n. Qed.

Lemma xs_size : size xs = k.+1. Proof. by rewrite size_map size_iota. Qed.
Lemma xs_uniq : uniq xs. Proof. exact: (sorted_uniq lt_trans lt_irreflexive (nc_sorted _ _)). Qed.
Lemma xs_nth i : (i < k.+1)%N -> nth 0 xs i = -1 + i%:R * (2%:R / k%:R).
Proof. by move=> hi; rewrite (nth_map 0%N) ?size_iota // nth_iota. Qed.
Lemma xs_bary : barycentric (nc_bary R k.+1) xs. Proof. exact: nc_barycentric. Qed.
Lemma xs_last : nth 0 xs k = 1.
Proof. by rewrite xs_nth // mulrCA divff // mulr1 addrC -addrA subrr addr0. Qed.

Definition next : R := 1 + 2%:R / k%:R.
Lemma matrixE y : interpolation_matrix_1d (Nodes1D k.+1 NEWTON_COTES xs) (single_point y) = inr (lag_matrix xs [:: y]).
Proof. exact: (interpolation_matrix_1d_ofE xs_uniq xs_bary). Qed.
Lemma dmatrixE : differentiation_matrix_1d (Nodes1D k.+1 NEWTON_COTES xs) = inr (lag_diff_matrix xs).
Proof. by rewrite -(differentiation_matrix_1d_ofE xs_uniq xs_bary). Qed.
Lemma extkE : extk_coeffs R k = inr [seq (lag xs i).[next] | i <- iota 0 k.+1].
Proof.
rewrite /extk_coeffs /nodes1d_create (gtn_eqF k0) /interpolation_matrix matrixE.
rewrite /lag_matrix xs_size -/next; move: (iota 0 k.+1) => l.
by rewrite /= cats0.
Qed.
Lemma bdfkE : bdfk_coeffs R k = inr [seq (lag xs i)^`().[1] * (2%:R / k%:R) | i <- iota 0 k.+1].
Proof.
rewrite /bdfk_coeffs /nodes1d_create (gtn_eqF k0) /interpolation_matrix_grad matrixE dmatrixE.
rewrite /interpolation_matrix_grad_of [nd_values _]/= (lag_grad xs_uniq) xs_size.
rewrite [(1 == 0)%N]/= [iota 0 1]/=; move: (iota 0 k.+1) => l.
by rewrite /= !cats0 -map_comp.
Qed.

(** Samples of [p] at [t0, t0 + h, ...]. *)
Definition samples (p : {poly R}) (t0 h : R) (n : nat) : seq R := [seq p.[t0 + i%:R * h] | i <- iota 0 n].
(** The same polynomial on the reference interval. *)
Definition affine (t0 h : R) : {poly R} := (k%:R * h / 2%:R) *: 'X + (t0 + k%:R * h / 2%:R)%:P.
Definition rescaled (p : {poly R}) (t0 h : R) : {poly R} :=
  p \Po affine t0 h.
Lemma rescaled_eval p t0 h (i : nat) : (rescaled p t0 h).[-1 + i%:R * (2%:R / k%:R)] = p.[t0 + i%:R * h].
Proof.
rewrite horner_comp hornerD hornerZ hornerX hornerC; congr horner.
by move: kn0 (pnatr_eq0 R 2) => k1 /negbT t1; field; rewrite k1.
Qed.
Lemma rescaled_size (p : {poly R}) t0 h : (size p <= k.+1)%N -> (size (rescaled p t0 h) <= k.+1)%N.
Proof.
move=> sp; apply: leq_trans (size_comp_poly_leq _ _) _.
have s2 : (size (affine t0 h) <= 2)%N.
  apply: leq_trans (size_add _ _) _; rewrite geq_max size_polyC.
  by rewrite (leq_trans (size_scale_leq _ _)) ?size_polyX //; case: eqP.
have h1 : ((size (affine t0 h)).-1 <= 1)%N by move: s2; case: (size _).
have h2 : ((size p).-1 <= k)%N by move: sp; case: (size p).
by rewrite ltnS (leq_trans (leq_mul h2 h1)) ?muln1.
Qed.
Lemma samplesE p t0 h : samples p t0 h k.+1 = [seq (rescaled p t0 h).[x] | x <- xs].
Proof. by rewrite -map_comp; apply: eq_map => i /=; rewrite rescaled_eval. Qed.

(** Extrapolation to the next sample. *)
Theorem C43_exact : exists2 c, extk_coeffs R k = inr c &
  size c = k.+1 /\
  forall (p : {poly R}) t0 h, (size p <= k.+1)%N ->
    dot c (samples p t0 h k.+1) = p.[t0 + k.+1%:R * h].
Proof.
rewrite extkE; eexists; first reflexivity; split=> [|p t0 h sp]; first by rewrite size_map size_iota.
rewrite dot_fun -rescaled_eval.
have -> : -1 + k.+1%:R * (2%:R / k%:R) = next.
  rewrite /next -addn1 natrD; move: kn0 => k1; by field.
rewrite -(lag_eval xs_uniq _ (_ : (size (rescaled p t0 h) <= size xs)%N)); last by rewrite xs_size rescaled_size.
rewrite xs_size; apply: eq_bigr => i _.
by rewrite (nth_map 0%N) ?size_iota // nth_iota // add0n mulrC xs_nth // rescaled_eval.
Qed.

Lemma extk_nth c i : extk_coeffs R k = inr c -> (i <= k)%N -> nth 0 c i = (lag xs i).[next].
Proof.
rewrite extkE; set l := [seq _ | _ <- _] => -[<-] hi; by rewrite (nth_map 0%N) ?size_iota // nth_iota.
Qed.
Lemma bdfk_nth c i : bdfk_coeffs R k = inr c -> (i <= k)%N -> nth 0 c i = (lag xs i)^`().[1] * (2%:R / k%:R).
Proof.
rewrite bdfkE; set l := [seq _ | _ <- _] => -[<-] hi; by rewrite (nth_map 0%N) ?size_iota // nth_iota.
Qed.

Lemma next_sub i : (i <= k)%N -> next - nth 0 xs i = (k.+1 - i)%:R * (2%:R / k%:R).
Proof.
move=> hi; rewrite xs_nth ?ltnS // natrB ?leqW // -addn1 natrD /next; move: kn0 => k1; by field.
Qed.
Lemma signed_binomials n : (0 < n)%N -> \sum_(i < n.+1) (-1) ^+ i * 'C(n, i)%:R = 0 :> R.
Proof.
move=> n0; have := exprDn (1 : R) (-1) n; rewrite subrr expr0n (gtn_eqF n0) => /esym e; rewrite -[RHS]e.
by apply: eq_bigr => i _; rewrite expr1n mul1r mulr_natr.
Qed.

(** The coefficients. *)
Theorem C43_values c i : extk_coeffs R k = inr c -> (i <= k)%N ->
  nth 0 c i = (-1) ^+ (k - i) * 'C(k.+1, i)%:R.
Proof.
move=> hc hi; rewrite (extk_nth hc hi).
have [_ [a a0 aE]] := xs_bary.
pose b : R := (nodal xs).[next] / a * (k%:R / 2%:R) / k.+1%:R.
have L j : (j <= k)%N -> (lag xs j).[next] = b * ((-1) ^+ j * 'C(k.+1, j)%:R).
  move=> hj; have n0 : next - nth 0 xs j != 0.
    rewrite next_sub //; apply: mulf_neq0; first by rewrite pnatr_eq0 subn_eq0 -ltnNge ltnS.
    by rewrite mulf_neq0 ?invr_eq0 ?pnatr_eq0 // -lt0n.
  have np : node_product xs j != 0 by apply: node_product_neq0; rewrite ?xs_uniq ?xs_size ?ltnS.
  rewrite lag_off ?xs_uniq ?xs_size ?ltnS //; last by rewrite -subr_eq0.
  have wE : nth 0 (nc_bary R k.+1) j = (-1) ^+ j * 'C(k, j)%:R.
    by rewrite (nth_map 0%N) ?size_iota ?ltnS // nth_iota ?ltnS.
  have -> : (node_product xs j)^-1 = (-1) ^+ j * 'C(k, j)%:R / a.
    have := aE j; rewrite xs_size ltnS => /(_ hj) <-; rewrite wE invfM mulrA divff ?mul1r //.
    by rewrite mulf_neq0 // ?signr_eq0 // pnatr_eq0 -lt0n bin_gt0.
  rewrite next_sub // /b.
  have e : k.+1%:R * 'C(k, j)%:R = (k.+1 - j)%:R * 'C(k.+1, j)%:R :> R.
    by rewrite -!natrM mul_bin_down.
  have k1 : k.+1%:R != 0 :> R by rewrite pnatr_eq0.
  have kj : (k.+1 - j)%:R != 0 :> R by rewrite pnatr_eq0 subn_eq0 -ltnNge ltnS.
  have -> : 'C(k, j)%:R = (k.+1 - j)%:R * 'C(k.+1, j)%:R / k.+1%:R :> R by rewrite -e mulrC mulKf.
  move: (k.+1%:R) ((k.+1 - j)%:R) k1 kj ((nodal xs).[next]) ((-1) ^+ j) ('C(k.+1, j)%:R) kn0 (pnatr_eq0 R 2) => u v u0 v0 w s t kk /negbT two.
  by field; rewrite u0 v0 kk a0.
have b1 : b * (-1) ^+ k = 1.
  have := lag_sum1 xs_uniq next; rewrite xs_size => /(_ (ltn0Sn _)).
  rewrite (eq_bigr (fun i : 'I_k.+1 => b * ((-1) ^+ i * 'C(k.+1, i)%:R))) => [|j _]; last by rewrite L // -ltnS.
  rewrite -mulr_sumr => e; rewrite -[RHS]e; congr (_ * _).
  have := signed_binomials (ltn0Sn k); rewrite big_ord_recr /= binn mulr1 exprS mulN1r => /eqP.
  by rewrite subr_eq0 => /eqP.
rewrite L //; have -> : b = (-1) ^+ k.
  by have := congr1 (fun z => z * (-1) ^+ k) b1; rewrite -mulrA -expr2 sqrr_sign mulr1 mul1r.
rewrite mulrA; congr (_ * _).
have -> : (-1) ^+ k = (-1) ^+ (k - i) * (-1) ^+ i :> R by rewrite -exprD subnK.
by rewrite -mulrA -expr2 sqrr_sign mulr1.
Qed.

(** The derivative at the last sample. *)
Theorem C44_exact : exists2 c, bdfk_coeffs R k = inr c &
  size c = k.+1 /\
  forall (p : {poly R}) t0 h, (size p <= k.+1)%N ->
    dot c (samples p t0 h k.+1) = h * p^`().[t0 + k%:R * h].
Proof.
rewrite bdfkE; eexists; first reflexivity; split=> [|p t0 h sp]; first by rewrite size_map size_iota.
rewrite dot_fun.
transitivity ((2%:R / k%:R) * (rescaled p t0 h)^`().[1]).
  rewrite -(lag_deriv_eval xs_uniq _ (_ : (size (rescaled p t0 h) <= size xs)%N)); last by rewrite xs_size rescaled_size.
  rewrite xs_size mulr_sumr; apply: eq_bigr => i _.
  rewrite (nth_map 0%N) ?size_iota // nth_iota // add0n xs_nth // rescaled_eval.
  by rewrite mulrC mulrA mulrC.
rewrite deriv_comp hornerM horner_comp.
have -> : (affine t0 h)^`() = (k%:R * h / 2%:R)%:P.
  by rewrite derivD derivZ derivX derivC addr0 alg_polyC.
have -> : (affine t0 h).[1] = t0 + k%:R * h.
  rewrite hornerD hornerZ hornerX hornerC; move: (pnatr_eq0 R 2) => /negbT t1; by field.
rewrite hornerC.
move: (p^`().[_]) kn0 (pnatr_eq0 R 2) => y k1 /negbT t1; by field; rewrite k1.
Qed.

(** The coefficients but the last. *)
Theorem C44_values c i : bdfk_coeffs R k = inr c -> (i < k)%N ->
  nth 0 c i = (-1) ^+ (k - i) * 'C(k, i)%:R / (k - i)%:R.
Proof.
move=> hc hi; rewrite (bdfk_nth hc (ltnW hi)) -{1}xs_last.
have [_ [a a0 aE]] := xs_bary.
rewrite lag_deriv_off ?xs_uniq ?xs_size ?ltnS ?(ltnW hi) ?(gtn_eqF hi) //.
have np j : (j <= k)%N -> (node_product xs j) = a / ((-1) ^+ j * 'C(k, j)%:R).
  move=> hj; have w0 : (-1) ^+ j * 'C(k, j)%:R != 0 :> R by rewrite mulf_neq0 // ?signr_eq0 // pnatr_eq0 -lt0n bin_gt0.
  apply: (canRL (mulfK w0)); rewrite mulrC -[RHS](aE j) ?xs_size ?ltnS //.
  by rewrite (nth_map 0%N) ?size_iota ?ltnS // nth_iota ?ltnS.
rewrite !np ?leqnn ?(ltnW hi) // binn mulr1 xs_last xs_nth ?ltnS ?(ltnW hi) //.
have -> : (-1) ^+ (k - i) = (-1) ^+ k * (-1) ^+ i :> R.
  have -> : (-1) ^+ k = (-1) ^+ (k - i) * (-1) ^+ i :> R by rewrite -exprD subnK // ltnW.
  by rewrite -mulrA -expr2 sqrr_sign mulr1.
have ki : (k - i)%:R != 0 :> R by rewrite pnatr_eq0 subn_eq0 -ltnNge.
have -> : 1 - (-1 + i%:R * (2%:R / k%:R)) = (k - i)%:R * (2%:R / k%:R) :> R.
  by rewrite natrB ?(ltnW hi) //; move: kn0 => k1; field.
have C0 : 'C(k, i)%:R != 0 :> R by rewrite pnatr_eq0 -lt0n bin_gt0 ltnW.
have s0 j : (-1) ^+ j != 0 :> R by rewrite signr_eq0.
have -> : ((-1) ^+ k * (-1) ^+ i : R) = (-1) ^+ i / (-1) ^+ k.
  by apply: (canRL (mulfK (s0 k))); rewrite mulrAC -expr2 sqrr_sign mul1r.
move: ((k - i)%:R) ('C(k, i)%:R) ((-1) ^+ k) ((-1) ^+ i) ki C0 (s0 k) (s0 i) kn0 (pnatr_eq0 R 2) => u v s t u0 v0 s1 t0 kk /negbT two.
by field; rewrite u0 v0 s1 t0 kk a0.
Qed.

Theorem C44_sum c : bdfk_coeffs R k = inr c -> \sum_(i < k.+1) nth 0 c i = 0.
Proof.
move=> hc; rewrite (eq_bigr (fun i : 'I_k.+1 => (lag xs i)^`().[1] * (2%:R / k%:R))) => [|i _]; last first.
  by rewrite (bdfk_nth hc) // -ltnS.
have := lag_dsum0 xs_uniq 1; rewrite xs_size => /(_ (ltn0Sn _)) H.
by rewrite -mulr_suml H mul0r.
Qed.
End Props.

Section Harmonic.
Variable R : rcfType.
Definition harmonic (k : nat) : R := \sum_(1 <= j < k.+1) j%:R^-1.
Lemma alternating (k : nat) : \sum_(1 <= m < k.+1) (-1) ^+ m.+1 * 'C(k, m)%:R / m%:R = harmonic k :> R.
Proof.
elim: k => [|k IH]; first by rewrite /harmonic !big_geq.
have -> : harmonic k.+1 = harmonic k + k.+1%:R^-1 by rewrite /harmonic big_nat_recr.
rewrite -IH.
transitivity (\sum_(1 <= m < k.+2) ((-1) ^+ m.+1 * 'C(k, m)%:R / m%:R + (-1) ^+ m.+1 * 'C(k.+1, m)%:R / k.+1%:R : R)).
  apply: eq_big_nat => -[//|m] _.
  have e : m.+1%:R * 'C(k.+1, m.+1)%:R = k.+1%:R * 'C(k, m)%:R :> R by rewrite -!natrM -mul_bin_diag.
  have k1 : k.+1%:R != 0 :> R by rewrite pnatr_eq0.
  have m1 : m.+1%:R != 0 :> R by rewrite pnatr_eq0.
  have -> : 'C(k, m.+1)%:R = 'C(k.+1, m.+1)%:R - m.+1%:R * 'C(k.+1, m.+1)%:R / k.+1%:R :> R.
    by rewrite e mulrAC divff // mul1r binS natrD addrK.
  move: (k.+1%:R) (m.+1%:R) k1 m1 ('C(k.+1, m.+1)%:R) ((-1) ^+ m.+2) {e} => u v u0 v0 x s.
  by field; rewrite u0 v0.
rewrite big_split /= big_nat_recr //= bin_small // mulr0 mul0r addr0; congr (_ + _).
have := @signed_binomials R k.+1 (ltn0Sn _).
rewrite -(big_mkord xpredT (fun i => (-1) ^+ i * 'C(k.+1, i)%:R)) big_ltn // expr0 mul1r bin0 => /eqP.
rewrite addr_eq0 => /eqP e; rewrite -[RHS]mul1r -[X in X * _]/(1%:R) [X in X * _]e -mulr_suml; congr (_ * _).
by rewrite -sumrN; apply: eq_bigr => m _; rewrite exprS mulN1r !mulNr.
Qed.

Theorem C44_last k c : (0 < k)%N -> bdfk_coeffs R k = inr c -> nth 0 c k = harmonic k /\ 0 < nth 0 c k.
Proof.
move=> k0 hc; have e : nth 0 c k = harmonic k.
  have := C44_sum k0 hc; rewrite big_ord_recr /= addrC => /eqP; rewrite addr_eq0 => /eqP ->.
  rewrite -alternating big_add1 /= big_mkord -sumrN (reindex_inj rev_ord_inj) /=; apply: eq_bigr => i _.
  have hi := ltn_ord i.
  have hj : (k - i.+1 < k)%N by lia.
  rewrite (C44_values k0 hc hj).
  have -> : (k - (k - i.+1))%N = i.+1 by rewrite subKn.
  by rewrite bin_sub // [in RHS]exprS mulN1r !mulNr.
split=> //; rewrite e /harmonic big_ltn // ltr_spaddl ?invr1 ?ltr01 //.
by apply: sumr_ge0 => j _; rewrite invr_ge0 ler0n.
Qed.

(** For [k = 0] both divide by zero. *)
Theorem C43_zero : extk_coeffs R 0 = inl IZeroDivision /\ bdfk_coeffs R 0 = inl IZeroDivision.
Proof. by []. Qed.

(** ** Examples: second order. *)
Example extk2 c : extk_coeffs R 2 = inr c -> [seq nth 0 c i | i <- iota 0 3] = [:: 1; - 3%:R; 3%:R].
Proof. by move=> h /=; rewrite !(C43_values _ h) //= expr2 mulrNN !mul1r expr1 mulN1r. Qed.
Example bdfk2 c : bdfk_coeffs R 2 = inr c -> [seq nth 0 c i | i <- iota 0 3] = [:: 2%:R^-1; - 2%:R; 3%:R / 2%:R].
Proof.
move=> h /=; rewrite (@C44_values R 2 isT c 0 h isT) (@C44_values R 2 isT c 1 h isT) (proj1 (@C44_last 2 c isT h)) /harmonic big_ltn // big_ltn // big_geq //.
rewrite /= !expr2 !mulrNN !mul1r expr1 mulN1r invr1 mulr1 addr0; congr [:: _; _; _].
have t0 : (2%:R : R) != 0 by rewrite pnatr_eq0.
by field.
Qed.
End Harmonic.

Print Assumptions C43_exact.
Print Assumptions C43_values.
Print Assumptions C43_zero.
Print Assumptions C44_exact.
Print Assumptions C44_values.
Print Assumptions C44_sum.
Print Assumptions C44_last.
