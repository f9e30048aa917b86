(** The closed-form barycentric weights and the created nodes. *)
From mathcomp Require Import all_ssreflect all_algebra polyrcf zify ring.
From Verif Require Import Interp_model Interp_spec Lagrange_proofs Interp_proofs Legendre_proofs Gauss_proofs Gauss_proofs2.
Set Implicit Arguments.
Unset Strict Implicit.
Unset Printing Implicit Defensive.
Import Order.TTheory GRing.Theory Num.Theory.
Local Open Scope ring_scope.

Section Sign.
Variable F : realFieldType.
Implicit Types (xs ws : seq F).

Lemma node_product_sign xs k : sorted <%R xs -> (k < size xs)%N ->
  node_product xs k = (-1) ^+ (size xs - k.+1) * `|node_product xs k|.
Proof.
move=> so hk; set n := size xs.
have lt i j : (i < n)%N -> (j < n)%N -> (i < j)%N -> nth 0 xs i < nth 0 xs j.
  move=> hi hj; exact: (sorted_ltn_nth lt_trans 0 so).
rewrite {2}/node_product normr_prod.
have -> : (-1) ^+ (n - k.+1) = \prod_(j < n | j != k :> nat) (if (j <= k)%N then 1 else -1) :> F.
  have -> : \prod_(j < n | j != k :> nat) (if (j <= k)%N then 1 else -1) =
            \prod_(j < n) (if (j <= k)%N then 1 else -1) :> F.
    rewrite big_mkcond; apply: eq_bigr => j _; case: eqP => //= ->.
    by rewrite leqnn.
  rewrite -(big_mkord xpredT (fun j => if (j <= k)%N then 1 else -1 : F)) (@big_cat_nat _ _ _ k.+1) //=.
  rewrite big_nat_cond big1 => [|j /andP[/andP[_ h] _]]; last by rewrite -ltnS h.
  rewrite mul1r big_nat_cond (eq_bigr (fun _ => -1)) => [|j /andP[/andP[h _] _]]; last by rewrite leqNgt h.
  by rewrite -big_nat_cond prodr_const_nat.
rewrite -big_split /=; apply: eq_bigr => j jk.
case: leqP => h.
  have h' : (j < k)%N by rewrite ltn_neqAle jk h.
  by rewrite mul1r ger0_norm // subr_ge0 ltW // lt.
by rewrite ler0_norm ?mulN1r ?opprK // subr_le0 ltW // lt.
Qed.

Lemma alternating_barycentric xs ws (v : nat -> F) c : sorted <%R xs -> size ws = size xs -> 0 < c ->
  (forall k, (k < size xs)%N -> nth 0 ws k = (-1) ^+ k * v k) ->
  (forall k, (k < size xs)%N -> v k * `|node_product xs k| = c) -> barycentric ws xs.
Proof.
move=> so sw c0 hw hv; split=> //; exists ((-1) ^+ (size xs).-1 * c).
  by rewrite mulf_neq0 ?signr_eq0 // gt_eqF.
move=> k hk; rewrite hw // (node_product_sign so hk) mulrACA -exprD hv //; congr ((-1) ^+ _ * _).
by rewrite addnBA // subnS addKn.
Qed.

(** ** Newton-Cotes *)
Lemma size_nc_nodes n : size (nc_nodes F n) = n. Proof. by rewrite size_map size_iota. Qed.
Lemma nth_nc n k : (k < n)%N -> nth 0 (nc_nodes F n) k = -1 + k%:R * (2%:R / n.-1%:R).
Proof. by move=> hk; rewrite (nth_map 0%N) ?size_iota // nth_iota. Qed.
Lemma nc_step_gt0 n : (1 < n)%N -> 0 < 2%:R / n.-1%:R :> F.
Proof. by case: n => [|[|n]] // _; rewrite divr_gt0 // ltr0n. Qed.
Lemma nc_sorted n : sorted <%R (nc_nodes F n).
Proof.
case: n => [|[|n]] //; apply: (homo_sorted (e := ltn)); last exact: iota_ltn_sorted.
move=> i j /= ij; rewrite ltr_add2l ltr_pmul2r ?ltr_nat //.
exact: (@nc_step_gt0 n.+2).
Qed.

Lemma dist_prod n k : (k < n)%N -> \prod_(j < n | j != k :> nat) `|(k%:R - j%:R : F)| = (k`! * (n - k.+1)`!)%:R.
Proof.
move=> hk.
have -> : \prod_(j < n | j != k :> nat) `|(k%:R - j%:R : F)| =
          \prod_(0 <= j < n) (if j == k then 1 else `|(k%:R - j%:R : F)|).
  by rewrite big_mkord big_mkcond; apply: eq_bigr => j _; case: eqP.
rewrite (@big_cat_nat _ _ _ k) //=; last exact: ltnW.
rewrite natrM; congr (_ * _).
  rewrite big_nat_rev /= add0n fact_prod big_add1 /= natr_prod !big_mkord.
  apply: eq_bigr => j _; rewrite -natrB; last by move: (ltn_ord j); lia.
  have := ltn_ord j; case: eqP => [|_ jk]; first by lia.
  rewrite normr_nat; congr (_%:R); lia.
rewrite big_ltn // eqxx mul1r -{1}[k.+1]add0n -(subnK hk) big_addn fact_prod big_add1 /= natr_prod addnK.
rewrite !big_mkord; apply: eq_bigr => j _.
have -> : (j + k.+1 == k)%N = false by apply/eqP; lia.
by rewrite distrC -natrB ?normr_nat; [congr (_%:R); lia|lia].
Qed.

Lemma nc_barycentric n : (0 < n)%N -> barycentric (nc_bary F n) (nc_nodes F n).
Proof.
move=> n0; set h := 2%:R / n.-1%:R : F.
have h0 : (1 < n)%N -> 0 < h by exact: nc_step_gt0.
apply: (@alternating_barycentric _ _ (fun k => 'C(n.-1, k)%:R) (h ^+ n.-1 * (n.-1)`!%:R)).
- exact: nc_sorted.
- by rewrite !size_map.
- rewrite mulr_gt0 ?ltr0n ?fact_gt0 //; case: n n0 @h h0 => [|[|n]] // _ h h0.
    by rewrite expr0 ltr01.
  by rewrite exprn_gt0 // h0.
- by rewrite size_nc_nodes => k hk; rewrite (nth_map 0%N) ?size_iota // nth_iota.
rewrite size_nc_nodes => k hk.
rewrite /node_product size_nc_nodes normr_prod.
have -> : \prod_(j < n | j != k :> nat) `|nth 0 (nc_nodes F n) k - nth 0 (nc_nodes F n) j| =
          \prod_(j < n | j != k :> nat) (`|h| * `|(k%:R - j%:R : F)|).
  apply: eq_bigr => j _; rewrite !nth_nc // -/h -normrM; congr (`|_|); ring.
rewrite big_split /= dist_prod //.
have -> : \prod_(j < n | j != k :> nat) `|h| = h ^+ n.-1.
  rewrite prodr_const; have -> : #|(fun j : 'I_n => (j != k :> nat))| = n.-1.
    have := cardC1 (Ordinal hk); rewrite card_ord => <-; apply: eq_card => j.
    by rewrite !inE -val_eqE.
  case: n n0 {hk} @h h0 => [|[|n]] // _ h h0.
  by rewrite ger0_norm // ltW // h0.
rewrite mulrCA -natrM; congr (_ * _%:R).
have -> : (n - k.+1 = n.-1 - k)%N by lia.
by rewrite bin_fact //; lia.
Qed.
End Sign.

Section Created.
Variable R : rcfType.
Notation P := (legendre R).

Lemma nth_sqrt_weights (f : R -> R -> R) (q : quadrature1d R) k :
  size (qd_weights q) = size (nd_values (qd_nodes q)) -> (k < size (qd_weights q))%N ->
  nth 0 (sqrt_weights f q) k = (-1) ^+ k * Num.sqrt (f (nth 0 (nd_values (qd_nodes q)) k) (nth 0 (qd_weights q) k)).
Proof.
move=> e hk; rewrite /sqrt_weights (nth_map (0%N, (0, 0))); last first.
  by rewrite size_zip size_iota size_zip e minnn -e minnn.
rewrite nth_zip; last by rewrite size_iota size_zip e minnn.
by rewrite (nth_zip _ _ _ (esym e)) nth_iota.
Qed.
Lemma size_sqrt_weights (f : R -> R -> R) (q : quadrature1d R) :
  size (qd_weights q) = size (nd_values (qd_nodes q)) -> size (sqrt_weights f q) = size (nd_values (qd_nodes q)).
Proof. by move=> e; rewrite size_map !size_zip size_iota e !minnn. Qed.

Lemma sqrt_collapse (a y : R) : a != 0 -> Num.sqrt (a * (2%:R / (a * y ^+ 2))) = Num.sqrt 2%:R * `|y|^-1.
Proof.
move=> a0; have -> : a * (2%:R / (a * y ^+ 2)) = 2%:R * (y ^-1) ^+ 2.
  by rewrite invfM mulrCA mulVKf // exprVn.
by rewrite sqrtrM ?ler0n // sqrtr_sqr normfV.
Qed.

Lemma gl_sorted n : sorted <%R (leggauss_nodes R n). Proof. exact: sorted_roots. Qed.

Lemma gl_barycentric n q : (0 < n)%N -> quadrature_create R n GAUSS_LEGENDRE = inr q ->
  nd_values (qd_nodes q) = leggauss_nodes R n /\
  barycentric (sqrt_weights (fun x w => (1 - x ^+ 2) * w) q) (leggauss_nodes R n).
Proof.
move=> n0; rewrite /quadrature_create /= (gtn_eqF n0) /quadrature_from_nodes /= (gtn_eqF n0) => -[<-] /=.
split=> //; set xs := leggauss_nodes R n; set q' := Quadrature1D _ _ _ _.
have sz : size xs = n by exact: size_leggauss.
have sw : size (qd_weights q') = size xs by rewrite /= gl_weights // size_map size_iota sz.
have [_ l0] := leg_size_lead R n; set l := lead_coef _ in l0.
have dE k : (k < n)%N -> (P n)^`().[nth 0 xs k] = l * node_product xs k.
  move=> hk; by rewrite (legendre_nodal R n0) derivZ hornerZ nodal_deriv ?sz.
apply: (@alternating_barycentric _ _ _ (fun k => Num.sqrt ((1 - nth 0 xs k ^+ 2) * lam xs k)) (Num.sqrt 2%:R / `|l|)).
- exact: gl_sorted.
- by rewrite size_sqrt_weights.
- by rewrite divr_gt0 ?sqrtr_gt0 ?ltr0n // normr_gt0.
- rewrite sz => k hk; rewrite nth_sqrt_weights //=; last by rewrite gl_weights // size_map size_iota.
  by rewrite gl_weights // (nth_map 0%N) ?size_iota // nth_iota.
rewrite sz => k hk; rewrite gl_lam // dE //.
have a0 := lt0r_neq0 (gl_1mx2 R hk).
have np0 : node_product xs k != 0 by rewrite node_product_neq0 ?sz // gl_uniq.
rewrite sqrt_collapse // normrM.
by rewrite invfM !mulrA divfK // normr_eq0.
Qed.

Lemma gll_create N : nodes1d_create R N.+2 GAUSS_LOBATTO_LEGENDRE =
  inr (Nodes1D N.+2 GAUSS_LOBATTO_LEGENDRE (gll_nodes R N)).
Proof.
rewrite /nodes1d_create; case: N => [|N].
  by rewrite /gll_nodes legendre1 derivX rootsC.
by rewrite -(gll_nodes_jacobi R N.+1) subn2.
Qed.

Lemma gll_quadrature N : quadrature_create R N.+2 GAUSS_LOBATTO_LEGENDRE =
  inr (Quadrature1D N.+2 GAUSS_LOBATTO_LEGENDRE (Nodes1D N.+2 GAUSS_LOBATTO_LEGENDRE (gll_nodes R N))
         (gll_weights N.+2 (gll_nodes R N))).
Proof.
rewrite /quadrature_create gll_create /quadrature_from_nodes.
by have -> : ((N.+2 * (N.+2 - 1))%N == 0%N) = false by rewrite muln_eq0 subn_eq0.
Qed.

Lemma gll_nodes_create N q : quadrature_create R N.+2 GAUSS_LOBATTO_LEGENDRE = inr q ->
  nd_values (qd_nodes q) = gll_nodes R N /\ qd_weights q = gll_weights N.+2 (gll_nodes R N).
Proof. by rewrite gll_quadrature => -[<-]. Qed.

Lemma gll_barycentric N q : quadrature_create R N.+2 GAUSS_LOBATTO_LEGENDRE = inr q ->
  barycentric (sqrt_weights (fun x w => w) q) (gll_nodes R N).
Proof.
move=> hq; have [nE wE] := gll_nodes_create hq; set xs := gll_nodes R N in nE wE *.
have sz : size xs = N.+2 by exact: gll_size.
have sw : size (qd_weights q) = size (nd_values (qd_nodes q)) by rewrite nE wE size_map.
pose K : R := (N.+1 * N.+2)%:R / lead_coef (('X ^+ 2 - 1) * (P N.+1)^`()).
have K0 : K != 0 by rewrite mulf_neq0 ?pnatr_eq0 // invr_eq0 lV.
pose c : R := 2%:R / (N.+1 * N.+2)%:R.
have c0 : 0 < c by rewrite divr_gt0 ?ltr0n.
apply: (@alternating_barycentric _ _ _ (fun k => Num.sqrt (lam xs k)) (Num.sqrt c * `|K|)).
- exact: gll_sorted.
- by rewrite size_sqrt_weights // nE.
- by rewrite mulr_gt0 ?sqrtr_gt0 // normr_gt0.
- rewrite sz => k hk; rewrite nth_sqrt_weights //; last by rewrite wE size_map sz.
  by rewrite wE gll_weightsE (nth_map 0%N) ?size_iota // nth_iota.
rewrite sz => k hk; rewrite gll_lam // gll_np // -/c -/K.
have p0 := gll_P_neq0 R hk.
rewrite -exprVn sqrtrM ?ltW // sqrtr_sqr normfV normrM.
by rewrite mulrCA divfK ?normr_eq0 // mulrC.
Qed.

(** Created nodes: distinct, as many as asked for, with proper weights. *)
Theorem created_grid n t (g : nodes1d R) : (0 < n)%N -> nodes1d_create R n t = inr g ->
  [/\ nd_num_points g = n, nd_type g = t, size (nd_values g) = n, uniq (nd_values g) &
      exists2 ws, barycentric_weights g = inr ws & barycentric ws (nd_values g)].
Proof.
move=> n0; case: t => //=.
- move=> [<-] /=; split=> //; first exact: size_nc_nodes.
    exact: sorted_uniq lt_trans ltxx _ (nc_sorted _ _).
  by exists (nc_bary R n) => //; apply: nc_barycentric.
- rewrite (gtn_eqF n0) => -[<-] /=; split=> //; first exact: size_leggauss.
    exact: uniq_roots.
  rewrite /barycentric_weights /=; case E: (quadrature_create R n GAUSS_LEGENDRE) => [e|q].
    by move: E; rewrite /quadrature_create /= (gtn_eqF n0) /quadrature_from_nodes /= (gtn_eqF n0).
  by exists (sqrt_weights (fun x w => (1 - x ^+ 2) * w) q) => //; case: (gl_barycentric n0 E).
- case: n n0 => [|[|N]] // _.
  have := gll_create N; rewrite /nodes1d_create => -> [<-].
  split=> //; first exact: gll_size.
    exact: gll_uniq.
  exists (sqrt_weights (fun x w => w) (Quadrature1D N.+2 GAUSS_LOBATTO_LEGENDRE (Nodes1D N.+2 GAUSS_LOBATTO_LEGENDRE (gll_nodes R N))
         (gll_weights N.+2 (gll_nodes R N)))).
    by rewrite /barycentric_weights [nd_type _]/= [nd_num_points _]/= gll_quadrature.
  by apply: gll_barycentric; rewrite gll_quadrature.
Qed.

Theorem created_exists n t : (1 < n)%N -> t <> SINGLE -> exists g, nodes1d_create R n t = inr g.
Proof.
case: n => [|[|N]] //; case: t => // _ _.
- by eexists.
- by eexists.
- by exists (Nodes1D N.+2 GAUSS_LOBATTO_LEGENDRE (gll_nodes R N)); apply: gll_create.
Qed.
End Created.
