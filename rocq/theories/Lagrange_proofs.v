(** Lagrange interpolation on lists of distinct nodes. *)
From mathcomp Require Import all_ssreflect all_algebra zify ring.
From Verif Require Import Interp_spec.
Set Implicit Arguments.
Unset Strict Implicit.
Unset Printing Implicit Defensive.
Import GRing.Theory.
Local Open Scope ring_scope.

Lemma size_deriv_pred (R : ringType) (p : {poly R}) : (size p^`() <= (size p).-1)%N.
Proof. exact: size_poly. Qed.
Lemma leq_size_deriv (R : ringType) (p : {poly R}) : (size p^`() <= size p)%N.
Proof. exact: leq_trans (size_deriv_pred p) (leq_pred _). Qed.

Section Lag.
Variables (F : fieldType) (xs : seq F).
Let n := size xs.
Hypothesis Ux : uniq xs.
Notation x_ k := (nth 0 xs k).

Lemma node_neq i j : (i < n)%N -> (j < n)%N -> i != j -> x_ i - x_ j != 0.
Proof. by move=> hi hj; rewrite subr_eq0 nth_uniq. Qed.

Lemma node_product_neq0 k : (k < n)%N -> node_product xs k != 0.
Proof.
move=> hk; apply/prodf_neq0 => j jk; apply: node_neq => //.
by rewrite eq_sym.
Qed.

(** The nodal polynomial without node [k]. *)
Definition nodal_but (k : nat) : {poly F} := \prod_(j < n | j != k :> nat) ('X - (x_ j)%:P).
Definition nodal : {poly F} := \prod_(j < n) ('X - (x_ j)%:P).
Definition lag (k : nat) : {poly F} := (node_product xs k)^-1 *: nodal_but k.

Lemma nodalE k : (k < n)%N -> nodal = ('X - (x_ k)%:P) * nodal_but k.
Proof. by move=> hk; rewrite /nodal (bigD1 (Ordinal hk)). Qed.

Lemma nodal_but_node k : (nodal_but k).[x_ k] = node_product xs k.
Proof. by rewrite horner_prod; apply: eq_bigr => j _; rewrite hornerXsubC. Qed.

Lemma nodal_but_other k j : (j < n)%N -> j != k -> (nodal_but k).[x_ j] = 0.
Proof.
move=> hj jk; rewrite horner_prod (bigD1 (Ordinal hj)) //= hornerXsubC subrr.
by rewrite mul0r.
Qed.

Lemma lag_node k j : (k < n)%N -> (j < n)%N -> (lag k).[x_ j] = (j == k)%:R.
Proof.
move=> hk hj; rewrite hornerZ; case: eqP => [->|/eqP jk].
  by rewrite nodal_but_node mulVf // node_product_neq0.
by rewrite nodal_but_other // mulr0.
Qed.

Lemma size_nodal : size nodal = n.+1.
Proof. by rewrite /nodal size_prod_XsubC /index_enum -enumT size_enum_ord. Qed.

Lemma nodal_neq0 : nodal != 0.
Proof. by rewrite -size_poly_eq0 size_nodal. Qed.

Lemma nodal_monic : nodal \is monic.
Proof. exact: monic_prod_XsubC. Qed.

Lemma size_nodal_but k : (k < n)%N -> size (nodal_but k) = n.
Proof.
move=> hk; have /(congr1 (fun p : {poly F} => size p)) := nodalE hk.
rewrite size_nodal size_monicM ?monicXsubC //; last first.
  by apply/negP => /eqP e; move: nodal_neq0; rewrite (nodalE hk) e mulr0 eqxx.
by rewrite size_XsubC => -[] /= ->.
Qed.

Lemma size_lag k : (k < n)%N -> (size (lag k) <= n)%N.
Proof. by move=> hk; apply: leq_trans (size_scale_leq _ _) _; rewrite size_nodal_but. Qed.

Lemma root_nodal k : (k < n)%N -> nodal.[x_ k] = 0.
Proof. by move=> hk; rewrite (nodalE hk) hornerM hornerXsubC subrr mul0r. Qed.

(** A polynomial of degree less than [n] is determined by its node values. *)
Lemma poly_by_nodes (p q : {poly F}) :
  (size p <= n)%N -> (size q <= n)%N -> (forall k, (k < n)%N -> p.[x_ k] = q.[x_ k]) -> p = q.
Proof.
move=> sp sq h; apply/eqP; rewrite -subr_eq0; apply/negP => /negP nz.
have r : all (root (p - q)) xs.
  by apply/(all_nthP 0) => k hk; rewrite rootE hornerD hornerN h // subrr.
have := max_poly_roots nz r Ux; rewrite -/n ltnNge.
by rewrite (leq_trans (size_add _ _)) // size_opp geq_max sp sq.
Qed.

Lemma lag_interp (p : {poly F}) : (size p <= n)%N -> p = \sum_(k < n) p.[x_ k] *: lag k.
Proof.
move=> sp; apply: poly_by_nodes => //.
  apply: leq_trans (size_sum _ _ _) _; apply/bigmax_leqP => k _.
  by apply: leq_trans (size_scale_leq _ _) _; apply: size_lag.
move=> k hk; rewrite horner_sum (bigD1 (Ordinal hk)) //= hornerZ lag_node // eqxx mulr1.
rewrite big1 ?addr0 // => j jk; rewrite hornerZ lag_node //.
case: eqP => [e|_]; last by rewrite mulr0.
by move: jk; rewrite -val_eqE /= e eqxx.
Qed.

Lemma lag_eval (p : {poly F}) x : (size p <= n)%N -> \sum_(k < n) p.[x_ k] * (lag k).[x] = p.[x].
Proof.
move=> sp; rewrite {2}(lag_interp sp) horner_sum.
by apply: eq_bigr => k _; rewrite hornerZ.
Qed.

Lemma lag_deriv_eval (p : {poly F}) x : (size p <= n)%N ->
  \sum_(k < n) p.[x_ k] * (lag k)^`().[x] = p^`().[x].
Proof.
move=> sp; rewrite {2}(lag_interp sp) raddf_sum horner_sum.
by apply: eq_bigr => k _; rewrite /= derivZ hornerZ.
Qed.

Lemma lag_sum1 x : (0 < n)%N -> \sum_(k < n) (lag k).[x] = 1.
Proof.
move=> n0; have s1 : (size (1%:P : {poly F}) <= n)%N by rewrite size_poly1.
rewrite -[RHS](hornerC 1 x) -(lag_eval x s1).
by apply: eq_bigr => k _; rewrite hornerC mul1r.
Qed.

Lemma lag_dsum0 x : (0 < n)%N -> \sum_(k < n) (lag k)^`().[x] = 0.
Proof.
move=> n0; have s1 : (size (1%:P : {poly F}) <= n)%N by rewrite size_poly1.
have := lag_deriv_eval x s1; rewrite derivC horner0 => e0; rewrite -[RHS]e0.
by apply: eq_bigr => k _; rewrite hornerC mul1r.
Qed.

(** Off the nodes. *)
Lemma lag_off k x : (k < n)%N -> x != x_ k -> (lag k).[x] = nodal.[x] * ((node_product xs k)^-1 / (x - x_ k)).
Proof.
move=> hk; rewrite -subr_eq0 => xk.
rewrite hornerZ (nodalE hk) hornerM hornerXsubC.
by rewrite -mulrA mulrCA [_ * (_^-1 / _)]mulrCA divff // mulr1 mulrC.
Qed.

Lemma nodal_off x : x \notin xs -> nodal.[x] != 0.
Proof.
move=> xx; rewrite horner_prod; apply/prodf_neq0 => j _; rewrite hornerXsubC subr_eq0.
by apply: contraNneq xx => ->; rewrite mem_nth.
Qed.

(** Derivatives at the nodes. *)
Lemma lag_deriv_off i j : (i < n)%N -> (j < n)%N -> i != j ->
  (lag j)^`().[x_ i] = node_product xs i / node_product xs j / (x_ i - x_ j).
Proof.
move=> hi hj ij; rewrite derivZ hornerZ.
have e1 : nodal_but j = ('X - (x_ i)%:P) * \prod_(l < n | (l != j :> nat) && (l != Ordinal hi)) ('X - (x_ l)%:P).
  by rewrite /nodal_but (bigD1 (Ordinal hi)).
have e2 : node_product xs i = (x_ i - x_ j) * \prod_(l < n | (l != j :> nat) && (l != Ordinal hi)) (x_ i - x_ l).
  rewrite /node_product (bigD1 (Ordinal hj)) /=; last by rewrite eq_sym.
  by congr (_ * _); apply: eq_bigl => l; rewrite -!val_eqE /= andbC.
rewrite e1 derivM derivXsubC hornerD mul1r hornerM hornerXsubC subrr mul0r addr0.
rewrite horner_prod; under eq_bigr do rewrite hornerXsubC.
by rewrite e2 mulrAC [_ / (x_ i - x_ j)]mulrAC divff ?node_neq // mul1r mulrC.
Qed.

Lemma nodal_deriv k : (k < n)%N -> nodal^`().[x_ k] = node_product xs k.
Proof.
move=> hk; rewrite (nodalE hk) derivM derivXsubC mul1r hornerD hornerM hornerXsubC subrr mul0r addr0.
exact: nodal_but_node.
Qed.
End Lag.
