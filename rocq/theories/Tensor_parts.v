(** Integration by parts with a tensor-product quadrature rule. *)
From mathcomp Require Import all_ssreflect all_algebra polyrcf zify ring.
From Verif Require Import PyDict_model PyDict_proofs Interp_model Interp_spec Lagrange_proofs Tensor_proofs UnitCube_proofs UnitCube_proofs3 Unisolvent_proofs Tensor_nodal.
Set Implicit Arguments.
Unset Strict Implicit.
Unset Printing Implicit Defensive.
Import GRing.Theory.
Local Open Scope ring_scope.

Section Parts.
Variables (F : fieldType) (d : nat) (xs ws : seq F) (l : nat).
Notation m := (size xs).
Hypotheses (m1 : (1 < m)%N) (U : uniq xs) (e0 : nth 0 xs 0 = -1) (e1 : nth 0 xs m.-1 = 1).
Hypothesis parts : forall p q : {poly F}, (size p <= m)%N -> (size q <= l)%N ->
  \sum_(i < m) nth 0 ws i * (p^`().[nth 0 xs i] * q.[nth 0 xs i]) = p.[1] * q.[1] - p.[-1] * q.[-1] - \sum_(i < m) nth 0 ws i * (p.[nth 0 xs i] * q^`().[nth 0 xs i]).
Notation pt r := [seq nth 0 xs i | i <- r].
Notation W r := (\prod_(b < d) nth 0 ws (nth 0%N r b)).
Notation sign k q := (\prod_(b < d) (if b == k :> nat then (nth 0%N q b == m.-1)%:R - (nth 0%N q b == 0%N)%:R else nth 0 ws (nth 0%N q b))).

(** One product. *)
Lemma parts_one k (fs : seq {poly F}) q : (k < d)%N -> size fs = d -> all (fun p : {poly F} => (size p <= l)%N) fs -> q \in grid m d ->
  \sum_(r <- grid m d) W r * (\prod_(b < d) (if b == k :> nat then (lag xs (nth 0%N q b))^`().[nth 0 xs (nth 0%N r b)] else (lag xs (nth 0%N q b)).[nth 0 xs (nth 0%N r b)]))
     * \prod_(b < d) (nth 0 fs b).[nth 0 xs (nth 0%N r b)] =
  sign k q * (\prod_(b < d) (nth 0 fs b).[nth 0 xs (nth 0%N q b)])
  - W q * \prod_(b < d) (if b == k :> nat then (nth 0 fs b)^`().[nth 0 xs (nth 0%N q b)] else (nth 0 fs b).[nth 0 xs (nth 0%N q b)]).
Proof.
move=> kd sf lf qg.
have ql b : (b < d)%N -> (nth 0%N q b < m)%N.
  by move=> bd; move: qg; rewrite mem_grid => /andP[/eqP sq /allP]; apply; rewrite mem_nth ?sq.
under eq_bigr do rewrite -!big_split /=.
rewrite (sum_grid_prod m d (fun b i => nth 0 ws i * (if b == k then (lag xs (nth 0%N q b))^`().[nth 0 xs i] else (lag xs (nth 0%N q b)).[nth 0 xs i]) * (nth 0 fs b).[nth 0 xs i])).
rewrite -!big_split /=.
have sumE (f : nat -> F) : \sum_(i <- iota 0 m) f i = \sum_(i < m) f i.
  have -> : iota 0 m = index_iota 0 m by rewrite /index_iota subn0.
  by rewrite big_mkord.
have off b : b != k -> (b < d)%N -> \sum_(x <- iota 0 m) nth 0 ws x * (if b == k then (lag xs (nth 0%N q b))^`().[nth 0 xs x] else (lag xs (nth 0%N q b)).[nth 0 xs x]) * (nth 0 fs b).[nth 0 xs x]
    = nth 0 ws (nth 0%N q b) * (nth 0 fs b).[nth 0 xs (nth 0%N q b)].
  move=> bk bd; rewrite (negbTE bk) (eq_big_seq (fun i => (i == nth 0%N q b)%:R * (nth 0 ws i * (nth 0 fs b).[nth 0 xs i]))).
    by rewrite sum_unit ?ql.
  by move=> i; rewrite mem_iota add0n => /= il; rewrite lag_node ?ql // [nth 0 ws i * _]mulrC mulrA.
have onk : \sum_(x <- iota 0 m) nth 0 ws x * (if k == k then (lag xs (nth 0%N q k))^`().[nth 0 xs x] else (lag xs (nth 0%N q k)).[nth 0 xs x]) * (nth 0 fs k).[nth 0 xs x]
    = ((nth 0%N q k == m.-1)%:R - (nth 0%N q k == 0%N)%:R) * (nth 0 fs k).[nth 0 xs (nth 0%N q k)] - nth 0 ws (nth 0%N q k) * (nth 0 fs k)^`().[nth 0 xs (nth 0%N q k)].
  rewrite eqxx sumE; under eq_bigr do rewrite -mulrA.
  have n0 : (0 < m)%N := ltnW m1.
  have nl : (m.-1 < m)%N by rewrite prednK.
  rewrite parts ?size_lag ?ql //; last by apply: (allP lf); rewrite mem_nth ?sf.
  have E1 : (lag xs (nth 0%N q k)).[1] * (nth 0 fs k).[1] = (nth 0%N q k == m.-1)%:R * (nth 0 fs k).[nth 0 xs (nth 0%N q k)].
    rewrite -{1}e1 lag_node ?ql // eq_sym; case: eqP => [->|_]; by rewrite ?mul0r // e1.
  have E0 : (lag xs (nth 0%N q k)).[-1] * (nth 0 fs k).[-1] = (nth 0%N q k == 0%N)%:R * (nth 0 fs k).[nth 0 xs (nth 0%N q k)].
    rewrite -{1}e0 lag_node ?ql // eq_sym; case: eqP => [->|_]; by rewrite ?mul0r // e0.
  rewrite E1 E0 mulrBl; congr (_ - _); rewrite -(sumE (fun i => nth 0 ws i * ((lag xs (nth 0%N q k)).[nth 0 xs i] * (nth 0 fs k)^`().[nth 0 xs i]))) (eq_big_seq (fun i => (i == nth 0%N q k)%:R * (nth 0 ws i * (nth 0 fs k)^`().[nth 0 xs i]))).
    by rewrite sum_unit ?ql.
  by move=> i; rewrite mem_iota add0n => /= il; rewrite lag_node ?ql // mulrCA.
rewrite (bigD1 (Ordinal kd)) //= onk [X in _ = X - _](bigD1 (Ordinal kd)) //= [X in _ = _ - X](bigD1 (Ordinal kd)) //= !eqxx.
have rst : \prod_(b < d | b != Ordinal kd) (\sum_(x <- iota 0 m) nth 0 ws x * (if b == k :> nat then (lag xs (nth 0%N q b))^`().[nth 0 xs x] else (lag xs (nth 0%N q b)).[nth 0 xs x]) * (nth 0 fs b).[nth 0 xs x])
   = \prod_(b < d | b != Ordinal kd) (nth 0 ws (nth 0%N q b) * (nth 0 fs b).[nth 0 xs (nth 0%N q b)]).
  by apply: eq_bigr => b bk; rewrite off.
rewrite rst mulrBl [LHS]mulrBl.
 congr (_ * _ - _ * _); apply: eq_bigr => b; by rewrite -val_eqE /= => /negbTE->.
Qed.

Lemma quad_parts k v (Z : tpoly F) : (k < d)%N -> tdeg d l Z ->
  \sum_(r <- grid m d) W r * teval (tderiv k (nodal d xs v)) (pt r) * teval Z (pt r) =
  \sum_(q <- grid m d) v q * (sign k q * teval Z (pt q) - W q * teval (tderiv k Z) (pt q)).
Proof.
move=> kd /allP dZ.
have tE r (t : F * seq {poly F}) : r \in grid m d -> t \in Z -> \prod_(px <- zip t.2 (pt r)) px.1.[px.2] = \prod_(b < d) (nth 0 t.2 b).[nth 0 xs (nth 0%N r b)].
  move=> rg /dZ /andP[/eqP st _]; have sr := size_grid_in rg.
  rewrite (big_nth (0, 0)) size_zip size_map st sr minnn big_mkord; apply: eq_bigr => b _.
  by rewrite nth_zip ?size_map ?st ?sr //= (nth_map 0%N) ?sr.
have tE' r (t : F * seq {poly F}) : r \in grid m d -> t \in Z ->
    \prod_(px <- zip [seq if i == k then (nth 0 t.2 i)^`() else nth 0 t.2 i | i <- iota 0 (size t.2)] (pt r)) px.1.[px.2] =
    \prod_(b < d) (if b == k :> nat then (nth 0 t.2 b)^`().[nth 0 xs (nth 0%N r b)] else (nth 0 t.2 b).[nth 0 xs (nth 0%N r b)]).
  move=> rg /dZ /andP[/eqP st _]; have sr := size_grid_in rg.
  rewrite (big_nth (0, 0)) size_zip !size_map size_iota st sr minnn big_mkord; apply: eq_bigr => b _.
  by rewrite nth_zip ?size_map ?size_iota ?st ?sr //= !(nth_map 0%N) ?size_iota ?st ?sr // nth_iota //; case: ifP.
rewrite (eq_big_seq (fun r => \sum_(t <- Z) t.1 * \sum_(q <- grid m d) v q * (W r * (\prod_(b < d) (if b == k :> nat then (lag xs (nth 0%N q b))^`().[nth 0 xs (nth 0%N r b)] else (lag xs (nth 0%N q b)).[nth 0 xs (nth 0%N r b)]))
     * \prod_(b < d) (nth 0 t.2 b).[nth 0 xs (nth 0%N r b)]))); last first.
  move=> r rg /=; rewrite nodal_deriv_at // [teval Z _]/teval mulr_sumr; apply: eq_big_seq => t tZ.
  rewrite (tE r t) // /tsum mulrCA; congr (_ * _); rewrite mulr_sumr mulr_suml; apply: eq_bigr => q _.
  rewrite mulrA -[X in X = _]mulrA [v q * _]mulrC !mulrA; congr (_ * _); by rewrite mulrAC.
rewrite exchange_big /=.
under eq_bigr do rewrite -mulr_sumr exchange_big /=.
rewrite (eq_big_seq (fun t : F * seq {poly F} => t.1 * \sum_(q <- grid m d) v q * (sign k q * (\prod_(b < d) (nth 0 t.2 b).[nth 0 xs (nth 0%N q b)])
  - W q * \prod_(b < d) (if b == k :> nat then (nth 0 t.2 b)^`().[nth 0 xs (nth 0%N q b)] else (nth 0 t.2 b).[nth 0 xs (nth 0%N q b)])))); last first.
  move=> t tZ; congr (_ * _); apply: eq_big_seq => q qg; rewrite -mulr_sumr; congr (_ * _).
  by have /andP[/eqP st lt] := dZ _ tZ; rewrite parts_one.
under eq_bigr do rewrite mulr_sumr; rewrite exchange_big /=; apply: eq_big_seq => q qg.
rewrite /teval /tderiv big_map !mulr_sumr -sumrB mulr_sumr; apply: eq_big_seq => t tZ /=.
rewrite (tE q t) // (tE' q t) // mulrCA; congr (_ * _); rewrite mulrBr; congr (_ - _); exact: mulrCA.
Qed.
End Parts.
