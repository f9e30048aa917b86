(** C32-C37: interpolation and quadrature on the reference element. *)
From mathcomp Require Import all_ssreflect all_algebra polyrcf zify ring.
From Verif Require Import PyDict_model PyDict_proofs Interp_model Interp_spec Lagrange_proofs Interp_proofs.
From Verif Require Import Legendre_proofs Gauss_proofs Gauss_proofs2 Interp_proofs2 Tensor_proofs.
Set Implicit Arguments.
Unset Strict Implicit.
Unset Printing Implicit Defensive.
Import Order.TTheory GRing.Theory Num.Theory.
Local Open Scope ring_scope.

(** What it means for the rows of a matrix to interpolate from [xs] to [es]. *)
Definition interpolates (F : fieldType) (xs es : seq F) (M : seq (seq F)) : Prop :=
  [/\ size M = size es,
      forall p : {poly F}, (size p <= size xs)%N -> matvec M [seq p.[x] | x <- xs] = [seq p.[x] | x <- es],
      forall row, row \in M -> size row = size xs /\ foldr +%R 0 row = 1 &
      forall i j, (i < size es)%N -> (j < size xs)%N -> nth 0 es i = nth 0 xs j ->
        nth [::] M i = [seq (j == k)%:R | k <- iota 0 (size xs)]].

Section OneD.
Variable F : realFieldType.

(** ** C32: any distinct nodes, with barycentric weights up to a common factor *)
Theorem C32_interpolation_exact (ws xs es : seq F) : uniq xs -> xs != [::] -> es != [::] ->
  barycentric ws xs ->
  exists2 M, interpolation_matrix_1d_of ws xs es = inr M & interpolates xs es M.
Proof.
move=> Ux x0 e0 Bw; exists (lag_matrix xs es); first exact: interpolation_matrix_1d_ofE.
split.
- by rewrite size_map.
- by move=> p sp; apply: lag_matrix_exact.
- move=> row hrow; split; last by apply: lag_matrix_rowsum hrow; rewrite // lt0n size_eq0.
  by case/mapP: hrow => x _ ->; rewrite size_map size_iota.
move=> i j hi hj e; rewrite (nth_map 0) //; apply/eq_in_map => k.
by rewrite mem_iota add0n e => /andP[_ hk]; rewrite lag_node // eq_sym.
Qed.

(** ** C34 *)
Theorem C34_differentiation_exact (ws xs es : seq F) : uniq xs -> xs != [::] -> es != [::] ->
  barycentric ws xs ->
  let D := differentiation_matrix_1d_of ws xs in
  [/\ size D = size xs,
      forall p : {poly F}, (size p <= size xs)%N -> matvec D [seq p.[x] | x <- xs] = [seq p^`().[x] | x <- xs],
      forall row, row \in D -> foldr +%R 0 row = 0 &
      exists2 M, interpolation_matrix_1d_of ws xs es = inr M &
        forall p : {poly F}, (size p <= size xs)%N ->
          matvec (matmul (size xs) M D) [seq p.[x] | x <- xs] = [seq p^`().[x] | x <- es]].
Proof.
move=> Ux x0 e0 Bw; rewrite /= differentiation_matrix_1d_ofE //; split.
- by rewrite size_map.
- by move=> p sp; apply: lag_diff_exact.
- move=> row /mapP[x _ ->]; rewrite foldr_sum sum_iota lag_dsum0 //; by rewrite lt0n size_eq0.
exists (lag_matrix xs es); first exact: interpolation_matrix_1d_ofE.
move=> p sp; rewrite lag_grad // /matvec -map_comp; apply: eq_map => x /=.
rewrite dotE ?size_map ?size_iota // -(lag_deriv_eval Ux x sp); apply: eq_bigr => k _.
rewrite (nth_map 0%N) ?size_iota // nth_iota // (nth_map 0) //; exact: mulrC.
Qed.
End OneD.

Section Created.
Variable R : rcfType.
Implicit Types (g e : nodes1d R).

(** ** C32 and C34 for the nodes the code creates *)
Theorem C32_created n t g e : (0 < n)%N -> nodes1d_create R n t = inr g -> nd_values e != [::] ->
  exists2 M, interpolation_matrix_1d g e = inr M & interpolates (nd_values g) (nd_values e) M.
Proof.
move=> n0 /(created_grid n0) [_ _ sz U [ws E B]] e0; rewrite /interpolation_matrix_1d E.
by apply: C32_interpolation_exact => //; rewrite -size_eq0 sz -lt0n.
Qed.

Theorem C34_created n t g : (0 < n)%N -> nodes1d_create R n t = inr g ->
  exists2 D, differentiation_matrix_1d g = inr D &
    (forall p : {poly R}, (size p <= n)%N ->
      matvec D [seq p.[x] | x <- nd_values g] = [seq p^`().[x] | x <- nd_values g]) /\
    (forall row, row \in D -> foldr +%R 0 row = 0).
Proof.
move=> n0 /(created_grid n0) [_ _ sz U [ws E B]]; rewrite /differentiation_matrix_1d E.
have x0 : nd_values g != [::] by rewrite -size_eq0 sz -lt0n.
have [_ D1 D2 _] := C34_differentiation_exact U x0 x0 B.
by eexists; first reflexivity; split; rewrite -?sz.
Qed.

(** ** C33 *)
Theorem C33_newton_cotes n : (0 < n)%N ->
  barycentric [seq (-1) ^+ i * 'C(n.-1, i)%:R | i <- iota 0 n] (nc_nodes R n).
Proof. exact: nc_barycentric. Qed.

Theorem C33_weights n t g : (0 < n)%N -> nodes1d_create R n t = inr g ->
  [/\ size (nd_values g) = n, uniq (nd_values g) &
      exists2 ws, barycentric_weights g = inr ws & barycentric ws (nd_values g)].
Proof. by move=> n0 /(created_grid n0) []. Qed.

(** The weights raise exactly for single points (and for point counts for which
    the nodes cannot be made). *)
Theorem C33_creates n t : (1 < n)%N ->
  (exists g, nodes1d_create R n t = inr g) <-> t <> SINGLE.
Proof. by move=> n1; split=> [[g] + t0|]; [rewrite t0|exact: created_exists]. Qed.

Theorem C33_single x : barycentric_weights (single_point x : nodes1d R) = inl IValueError.
Proof. by []. Qed.

Lemma nodal_root (xs : seq R) x : root (nodal xs) x = (x \in xs).
Proof.
have -> : nodal xs = \prod_(y <- xs) ('X - y%:P) by rewrite /nodal (big_nth 0) big_mkord.
by rewrite root_prod_XsubC.
Qed.

(** The Gauss nodes: increasing, inside the interval, with the end points for
    Gauss-Lobatto-Legendre, zeros of [P n] and of [(1 - x^2) (P (n-1))']. *)
Theorem C33_gauss_nodes n g : (0 < n)%N -> nodes1d_create R n GAUSS_LEGENDRE = inr g ->
  [/\ sorted <%R (nd_values g), size (nd_values g) = n, ~~ is_continuous g &
      forall x, x \in nd_values g <-> (legendre R n).[x] = 0].
Proof.
move=> n0 hg; have [_ _ sz _ _] := created_grid n0 hg.
move: hg; rewrite /= (gtn_eqF n0) => -[gE]; split=> //.
- by rewrite -gE; apply: sorted_roots.
- rewrite /is_continuous -gE /=; have hn : (0 < size (leggauss_nodes R n))%N by rewrite gl_size.
  by case/andP: (gl_in R n0) => /gt_eqF ->.
have vE : nd_values g = leggauss_nodes R n by rewrite -gE.
move=> x; rewrite vE; split=> [/(nthP 0)[k]|r].
  by rewrite gl_size // => hk <-; apply: gl_root.
have : root (legendre R n) x by apply/rootP.
have [_ l0] := leg_size_lead R n.
by rewrite legendre_nodal // rootZ // nodal_root.
Qed.

Theorem C33_lobatto_nodes N g : nodes1d_create R N.+2 GAUSS_LOBATTO_LEGENDRE = inr g ->
  [/\ sorted <%R (nd_values g), size (nd_values g) = N.+2, is_continuous g &
      forall x, x \in nd_values g <-> ((1 - 'X ^+ 2) * (legendre R N.+1)^`()).[x] = 0].
Proof.
rewrite gll_create => -[<-]; split; rewrite ?[nd_values _]/=.
- exact: gll_sorted.
- exact: gll_size.
- by rewrite /is_continuous /gll_nodes /= last_cat /= !eqxx.
move=> x; have -> : (1 - 'X ^+ 2 : {poly R}) = - ('X ^+ 2 - 1) by rewrite opprB.
rewrite mulNr hornerN; split=> [/(@gll_root R N) ->|/eqP]; first by rewrite oppr0.
rewrite oppr_eq0 => r; have : root (('X ^+ 2 - 1) * (legendre R N.+1)^`()) x by [].
by rewrite V_nodal rootZ ?lV // nodal_root.
Qed.

(** ** C35 *)
Lemma all_inr_map (A : Type) (f : nat -> ierror + A) (h : nat -> A) (l : seq nat) :
  (forall i, i \in l -> f i = inr (h i)) -> all_inr [seq f i | i <- l] = inr [seq h i | i <- l].
Proof.
elim: l => [|i l IH] H //=; rewrite H ?mem_head // IH // => j jl; by apply: H; rewrite inE jl orbT.
Qed.
Lemma rows_lag (xs es : seq R) : rows_sized (size xs) (lag_matrix xs es).
Proof. by apply/allP => r /mapP[x _ ->]; rewrite size_map size_iota. Qed.

Theorem C35_tensor_exact d n t g e : (0 < n)%N -> (0 < d)%N -> nodes1d_create R n t = inr g ->
  nd_values e != [::] ->
  exists2 M, interpolation_matrix d g e = inr M &
    size M = (size (nd_values e) ^ d)%N /\
    forall f : tpoly R, tdeg d n f ->
      matvec M [seq teval f x | x <- cart (nseq d (nd_values g))] =
      [seq teval f x | x <- cart (nseq d (nd_values e))].
Proof.
move=> n0 d0 /(created_grid n0) [_ _ sz U [ws E B]] e0.
rewrite /interpolation_matrix /interpolation_matrix_1d E interpolation_matrix_1d_ofE //.
set xs := nd_values g in sz U B *; set es := nd_values e; rewrite /interpolation_matrix_of.
case ME : (reduce _ _) => [er|M]; first by case: d d0 ME.
have sM : size M = (size es ^ d)%N.
  by rewrite (size_krons ME) big_nseq iter_muln_1 size_map.
exists M => //; split=> // f /allP hf.
have fE : [seq (t.1, t.2) | t <- f] = f by rewrite -[RHS]map_id; apply: eq_map => -[].
rewrite -[in RHS]fE.
apply: (matvec_teval (g := snd)) => // -[c ps] tf.
have /andP[/eqP /= sp /allP hp] := hf _ tf; rewrite -{1 2}sp /=.
apply: (krons_prod ME) => //; first by rewrite size_nseq.
  by rewrite all_nseq rows_lag orbT.
move=> j hj; rewrite nth_nseq -sp hj; apply: lag_matrix_exact => //.
by rewrite sz; apply: hp; rewrite mem_nth.
Qed.

Theorem C35_gradient_exact d n t g e : (0 < n)%N -> (0 < d)%N -> nodes1d_create R n t = inr g ->
  nd_values e != [::] ->
  exists2 Ms, interpolation_matrix_grad d g e = inr Ms &
    size Ms = d /\
    forall k, (k < d)%N -> size (nth [::] Ms k) = (size (nd_values e) ^ d)%N /\
    forall f : tpoly R, tdeg d n f ->
      matvec (nth [::] Ms k) [seq teval f x | x <- cart (nseq d (nd_values g))] =
      [seq teval (tderiv k f) x | x <- cart (nseq d (nd_values e))].
Proof.
move=> n0 d0 /(created_grid n0) [_ _ sz U [ws E B]] e0.
rewrite /interpolation_matrix_grad /interpolation_matrix_1d /differentiation_matrix_1d E.
rewrite interpolation_matrix_1d_ofE // differentiation_matrix_1d_ofE //.
set xs := nd_values g in sz U B *; set es := nd_values e.
rewrite /interpolation_matrix_grad_of (gtn_eqF d0) -/xs lag_grad //.
set L := lag_matrix xs es; set G := [seq _ | x <- es].
have fE i : (i < d)%N -> reduce (@kron R) (grad_factors d i L G) =
    inr (foldl (@kron R) (head [::] (grad_factors d i L G)) (behead (grad_factors d i L G))).
  by case: d d0.
rewrite (all_inr_map (h := fun i => foldl (@kron R) (head [::] (grad_factors d i L G)) (behead (grad_factors d i L G)))); last first.
  by move=> i; rewrite mem_iota => /andP[_]; apply: fE.
eexists; first reflexivity; split; first by rewrite size_map size_iota.
move=> k hk; rewrite (nth_map 0%N) ?size_iota // nth_iota // add0n.
have := fE k hk; set M := foldl _ _ _ => ME.
have sg : size (grad_factors d k L G) = d by rewrite size_map size_iota.
have sM : size M = (size es ^ d)%N.
  rewrite (size_krons ME) big_map (eq_bigr (fun=> size es)) => [|i _]; last by case: ifP; rewrite size_map.
  by rewrite big_const_seq count_predT size_iota iter_muln_1.
split=> // f /allP hf; rewrite /tderiv.
set h := fun t : R * seq {poly R} => [seq if j == k then (nth 0 t.2 j)^`() else nth 0 t.2 j | j <- iota 0 (size t.2)].
apply: (matvec_teval (g := h)) => // -[c ps] tf.
have /andP[/eqP /= sp /allP hp] := hf _ tf.
have sh : size (h (c, ps)) = d by rewrite size_map size_iota.
rewrite -[X in cart (nseq X xs)]sp -[X in cart (nseq X es)]sh.
apply: (krons_prod ME); rewrite ?sg ?sh ?sp //.
  apply/allP => A /mapP[j _ ->]; case: ifP => _; first by apply/allP => r /mapP[x _ ->]; rewrite size_map size_iota.
  exact: rows_lag.
move=> j hj; rewrite !(nth_map 0%N) ?size_iota ?sp // !nth_iota ?sp // !add0n eq_sym.
have spj : (size (@nth {poly R} 0%R ps j) <= size xs)%N by rewrite sz; apply: hp; rewrite mem_nth ?sp.
case: eqP => _; last exact: lag_matrix_exact.
rewrite /G /matvec -map_comp; apply: eq_map => x /=.
rewrite dotE ?size_map ?size_iota // -(lag_deriv_eval U x spj); apply: eq_bigr => i _.
rewrite (nth_map 0%N) ?size_iota // nth_iota // (nth_map 0) //; exact: mulrC.
Qed.

(** [interpolate_grad]: component [k] is the partial derivative in direction [k]
    at every evaluation point. *)
Theorem C35_interpolate_grad d n t g e (f : tpoly R) : (0 < n)%N -> (0 < d)%N ->
  nodes1d_create R n t = inr g -> nd_values e != [::] -> tdeg d n f ->
  interpolate_grad d g e [seq teval f x | x <- cart (nseq d (nd_values g))] =
  inr [seq [seq teval (tderiv k f) x | x <- cart (nseq d (nd_values e))] | k <- iota 0 d].
Proof.
move=> n0 d0 hg e0 hf; have [np _ sz _ _] := created_grid n0 hg.
have [Ms ME [sM H]] := C35_gradient_exact n0 d0 hg e0.
rewrite /interpolate_grad np size_map size_cart_nseq sz eqxx /= ME; congr inr.
apply: (@eq_from_nth _ [::]) => [|k]; rewrite !size_map ?size_iota ?sM // => hk.
rewrite (nth_map [::]) ?sM // (nth_map 0%N) ?size_iota // nth_iota // add0n.
by have [_ ->] := H k hk.
Qed.

(** In no dimensions both matrices raise. *)
Theorem C35_no_dimension n t g e : (0 < n)%N -> nodes1d_create R n t = inr g -> nd_values e != [::] ->
  interpolation_matrix 0 g e = inl ITypeError /\ interpolation_matrix_grad 0 g e = inl IValueError.
Proof.
move=> n0 /(created_grid n0) [_ _ sz U [ws E B]] e0.
rewrite /interpolation_matrix /interpolation_matrix_grad /interpolation_matrix_1d /differentiation_matrix_1d E.
by rewrite interpolation_matrix_1d_ofE.
Qed.

(** ** C36 *)
(** A rule is exact up to degree [m - 1] and its weights add up to 2. *)
Definition exact_below (m : nat) (q : quadrature1d R) : Prop :=
  forall p : {poly R}, (size p <= m)%N -> quad (nd_values (qd_nodes q)) (qd_weights q) p = integral p.

Theorem C36_gauss_legendre n q : quadrature_create R n GAUSS_LEGENDRE = inr q ->
  exact_below (2 * n) q.
Proof.
case: (posnP n) => [->|n0] //.
rewrite /quadrature_create /= (gtn_eqF n0) /quadrature_from_nodes /= (gtn_eqF n0) => -[<-] p.
by rewrite mul2n -addnn => sp; apply: gl_exact.
Qed.

Theorem C36_gauss_lobatto n q : quadrature_create R n GAUSS_LOBATTO_LEGENDRE = inr q ->
  exact_below (2 * n - 2) q.
Proof.
case: n => [|[|N]] //; rewrite gll_quadrature => -[<-] p sp.
by apply: gll_exact; move: sp; rewrite (_ : (2 * N.+2 - 2 = N.+2 + N)%N); last lia.
Qed.

Lemma integral_affine (a b : R) : integral (a%:P + b *: 'X) = 2%:R * a.
Proof.
have -> : a%:P + b *: 'X = a *: 1 + b *: 'X :> {poly R} by rewrite alg_polyC.
rewrite linearD !linearZ /= integral1.
have -> : integral ('X : {poly R}) = 0.
  have -> : 'X = 2%:R^-1 *: ('X ^+ 2)^`() :> {poly R}.
    by rewrite derivXn -scaler_nat scalerA mulVf ?pnatr_eq0 // scale1r.
  by rewrite linearZ /= integral_deriv !hornerXn sqrrN subrr mulr0.
by rewrite mulr0 addr0 mulrC.
Qed.

Lemma sum_nc_quad m (f : nat -> R) :
  \sum_(k < m.+2) nth 0 (nc_quad R m.+2) k * f k = (\sum_(i < m.+1) (f i + f i.+1)) / m.+1%:R.
Proof.
have hE : 1 / (m.+2%:R - 1) = m.+1%:R^-1 :> R by rewrite mul1r -[m.+2 in LHS]addn1 natrD addrK.
rewrite /nc_quad hE !subSS subn0 map_cons map_cat map_nseq.
rewrite big_ord_recl big_ord_recr /= nth_cat size_nseq ltnn subnn /=.
rewrite (eq_bigr (fun k : 'I_m => m.+1%:R^-1 * 2%:R * f (lift ord0 (widen_ord (leqnSn m) k)))); last first.
  by move=> k _ /=; rewrite /bump /= nth_cat size_nseq ltn_ord nth_nseq ltn_ord.
rewrite -mulr_sumr big_split /= [in RHS]big_ord_recl [X in _ = (_ + X) / _]big_ord_recr /= -/(bump 0 m).
rewrite (eq_bigr (fun i : 'I_m => f i.+1)) // /bump /= !add1n.
move: (\sum_(i < m) _) (f 0%N) (f m.+1) => s a b.
move: (m.+1%:R^-1) => h; ring.
Qed.

Theorem C36_newton_cotes n q : (1 < n)%N -> quadrature_create R n NEWTON_COTES = inr q ->
  exact_below 2 q.
Proof.
case: n => [|[|m]] // _ [<-] p sp; rewrite /quad /= size_map size_iota.
have -> : p = (p`_0)%:P + p`_1 *: 'X.
  apply/polyP => -[|[|i]]; rewrite coefD coefC coefZ coefX /= ?mulr0 ?addr0 ?mulr1 ?add0r //.
  by apply/(leq_sizeP _ _ sp).
rewrite integral_affine; move: (p`_0) (p`_1) => a b.
have fE k : (k < m.+2)%N -> (a%:P + b *: 'X).[nth 0 (nc_nodes R m.+2) k] = a + b * (-1 + k%:R * (2%:R / m.+1%:R)).
  by move=> hk; rewrite nth_nc // hornerD hornerC hornerZ hornerX.
rewrite (eq_bigr (fun k : 'I_m.+2 => nth 0 (nc_quad R m.+2) k * (a + b * (-1 + k%:R * (2%:R / m.+1%:R))))); last first.
  by move=> k _; rewrite fE.
rewrite (sum_nc_quad m (fun k => a + b * (-1 + k%:R * (2%:R / m.+1%:R)))).
have m0 : m.+1%:R != 0 :> R by rewrite pnatr_eq0.
have S j : \sum_(i < j) (a + b * (-1 + i%:R * (2%:R / m.+1%:R)) + (a + b * (-1 + i.+1%:R * (2%:R / m.+1%:R)))) =
  2%:R * (a - b) * j%:R + b * (2%:R / m.+1%:R) * (j * j)%:R.
  elim: j => [|j IH]; first by rewrite big_ord0; ring.
  rewrite big_ord_recr /= IH !natrM -[j.+1]addn1 !natrD; move: (j%:R) (2%:R / m.+1%:R) => c h; ring.
rewrite S natrM; move: (m.+1%:R) m0 => c c0; by field.
Qed.

(** Degree below which each rule is exact. *)
Definition exactness (t : node_type) (n : nat) : nat :=
  match t with GAUSS_LEGENDRE => 2 * n | GAUSS_LOBATTO_LEGENDRE => 2 * n - 2 | _ => 2 end%N.

Theorem C36_exact n t q : (0 < n)%N -> quadrature_create R n t = inr q ->
  [/\ size (qd_weights q) = n, size (nd_values (qd_nodes q)) = n,
      foldr +%R 0 (qd_weights q) = 2%:R & exact_below (exactness t n) q].
Proof.
move=> n0 hq; have hE : exact_below (exactness t n) q.
  case: t hq => // hq; [|exact: C36_gauss_legendre|exact: C36_gauss_lobatto].
  by apply: (C36_newton_cotes _ hq); case: n n0 hq => [|[|n]].
have [nE [sn sw]] : nodes1d_create R n t = inr (qd_nodes q) /\
    size (nd_values (qd_nodes q)) = n /\ size (qd_weights q) = n.
  move: hq; rewrite /quadrature_create; case E: (nodes1d_create R n t) => [|g] //.
  have [np ty sz _ _] := created_grid n0 E; rewrite /quadrature_from_nodes np ty.
  case: t E hE ty => // E hE ty; rewrite ?(gtn_eqF n0).
  - case: ifP => // n1 [<-] /=; split=> //; split=> //.
    by rewrite size_map size_cat size_nseq /= addn1; case: n n0 n1 {E hE sz np} => [|[|n]] //= _ _; rewrite !subSS subn0.
  - by move=> [<-] /=; split=> //; split=> //; rewrite size_map size_map gl_size.
  - by case: ifP => // _ [<-] /=; split=> //; split=> //; rewrite size_map.
split=> //; have : quad (nd_values (qd_nodes q)) (qd_weights q) 1 = integral (1 : {poly R}).
  apply: hE; rewrite size_poly1; case: t nE {hq} => //=; first by rewrite muln_gt0.
  by case: n n0 {sn sw} => [|[|n]] // _ _; lia.
rewrite integral1 /quad => <-; rewrite foldr_sum (big_nth 0) big_mkord sw sn.
by apply: eq_bigr => k _; rewrite hornerE mulr1.
Qed.

(** The rule called Newton-Cotes is the composite trapezoidal rule: with three
    points it is not exact for squares, unlike the closed Newton-Cotes formula. *)
Theorem C36_newton_cotes_quadratic_refuted : exists q : quadrature1d R,
  quadrature_create R 3 NEWTON_COTES = inr q /\ ~ exact_below 3 q.
Proof.
eexists; split; first reflexivity.
move=> /(_ ('X ^+ 2)); rewrite size_polyXn => /(_ isT).
rewrite /quad /= !big_ord_recr big_ord0 /= !hornerXn.
have -> : 'X ^+ 2 = 3%:R^-1 *: ('X ^+ 3)^`() :> {poly R}.
  by rewrite derivXn -scaler_nat scalerA mulVf ?pnatr_eq0 // scale1r.
rewrite linearZ /= integral_deriv !hornerXn /nc_quad /=.
have h2 : 3%:R - 1 = 2%:R :> R by ring.
have h : 2%:R / 2%:R = 1 :> R by rewrite divff // pnatr_eq0.
rewrite !h2 h !expr1n => e.
have {e} : 3%:R = 2%:R :> R.
  have := congr1 (fun z => 3%:R * z) e.
  have -> : (1 - (-1) ^+ 3 : R) = 2%:R by ring.
  rewrite mulVKf ?pnatr_eq0 // => <-.
  have n2 : 2%:R != 0 :> R by rewrite pnatr_eq0.
  by field.
by apply/eqP; rewrite eqr_nat.
Qed.

(** ** Weights in [d] dimensions *)
Theorem C36_weights_nd d n t q : (0 < d)%N -> (0 < n)%N -> quadrature_create R n t = inr q ->
  exists2 w, weights_nd q d = inr w &
  [/\ w = [seq \prod_(x <- c) x | c <- cart (nseq d (qd_weights q))],
      foldr +%R 0 w = 2%:R ^+ d &
      forall f : tpoly R, tdeg d (exactness t n) f ->
        dot w [seq teval f x | x <- cart (nseq d (nd_values (qd_nodes q)))] =
        \sum_(u <- f) u.1 * \prod_(p <- u.2) integral p].
Proof.
move=> d0 n0 hq; have [sw sn s2 ex] := C36_exact n0 hq.
have wE : weights_nd q d = inr (outers (nseq d (qd_weights q))).
  by case: d d0 => // d _; rewrite /weights_nd -reduce_outer.
exists (outers (nseq d (qd_weights q))) => //; split; first exact: outersE.
  by rewrite sum_outers big_nseq s2 -Monoid.iteropE /=; elim: d {d0 wE} => [|d IH] //=; rewrite exprS -IH.
move=> f /allP hf; rewrite /teval dot_map_sum !big_seq; apply: eq_bigr => -[c ps] tf; congr (_ * _).
have /andP[/eqP /= sp /allP hp] := hf _ tf.
rewrite -sp prod_values dot_outers; last first.
  rewrite map_nseq sw -map_comp; apply: (@eq_from_nth _ 0%N) => [|k]; rewrite !(size_nseq, size_map) // => hk.
  by rewrite nth_nseq hk (nth_map 0) //= size_map sn.
rewrite {d d0 sp wE hf tf c}; elim: ps hp => [|p ps IH] hp /=; first by rewrite !big_nil.
rewrite !big_cons IH => [|p' hp']; last by apply: hp; rewrite inE hp' orbT.
congr (_ * _); rewrite -ex ?hp ?mem_head // dotE ?size_map ?sw ?sn // /quad sn.
by apply: eq_bigr => k _; rewrite (nth_map 0) // sn.
Qed.

(** ** C37 *)
Theorem C37_interpolate_matrix eps d n n' t t' g e (x : seq R) : (0 < d)%N -> (0 < n)%N -> (0 < n')%N ->
  nodes1d_create R n t = inr g -> nodes1d_create R n' t' = inr e -> size x = (n ^ d)%N ->
  exists2 M, interpolation_matrix d g e = inr M & interpolate eps d g e x = inr (matvec M x).
Proof.
move=> d0 n0 n0' hg he sx; have [np ty sz U [ws E B]] := created_grid n0 hg.
have [np' ty' sz' _ _] := created_grid n0' he.
have e0 : nd_values e != [::] by rewrite -size_eq0 sz' -lt0n.
rewrite /interpolation_matrix /interpolation_matrix_1d E interpolation_matrix_1d_ofE //.
rewrite /interpolate np sx eqxx /=.
case ME : (interpolation_matrix_of _ _) => [er|M]; first by case: d d0 sx ME.
exists M => //; case: ifP => [eq|_]; last first.
  by rewrite /interpolation_matrix /interpolation_matrix_1d E interpolation_matrix_1d_ofE // ME.
have ge : nd_values e = nd_values g.
  have [tE nE] : t = t' /\ n = n'.
    have ts : t <> SINGLE by move=> tS; move: hg; rewrite tS.
    move: eq; rewrite /nodes1d_eq ty ty' np np'.
    by case: t ts {hg ty} => // _; case: t' {he ty'} => //= /eqP.
  by move: hg; rewrite tE nE he => -[->].
move: ME; rewrite ge lag_matrix_nodes // sz.
case: d d0 sx => // d _ sx; rewrite /interpolation_matrix_of -/(idm _ n) reduce_idm => -[<-].
by rewrite -sx matvec_idm.
Qed.

Theorem C37_wrong_length eps d g e (x : seq R) : size x <> (nd_num_points g ^ d)%N ->
  interpolate eps d g e x = inl IAssertion /\ interpolate_grad d g e x = inl IAssertion.
Proof. by move=> /eqP h; rewrite /interpolate /interpolate_grad h. Qed.

Theorem C37_equality eps : (forall g : nodes1d R, nd_type g <> SINGLE -> nodes1d_eq eps g g) /\
  (forall a b : nodes1d R, nd_type a <> SINGLE -> nodes1d_eq eps a b -> nodes1d_eq eps b a) /\
  (forall a b c : nodes1d R, nd_type a <> SINGLE -> nodes1d_eq eps a b -> nodes1d_eq eps b c -> nodes1d_eq eps a c) /\
  (forall n n' t t' a b, nodes1d_create R n t = inr a -> nodes1d_create R n' t' = inr b ->
     nodes1d_eq eps a b = node_type_eqb t t' && (n == n')).
Proof.
have tE a b : node_type_eqb a b <-> a = b by case: a; case: b.
split; [|split; [|split]].
- by move=> [n t v] /= ns; rewrite /nodes1d_eq /= eqxx; case: t ns.
- by move=> [n t v] [n' t' v'] /= ns; rewrite /nodes1d_eq /= [n' == n]eq_sym; case: t ns => //; case: t'.
- move=> [n t v] [n' t' v'] [n2 t2 v2] /= ns; rewrite /nodes1d_eq /=.
  by case: t ns => // _; case: t' => //=; case: t2 => //= /eqP->.
have cE n t a : nodes1d_create R n t = inr a -> nd_num_points a = n /\ nd_type a = t /\ t <> SINGLE.
  case: t => //=; first by move=> [<-].
    by case: ifP => // _ [<-].
  by case: ifP => [_ [<-]|_] //; case: ifP => // _ [<-].
move=> n n' t t' a b /cE[an [at' ns]] /cE[bn [bt ns']].
by rewrite /nodes1d_eq an bn at' bt; case: t {at'} ns => //; case: t' {bt} ns'.
Qed.

(** Single points are compared up to the machine epsilon, so their equality is
    not transitive. *)
Theorem C37_single_not_transitive (eps : R) : 0 < eps -> exists a b c : nodes1d R,
  [/\ nd_type a = SINGLE, nodes1d_eq eps a b, nodes1d_eq eps b c & ~~ nodes1d_eq eps a c].
Proof.
move=> e0; exists (single_point 0), (single_point eps), (single_point (2%:R * eps)).
rewrite /nodes1d_eq /= !andbT !sub0r !normrN; split=> //.
- by rewrite gtr0_norm.
- have -> : eps - 2%:R * eps = - eps by ring.
  by rewrite normrN gtr0_norm.
rewrite -ltNge gtr0_norm ?mulr_gt0 ?ltr0n //.
have -> : 2%:R * eps = eps + eps by ring.
by rewrite ltr_addl.
Qed.

(** For two equal single points the shortcut returns the input, while the
    interpolation matrix does not exist. *)
Theorem C37_single_shortcut_refuted (eps : R) : 0 <= eps -> exists (g : nodes1d R) (x : seq R),
  interpolate eps 1 g g x = inr x /\ interpolation_matrix 1 g g = inl IValueError.
Proof.
move=> e0; exists (single_point 0), [:: 7%:R]; split=> //.
by rewrite /interpolate /nodes1d_eq /= subrr normr0 e0.
Qed.
End Created.

(** ** Examples *)
Definition row_of (x : ierror + seq (seq rat)) : seq (seq rat) := if x is inr m then m else [::].
(** Three uniform nodes; one evaluation point is a node. *)
Example interp_example :
  row_of (interpolation_matrix_1d_of (nc_bary _ 3) (nc_nodes _ 3) [:: 0; 2%:R^-1]) ==
  [:: [:: 0; 1; 0]; [:: - 8%:R^-1; 3%:R / 4%:R; 3%:R / 8%:R]].
Proof. by vm_compute. Qed.
Example interp_example_hyp : uniq (nc_nodes [realFieldType of rat] 3) /\
  barycentric (nc_bary [realFieldType of rat] 3) (nc_nodes _ 3).
Proof. by split; [vm_compute|apply: nc_barycentric]. Qed.
Example diff_example :
  differentiation_matrix_1d_of (nc_bary [realFieldType of rat] 3) (nc_nodes _ 3) ==
  [:: [:: - (3%:R / 2%:R); 2%:R; - 2%:R^-1]; [:: - 2%:R^-1; 0; 2%:R^-1]; [:: 2%:R^-1; - 2%:R; 3%:R / 2%:R]].
Proof. by vm_compute. Qed.
(** A Kronecker product is not symmetric in its factors: the gradient of
    [x^2 y] at the nodes of a 3 by 3 grid. *)
Definition xxy : tpoly [realFieldType of rat] := [:: (1, [:: 'X ^+ 2; 'X])].
Example xxy_deg : tdeg 2 3 xxy.
Proof. by rewrite /tdeg /= size_polyXn size_polyX. Qed.
(** Five Gauss-Lobatto-Legendre nodes and four Gauss-Legendre points in three
    dimensions meet the hypotheses of the theorems above. *)
Example created_example (R : rcfType) :
  (exists g, nodes1d_create R 5 GAUSS_LOBATTO_LEGENDRE = inr g) /\
  (exists g, nodes1d_create R 4 GAUSS_LEGENDRE = inr g) /\
  (exists q, quadrature_create R 4 GAUSS_LEGENDRE = inr q) /\
  (exists q, quadrature_create R 5 GAUSS_LOBATTO_LEGENDRE = inr q).
Proof.
split; first exact: created_exists; split; first exact: created_exists.
by split; [eexists; reflexivity|rewrite gll_quadrature; eexists; reflexivity].
Qed.
(** The two-point Gauss-Lobatto-Legendre rule. *)
Example gll2_example (R : rcfType) : exists q, quadrature_create R 2 GAUSS_LOBATTO_LEGENDRE = inr q /\
  nd_values (qd_nodes q) = [:: -1; 1] /\ qd_weights q = [:: 1; 1].
Proof.
eexists; split; first reflexivity; split=> //=.
by rewrite /legendre /= !hornerX sqrrN !expr1n divr1 divff // pnatr_eq0.
Qed.
Print Assumptions C32_interpolation_exact.
Print Assumptions C32_created.
Print Assumptions C33_newton_cotes.
Print Assumptions C33_weights.
Print Assumptions C33_creates.
Print Assumptions C33_single.
Print Assumptions C33_gauss_nodes.
Print Assumptions C33_lobatto_nodes.
Print Assumptions C34_differentiation_exact.
Print Assumptions C34_created.
Print Assumptions C35_tensor_exact.
Print Assumptions C35_gradient_exact.
Print Assumptions C35_interpolate_grad.
Print Assumptions C35_no_dimension.
Print Assumptions C36_gauss_legendre.
Print Assumptions C36_gauss_lobatto.
Print Assumptions C36_newton_cotes.
Print Assumptions C36_exact.
Print Assumptions C36_newton_cotes_quadratic_refuted.
Print Assumptions C36_weights_nd.
Print Assumptions C37_interpolate_matrix.
Print Assumptions C37_wrong_length.
Print Assumptions C37_equality.
Print Assumptions C37_single_not_transitive.
Print Assumptions C37_single_shortcut_refuted.
