(** Polynomials on tensor-product nodes: every list of nodal values is attained, by one
    polynomial only, and a nodal function whose gradient vanishes at the quadrature
    points is constant. *)
From mathcomp Require Import all_ssreflect all_algebra polyrcf zify ring.
From Verif Require Import PyDict_model PyDict_proofs GS_model GS_props Interp_model Interp_spec Lagrange_proofs Interp_proofs.
From Verif Require Import Interp_proofs2 Tensor_proofs Interp_props FES_model FES_proofs FES_proofs2 FES_props.
Set Implicit Arguments.
Unset Strict Implicit.
Unset Printing Implicit Defensive.
Import Order.TTheory GRing.Theory Num.Theory.
Local Open Scope ring_scope.

Section Tensor.
Variable F : fieldType.
Implicit Types (f g : tpoly F) (xs y : seq F).

(** [f] as a polynomial in the first variable, and as a function of the others. *)
Definition first_poly f y : {poly F} := \sum_(t <- f) (t.1 * \prod_(px <- zip (behead t.2) y) px.1.[px.2]) *: head 0 t.2.
Definition rest f (x : F) : tpoly F := [seq (t.1 * (head 0 t.2).[x], behead t.2) | t <- f].

Lemma tdeg_cons d n f : tdeg d.+1 n f -> forall t, t \in f -> exists p ps,
  [/\ t.2 = p :: ps, (size p <= n)%N, size ps = d & all (fun p : {poly F} => (size p <= n)%N) ps].
Proof.
move=> /allP h t /h; case: (t.2) => [|p ps] //= /andP[/eqP[s] /andP[h1 h2]].
by exists p, ps.
Qed.
Lemma teval_first d n f x y : tdeg d.+1 n f -> teval f (x :: y) = (first_poly f y).[x].
Proof.
move=> df; rewrite /teval /first_poly horner_sum !big_seq; apply: eq_bigr => t tf.
have [p [ps [-> _ _ _]]] := tdeg_cons df tf; by rewrite hornerZ /= big_cons mulrCA mulrC.
Qed.
Lemma teval_rest d n f x y : tdeg d.+1 n f -> teval f (x :: y) = teval (rest f x) y.
Proof.
move=> df; rewrite /teval /rest big_map !big_seq; apply: eq_bigr => t tf.
have [p [ps [-> _ _ _]]] := tdeg_cons df tf; by rewrite /= big_cons mulrA.
Qed.
Lemma size_first d n f y : tdeg d.+1 n f -> (size (first_poly f y) <= n)%N.
Proof.
move=> df; rewrite /first_poly big_seq; apply: (big_ind (fun p : {poly F} => (size p <= n)%N)).
- by rewrite size_poly0.
- by move=> p q hp hq; rewrite (leq_trans (size_add _ _)) // geq_max hp hq.
- by move=> t tf; have [p [ps [-> h _ _]]] := tdeg_cons df tf; rewrite (leq_trans (size_scale_leq _ _)).
Qed.
Lemma tdeg_rest d n f x : tdeg d.+1 n f -> tdeg d n (rest f x).
Proof.
move=> df; apply/allP => t' /mapP[t tf ->]; have [p [ps [-> _ s a]]] := tdeg_cons df tf.
by rewrite /= s eqxx a.
Qed.
Lemma tdeg0_eval n f y y' : tdeg 0 n f -> teval f y = teval f y'.
Proof.
move=> /allP h; rewrite /teval !big_seq; apply: eq_bigr => t /h /andP[/eqP/size0nil -> _].
by case: (y) => [|? ?]; case: (y') => [|? ?].
Qed.

(** Unique. *)
Lemma tunique d n f xs : tdeg d n f -> uniq xs -> (n <= size xs)%N ->
  (forall y, y \in cart (nseq d xs) -> teval f y = 0) -> forall y, size y = d -> teval f y = 0.
Proof.
move=> + U nx; elim: d f => [|d IH] f df z y sy.
  by rewrite (tdeg0_eval y [::] df) z.
case: y sy => [|x y] //= [sy]; rewrite (teval_rest x y df).
apply: IH => //; first exact: tdeg_rest.
move=> y' hy'; rewrite -(teval_rest x y' df) (teval_first x y' df).
suff -> : first_poly f y' = 0 by rewrite horner0.
apply: (poly_by_nodes U); rewrite ?size_poly0 //; first by rewrite (leq_trans (size_first y' df)).
move=> k hk; rewrite horner0 -(teval_first _ y' df); apply: z.
by apply/allpairsP; exists (nth 0 xs k, y'); rewrite mem_nth.
Qed.

(** Partial derivatives. *)
Lemma tdeg_deriv d n k f : tdeg d n f -> tdeg d n (tderiv k f).
Proof.
move=> /allP h; apply/allP => t' /mapP[t /h /andP[/eqP s a] ->] /=; rewrite size_map size_iota s eqxx /=.
apply/allP => p /mapP[j]; rewrite mem_iota add0n => /andP[_ hj] ->.
have hp : (size (nth 0%R t.2 j) <= n)%N by apply: (allP a); rewrite mem_nth ?s.
by case: ifP => // _; apply: leq_trans hp; exact: leq_size_deriv.
Qed.
Lemma first_deriv d n f y : tdeg d.+1 n f -> size y = d -> first_poly (tderiv 0 f) y = (first_poly f y)^`().
Proof.
move=> df sy; rewrite /first_poly /tderiv linear_sum big_map !big_seq; apply: eq_bigr => t tf.
have [p [ps [-> _ s _]]] := tdeg_cons df tf; rewrite /= derivZ; congr (_ * \prod_(px <- zip _ y) _ *: _).
apply: (@eq_from_nth _ 0) => [|j]; rewrite size_map size_iota // => hj.
by rewrite (nth_map 0%N) ?size_iota // nth_iota.
Qed.
Lemma rest_deriv d n k f x : tdeg d.+1 n f -> rest (tderiv k.+1 f) x = tderiv k (rest f x).
Proof.
move=> df; rewrite /rest /tderiv -!map_comp; apply/eq_in_map => t tf /=.
have [p [ps [-> _ s _]]] := tdeg_cons df tf; rewrite /=; congr (_, _).
apply: (@eq_from_nth _ 0) => [|j]; rewrite !size_map !size_iota // => hj.
by rewrite !(nth_map 0%N) ?size_iota // !nth_iota.
Qed.

(** Existence. *)
Fixpoint interpolant d xs (vs : seq F) : tpoly F :=
  if d is d'.+1 then
    flatten [seq [seq (t.1, lag xs i :: t.2) | t <- interpolant d' xs (nth [::] (reshape (nseq (size xs) (size xs ^ d')%N) vs) i)]
            | i <- iota 0 (size xs)]
  else [:: (head 0 vs, [::])].
Lemma teval_flatten (fs : seq (tpoly F)) y : teval (flatten fs) y = \sum_(f <- fs) teval f y.
Proof. by elim: fs => [|f fs IH] /=; rewrite ?big_nil /teval ?big_nil // big_cat big_cons -/(teval _ _) -IH. Qed.
Lemma tinterp d xs (vs : seq F) : uniq xs -> size vs = (size xs ^ d)%N ->
  tdeg d (size xs) (interpolant d xs vs) /\ vs = [seq teval (interpolant d xs vs) y | y <- cart (nseq d xs)].
Proof.
move=> U; elim: d vs => [|d IH] vs.
  rewrite expn0; case: vs => [|v []] // _; split=> //=.
  by rewrite /teval big_seq1 /= big_nil mulr1.
move=> sv; set N := (size xs ^ d)%N; set bs := reshape (nseq (size xs) N) vs.
have sumE : sumn (nseq (size xs) N) = size vs by rewrite sumn_nseq sv mulnC -expnS.
have shb : shape bs = nseq (size xs) N by apply: reshapeKl; rewrite sumE.
have fb : flatten bs = vs by apply: reshapeKr; rewrite sumE.
have szb : size bs = size xs by rewrite -(size_map size) -/(shape bs) shb size_nseq.
have sb i : (i < size xs)%N -> size (nth [::] bs i) = N.
  by move=> hi; rewrite -nth_shape shb nth_nseq hi.
split.
  apply/allP => t /flattenP[l /mapP[i]]; rewrite mem_iota add0n => /andP[_ hi] -> /mapP[t' ht' ->] /=.
  have [/allP/(_ _ ht')/andP[/eqP -> ->] _] := IH _ (sb i hi); by rewrite eqxx size_lag.
have E x y : teval (interpolant d.+1 xs vs) (x :: y) = \sum_(i < size xs) (lag xs i).[x] * teval (interpolant d xs (nth [::] bs i)) y.
  rewrite /= teval_flatten big_map; have -> : iota 0 (size xs) = index_iota 0 (size xs) by rewrite /index_iota subn0.
  rewrite big_mkord; apply: eq_bigr => i _.
  rewrite /teval big_map mulr_sumr; apply: eq_bigr => t _; by rewrite /= big_cons mulrCA.
rewrite -[cart _]/([seq x :: r | x <- xs, r <- cart (nseq d xs)]) map_allpairs -{1}fb; congr flatten.
apply: (@eq_from_nth _ [::]) => [|k]; first by rewrite size_map.
rewrite szb => hk; rewrite (nth_map 0) //; have [_ {1}->] := IH _ (sb k hk).
apply: eq_map => y; rewrite E (bigD1 (Ordinal hk)) //= lag_node // eqxx mul1r big1 ?addr0 // => i ik.
by rewrite lag_node // eq_sym; move: ik; rewrite -val_eqE /= => /negbTE ->; rewrite mul0r.
Qed.
End Tensor.

Section Constant.
Variable R : realFieldType.
Implicit Types (f g : tpoly R) (y : seq R).
Lemma poly_fun0 (p : {poly R}) : (forall x, p.[x] = 0) -> p = 0.
Proof.
move=> z; apply: (@poly_by_nodes _ (mkseq (fun i => i%:R) (size p))); rewrite ?size_mkseq ?size_poly0 //.
  by rewrite mkseq_uniq // => i j /eqP; rewrite eqr_nat => /eqP.
by move=> k _; rewrite z horner0.
Qed.
Lemma deriv0_const (p : {poly R}) : (forall x, p^`().[x] = 0) -> forall x x', p.[x] = p.[x'].
Proof.
move=> /poly_fun0 z x x'; suff -> : p = (p`_0)%:P by rewrite !hornerC.
apply/polyP => i; rewrite coefC; case: i => [|i] //=.
have := congr1 (fun q : {poly R} => q`_i) z; rewrite coef_deriv coef0 => /eqP.
by rewrite mulrn_eq0 /= => /eqP.
Qed.
(** A polynomial with vanishing derivatives is constant. *)
Lemma tconst d n f : tdeg d n f ->
  (forall k y, (k < d)%N -> size y = d -> teval (tderiv k f) y = 0) ->
  forall y y', size y = d -> size y' = d -> teval f y = teval f y'.
Proof.
elim: d f => [|d IH] f df z y y' sy sy'; first exact: tdeg0_eval df.
case: y sy => [|x y] //= [sy]; case: y' sy' => [|x' y'] //= [sy'].
transitivity (teval f (x' :: y)); last first.
  rewrite !(teval_rest x' _ df); apply: IH => //; first exact: tdeg_rest.
  move=> k w hk sw; rewrite -(rest_deriv k x' df) -(teval_rest x' w (tdeg_deriv k.+1 df)).
  by apply: z => //=; rewrite sw.
rewrite !(teval_first _ y df); apply: deriv0_const => w.
rewrite -(first_deriv df sy) -(teval_first _ _ (tdeg_deriv 0 df)); apply: z => //=.
by rewrite sy.
Qed.
End Constant.

(** ** A nodal function with vanishing gradient *)
Section Gradient.
Variables (R : rcfType) (d : nat) (eps : R) (inv : 'M[R]_d -> 'M[R]_d).
Hypothesis inv_ok : forall J : 'M[R]_d, J \in unitmx -> inv J = invmx J.
Variables (m : mesh R d) (quad : quadrature1d R) (fs : fespace R d) (nq : nat) (tq : node_type).
Hypothesis st : standard eps inv m quad fs nq tq.
Hypothesis enough : (nd_num_points (m_grid m) <= nq)%N.

Lemma grad_zero_const e (u : nat -> R) :
  (forall q, (q < nq ^ d)%N -> fs_jacdets fs e q != 0) ->
  (forall q j, (q < nq ^ d)%N -> (j < d)%N -> nth 0 (phys_grad fs e u q) j = 0) ->
  forall n n', (n < m_per_element m)%N -> (n' < m_per_element m)%N -> u n = u n'.
Proof.
move=> J0 g0 n n' hn hn'; have [hf d0 nq0 hq [N [t [N1 hg]]]] := st; have N0 := ltnW N1.
have [gs [H hN fmE fq _]] := fespace_createE hf.
have [qn qc qs] := quad_facts nq0 hq; have [np _ sz U _] := created_grid N0 hg.
have [_ _ _ Uq _] := created_grid nq0 qc.
have e0 : nd_values (qd_nodes quad) != [::] by rewrite -size_eq0 qs -lt0n.
have sl : size (node_list m u) = (size (nd_values (m_grid m)) ^ d)%N by rewrite size_node_list hN np sz.
have [df vE] := tinterp U sl; set f := interpolant _ _ _ in df vE; rewrite sz in df.
have z k y : (k < d)%N -> size y = d -> teval (tderiv k f) y = 0.
  move=> hk; apply: (tunique (tdeg_deriv k df) Uq); first by rewrite qs -np.
  move=> w /(nthP [::])[q]; rewrite size_cart_nseq qs => hlt <-.
  have := chain_rule u (Ordinal hk) inv_ok hf (J0 q hlt).
  rewrite big1 => [|j _]; last by rewrite g0 // mulr0.
  rewrite /ref_grad vE (C35_interpolate_grad N0 d0 hg e0 df) /=.
  by rewrite (nth_map 0%N) ?size_iota // nth_iota // add0n (nth_map [::]) ?size_cart_nseq ?qs // => <-.
have c := tconst df z.
have val k : (k < m_per_element m)%N -> u k = teval f (nth [::] (cart (nseq d (nd_values (m_grid m)))) k).
  move=> hk; have := congr1 (fun s => nth 0 s k) vE.
  by rewrite (nth_map 0%N) ?size_iota // nth_iota // (nth_map [::]) // size_cart_nseq sz -np -hN.
rewrite !val //; apply: c; apply: (@size_cart_mem _ _ (nd_values (m_grid m)));
by rewrite mem_nth // size_cart_nseq sz -np -hN.
Qed.
End Gradient.
