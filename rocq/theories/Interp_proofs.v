(** The interpolation and differentiation matrices of the model hold the values
    of the Lagrange polynomials and of their derivatives. *)
From mathcomp Require Import all_ssreflect all_algebra zify ring.
From Verif Require Import Interp_model Interp_spec Lagrange_proofs.
Set Implicit Arguments.
Unset Strict Implicit.
Unset Printing Implicit Defensive.
Import Order.TTheory GRing.Theory Num.Theory.
Local Open Scope ring_scope.

Section Dot.
Variable F : ringType.
Lemma dotE (a b : seq F) : size a = size b -> dot a b = \sum_(k < size a) nth 0 a k * nth 0 b k.
Proof.
elim: a b => [|x a IH] [|y b] //= => [_|[e]]; first by rewrite big_ord0.
rewrite /dot /= big_ord_recl /=; congr (_ + _); exact: IH.
Qed.
Lemma foldr_sum (s : seq F) : foldr +%R 0 s = \sum_(x <- s) x.
Proof. by elim: s => [|x s IH] /=; rewrite ?big_nil ?big_cons ?IH. Qed.
Lemma sum_iota (f : nat -> F) n : \sum_(x <- [seq f k | k <- iota 0 n]) x = \sum_(k < n) f k.
Proof. by rewrite big_map -[n in iota 0 n]subn0 big_mkord. Qed.
End Dot.

Section Ext.
Variable F : realFieldType.
Local Notation ext := (ext F).
Local Notation Fin := (@Fin F).
Local Notation Inf := (@Inf F).

Definition isfin (a : ext) : bool := if a is Interp_model.Fin _ then true else false.

Lemma sum_fin a (l : seq F) : foldl (@eadd F) (Fin a) [seq Fin y | y <- l] = Fin (a + \sum_(y <- l) y).
Proof. by elim: l a => [|y l IH] a /=; rewrite ?big_nil ?addr0 // big_cons IH addrA. Qed.
Lemma sum_isfin a (l : seq ext) : all isfin l -> exists b, foldl (@eadd F) (Fin a) l = Fin b.
Proof. by elim: l a => [|[y|s|] l IH] a //=; [exists a|exact: IH]. Qed.
Lemma sum_inf s (l : seq ext) : all isfin l -> foldl (@eadd F) (Inf s) l = Inf s.
Proof. by elim: l s => [|[y|t|] l IH] s //=; exact: IH. Qed.
Lemma sum_one_inf s (l1 l2 : seq ext) : all isfin l1 -> all isfin l2 ->
  foldl (@eadd F) (Fin 0) (l1 ++ Inf s :: l2) = Inf s.
Proof. by move=> h1 h2; rewrite foldl_cat /=; have [b ->] := sum_isfin 0 h1; apply: sum_inf. Qed.

Lemma all_fin_map (l : seq F) : all_fin [seq Fin y | y <- l] = Some l.
Proof. by elim: l => //= y l ->. Qed.
Lemma all_fin_rows_map (m : seq (seq F)) : all_fin_rows [seq [seq Fin y | y <- l] | l <- m] = Some m.
Proof. by elim: m => //= l m ->; rewrite all_fin_map. Qed.

Section OneD.
Variables (ws xs : seq F).
Let n := size xs.
Hypotheses (Ux : uniq xs) (Bw : barycentric ws xs).
Notation x_ k := (nth 0 xs k).
Notation w_ k := (nth 0 ws k).

Lemma termsE x : bary_terms ws xs x = [seq ediv (Fin (w_ k)) (Fin (x - x_ k)) | k <- iota 0 n].
Proof.
have [sw _] := Bw.
apply: (@eq_from_nth _ (NaN F)) => [|k]; rewrite !size_map size_zip sw minnn ?size_iota // => hk.
rewrite (nth_map (0, 0)) ?size_zip ?sw ?minnn // nth_zip // (nth_map 0%N) ?size_iota //.
by rewrite nth_iota.
Qed.

Lemma w_neq0 k : (k < n)%N -> w_ k != 0.
Proof.
move=> hk; have [_ [c c0 /(_ k hk)]] := Bw.
by move=> e; apply: contraNneq c0 => w0; rewrite -e w0 mul0r.
Qed.

Lemma evaluateE x i : (i < n)%N -> evaluate ws xs x i = Fin (lag xs i).[x].
Proof.
move=> hi; rewrite /evaluate.
case: eqP => [->|/eqP xi]; first by rewrite lag_node // eqxx.
have nt : nth (NaN F) (bary_terms ws xs x) i = Fin (w_ i / (x - x_ i)).
  rewrite termsE (nth_map 0%N) ?size_iota // nth_iota // add0n /=.
  by rewrite subr_eq0 (negbTE xi).
rewrite nt; case: (boolP (x \in xs)) => [xin|xn].
  have [k hk ek] : exists2 k, (k < n)%N & x = x_ k.
    by exists (index x xs); rewrite ?index_mem ?nth_index.
  have ik : i != k by apply: contraNneq xi => ->; rewrite ek.
  have fins l : {subset l <= iota 0 n} -> k \notin l ->
      all isfin [seq ediv (Fin (w_ j)) (Fin (x - x_ j)) | j <- l].
    move=> sl kl; rewrite all_map; apply/allP => j jl /=.
    have hj : (j < n)%N by have := sl _ jl; rewrite mem_iota.
    have jk : j != k by apply: contraNneq kl => <-.
    by rewrite ek (negbTE (node_neq Ux hk hj _)) // eq_sym.
  have -> : foldl (@eadd F) (Fin 0) (bary_terms ws xs x) = Inf (0 < w_ k).
    rewrite termsE.
    have -> : iota 0 n = iota 0 k ++ k :: iota k.+1 (n - k.+1).
      by rewrite -{1}(subnKC (ltnW hk)) iotaD add0n subnS; case: (n - k)%N (subn_gt0 k n) => [|m] /=; rewrite ?hk.
    rewrite map_cat /= ek subrr eqxx (negbTE (w_neq0 hk)) -ek sum_one_inf //; apply: fins.
    - by move=> j; rewrite !mem_iota /= !add0n => /leq_trans; apply; exact: ltnW.
    - by rewrite mem_iota add0n ltnn.
    - by move=> j; rewrite !mem_iota /= !add0n subnKC // => /andP[].
    - by rewrite mem_iota ltnn.
  by rewrite /= ek lag_node // eq_sym (negbTE ik).
have [_ [c c0 wc]] := Bw.
have xk k : (k < n)%N -> x - x_ k != 0.
  by move=> hk; rewrite subr_eq0; apply: contraNneq xn => ->; rewrite mem_nth.
have wE k : (k < n)%N -> w_ k = c / node_product xs k.
  by move=> hk; rewrite -(wc k hk) mulfK // node_product_neq0.
have tE k : (k < n)%N -> w_ k / (x - x_ k) = c / (nodal xs).[x] * (lag xs k).[x].
  move=> hk; have xk0 : x != x_ k by rewrite -subr_eq0 xk.
  rewrite (lag_off hk xk0) wE //.
  by rewrite mulrA divfK ?nodal_off // mulrA.
have -> : foldl (@eadd F) (Fin 0) (bary_terms ws xs x) = Fin (c / (nodal xs).[x]).
  have -> : bary_terms ws xs x = [seq Fin y | y <- [seq w_ k / (x - x_ k) | k <- iota 0 n]].
    rewrite termsE -map_comp; apply/eq_in_map => k; rewrite mem_iota add0n => /andP[_ hk] /=.
    by rewrite (negbTE (xk k hk)).
  rewrite sum_fin add0r sum_iota; congr Fin.
  under eq_bigr => k _ do rewrite tE //.
  rewrite -mulr_sumr (@lag_sum1 _ _ Ux) ?mulr1 //.
  exact: leq_ltn_trans (leq0n i) hi.
rewrite /= tE // mulf_eq0 (negbTE c0) invr_eq0 (negbTE (nodal_off xn)) /=.
by rewrite mulrAC divff ?mul1r // mulf_neq0 // invr_eq0 nodal_off.
Qed.

Definition lag_matrix (evals : seq F) : seq (seq F) :=
  [seq [seq (lag xs i).[x] | i <- iota 0 n] | x <- evals].

Lemma interpolation_matrix_1d_ofE evals : evals != [::] ->
  interpolation_matrix_1d_of ws xs evals = inr (lag_matrix evals).
Proof.
move=> ne; rewrite /interpolation_matrix_1d_of; case: evals ne => // x0 evals _.
have -> : [seq [seq evaluate ws xs x i | i <- iota 0 (size xs)] | x <- x0 :: evals] =
          [seq [seq Fin y | y <- l] | l <- lag_matrix (x0 :: evals)].
  rewrite -map_comp; apply/eq_map => x /=; rewrite -map_comp; apply/eq_in_map => i.
  by rewrite mem_iota add0n => /andP[_ hi] /=; rewrite evaluateE.
by rewrite all_fin_rows_map.
Qed.

Lemma lag_matrix_exact evals (p : {poly F}) : (size p <= n)%N ->
  matvec (lag_matrix evals) [seq p.[x] | x <- xs] = [seq p.[x] | x <- evals].
Proof.
move=> sp; rewrite /matvec -map_comp; apply: eq_map => x /=.
rewrite dotE ?size_map ?size_iota // -(lag_eval Ux x sp); apply: eq_bigr => k _.
by rewrite (nth_map 0%N) ?size_iota // nth_iota // (nth_map 0) // mulrC.
Qed.

Lemma lag_matrix_rowsum evals row : (0 < n)%N -> row \in lag_matrix evals -> foldr +%R 0 row = 1.
Proof. by move=> n0 /mapP[x _ ->]; rewrite foldr_sum sum_iota lag_sum1. Qed.

Lemma lag_matrix_nodes : lag_matrix xs = [seq [seq (i == j)%:R | j <- iota 0 n] | i <- iota 0 n].
Proof.
rewrite /lag_matrix; apply: (@eq_from_nth _ [::]) => [|i]; rewrite !size_map ?size_iota // => hi.
rewrite (nth_map 0) // (nth_map 0%N) ?size_iota // nth_iota //.
apply/eq_in_map => j; rewrite mem_iota !add0n => /andP[_ hj].
by rewrite lag_node.
Qed.

(** Differentiation *)
Definition lag_diff_matrix : seq (seq F) := [seq [seq (lag xs j)^`().[x] | j <- iota 0 n] | x <- xs].

Lemma diff_offE i j : (i < n)%N -> (j < n)%N -> i != j -> diff_off ws xs i j = (lag xs j)^`().[x_ i].
Proof.
move=> hi hj ij; rewrite /diff_off (negbTE ij) lag_deriv_off //; congr (_ / _).
have [_ [c c0 wc]] := Bw.
apply: (mulIf (w_neq0 hi)); rewrite divfK ?w_neq0 //.
apply: (mulIf (node_product_neq0 Ux hj)); rewrite wc // -(wc i hi).
by rewrite mulrAC divfK ?node_product_neq0 // mulrC.
Qed.

Lemma differentiation_matrix_1d_ofE : differentiation_matrix_1d_of ws xs = lag_diff_matrix.
Proof.
rewrite /differentiation_matrix_1d_of /lag_diff_matrix -/n.
apply: (@eq_from_nth _ [::]) => [|i]; rewrite !size_map ?size_iota // => hi.
rewrite (nth_map 0%N) ?size_iota // (nth_map 0) // nth_iota // add0n.
apply/eq_in_map => j; rewrite mem_iota add0n => /andP[_ hj].
case: eqP => [<-|/eqP ij]; last by rewrite diff_offE.
have n0 : (0 < n)%N by exact: leq_ltn_trans (leq0n i) hi.
rewrite foldr_sum sum_iota; have := lag_dsum0 Ux (x_ i) n0.
rewrite (bigD1 (Ordinal hi)) //= => /eqP; rewrite addr_eq0 => /eqP ->; congr (- _).
rewrite (bigD1 (Ordinal hi)) //= {1}/diff_off eqxx add0r.
by apply: eq_bigr => k ki; rewrite diff_offE // eq_sym.
Qed.

Lemma lag_diff_exact (p : {poly F}) : (size p <= n)%N ->
  matvec lag_diff_matrix [seq p.[x] | x <- xs] = [seq p^`().[x] | x <- xs].
Proof.
move=> sp; rewrite /matvec -map_comp; apply: eq_map => x /=.
rewrite dotE ?size_map ?size_iota // -(lag_deriv_eval Ux x sp); apply: eq_bigr => k _.
by rewrite (nth_map 0%N) ?size_iota // nth_iota // (nth_map 0) // mulrC.
Qed.

(** The product of both: derivatives at the evaluation points. *)
Lemma lag_grad evals : matmul n (lag_matrix evals) lag_diff_matrix =
  [seq [seq (lag xs j)^`().[x] | j <- iota 0 n] | x <- evals].
Proof.
rewrite /matmul -map_comp; apply: eq_map => x /=; apply/eq_in_map => j.
rewrite mem_iota add0n => /andP[_ hj].
have -> : column lag_diff_matrix j = [seq (lag xs j)^`().[x] | x <- xs].
  rewrite /column -map_comp; apply: eq_map => y /=.
  by rewrite (nth_map 0%N) ?size_iota // nth_iota.
rewrite dotE ?size_map ?size_iota // -[RHS](@lag_eval _ _ Ux); last first.
  by apply: leq_trans (leq_size_deriv _) _; apply: size_lag.
apply: eq_bigr => k _.
by rewrite (nth_map 0%N) ?size_iota // nth_iota // (nth_map 0) // mulrC.
Qed.
End OneD.
End Ext.
