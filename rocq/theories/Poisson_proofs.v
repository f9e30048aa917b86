(** The linear algebra of a symmetric system with some unknowns fixed to zero, solved
    by conjugate gradients. *)
From mathcomp Require Import all_ssreflect all_algebra zify ring.
From Verif Require Import GS_model CG_model CG_proofs CG_props CG_props2.
Set Implicit Arguments.
Unset Strict Implicit.
Unset Printing Implicit Defensive.
Import Order.TTheory GRing.Theory Num.Theory.
Local Open Scope ring_scope.

Section Leaf.
Variables (R : realFieldType) (N : nat).
Implicit Types (u v w : seq R) (t : tree R).
Definition inner (u v : seq R) : R := \sum_(i < N) nth 0 u i * nth 0 v i.
Definition lin (c : R) (u v : seq R) : seq R := mkseq (fun i => c * nth 0 u i + nth 0 v i) N.
Definition unitvec (k : nat) : seq R := mkseq (fun i => (i == k)%:R) N.

Lemma good1 t : good [:: N] t <-> exists2 u, size u = N & t = [:: u].
Proof. by split=> [|[u <- ->] //]; case: t => [|u [|]] // [h]; exists u. Qed.
Lemma size_lin c u v : size (lin c u v) = N. Proof. by rewrite size_mkseq. Qed.
Lemma nth_lin c u v i : (i < N)%N -> nth 0 (lin c u v) i = c * nth 0 u i + nth 0 v i.
Proof. by move=> h; rewrite nth_mkseq. Qed.
Lemma comb1 c u v : size u = N -> size v = N -> tree_add (tree_scale c [:: u]) [:: v] = [:: lin c u v].
Proof.
move=> su sv; rewrite /tree_add /tree_scale /map2 /=; congr [:: _].
apply: (@eq_from_nth _ 0); first by rewrite size_map size_zip size_map su sv minnn size_mkseq.
move=> i; rewrite size_map size_zip size_map su sv minnn => hi.
rewrite nth_mkseq // (nth_map (0, 0)) ?size_zip ?size_map ?su ?sv ?minnn // nth_zip ?size_map ?su ?sv //=.
by rewrite (nth_map 0) ?su.
Qed.
Lemma dot1 u v : size u = N -> size v = N -> tree_vdot (@jnp_vdot R) [:: u] [:: v] = inner u v.
Proof. by move=> su sv; rewrite /tree_vdot /= addr0 jnp_vdotE su sv minnn. Qed.
Lemma sum_unitvec k v : (k < N)%N -> inner (unitvec k) v = nth 0 v k.
Proof.
move=> hk; rewrite /inner (bigD1 (Ordinal hk)) //= nth_mkseq // eqxx mul1r big1 ?addr0 // => i ik.
by rewrite nth_mkseq // (negbTE (ik : (i : nat) != k)) mul0r.
Qed.
Lemma innerC u v : inner u v = inner v u.
Proof. by apply: eq_bigr => i _; rewrite mulrC. Qed.
Lemma inner_pos t : good [:: N] t -> t <> zero_tree R [:: N] -> 0 < tree_vdot (@jnp_vdot R) t t.
Proof.
move=> /good1[u su ->] u0; rewrite dot1 // lt_neqAle sumr_ge0 ?andbT => [|i _]; last by rewrite -expr2 sqr_ge0.
rewrite eq_sym; apply/negP => /eqP/psumr_eq0P z; apply: u0; congr [:: _]; apply: (@eq_from_nth _ 0).
  by rewrite size_nseq.
rewrite su => i hi; rewrite nth_nseq hi; apply/eqP.
have := z _ (Ordinal hi) isT => /=; rewrite -expr2 => e; rewrite -sqrf_eq0 e // => j _.
by rewrite -expr2 sqr_ge0.
Qed.

(** Vectors that vanish on [D]. *)
Variable D : pred nat.
Definition vanish (u : seq R) : Prop := size u = N /\ forall i, (i < N)%N -> D i -> nth 0 u i = 0.
Definition units : seq (tree R) := [seq [:: unitvec k] | k <- iota 0 N & ~~ D k].
Lemma size_units : (size units <= N)%N.
Proof. by rewrite size_map size_filter (leq_trans (count_size _ _)) // size_iota. Qed.
Lemma good_units t : t \in units -> good [:: N] t.
Proof. by move=> /mapP[k _ ->]; apply/good1; exists (unitvec k); rewrite ?size_mkseq. Qed.
Lemma unit_vanish k : ~~ D k -> vanish (unitvec k).
Proof.
move=> Dk; split=> [|i hi Di]; first by rewrite size_mkseq.
by rewrite nth_mkseq //; case: eqP => // e; move: Dk; rewrite -e Di.
Qed.
Lemma span_units t : in_span [:: N] units t <-> exists2 u, vanish u & t = [:: u].
Proof.
suff H (l : seq nat) : uniq l -> all (gtn N) l ->
  (forall u, size u = N -> (forall i, (i < N)%N -> i \notin l -> nth 0 u i = 0) -> in_span [:: N] [seq [:: unitvec k] | k <- l] [:: u]) /\
  (forall t, in_span [:: N] [seq [:: unitvec k] | k <- l] t -> exists2 u, size u = N /\ (forall i, (i < N)%N -> i \notin l -> nth 0 u i = 0) & t = [:: u]).
  have [|H1 H2] := H [seq k <- iota 0 N | ~~ D k] (filter_uniq _ (iota_uniq _ _)).
    by apply/allP => k; rewrite mem_filter mem_iota add0n => /and3P[].
  split=> [/H2[u [su h] ->]|[u [su h] ->]].
    by exists u => //; split=> // i hi Di; apply: h => //; rewrite mem_filter Di.
  by apply: H1 => // i hi; rewrite mem_filter mem_iota add0n hi /= andbT negbK; apply: h.
elim: l => [|k l IH] /=; first split.
- move=> u su z; exists (fun=> 0) => /=; congr [:: _]; apply: (@eq_from_nth _ 0); first by rewrite size_nseq.
  by rewrite su => i hi; rewrite nth_nseq hi z.
- move=> _ [c ->]; exists (nseq N 0) => //; split=> [|i hi _]; first by rewrite size_nseq.
  by rewrite nth_nseq hi.
move=> /andP[kl U] /andP[kN lN]; have [H1 H2] := IH U lN; split=> [u su z|_ [c ->]] /=.
  pose v := lin (- nth 0 u k) (unitvec k) u.
  have [||c cE] := H1 v; first exact: size_lin.
    move=> i hi il; rewrite nth_lin // nth_mkseq //; case: eqP => [->|/eqP ik]; first by rewrite mulr1 addNr.
    by rewrite mulr0 add0r z // inE negb_or ik.
  exists (fun i => if i is j.+1 then c j else nth 0 u k); rewrite /= -cE comb1 ?size_mkseq //; congr [:: _].
  apply: (@eq_from_nth _ 0); rewrite su ?size_lin // => i hi.
  by rewrite !nth_lin // !mulNr addrA addrN add0r.
have [v [sv z] ->] := H2 (combination [:: N] [seq [:: unitvec k] | k <- l] (fun i => c i.+1)) (ex_intro _ _ erefl).
exists (lin (c 0%N) (unitvec k) v); last by rewrite comb1 ?size_mkseq.
split=> [|i hi]; first exact: size_lin.
rewrite inE negb_or => /andP[ik il]; rewrite nth_lin // nth_mkseq // (negbTE ik) mulr0 add0r; exact: z.
Qed.

(** ** The system *)
Variables (a : seq R -> seq R -> R) (A : seq R -> seq R) (b : seq R).
Hypothesis vA : forall u, size u = N -> vanish (A u).
Hypothesis AE : forall u v, size u = N -> vanish v -> inner v (A u) = a u v.
Hypothesis a_lin : forall c u v w, size u = N -> size v = N -> size w = N -> a (lin c u v) w = c * a u w + a v w.
Hypothesis a_sym : forall u v, size u = N -> size v = N -> a u v = a v u.
Hypothesis vb : vanish b.

Lemma nthA u i : size u = N -> (i < N)%N -> nth 0 (A u) i = if D i then 0 else a u (unitvec i).
Proof.
move=> su hi; case: ifP => Di; first by have [_ ->] := vA su.
by rewrite -AE //; [rewrite sum_unitvec|apply: unit_vanish; rewrite Di].
Qed.
Lemma linA : tree_linear [:: N] (map A).
Proof.
split=> [t /good1[u su ->]|c t t' /good1[u su ->] /good1[v sv ->]].
  by apply/good1; exists (A u) => //; case: (vA su).
rewrite comb1 //= comb1; try by case: (vA su). 2: by case: (vA sv).
congr [:: _]; have sl := size_lin c u v; apply: (@eq_from_nth _ 0); first by rewrite size_lin; case: (vA sl).
have [-> _] := vA sl => i hi; rewrite nth_lin // !nthA //; case: ifP => _; first by rewrite mulr0 addr0.
by rewrite a_lin // size_mkseq.
Qed.
Lemma good_b : good [:: N] [:: b]. Proof. by apply/good1; exists b => //; case: vb. Qed.
Lemma limit1 : limit [:: N] None = (10 * N)%N.
Proof. by rewrite /limit /= addn0. Qed.

(** Whatever the solver returns vanishes on [D] and is of the form [A y]. *)
Lemma cg_vanish rtol atol x g k : cg (map A) [:: b] None rtol atol None None (@jnp_vdot R) = CGDone x g k ->
  exists2 u, vanish u & x = [:: u].
Proof.
move=> h; have sU := space_span good_units.
have AU t : in_span [:: N] units t -> in_span [:: N] units (map A t).
  by move=> /span_units[u [su _] ->]; apply/span_units; exists (A u) => //; apply: vA.
have sz : size (nseq N (0 : R)) = N by rewrite size_nseq.
have [||y /span_units[u vu ->] ->] := @C63_stays R [:: N] (map A) None (@jnp_vdot R) [:: b] None good_b I _ _ rtol atol None x g k sU sU AU _ _ h => //.
  rewrite /start /zero_tree /=; have [sA zA] := vA sz; have [sb zb] := vb.
  apply/span_units; exists (map2 (fun x y => x - y) b (A (nseq N 0))) => //; split.
    by rewrite size_map size_zip sb sA minnn.
  by move=> i hi Di; rewrite (nth_map (0, 0)) ?size_zip ?sb ?sA ?minnn // nth_zip ?sb ?sA //= zb // zA // subrr.
have [su zu] := vu; exists (map2 +%R (nseq N 0) u); last by rewrite /start /zero_tree.
split=> [|i hi Di]; first by rewrite size_map size_zip size_nseq su minnn.
by rewrite (nth_map (0, 0)) ?size_zip ?su ?size_nseq ?minnn // nth_zip ?su ?size_nseq //= zu // nth_nseq hi addr0.
Qed.

(** The residual. *)
Lemma cg_residual rtol atol x g k : cg (map A) [:: b] None rtol atol None None (@jnp_vdot R) = CGDone [:: x] g k ->
  size x = N /\ (k <= 10 * N)%N /\ (k = (10 * N)%N \/ forall v, vanish v ->
    (inner v b - a x v) ^+ 2 <= Num.max (rtol ^+ 2 * inner b b) (atol ^+ 2) * inner v v).
Proof.
have [sb _] := vb => /(@C41_residual R [:: N] (map A) None (@jnp_vdot R) [:: b] None rtol atol None good_b I _ _ _ linA)[] // /good1[u su [xE]] gE; subst u; rewrite limit1 => kl H.
split=> //; split=> //; case: H => [h|->]; [right=> v vv|by left].
have [sA zA] := vA su; pose r := map2 (fun x y => x - y) b (A x).
have sr : size r = N by rewrite size_map size_zip sb sA minnn.
have rE i : (i < N)%N -> nth 0 r i = nth 0 b i - nth 0 (A x) i.
  by move=> hi; rewrite (nth_map (0, 0)) ?size_zip ?sb ?sA ?minnn // nth_zip ?sb ?sA.
have gr : g = inner r r by rewrite gE /= -dot1.
have E : inner v b - a x v = inner v r.
  rewrite -AE // /inner -sumrB; apply: eq_bigr => i _; by rewrite rE // mulrBr.
rewrite E; apply: (@le_trans _ _ (inner r r * inner v v)).
  (* Cauchy-Schwarz *)
  have CS (c : R) : 0 <= inner (lin c v r) (lin c v r) by apply: sumr_ge0 => i _; rewrite -expr2 sqr_ge0.
  have EE c : inner (lin c v r) (lin c v r) = c ^+ 2 * inner v v + 2%:R * c * inner v r + inner r r.
    rewrite /inner !mulr_sumr -!big_split /=; apply: eq_bigr => i _; rewrite nth_lin //; move: (nth 0 v i) (nth 0 r i) => y z; ring.
  have [/eqP v0|vn] := boolP (inner v v == 0).
    suff -> : inner v r = 0 by rewrite expr0n mulr_ge0 ?sumr_ge0 // => i _; rewrite -expr2 sqr_ge0.
    suff /eqP : 2%:R * inner v r = 0 by rewrite mulf_eq0 pnatr_eq0 /= => /eqP.
    apply: (@affine_nonneg _ _ (inner r r)) => c; have := CS c; rewrite EE v0 mulr0 add0r; by rewrite mulrCA mulrA.
  have v1 : 0 < inner v v by rewrite lt_neqAle eq_sym vn sumr_ge0 // => i _; rewrite -expr2 sqr_ge0.
  have := CS (- inner v r / inner v v); rewrite EE.
  have -> : (- inner v r / inner v v) ^+ 2 * inner v v + 2%:R * (- inner v r / inner v v) * inner v r + inner r r =
     inner r r - inner v r ^+ 2 / inner v v by field.
  by rewrite subr_ge0 ler_pdivr_mulr.
apply: ler_wpmul2r; first by apply: sumr_ge0 => i _; rewrite -expr2 sqr_ge0.
by move: h; rewrite gr dot1.
Qed.

(** The right-hand side is in the range when it is orthogonal to the kernel. *)
Lemma in_range :
  (forall z, vanish z -> (forall v, vanish v -> a z v = 0) -> inner z b = 0) -> exists2 w, vanish w & A w = b.
Proof.
move=> compat; have [sb zb] := vb.
pose K : 'M[R]_N := \matrix_(i, j) (if D i || D j then 0 else a (unitvec i) (unitvec j)).
pose col_vec (z : 'cV[R]_N) : seq R := mkseq (fun i => if insub i is Some i' then (if D i then 0 else z i' 0) else 0) N.
have cvE z i : nth 0 (col_vec z) (nat_of_ord i) = if D i then 0 else z i 0 by rewrite nth_mkseq // valK.
have cv z : vanish (col_vec z).
  by split=> [|i hi Di]; [rewrite size_mkseq|rewrite -[i]/(nat_of_ord (Ordinal hi)) cvE /= Di].
have sU i : size (unitvec i) = N by rewrite size_mkseq.
have zero u : size u = N -> (forall i, (i < N)%N -> nth 0 u i = 0) -> forall v, size v = N -> a u v = 0.
  move=> su z v sv; have e : u = lin (-1) u u.
    by apply: (@eq_from_nth _ 0); rewrite su ?size_lin // => i hi; rewrite nth_lin // z // mulr0 addr0.
  by rewrite e a_lin // mulN1r addNr.
(* expansion in unit vectors *)
have expand (l : seq nat) : uniq l -> all (gtn N) l -> forall u v, size u = N -> size v = N ->
    (forall i, (i < N)%N -> i \notin l -> nth 0 u i = 0) -> a u v = \sum_(i <- l) nth 0 u i * a (unitvec i) v.
  elim: l => [|k l IH] /=; first by move=> _ _ u v su sv z; rewrite big_nil zero // => i hi; apply: z.
  move=> /andP[kl U] /andP[kN lN] u v su sv z; rewrite big_cons.
  pose u' := lin (- nth 0 u k) (unitvec k) u; have su' : size u' = N by rewrite size_lin.
  have uE : u = lin (nth 0 u k) (unitvec k) u'.
    apply: (@eq_from_nth _ 0); rewrite su ?size_lin // => i hi; by rewrite !nth_lin // mulNr addrA addrN add0r.
  rewrite {1}uE a_lin //; congr (_ + _); rewrite (IH U lN u' v su' sv); last first.
    move=> i hi il; rewrite nth_lin // nth_mkseq //; case: eqP => [->|/eqP ik]; first by rewrite mulr1 addNr.
    by rewrite mulr0 add0r z // inE negb_or ik.
  rewrite !big_seq; apply: eq_bigr => i il; rewrite nth_lin; last exact: (allP lN).
  rewrite nth_mkseq; last exact: (allP lN).
  by case: eqP => [e|_]; [move: kl; rewrite -e il|rewrite mulr0 add0r].
have expandN u v : size u = N -> size v = N -> a u v = \sum_(i < N) nth 0 u i * a (unitvec i) v.
  move=> su sv; rewrite (expand (iota 0 N) (iota_uniq _ _) _ u v su sv).
  - have -> : iota 0 N = index_iota 0 N by rewrite /index_iota subn0.
    by rewrite big_mkord.
  - by apply/allP => i; rewrite mem_iota add0n.
  - by move=> i hi; rewrite mem_iota add0n hi.
have KE z i : ~~ D (nat_of_ord i) -> (K *m z) i 0 = a (col_vec z) (unitvec i).
  move=> Di; have [sz _] := cv z; rewrite mxE (expandN _ (unitvec i) sz (sU _)); apply: eq_bigr => j _; rewrite cvE mxE (negbTE Di) /=.
  by case: ifP => _; rewrite ?mul0r // mulrC a_sym.
pose br : 'rV[R]_N := \row_i nth 0 b i.
have /submxP[w wE] : (br <= K)%MS.
  rewrite submxE; apply/eqP/rowP => c; rewrite !mxE.
  pose z := col c (cokermx K); have Kz : K *m z = 0 by rewrite /z colE mulmxA mulmx_coker mul0mx.
  have := compat (col_vec z) (cv z); have H v : vanish v -> a (col_vec z) v = 0.
    move=> [sv zv]; have [sz _] := cv z; rewrite a_sym // (expandN v _ sv sz) big1 // => i _.
    case Di : (D i); first by rewrite zv // mul0r.
    by rewrite a_sym // -KE ?Di // Kz mxE mulr0.
  move/(_ H) => e0; rewrite -[RHS]e0; apply: eq_bigr => i _; rewrite cvE !mxE mulrC.
  by case: ifP => // Di; rewrite zb // mulr0 mul0r.
exists (col_vec w^T) => //; have [sw _] := cv w^T; have [sA zA] := vA sw.
apply: (@eq_from_nth _ 0); rewrite sA ?sb // => i hi; rewrite nthA //; case: ifP => Di; first by rewrite zb.
rewrite -[i]/(nat_of_ord (Ordinal hi)) -KE ?Di //.
have := congr1 (fun x : 'rV[R]_N => x 0 (Ordinal hi)) wE; rewrite !mxE => ->; apply: eq_bigr => j _.
by rewrite !mxE mulrC orbC; case: ifP => // _; rewrite a_sym.
Qed.

Hypothesis a_psd : forall u, vanish u -> 0 <= a u u.
Lemma cg_exact rtol atol :
  (forall z, vanish z -> (forall v, vanish v -> a z v = 0) -> inner z b = 0) ->
  exists x g k, [/\ cg (map A) [:: b] None rtol atol None None (@jnp_vdot R) = CGDone [:: x] g k, vanish x,
    (k <= N)%N, exists2 y, vanish y & x = A y &
    rtol = 0 -> atol = 0 -> forall v, vanish v -> a x v = inner v b].
Proof.
move=> /in_range[w vw wE]; have [sb zb] := vb; have [sw _] := vw.
have SU := span_units.
have gz : size (nseq N (0 : R)) = N by rewrite size_nseq.
have A0 : map A (zero_tree R [:: N]) = zero_tree R [:: N] by apply: linear_zero; exact: linA.
have r0 : tree_sub [:: b] (map A (start [:: N] None)) = map A [:: w].
  rewrite /start A0 /tree_sub /zero_tree /map2 /= wE; congr [:: _]; apply: (@eq_from_nth _ 0); rewrite size_map size_zip size_nseq sb minnn // => i hi.
  by rewrite (nth_map (0, 0)) ?size_zip ?size_nseq ?sb ?minnn // nth_zip ?size_nseq ?sb //= nth_nseq hi subr0.
have Vw : in_span [:: N] units [:: w] by apply/SU; exists w.
have [||||x [g [k [h1 h2 h3 h4]]]] := @C63_semidefinite R [:: N] (map A) (@jnp_vdot R) [:: b] None units good_b I linA
  (@C42_default_dot R [:: N]) good_units _ _ _ _ [:: w] rtol atol None Vw r0.
- by move=> t /SU[u [su _] ->]; apply/SU; exists (A u) => //; apply: vA.
- by move=> t /SU[u [su _] ->]; apply: inner_pos; apply/good1; exists u.
- move=> t t' /SU[u vu ->] /SU[v vv ->] /=; have [su _] := vu; have [sv _] := vv.
  have [sAu _] := vA su; have [sAv _] := vA sv.
  by rewrite !dot1 // AE // [RHS]innerC AE // a_sym.
- by move=> t /SU[u vu ->] /=; have [su _] := vu; have [sAu _] := vA su; rewrite dot1 // AE // a_psd.
have [y /SU[y' vy' yE] xE] := h3; have [sy' _] := vy'.
have [sAy _] := vA sy'.
have xE' : x = [:: A y'].
  rewrite xE yE /start /zero_tree /tree_add /map2 /=; congr [:: _].
  apply: (@eq_from_nth _ 0); rewrite size_map size_zip size_nseq sAy minnn // => i hi.
  by rewrite (nth_map (0, 0)) ?size_zip ?size_nseq ?sAy ?minnn // nth_zip ?size_nseq ?sAy //= nth_nseq hi add0r.
exists (A y'), g, k; split=> //; first by rewrite -xE'.
- exact: vA.
- exact: leq_trans h2 size_units.
- by exists y'.
move=> t0 a0 v vv; have [|_] := h4 t0 a0; first by rewrite limit1 (leq_trans size_units) // leq_pmull.
by rewrite xE' => -[e]; rewrite -AE // e.
Qed.
End Leaf.
