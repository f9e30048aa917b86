(** Kronecker products, outer products and functions that are sums of products
    of one-variable polynomials. *)
From mathcomp Require Import all_ssreflect all_algebra zify ring.
Require Import Verif.PyDict_model Verif.PyDict_proofs Verif.Interp_model Verif.Interp_spec.
Require Import Verif.Interp_proofs.
Set Implicit Arguments.
Unset Strict Implicit.
Unset Printing Implicit Defensive.
Import Order.TTheory GRing.Theory Num.Theory.
Local Open Scope ring_scope.

Section Outer.
Variable F : comRingType.
Implicit Types (a b u v : seq F) (A B : seq (seq F)).

Lemma dot_cat a a' b b' : size a = size b -> dot (a ++ a') (b ++ b') = dot a b + dot a' b'.
Proof.
elim: a b => [|x a IH] [|y b] //= => [_|[e]]; first by rewrite /dot /= add0r.
by have := IH b e; rewrite /dot /= => ->; rewrite addrA.
Qed.

Lemma dot_scale x y b v : dot [seq x * z | z <- b] [seq y * z | z <- v] = x * y * dot b v.
Proof.
elim: b v => [|s b IH] [|t v]; rewrite /dot /= ?mulr0 //.
by have := IH v; rewrite /dot => ->; rewrite mulrDr; congr (_ + _); rewrite mulrACA.
Qed.

Lemma outer_cons x a b : outer (x :: a) b = [seq x * z | z <- b] ++ outer a b.
Proof. by []. Qed.

Lemma size_outer a b : size (outer a b) = (size a * size b)%N.
Proof. by rewrite size_allpairs. Qed.

Lemma dot_outer a b u v : size a = size u -> size b = size v ->
  dot (outer a b) (outer u v) = dot a u * dot b v.
Proof.
move=> e1 e2; elim: a u e1 => [|x a IH] [|y u] //= => [_|[e]].
  by rewrite /dot /= mul0r.
rewrite !outer_cons dot_cat ?size_map // dot_scale IH // [in RHS]/dot /= -/(dot a u).
by rewrite mulrDl.
Qed.

Definition rows_sized k A : bool := all (fun r => size r == k) A.

Lemma rows_sized_kron k l A B : rows_sized k A -> rows_sized l B -> rows_sized (k * l)%N (kron A B).
Proof.
move=> /allP hA /allP hB; apply/allP => r /allpairsP[[ra rb] /= [ia ib ->]].
by rewrite size_outer (eqP (hA _ ia)) (eqP (hB _ ib)).
Qed.

Lemma matvec_kron A B u v : rows_sized (size u) A -> rows_sized (size v) B ->
  matvec (kron A B) (outer u v) = outer (matvec A u) (matvec B v).
Proof.
move=> /allP hA /allP hB; rewrite /matvec /kron map_allpairs /outer allpairs_mapl allpairs_mapr.
apply/eq_in_allpairs => ra rb /= ia ib.
by rewrite dot_outer //; apply/eqP; [apply: hA|apply: hB].
Qed.

Lemma outerA a b c : outer (outer a b) c = outer a (outer b c).
Proof.
elim: a => [|x a IH] //; rewrite !outer_cons.
rewrite {1}/outer map_cat flatten_cat; congr (_ ++ _); last exact: IH.
by rewrite allpairs_mapl map_allpairs; apply: eq_allpairs => // s t; rewrite mulrA.
Qed.
Lemma outer1 a : outer a [:: 1] = a.
Proof. by elim: a => [|x a IH] //; rewrite outer_cons IH /= mulr1. Qed.

Definition outers (vs : seq (seq F)) : seq F := foldr (@outer F) [:: 1] vs.
Lemma foldl_outer v vs : foldl (@outer F) v vs = outers (v :: vs).
Proof.
elim: vs v => [|w vs IH] v /=; first by rewrite outer1.
by rewrite IH /= outerA.
Qed.
Lemma outersE vs : outers vs = [seq \prod_(x <- c) x | c <- cart vs].
Proof.
elim: vs => [|v vs IH] /=; first by rewrite big_nil.
rewrite IH /outer allpairs_mapr -[RHS]/([seq \prod_(x <- c) x | c <- [seq x :: r | x <- v, r <- cart vs]]).
by rewrite map_allpairs; apply: eq_allpairs => x c; rewrite big_cons.
Qed.

Lemma reduce_outer v vs : reduce (@outer F) (v :: vs) = inr (outers (v :: vs)).
Proof. by rewrite /= foldl_outer. Qed.

(** A Kronecker product of matrices acts on an outer product of vectors factor
    by factor. *)
Lemma matvec_krons M Ms v vs : size Ms = size vs -> rows_sized (size v) M ->
  all (fun mv => rows_sized (size mv.2) mv.1) (zip Ms vs) ->
  matvec (foldl (@kron F) M Ms) (foldl (@outer F) v vs) =
  foldl (@outer F) (matvec M v) [seq matvec mv.1 mv.2 | mv <- zip Ms vs].
Proof.
elim: Ms vs M v => [|N Ms IH] [|w vs] M v //= [e] hM /andP[hN hs].
rewrite IH // ?matvec_kron //.
by rewrite size_outer; apply: rows_sized_kron.
Qed.

Lemma sum_outer a b : foldr +%R 0 (outer a b) = foldr +%R 0 a * foldr +%R 0 b.
Proof.
elim: a => [|x a IH] /=; first by rewrite mul0r.
rewrite foldr_sum big_cat /= -!foldr_sum IH mulrDl; congr (_ + _).
by rewrite foldr_sum big_map -mulr_sumr -foldr_sum.
Qed.
Lemma sum_outers vs : foldr +%R 0 (outers vs) = \prod_(v <- vs) foldr +%R 0 v.
Proof.
elim: vs => [|v vs IH] /=; first by rewrite big_nil addr0.
by rewrite sum_outer IH big_cons.
Qed.

Lemma dot_outers us vs : [seq size u | u <- us] = [seq size v | v <- vs] ->
  dot (outers us) (outers vs) = \prod_(uv <- zip us vs) dot uv.1 uv.2.
Proof.
elim: us vs => [|u us IH] [|v vs] //=; first by rewrite big_nil /dot /= mulr1 addr0.
move=> [e es]; rewrite big_cons dot_outer ?IH //.
elim: us vs es {IH} => [|u' us IH] [|v' vs] //= [e' es]; by rewrite !size_outer (IH _ es) e'.
Qed.

(** Linearity of a row in the vector. *)
Lemma dot_map_sum (T I : Type) (r : seq F) (s : seq T) (c : I -> F) (g : I -> T -> F) (l : seq I) :
  dot r [seq \sum_(t <- l) c t * g t x | x <- s] = \sum_(t <- l) c t * dot r [seq g t x | x <- s].
Proof.
elim: s r => [|x s IH] [|y r]; rewrite /dot /=; try by rewrite big1 // => t _; rewrite mulr0.
have := IH r; rewrite /dot => ->; rewrite mulr_sumr -big_split /=; apply: eq_bigr => t _.
by rewrite mulrDr mulrCA.
Qed.
End Outer.

(** ** Identity matrices *)
Section Identity.
Variable F : comRingType.
Definition idm (n : nat) : seq (seq F) := [seq [seq (i == j)%:R | j <- iota 0 n] | i <- iota 0 n].

Lemma allpairs_iota (T : Type) (f : nat -> T) n m :
  [seq f (i * m + k)%N | i <- iota 0 n, k <- iota 0 m] = [seq f i | i <- iota 0 (n * m)].
Proof.
rewrite -[iota 0 (n * m)]flatten_iota map_flatten -map_comp; congr flatten.
apply: eq_map => i /=; rewrite -[(i * m)%N in RHS]addn0 iotaDl -map_comp; by apply: eq_map => k /=.
Qed.

Lemma kron_idm n m : kron (idm n) (idm m) = idm (n * m)%N.
Proof.
rewrite /kron /idm allpairs_mapl allpairs_mapr.
rewrite -(allpairs_iota (fun i => [seq (i == j)%:R | j <- iota 0 (n * m)])).
apply/eq_in_allpairs => i k; rewrite !mem_iota !add0n => /andP[_ hi] /andP[_ hk] /=.
rewrite /outer allpairs_mapl allpairs_mapr -(allpairs_iota (fun j => (_ == j)%:R)).
apply/eq_in_allpairs => a b; rewrite !mem_iota !add0n => /andP[_ ha] /andP[_ hb] /=.
rewrite -natrM mulnb; congr (_%:R); congr nat_of_bool.
apply/andP/eqP => [[/eqP-> /eqP->] //|e].
have m0 : (0 < m)%N by apply: leq_ltn_trans hk.
have ea : i = a.
  by have := congr1 (divn^~ m) e; rewrite !divnMDl // !divn_small // !addn0.
by rewrite ea eqxx; move: e; rewrite ea => /addnI->.
Qed.

Lemma reduce_idm n d : reduce (@kron F) (nseq d.+1 (idm n)) = inr (idm (n ^ d.+1)%N).
Proof.
rewrite /=; congr inr.
suff H : forall m, foldl (@kron F) (idm m) (nseq d (idm n)) = idm (m * n ^ d)%N by rewrite H expnS.
elim: d => [|d IH] m /=; first by rewrite muln1.
by rewrite kron_idm IH expnS mulnA.
Qed.

Lemma matvec_idm (x : seq F) : matvec (idm (size x)) x = x.
Proof.
apply: (@eq_from_nth _ 0) => [|i]; rewrite !size_map size_iota // => hi.
rewrite (nth_map [::]) ?size_map ?size_iota // (nth_map 0%N) ?size_iota // nth_iota // add0n.
rewrite dotE ?size_map ?size_iota // (bigD1 (Ordinal hi)) //= big1 => [|k ki].
  by rewrite (nth_map 0%N) ?size_iota // nth_iota // add0n eqxx mul1r addr0.
rewrite (nth_map 0%N) ?size_iota // nth_iota // add0n.
by rewrite (_ : (i == k) = false) ?mul0r //; apply/negbTE; rewrite eq_sym.
Qed.
End Identity.

(** ** Products of polynomials on tensor-product points *)
Section Tensor.
Variable F : fieldType.
Implicit Types (xs : seq F) (ps : seq {poly F}).

Lemma prod_values ps xs :
  [seq \prod_(px <- zip ps x) px.1.[px.2] | x <- cart (nseq (size ps) xs)] =
  outers [seq [seq p.[x] | x <- xs] | p <- ps].
Proof.
elim: ps => [|p ps IH] /=; first by rewrite big_nil.
rewrite -IH /outer allpairs_mapl allpairs_mapr.
rewrite -[LHS]/([seq \prod_(px <- zip (p :: ps) x) px.1.[px.2] | x <- [seq y :: r | y <- xs, r <- cart (nseq (size ps) xs)]]).
by rewrite map_allpairs; apply: eq_allpairs => y c; rewrite /= big_cons.
Qed.

(** If matrix [j] maps the values of [p j] on [xs] to the values of [q j] on
    [es], the Kronecker product maps the products. *)
Lemma krons_prod (Ms : seq (seq (seq F))) ps qs xs es M :
  reduce (@kron F) Ms = inr M -> size Ms = size ps -> size qs = size ps ->
  all (rows_sized (size xs)) Ms ->
  (forall j, (j < size ps)%N -> matvec (nth [::] Ms j) [seq (nth 0 ps j).[x] | x <- xs] = [seq (nth 0 qs j).[x] | x <- es]) ->
  matvec M [seq \prod_(px <- zip ps x) px.1.[px.2] | x <- cart (nseq (size ps) xs)] =
  [seq \prod_(px <- zip qs x) px.1.[px.2] | x <- cart (nseq (size qs) es)].
Proof.
rewrite !prod_values; case: Ms => [|M0 Ms] // -[<-].
case: ps => [|p ps] // [sM]; case: qs => [|q qs] // [sq] /andP[hM hMs] H.
rewrite ![map _ (_ :: _)]/= -!foldl_outer matvec_krons ?size_map //.
- rewrite (H 0%N) //; congr foldl.
  apply: (@eq_from_nth _ [::]) => [|j]; rewrite !size_map size_zip size_map sM minnn ?sq // => hj.
  rewrite (nth_map ([::], [::])) ?size_zip ?size_map ?sM ?minnn // nth_zip ?size_map //=.
  rewrite (nth_map 0) // (nth_map 0) ?sq //; exact: (H j.+1).
apply/allP => -[m v] /(nthP ([::], [::]))[j]; rewrite size_zip size_map sM minnn => hj.
rewrite nth_zip ?size_map // => -[<- <-] /=; rewrite (nth_map 0) // size_map.
by apply: (allP hMs); rewrite mem_nth ?sM.
Qed.

Lemma size_kron (A B : seq (seq F)) : size (kron A B) = (size A * size B)%N.
Proof. by rewrite size_allpairs. Qed.
Lemma size_krons (Ms : seq (seq (seq F))) M : reduce (@kron F) Ms = inr M ->
  size M = (\prod_(A <- Ms) size A)%N.
Proof.
case: Ms => [|A Ms] //= -[<-]; elim: Ms A => [|B Ms IH] A /=; first by rewrite big_seq1.
by rewrite IH !big_cons size_kron mulnA.
Qed.
Lemma size_cart_nseq (T : Type) d (xs : seq T) : size (cart (nseq d xs)) = (size xs ^ d)%N.
Proof. by rewrite size_cart map_nseq; elim: d => [|d IH] //=; rewrite IH expnS. Qed.

(** The same for sums of products. *)
Lemma matvec_teval (M : seq (seq F)) d (f : tpoly F) (g : F * seq {poly F} -> seq {poly F}) xs es :
  size M = (size es ^ d)%N ->
  (forall t, t \in f -> matvec M [seq \prod_(px <- zip t.2 x) px.1.[px.2] | x <- cart (nseq d xs)] =
     [seq \prod_(px <- zip (g t) x) px.1.[px.2] | x <- cart (nseq d es)]) ->
  matvec M [seq teval f x | x <- cart (nseq d xs)] =
  [seq teval [seq (t.1, g t) | t <- f] x | x <- cart (nseq d es)].
Proof.
move=> sM H; apply: (@eq_from_nth _ 0) => [|i]; rewrite !size_map ?size_cart_nseq // sM => hi.
rewrite (nth_map [::]) ?sM // (nth_map [::]) ?size_cart_nseq //.
rewrite /teval dot_map_sum big_map !big_seq; apply: eq_bigr => t tf /=; congr (_ * _).
have := congr1 (fun s => nth 0 s i) (H t tf).
by rewrite (nth_map [::]) ?sM // (nth_map [::]) ?size_cart_nseq.
Qed.
End Tensor.
