(** Sums over tensor grids, and the polynomial with given values at the points of a
    tensor grid. *)
From mathcomp Require Import all_ssreflect all_algebra polyrcf zify ring.
From Verif Require Import PyDict_model PyDict_proofs GS_model GS_props Interp_model Interp_spec Lagrange_proofs Interp_proofs.
From Verif Require Import Interp_proofs2 Tensor_proofs Interp_props FES_model FES_proofs FES_proofs2 FES_props.
From Verif Require Import Facet_model Facet_spec Facet_proofs Unisolvent_proofs UnitCube_model UnitCube_spec UnitCube_proofs UnitCube_proofs3.
Set Implicit Arguments.
Unset Strict Implicit.
Unset Printing Implicit Defensive.
Import Order.TTheory GRing.Theory Num.Theory.
Local Open Scope ring_scope.

Section Sums.
Variables (R : comRingType) (m : nat).
Implicit Types (W : nat -> nat -> nat -> R) (p q : seq nat) (v : seq nat -> R).

Lemma big_grid_S d (f : seq nat -> R) : \sum_(q <- grid m d.+1) f q = \sum_(x <- iota 0 m) \sum_(q <- grid m d) f (x :: q).
Proof. by rewrite grid_S big_flatten /= big_map; apply: eq_bigr => x _; rewrite big_map. Qed.
Lemma sum_unit x (f : nat -> R) : (x < m)%N -> \sum_(y <- iota 0 m) (y == x)%:R * f y = f x.
Proof.
move=> xm; rewrite (bigD1_seq x) ?mem_iota ?iota_uniq //= eqxx mul1r big1 ?addr0 // => y /negbTE->.
by rewrite mul0r.
Qed.

(** Row [p] of the product of the matrices [W 0], ..., [W (d-1)] applied to [v]. *)
Definition tsum d W p v : R := \sum_(q <- grid m d) (\prod_(b < d) W b (nth 0%N p b) (nth 0%N q b)) * v q.
Definition unit_row (W : nat -> nat -> R) x : Prop := (x < m)%N /\ forall y, (y < m)%N -> W x y = (y == x)%:R.

Lemma tsum_cons d W x p v : tsum d.+1 W (x :: p) v = \sum_(y <- iota 0 m) W 0%N x y * tsum d (fun b => W b.+1) p (fun q => v (y :: q)).
Proof.
rewrite /tsum big_grid_S; apply: eq_bigr => y _; rewrite mulr_sumr; apply: eq_bigr => q _.
by rewrite big_ord_recl /= mulrA.
Qed.
Lemma tsum_ext d W p v v' : (forall q, q \in grid m d -> v q = v' q) -> tsum d W p v = tsum d W p v'.
Proof. by move=> H; rewrite /tsum big_seq [RHS]big_seq; apply: eq_bigr => q qg; rewrite H. Qed.

(** On axes where the rows are unit vectors only one position counts. *)
Lemma tsum_rel d W (fr : nat -> bool) p p' v v' : size p = d -> size p' = d ->
  (forall j, (j < d)%N -> if fr j then nth 0%N p j = nth 0%N p' j else unit_row (W j) (nth 0%N p j) /\ unit_row (W j) (nth 0%N p' j)) ->
  (forall q q', q \in grid m d -> q' \in grid m d ->
     (forall j, (j < d)%N -> if fr j then nth 0%N q j = nth 0%N q' j else nth 0%N q j = nth 0%N p j /\ nth 0%N q' j = nth 0%N p' j) ->
     v q = v' q') ->
  tsum d W p v = tsum d W p' v'.
Proof.
elim: d W fr p p' v v' => [|d IH] W fr p p' v v'.
  by move=> _ _ _ H; rewrite /tsum /grid /= !big_seq1 !big_ord0 !mul1r (H [::] [::]).
case: p => [|x p] // -[sp]; case: p' => [|x' p'] // -[sp'] H1 H2; rewrite !tsum_cons.
have H1' j : (j < d)%N -> if fr j.+1 then nth 0%N p j = nth 0%N p' j else unit_row (W j.+1) (nth 0%N p j) /\ unit_row (W j.+1) (nth 0%N p' j).
  by move=> jd; apply: (H1 j.+1).
have cons_in y q : (y < m)%N -> q \in grid m d -> y :: q \in grid m d.+1 by move=> yl; rewrite !mem_grid /= eqSS yl.
have F1 := H1 0%N isT; case F0 : (fr 0%N) in F1; [rewrite -[x']F1|case: F1 => -[xm U] [xm' U']].
  rewrite big_seq [RHS]big_seq; apply: eq_bigr => y; rewrite mem_iota add0n => /= ym; congr (_ * _).
  apply: (IH _ (fun j => fr j.+1)) => // q q' qg qg' H; apply: H2; rewrite ?cons_in // => -[|j] jd /=; last exact: H.
  by rewrite F0.
rewrite big_seq (eq_bigr (fun y => (y == x)%:R * tsum d (fun b => W b.+1) p (fun q => v (y :: q)))); last first.
  by move=> y; rewrite mem_iota add0n => /= ym; rewrite U.
rewrite -big_seq sum_unit // [RHS]big_seq (eq_bigr (fun y => (y == x')%:R * tsum d (fun b => W b.+1) p' (fun q => v' (y :: q)))); last first.
  by move=> y; rewrite mem_iota add0n => /= ym; rewrite U'.
rewrite -big_seq sum_unit //; apply: (IH _ (fun j => fr j.+1)) => // q q' qg qg' H; apply: H2; rewrite ?cons_in // => -[|j] jd /=; last exact: H.
by rewrite F0.
Qed.

(** The product of the sums over one axis each. *)
Lemma tsum_zero d W p v j : (j < d)%N -> unit_row (W j) (nth 0%N p j) ->
  (forall q, q \in grid m d -> nth 0%N q j = nth 0%N p j -> v q = 0) -> tsum d W p v = 0.
Proof.
move=> jd [xm U] H; rewrite /tsum big_seq big1 // => q qg.
have [e|ne] := eqVneq (nth 0%N q j) (nth 0%N p j); first by rewrite H ?mulr0.
rewrite (bigD1 (Ordinal jd)) //= U ?(negbTE ne) ?mul0r ?mul0r //.
by move: qg; rewrite mem_grid => /andP[/eqP sq /allP]; apply; rewrite mem_nth // sq.
Qed.
End Sums.

(** Two products of matrices one after the other. *)
Lemma tsum_comp (R : comRingType) m l d (W : nat -> nat -> nat -> R) W' p v : size p = d ->
  tsum l d W' p (fun r => tsum m d W r v) = tsum m d (fun b x y => \sum_(r <- iota 0 l) W' b x r * W b r y) p v.
Proof.
move=> sp; rewrite /tsum.
under eq_bigr => r _ do rewrite mulr_sumr.
rewrite exchange_big /=; apply: eq_bigr => q _.
rewrite -(sum_grid_prod l d (fun b r => W' b (nth 0%N p b) r * W b r (nth 0%N q b))) mulr_suml; apply: eq_bigr => r _.
by rewrite mulrA -big_split.
Qed.

Section Nodal.
Variables (F : fieldType) (d : nat).
Implicit Types (xs es : seq F) (v : seq nat -> F).

Lemma cart_grid xs n : size xs = n -> cart (nseq d xs) = [seq [seq nth 0 xs i | i <- p] | p <- grid n d].
Proof.
move=> sz; have -> : nseq d xs = [seq [seq nth 0 xs i | i <- l] | l <- nseq d (iota 0 n)].
  by rewrite map_nseq -{1}sz map_nth_iota0 // take_size.
by rewrite cart_map.
Qed.
Definition nodal xs v : tpoly F := [seq (v q, [seq lag xs i | i <- q]) | q <- grid (size xs) d].
Lemma nodal_deg xs v : tdeg d (size xs) (nodal xs v).
Proof.
apply/allP => t /mapP[q]; rewrite mem_grid => /andP[/eqP sq /allP ql] -> /=; rewrite size_map sq eqxx /=.
apply/allP => p /mapP[i /ql il ->]; exact: size_lag.
Qed.
Lemma nodal_eval xs v (y : seq F) : size y = d -> teval (nodal xs v) y =
  \sum_(q <- grid (size xs) d) v q * \prod_(b < d) (lag xs (nth 0%N q b)).[nth 0 y b].
Proof.
move=> sy; rewrite /teval big_map big_seq [RHS]big_seq; apply: eq_bigr => q; rewrite mem_grid => /andP[/eqP sq _] /=.
congr (_ * _); rewrite (big_nth (0, 0)) size_zip size_map sq sy minnn big_mkord; apply: eq_bigr => b _.
by rewrite nth_zip ?size_map ?sq ?sy //= (nth_map 0%N) // sq.
Qed.
(** The value at a point of another grid. *)
Lemma nodal_at xs es v p : p \in grid (size es) d ->
  teval (nodal xs v) [seq nth 0 es i | i <- p] = tsum (size xs) d (fun _ i k => (lag xs k).[nth 0 es i]) p v.
Proof.
rewrite mem_grid => /andP[/eqP sp _]; rewrite nodal_eval ?size_map //; apply: eq_bigr => q _; rewrite mulrC; congr (_ * _).
by apply: eq_bigr => b _; rewrite (nth_map 0%N) // sp.
Qed.
Lemma lag_unit xs x : uniq xs -> (x < size xs)%N -> unit_row (size xs) (fun i k => (lag xs k).[nth 0 xs i]) x.
Proof. by move=> U xl; split=> // y yl; rewrite lag_node // eq_sym. Qed.
Lemma tsum_units m W p v : p \in grid m d -> (forall j, (j < d)%N -> unit_row m (W j) (nth 0%N p j)) -> tsum m d W p v = v p :> F.
Proof.
move=> pg H; have pl : size p = d := size_grid_in pg.
rewrite (@tsum_rel _ m d W (fun _ => false) p p v (fun _ => v p)) //.
- rewrite /tsum -mulr_suml (sum_grid_prod m d (fun b y => W b (nth 0%N p b) y)) big1 ?mul1r // => b _.
  have [xm U] := H b (ltn_ord b); rewrite big_seq (eq_bigr (fun y => (y == nth 0%N p b)%:R * 1)).
    by rewrite -big_seq sum_unit.
  by move=> y; rewrite mem_iota add0n => /= ym; rewrite U // mulr1.
- by move=> j jd; split; apply: H.
move=> q q' qg qg' e; congr v; apply: (@eq_from_nth _ 0%N); first by rewrite (size_grid_in qg).
by move=> j; rewrite (size_grid_in qg) => /e[].
Qed.
Lemma nodal_node xs v p : uniq xs -> p \in grid (size xs) d -> teval (nodal xs v) [seq nth 0 xs i | i <- p] = v p.
Proof.
move=> U pg; rewrite nodal_at //; apply: tsum_units => // j jd; apply: lag_unit => //.
by move: pg; rewrite mem_grid => /andP[/eqP sp /allP]; apply; rewrite mem_nth // sp.
Qed.
Lemma nodal_values xs v : uniq xs -> [seq teval (nodal xs v) y | y <- cart (nseq d xs)] = [seq v p | p <- grid (size xs) d].
Proof. by move=> U; rewrite (cart_grid erefl) -map_comp; apply/eq_in_map => p pg /=; rewrite nodal_node. Qed.
End Nodal.

(** Interpolation between tensor grids as a sum. *)
Lemma interpolation_entry (R : rcfType) d n t (g e : nodes1d R) M v p : (0 < n)%N -> (0 < d)%N -> nodes1d_create R n t = inr g ->
  nd_values e != [::] -> interpolation_matrix d g e = inr M -> p \in grid (size (nd_values e)) d ->
  nth 0 (matvec M [seq v q | q <- grid n d]) (flat (size (nd_values e)) p) =
  tsum n d (fun _ i k => (lag (nd_values g) k).[nth 0 (nd_values e) i]) p v.
Proof.
move=> n0 d0 hg e0 hM pg; have [_ _ sz U _] := created_grid n0 hg.
have [M' hM' [_ X]] := C35_tensor_exact n0 d0 hg e0; move: hM'; rewrite hM => -[EM]; rewrite -{M'}EM in X.
have := X (nodal d (nd_values g) v); rewrite -{1}sz nodal_deg nodal_values // sz => -> //.
by rewrite (cart_grid _ erefl) -map_comp nth_map_grid //= nodal_at // sz.
Qed.

(** Derivatives, and their sums with the weights of a quadrature rule whose first
    and last points are the ends of the interval. *)
Section Derivative.
Variables (F : fieldType) (d : nat).
Implicit Types (xs es ws : seq F) (v : seq nat -> F).

Lemma nodal_deriv_at xs es v k p : p \in grid (size es) d ->
  teval (tderiv k (nodal d xs v)) [seq nth 0 es i | i <- p] =
  tsum (size xs) d (fun b i l => if b == k then (lag xs l)^`().[nth 0 es i] else (lag xs l).[nth 0 es i]) p v.
Proof.
rewrite mem_grid => /andP[/eqP sp _]; rewrite /teval /tderiv /nodal !big_map /tsum.
rewrite big_seq [RHS]big_seq; apply: eq_bigr => q; rewrite mem_grid => /andP[/eqP sq _] /=; rewrite mulrC; congr (_ * _).
rewrite (big_nth (0, 0)) size_zip !size_map size_iota sq sp minnn big_mkord; apply: eq_bigr => b _.
rewrite nth_zip ?size_map ?size_iota ?sq ?sp //= (nth_map 0%N) ?size_iota ?sq // nth_iota ?sq // add0n.
by rewrite !(nth_map 0%N) ?sq ?sp //; case: ifP.
Qed.

Lemma quad_deriv xs ws v k : (1 < size xs)%N -> uniq xs -> nth 0 xs 0 = -1 -> nth 0 xs (size xs).-1 = 1 ->
  (forall p : {poly F}, (size p <= size xs)%N -> \sum_(i < size xs) nth 0 ws i * p^`().[nth 0 xs i] = p.[1] - p.[-1]) ->
  \sum_(r <- grid (size xs) d) (\prod_(b < d) nth 0 ws (nth 0%N r b)) * teval (tderiv k (nodal d xs v)) [seq nth 0 xs i | i <- r] =
  \sum_(q <- grid (size xs) d) (\prod_(b < d) (if b == k :> nat then (nth 0%N q b == (size xs).-1)%:R - (nth 0%N q b == 0%N)%:R else nth 0 ws (nth 0%N q b))) * v q.
Proof.
move=> n1 U e0 e1 ex; set n := size xs in n1 e0 e1 ex *.
rewrite (eq_big_seq (fun r => \sum_(q <- grid n d) (\prod_(b < d) (nth 0 ws (nth 0%N r b) *
   (if b == k :> nat then (lag xs (nth 0%N q b))^`().[nth 0 xs (nth 0%N r b)] else (lag xs (nth 0%N q b)).[nth 0 xs (nth 0%N r b)]))) * v q)); last first.
  move=> r rg /=; rewrite nodal_deriv_at // /tsum mulr_sumr; apply: eq_bigr => q _; by rewrite big_split mulrA.
rewrite exchange_big /=; apply: eq_big_seq => q qg; rewrite -mulr_suml; congr (_ * _).
rewrite (sum_grid_prod n d (fun b i => nth 0 ws i * (if b == k :> nat then (lag xs (nth 0%N q b))^`().[nth 0 xs i] else (lag xs (nth 0%N q b)).[nth 0 xs i]))).
apply: eq_bigr => b _; have ql : (nth 0%N q b < n)%N.
  by move: qg; rewrite mem_grid => /andP[/eqP sq /allP]; apply; rewrite mem_nth ?sq.
case: eqP => _; last first.
  rewrite (eq_big_seq (fun i => (i == nth 0%N q b)%:R * nth 0 ws i)); first by rewrite sum_unit.
  by move=> i; rewrite mem_iota add0n => /= il; rewrite lag_node // mulrC.
have -> : iota 0 n = index_iota 0 n by rewrite /index_iota subn0.
rewrite big_mkord ex ?size_lag //.
have n0 : (0 < n)%N := ltnW n1.
have nl : (n.-1 < n)%N by rewrite prednK.
have E1 : (lag xs (nth 0%N q b)).[1] = (nth 0%N q b == n.-1)%:R by rewrite -{1}e1 lag_node // eq_sym.
have E0 : (lag xs (nth 0%N q b)).[-1] = (nth 0%N q b == 0%N)%:R by rewrite -{1}e0 lag_node // eq_sym.
by rewrite E1 E0.
Qed.
End Derivative.
