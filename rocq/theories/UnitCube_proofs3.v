(** The uniform cube meets the hypotheses of the refiner theorems. *)
From mathcomp Require Import all_ssreflect all_algebra zify.
From Verif Require Import PyDict_model PyDict_proofs Facet_model Facet_spec Facet_proofs Facet_proofs2 GS_model Premesh_model.
From Verif Require Import Refiner_model Refiner_spec Refiner_proofs Refiner_proofs7.
From Verif Require Import UnitCube_model UnitCube_spec UnitCube_proofs UnitCube_proofs2.
Set Implicit Arguments.
Unset Strict Implicit.
Unset Printing Implicit Defensive.
Import Order.TTheory GRing.Theory Num.Theory.

Definition increasing (e : seq int) := sorted (fun x y : int => (x < y)%R) e.

Lemma increasing_eq (e e' : seq int) : increasing e -> increasing e' -> perm_eq e e' -> e = e'.
Proof. move=> h h' p; apply: lt_sorted_eq => //; exact: perm_mem. Qed.

Lemma increasing_uniq (e : seq int) : increasing e -> uniq e.
Proof. exact: lt_sorted_uniq. Qed.

Lemma increasing_sub (e e' : seq int) : subseq e e' -> increasing e' -> increasing e.
Proof. by move=> s; apply: subseq_sorted s; exact: lt_trans. Qed.

Lemma cell_increasing n d c : c \in grid n d -> increasing (cell n c).
Proof.
move=> cg; rewrite /increasing /cell (size_grid_in cg) (map_comp Posz (fun k => flat n.+1 (addv c k))) sorted_map.
exact: (cell_sorted cg).
Qed.

Lemma facet_sub d e ft : size ft = d -> size e = 2 ^ d -> subseq (facet e ft) e.
Proof.
move=> sf se; rewrite -{2}(nd_take_grid SENT se) /facet /nd_take; apply: map_subseq.
by rewrite -sf; apply: subseq_slice.
Qed.

Lemma size_cell n d c : c \in grid n d -> size (cell n c) = 2 ^ d.
Proof. by move=> cg; rewrite size_map size_grid (size_grid_in cg). Qed.

Lemma mutual_refl F : uniq F -> mutual F F.
Proof. by move=> u i j il jl /eqP; rewrite nth_uniq // => /eqP->. Qed.

Section Cube.
Variables (n d : nat).
Hypotheses (n0 : 0 < n) (d0 : 0 < d).
Notation els := [seq cell n c | c <- grid n d].

Lemma cube_mesh_ok : mesh_ok d (n.+1 ^ d) els.
Proof.
move=> e /mapP[c cg ->]; rewrite (size_cell cg); split=> //; first exact: increasing_uniq (cell_increasing cg).
move=> x /mapP[k]; rewrite (size_grid_in cg) => kg ->; eexists; last by [].
by apply: flat_lt; apply: addv_in.
Qed.

Lemma cube_facets_equal e e' ft ft' : e \in els -> e' \in els -> size ft = d -> size ft' = d ->
  perm_eq (facet e ft) (facet e' ft') -> facet e ft = facet e' ft' /\ increasing (facet e ft).
Proof.
move=> /mapP[c cg ->] /mapP[c' cg' ->] sf sf' p.
have i1 := increasing_sub (facet_sub sf (size_cell cg)) (cell_increasing cg).
have i2 := increasing_sub (facet_sub sf' (size_cell cg')) (cell_increasing cg').
by split=> //; apply: increasing_eq.
Qed.

Lemma size_facet e ft : size (facet e ft) = 2 ^ facet_dim ft.
Proof.
rewrite size_map size_cart -map_comp; elim: ft => //= t ft IH.
by rewrite IH /facet_dim /= expnD; case: t; rewrite /= ?mul1n.
Qed.

Lemma cube_conforming : conforming d els.
Proof.
move=> e e' ft ft' el el' sf sf' dd p; have [<- _] := cube_facets_equal el el' sf sf' p.
by apply: oriented_refl; rewrite size_facet.
Qed.

Lemma cube_exchanging : exchanging d els.
Proof.
move=> e e' ft ft' el el' sf sf' dd p; have [<- i] := cube_facets_equal el el' sf sf' p.
exact: mutual_refl (increasing_uniq i).
Qed.

(** Side cells are facets of elements. *)
Lemma cart_ins axis l x : axis <= l ->
  cart (nseq axis (iota 0 2) ++ [:: x] :: nseq (l - axis) (iota 0 2)) = [seq ins axis x k | k <- grid 2 l].
Proof.
elim: axis l => [|axis IH] l al; first by rewrite subn0 /= cats0; apply: eq_map => k; rewrite /ins take0 drop0.
case: l al => // l al; rewrite subSS [nseq axis.+1 _ ++ _]/=.
change (cart (iota 0 2 :: (nseq axis (iota 0 2) ++ [:: x] :: nseq (l - axis) (iota 0 2))) = [seq ins axis.+1 x k | k <- grid 2 l.+1]).
rewrite [cart (_ :: _)]/= IH // grid_S /= !cats0 map_cat -!map_comp; congr (_ ++ _); exact: eq_map.
Qed.

Lemma slice_side axis t : axis < d -> t != INNER ->
  slice_positions 2 false (side_type d axis t) = [seq ins axis (if t == FIRST then 0 else 1) k | k <- grid 2 d.-1].
Proof.
move=> al tI; rewrite /slice_positions /side_type map_cat /= !map_nseq.
rewrite -cart_ins; last lia.
by case: t tI.
Qed.

Lemma addv_ins axis x y c k : axis <= size c -> size c = size k ->
  addv (ins axis x c) (ins axis y k) = ins axis (x + y) (addv c k).
Proof.
move=> al e; rewrite /addv /ins zip_cat; last by rewrite !size_takel -?e.
rewrite map_cat /=; congr (_ ++ _ :: _).
  elim: axis c k al e => [|a IH] [|u c] [|v k] //= al [e]; by rewrite IH.
elim: axis c k al e => [|a IH] [|u c] [|v k] //= al [e]; exact: IH.
Qed.

Lemma side_cell_facet axis s c : axis < d -> s = 0 \/ s = n -> c \in grid n d.-1 ->
  exists c' ft, [/\ c' \in grid n d, size ft = d, facet_dim ft = d.-1 & side_cell n axis s c = facet (cell n c') ft].
Proof.
move=> al sE cg; pose t := if s == 0 then FIRST else LAST; pose x := if s == 0 then 0 else n.-1.
have tI : t != INNER by rewrite /t; case: (s == 0).
have c'g : ins axis x c \in grid n d by apply: ins_in => //; rewrite /x; case: eqP => _; lia.
exists (ins axis x c), (side_type d axis t); split=> //.
- by rewrite size_cat /= !size_nseq; lia.
- exact: facet_dim_side.
rewrite /facet slice_side // /nd_take -map_comp /side_cell (size_grid_in cg); apply/eq_in_map => k kg /=.
have kg' : ins axis (if t == FIRST then 0 else 1) k \in grid 2 d by apply: ins_in => //; case: eqP.
rewrite /cell (size_grid_in c'g) nth_map_grid // addv_ins ?(size_grid_in cg) ?(size_grid_in kg) //; last lia.
congr (node n (ins axis _ _)); rewrite /t /x; case: eqP => [->|ne] //=; case: sE => // ->; lia.
Qed.

Lemma side_is_facet axis s c : axis < d -> s = 0 \/ s = n -> c \in grid n d.-1 ->
  is_element_facet d els (side_cell n axis s c) /\ exchanging_facet d els (side_cell n axis s c).
Proof.
move=> al sE cg; have [c' [ft [cg' sf df ->]]] := side_cell_facet al sE cg; split.
  exists (flat n c'), ft; rewrite size_map size_grid flat_lt // nth_map_grid //; split=> //.
  by apply: oriented_refl; rewrite size_facet df.
have inc := increasing_sub (facet_sub sf (size_cell cg')) (cell_increasing cg').
move=> e ft2 ft3 /mapP[c3 cg3 ->] sf2 sf3 d2 p.
have sF : size (facet (cell n c') ft) = 2 ^ d.-1 by rewrite size_facet df.
have i1 := increasing_sub (facet_sub sf2 sF) inc.
have i2 := increasing_sub (facet_sub sf3 (size_cell cg3)) (cell_increasing cg3).
rewrite (increasing_eq i1 i2 p); exact: mutual_refl (increasing_uniq i2).
Qed.
End Cube.

(** ** Multilinear interpolation of the cell corners *)
Local Open Scope ring_scope.
Lemma sum_grid_prod (R : comRingType) m k (u : nat -> nat -> R) :
  \sum_(c <- grid m k) \prod_(b < k) u b (nth 0%N c b) = \prod_(b < k) \sum_(x <- iota 0 m) u b x.
Proof.
elim: k u => [|k IH] u; first by rewrite /grid /= big_seq1 !big_ord0.
rewrite grid_S big_flatten /= big_map big_ord_recl mulr_suml; apply: eq_bigr => x _.
rewrite big_map -(IH (fun b => u b.+1)) mulr_sumr; apply: eq_bigr => c _.
by rewrite big_ord_recl.
Qed.

Lemma multilinear_coord (R : comRingType) (w : nat -> nat -> R) d (g : nat -> nat -> R) (X : nat -> 'rV[R]_d) p :
  (forall k, k \in grid 2 d -> X (flat 2 k) = \row_j g j (nth 0%N k j)) ->
  (forall x, x \in p -> w x 0%N + w x 1%N = 1) -> size p = d ->
  multilinear w d X p = \row_j (w (nth 0%N p j) 0%N * g j 0%N + w (nth 0%N p j) 1%N * g j 1%N).
Proof.
move=> XE w1 sp; apply/rowP => j; rewrite mxE /multilinear.
rewrite big_seq (eq_bigr (fun c => (\prod_(b < d) w (nth 0%N p b) (nth 0%N c b)) *: \row_j g j (nth 0%N c j))); last first.
  by move=> k kg; rewrite XE.
rewrite -big_seq summxE.
rewrite (eq_bigr (fun c => \prod_(b < d) (w (nth 0%N p b) (nth 0%N c b) * (if b == j then g j (nth 0%N c b) else 1)))); last first.
  move=> c _; rewrite !mxE big_split /=; congr (_ * _).
  by rewrite -big_mkcond big_pred1_eq.
have := sum_grid_prod 2 d (fun b x => w (nth 0%N p b) x * (if b == j :> nat then g j x else 1)).
rewrite /= => ->; rewrite (bigD1 j) //= [X in _ * X]big1 ?mulr1 => [|b bj].
  by rewrite /= !big_cons big_nil eqxx addr0.
rewrite /= !big_cons big_nil addr0 (_ : (b == j :> nat) = false) ?(negbTE bj) ?mulr1; last exact: negbTE.
apply: w1.
by rewrite mem_nth // sp.
Qed.
