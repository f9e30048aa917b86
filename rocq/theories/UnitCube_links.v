(** The boundary group and the periodic links of a refined cube (C25, C27): which
    points of the refined grid they hold. *)
From Coq Require Import Relations.Relation_Operators.
From mathcomp Require Import all_ssreflect all_algebra zify ring.
From Verif Require Import PyDict_model PyDict_proofs Facet_model Facet_spec Facet_proofs Facet_proofs2 GS_model GS_props Premesh_model.
From Verif Require Import Refiner_model Refiner_spec Refiner_proofs Refiner_proofs7 Refiner_proofs9 Refiner_props.
From Verif Require Import UnitCube_model UnitCube_spec UnitCube_proofs UnitCube_proofs2 UnitCube_proofs3 UnitCube_props UnitCube_refine.
Set Implicit Arguments.
Unset Strict Implicit.
Unset Printing Implicit Defensive.
Import Order.TTheory GRing.Theory Num.Theory.
Local Open Scope ring_scope.

Lemma split_axis k d axis c : c \in grid k d -> (axis < d)%N -> exists2 c0, c0 \in grid k d.-1 & c = ins axis (nth 0%N c axis) c0.
Proof.
move=> cg al; have sc := size_grid_in cg; exists (take axis c ++ drop axis.+1 c).
  move: cg; rewrite !mem_grid size_cat size_take size_drop sc al => /andP[_ /allP ca]; apply/andP; split; first by apply/eqP; lia.
  by rewrite all_cat; apply/andP; split; apply/allP => x xi; apply: ca; [exact: mem_take xi|exact: mem_drop xi].
have st : size (take axis c) = axis by rewrite size_takel ?sc // ltnW.
rewrite /ins take_size_cat // drop_size_cat //.
by rewrite -{1}(cat_take_drop axis c) (drop_nth 0%N) ?sc.
Qed.

Lemma side_cellE n d axis s c : (0 < n)%N -> (axis < d)%N -> s = 0%N \/ s = n -> c \in grid n d.-1 ->
  side_cell n axis s c = facet (cell n (ins axis (if s == 0%N then 0%N else n.-1) c)) (side_type d axis (if s == 0%N then FIRST else LAST)).
Proof.
move=> n0 al sE cg; set t := if s == 0%N then FIRST else LAST; set x := if s == 0%N then 0%N else n.-1.
have tI : t != INNER by rewrite /t; case: (s == 0%N).
have c'g : ins axis x c \in grid n d by apply: ins_in => //; rewrite /x; case: eqP => _; lia.
rewrite /facet (slice_side n0 (leq_ltn_trans (leq0n _) al)) //.
rewrite /nd_take -map_comp /side_cell (size_grid_in cg); apply/eq_in_map => k kg /=.
have kg' : ins axis (if t == FIRST then 0%N else 1%N) k \in grid 2 d by apply: ins_in => //; case: eqP.
rewrite /cell (size_grid_in c'g) nth_map_grid // addv_ins ?(size_grid_in cg) ?(size_grid_in kg) //; last lia.
congr (node n (ins axis _ _)); rewrite /t /x; case: eqP => [->|ne] //=; case: sE => // ->; lia.
Qed.

Lemma mem_side_slice m d axis t p : (1 < m)%N -> (axis < d)%N -> t != INNER ->
  (p \in slice_positions m false (side_type d axis t)) = (p \in grid m d) && (nth 0%N p axis == if t == FIRST then 0%N else m.-1).
Proof.
move=> m1 al tI; rewrite /slice_positions /side_type mem_cart map_cat /= !map_nseq /=.
have -> : d = (axis + (d.-1 - axis).+1)%N by lia.
rewrite addnS /= addKn; move: (d.-1 - axis)%N => k {al}.
elim: axis p => [|axis IH] [|x p]; try by rewrite mem_grid.
  rewrite mem_grid /= eqSS.
  have -> : all2 (fun x (l : seq nat) => x \in l) p (nseq k (iota 0 m)) = (p \in grid m k) by rewrite mem_cart.
  rewrite mem_grid; have xm : (x \in axis_positions m false t) = (x == if t == FIRST then 0%N else m.-1).
    by case: t tI => //= _; rewrite inE.
  rewrite xm; case: eqP => [->|]; rewrite ?andbF //= andbT; case: (size p == k) => //=.
  suff -> : ((if t == FIRST then 0%N else m.-1) < m)%N by [].
  by case: ifP => _; lia.
rewrite /= IH !mem_grid /= mem_iota add0n /= eqSS; case: (x < m)%N; rewrite ?andbF //=.
Qed.

Section Cube.
Variables (F : realFieldType) (d : nat) (L : eqType) (lbl : L) (n : nat) (a b : F) (pd : seq nat) (parts : option ndarray).
Hypotheses (n0 : (0 < n)%N) (d0 : (0 < d)%N).
Variable pm : premesh [lmodType F of 'rV[F]_d] L.
Hypothesis gen : unit_cube_mesh d lbl n a b pd parts = inr pm.
Variables (m : nat) (M1 : nat -> nat -> F).
Hypothesis m2 : (2 <= m)%N.
Hypothesis wok : weights_ok m M1.
Hypothesis w1 : forall i, (i < m)%N -> M1 i 0%N + M1 i 1%N = 1.
Hypothesis winc : forall i j, (i < j)%N -> (j < m)%N -> M1 i 1%N < M1 j 1%N.
Hypothesis ab : a != b.
Variable pm' : premesh [lmodType F of 'rV[F]_d] L.
Hypothesis run : refine_premesh d m true M1 1 pm = inr pm'.
Notation slot c p := (nth SENT (nth [::] (pm_elements pm') (flat n c)) (flat m p)).
Notation h := ((b - a) / n%:R).
Notation N := (n * m.-1)%N.
Notation global := (global m).
Notation sharing := (cube_refined_sharing n0 d0 gen m2 wok w1 winc ab run).

Lemma axis_first c p j : c \in grid n d -> p \in grid m d -> (j < d)%N ->
  (nth 0%N (global c p) j == 0%N) = (nth 0%N c j == 0%N) && (nth 0%N p j == 0%N).
Proof.
move=> cg pg jd; rewrite (nth_global cg pg) // addn_eq0 muln_eq0 (_ : (m.-1 == 0)%N = false) ?orbF //; lia.
Qed.
Lemma axis_last c p j : c \in grid n d -> p \in grid m d -> (j < d)%N ->
  (nth 0%N (global c p) j == N) = (nth 0%N c j == n.-1) && (nth 0%N p j == m.-1).
Proof.
move=> cg pg jd; rewrite (nth_global cg pg) //; have := nth_lt cg jd; have := nth_lt pg jd.
move: (nth 0%N c j) (nth 0%N p j) => x y; move: n0 m2; clear; case: n => // k _; case: m => // l l1 /=; rewrite !ltnS => yl xl.
apply/eqP/andP => [e|[/eqP-> /eqP->]]; last by rewrite mulSn addnC.
have [xk|xk] := eqVneq x k; first by split=> //; apply/eqP; rewrite xk mulSn addnC in e; lia.
suff : (x.+1 * l + 0 <= k * l)%N by nia.
rewrite addn0 leq_mul2r; lia.
Qed.
Lemma axis_side c p j s : c \in grid n d -> p \in grid m d -> (j < d)%N -> s = 0%N \/ s = n ->
  (nth 0%N (global c p) j == s * m.-1)%N =
  (nth 0%N c j == if s == 0%N then 0%N else n.-1) && (nth 0%N p j == if (if s == 0%N then FIRST else LAST) == FIRST then 0%N else m.-1).
Proof.
move=> cg pg jd [->|->]; first by rewrite mul0n axis_first.
by rewrite (gtn_eqF n0) axis_last.
Qed.

(** The nodes of a refined facet of a side are the points of the grid there. *)
Definition refined_side axis s c0 (F' : seq int) : Prop :=
  perm_eq F' (nd_take SENT m (nth [::] (pm_elements pm') (flat n (ins axis (if s == 0%N then 0%N else n.-1) c0)))
    (slice_positions m false (side_type d axis (if s == 0%N then FIRST else LAST)))).
Lemma refined_sideP axis s c0 F' x : (axis < d)%N -> s = 0%N \/ s = n -> c0 \in grid n d.-1 -> refined_side axis s c0 F' -> x \in F' ->
  exists c p, [/\ c \in grid n d, p \in grid m d, x = slot c p & nth 0%N (global c p) axis = (s * m.-1)%N].
Proof.
move=> al sE cg pe; rewrite (perm_mem pe) => /mapP[p]; rewrite mem_side_slice //; last by case: (s == 0%N).
case/andP=> pg pa ->; set y := if s == 0%N then 0%N else n.-1.
have c'g : ins axis y c0 \in grid n d by apply: ins_in => //; rewrite /y; case: eqP => _; lia.
exists (ins axis y c0), p; split=> //; apply/eqP; rewrite axis_side // pa andbT nth_ins ?eqxx //.
by rewrite (size_grid_in cg); lia.
Qed.
Lemma refined_side_mem axis s c p : (axis < d)%N -> s = 0%N \/ s = n -> c \in grid n d -> p \in grid m d ->
  nth 0%N (global c p) axis = (s * m.-1)%N -> exists2 c0, c0 \in grid n d.-1 & forall F', refined_side axis s c0 F' -> slot c p \in F'.
Proof.
move=> al sE cg pg /eqP; rewrite axis_side // => /andP[/eqP ca pa]; have [c0 cg0 cE] := split_axis cg al.
exists c0 => // F' pe; rewrite (perm_mem pe); apply/mapP; exists p.
  by rewrite mem_side_slice ?pg //; case: (s == 0%N).
by rewrite -ca -cE.
Qed.
Let els_side axis s c : (axis < d)%N -> s = 0%N \/ s = n -> c \in grid n d.-1 ->
  [/\ (flat n (ins axis (if s == 0%N then 0%N else n.-1) c) < size (pm_elements pm))%N,
      size (side_type d axis (if s == 0%N then FIRST else LAST)) = d,
      facet_dim (side_type d axis (if s == 0%N then FIRST else LAST)) = d.-1 &
      oriented d.-1 (facet (nth [::] (pm_elements pm) (flat n (ins axis (if s == 0%N then 0%N else n.-1) c)))
         (side_type d axis (if s == 0%N then FIRST else LAST))) (side_cell n axis s c)].
Proof.
move=> al sE cg; have [_ elE _ _] := run_fields gen.
have c'g : ins axis (if s == 0%N then 0%N else n.-1) c \in grid n d by apply: ins_in => //; case: eqP => _; lia.
have df : facet_dim (side_type d axis (if s == 0%N then FIRST else LAST)) = d.-1 by apply: facet_dim_side => //; case: (s == 0%N).
split=> //; first by rewrite elE size_map size_grid flat_lt.
  by rewrite size_cat /= !size_nseq; lia.
by rewrite elE nth_map_grid // (side_cellE n0 al sE cg); apply: oriented_refl; rewrite size_facet df.
Qed.

(** ** The boundary *)
Theorem cube_refined_boundary : let bnd := if pm_groups pm' is (_, fs) :: _ then fs else [::] in
  [/\ pm_groups pm' = [::] \/ pm_groups pm' = [:: (lbl, bnd)],
      (forall x, x \in flatten bnd -> exists c p, [/\ c \in grid n d, p \in grid m d & x = slot c p]) &
      forall c p, c \in grid n d -> p \in grid m d ->
        (slot c p \in flatten bnd <-> exists axis, [/\ (axis < d)%N, axis \notin pd & nth 0%N (global c p) axis = 0%N \/ nth 0%N (global c p) axis = N])].
Proof.
have [gE _ mem] := C27_boundary_group n0 gen; have [sg gr] := C25_groups_follow_facets m2 d0 (gen_ok gen) run wok.
move=> bnd; set bnd0 := (if pm_groups pm is (_, fs) :: _ then fs else [::]) in gE mem.
have E : pm_groups pm' = [::] /\ pm_groups pm = [::] \/ pm_groups pm' = [:: (lbl, bnd)] /\ pm_groups pm = [:: (lbl, bnd0)].
  case: gE sg gr => [->|[-> _]]; rewrite /bnd; first by move=> /size0nil-> _; left.
  move=> sg gr; right; split=> //; have [h _ _] := gr 0%N lbl isT.
  by case: (pm_groups pm') sg h => [|[l f] [|]] //= _ ->.
have K k : (k < size bnd0)%N -> exists axis s c, [/\ (axis < d)%N, axis \notin pd, s = 0%N \/ s = n, c \in grid n d.-1 &
    nth [::] bnd0 k = side_cell n axis s c /\ refined_side axis s c (nth [::] bnd k)].
  move=> kl; have [/(_ (mem_nth [::] kl))[ax [s [c [h1 h2 h3 h4 h5]]]] _] := mem (nth [::] bnd0 k).
  exists ax, s, c; split=> //; split=> //.
  case: E => [[_ e]|[e1 e2]]; first by move: kl; rewrite /bnd0 e.
  have [_ _ /(_ k)] := gr 0%N lbl (ltac:(by rewrite e2)); rewrite e1 e2 /= => /(_ kl)[_ G _].
  by have [i1 i2 i3 i4] := els_side h1 h3 h4; apply: G => //; rewrite h5.
have sb : size bnd = size bnd0.
  case: E => [[e1 e2]|[e1 e2]]; first by rewrite /bnd /bnd0 e1 e2.
  by have [_] := gr 0%N lbl (ltac:(by rewrite e2)); rewrite e1 e2.
split.
- by case: E => -[-> _]; [left|right].
- move=> x /flattenP[f /(nthP [::])[k]]; rewrite sb => kl <- xf.
  have [ax [s [c [h1 h2 h3 h4 [_ rs]]]]] := K k kl.
  by have [c' [p [cg pg -> _]]] := refined_sideP h1 h3 h4 rs xf; exists c', p.
move=> c p cg pg; split.
- move=> /flattenP[f /(nthP [::])[k]]; rewrite sb => kl <- xf.
  have [ax [s [c' [h1 h2 h3 h4 [_ rs]]]]] := K k kl.
  have [c2 [p2 [cg2 pg2 /sharing-> // e]]] := refined_sideP h1 h3 h4 rs xf; exists ax; split=> //.
  by rewrite e; case: h3 => ->; [left|right].
case=> ax [al ap gl]; have [s sE e] : exists2 s, s = 0%N \/ s = n & nth 0%N (global c p) ax = (s * m.-1)%N.
  by case: gl => ->; [exists 0%N; [left|]|exists n; [right|]].
have [c0 cg0 H] := refined_side_mem al sE cg pg e.
have [_ /(_ (ex_intro _ ax (ex_intro _ s (ex_intro _ c0 (And5 al ap sE cg0 erefl)))))] := mem (side_cell n ax s c0).
move=> /(nthP [::])[k kl kE]; apply/flattenP; exists (nth [::] bnd k); first by rewrite mem_nth // sb.
apply: H; case: E => [[_ e']|[e1 e2]]; first by move: kl; rewrite /bnd0 e'.
have [_ _ /(_ k)] := gr 0%N lbl (ltac:(by rewrite e2)); rewrite e1 e2 /= => /(_ kl)[_ G _].
by have [i1 i2 i3 i4] := els_side al sE cg0; apply: G => //; rewrite kE.
Qed.

(** ** The links *)
Definition links_of (pm : premesh [lmodType F of 'rV[F]_d] L) : seq link := if pm_links pm is Some ls then ls else [::].
Lemma uid_links (q : premesh [lmodType F of 'rV[F]_d] L) x : unique_index (pm_links q) x = unique_index (Some (links_of q)) x.
Proof. by rewrite /links_of; case: (pm_links q). Qed.

(** Two points of the grid on opposite periodic sides. *)
Definition opposite (g g' : seq nat) : Prop := exists axis, [/\ (axis < d)%N, axis \in pd, nth 0%N g axis = 0%N, nth 0%N g' axis = N &
  forall j, j <> axis -> nth 0%N g j = nth 0%N g' j].

Let sglobal c p : c \in grid n d -> p \in grid m d -> size (global c p) = d.
Proof. by move=> cg pg; rewrite size_map size_zip (size_grid_in cg) (size_grid_in pg) minnn. Qed.

Lemma mem_links l : l \in links_of pm <-> exists axis c0, [/\ (axis < d)%N, axis \in pd, c0 \in grid n d.-1 & l = (side_cell n axis 0%N c0, side_cell n axis n c0)].
Proof. have [_ mem _] := C27_links n0 gen; exact: mem. Qed.
Lemma size_links : size (links_of pm') = size (links_of pm).
Proof.
case E : (pm_links pm) => [ls|]; last first.
  have [s [_ _ _ [s' [_ X]]]] := refine_cont m2 run; rewrite E in X.
  by rewrite /links_of E; case: (pm_links pm') X.
have [ls' E' [sl H]] := C25_links_paired m2 d0 (gen_ok gen) run wok E.
by rewrite /links_of E E'.
Qed.
Lemma links_pass_cube k axis c0 : (k < size (links_of pm))%N -> (axis < d)%N -> c0 \in grid n d.-1 ->
  nth ([::], [::]) (links_of pm) k = (side_cell n axis 0%N c0, side_cell n axis n c0) ->
  let A' := (nth ([::], [::]) (links_of pm') k).1 in let B' := (nth ([::], [::]) (links_of pm') k).2 in
  [/\ refined_side axis 0%N c0 A', refined_side axis n c0 B', size A' = size B' &
   forall i, (i < size A')%N -> at_ (pm_coords pm') (nth SENT B' i) = at_ (pm_coords pm') (nth SENT A' i) + \row_j (if j == axis :> nat then b - a else 0)].
Proof.
case E : (pm_links pm) => [ls|]; last by rewrite /links_of E.
have [ls' E' [sl H]] := C25_links_paired m2 d0 (gen_ok gen) run wok E.
have lE : links_of pm = ls by rewrite /links_of E.
have lE' : links_of pm' = ls' by rewrite /links_of E'.
rewrite lE lE' => kl al cg lk A' B'; have [sA sB pA pB X] := H k kl; rewrite lk /= -/A' -/B' in sA sB pA pB X.
have [i1 i2 i3 i4] := els_side al (or_introl (erefl 0%N)) cg.
have [j1 j2 j3 j4] := els_side al (or_intror (erefl n)) cg.
split; [exact: pA|exact: pB|by rewrite sA sB|].
move=> i; rewrite sA => il; have [p pg ->] : exists2 p, p \in grid m d.-1 & i = flat m p.
  exists (nth [::] (grid m d.-1) i); first by rewrite mem_nth // size_grid.
  by rewrite -(nth_map [::] 0%N) ?size_grid // map_flat_grid nth_iota.
have [f1 x1] := side_is_facet n0 d0 al (or_introl (erefl 0%N)) cg.
have [f2 x2] := side_is_facet n0 d0 al (or_intror (erefl n)) cg.
have [_ elE _ _] := run_fields gen.
apply: X => //; rewrite ?elE //; first by right.
move=> q ql; have [_ nc] := C26_nodes gen.
have kg : nth [::] (grid 2 d.-1) q \in grid 2 d.-1 by rewrite mem_nth // size_grid.
have sa : size (addv c0 (nth [::] (grid 2 d.-1) q)) = d.-1 by rewrite size_addv ?(size_grid_in cg) ?(size_grid_in kg).
have ag := addv_in cg kg.
rewrite /side_cell !(nth_map [::]) ?size_grid ?(size_grid_in cg) //.
rewrite /at_ /node /= !nc ?ins_in //; apply/rowP => j; rewrite !mxE.
case: eqP => [->|ne]; last by rewrite addr0 (nth_ins_ne 0 n) // sa; lia.
have al1 : (axis <= d.-1)%N by move: al d0; clear; lia.
rewrite !nth_ins ?sa //.
have nz : n%:R != 0 :> F by rewrite pnatr_eq0 -lt0n.
by rewrite mul0r addr0 mulrCA divff // mulr1 addrC subrK.
Qed.

Lemma opposite_coords c c' p p' axis : c \in grid n d -> c' \in grid n d -> p \in grid m d -> p' \in grid m d ->
  at_ (pm_coords pm') (slot c' p') = at_ (pm_coords pm') (slot c p) + \row_j (if j == axis :> nat then b - a else 0) ->
  forall j, j <> axis -> nth 0%N (global c p) j = nth 0%N (global c' p') j.
Proof.
move=> cg cg' pg pg'; rewrite !(cube_refined_coordinates gen m2 wok w1 run) // => /rowP e j ne.
case: (ltnP j d) => jd; last by rewrite !nth_default ?sglobal.
rewrite !(@nth_global d n m) //; apply: (weight_position n0 d0 m2 wok winc ab); try exact: (nth_lt _ jd).
have := e (Ordinal jd); rewrite !mxE /= (introF eqP ne) addr0 => /addrI /mulIf -> //.
by apply: mulf_neq0; [rewrite subr_eq0 eq_sym | apply: invr_neq0; rewrite pnatr_eq0 -lt0n].
Qed.

(** Links join exactly the points on opposite periodic sides. *)
Lemma step_opposite x y : link_step (links_of pm') x y ->
  exists c p c' p', [/\ c \in grid n d, p \in grid m d, c' \in grid n d & p' \in grid m d] /\
    [/\ x = slot c p, y = slot c' p' & opposite (global c p) (global c' p')].
Proof.
case=> l /(nthP ([::], [::]))[k kl <-] [i [iA iB -> ->]]; rewrite size_links in kl.
have [ax [c0 [al ap cg lk]]] := (mem_links _).1 (mem_nth ([::], [::]) kl).
have [rA rB sAB cE] := links_pass_cube kl al cg lk.
rewrite !(set_nth_default SENT 0) //.
have [c [p [cg1 pg1 e1 g1]]] := refined_sideP al (or_introl (erefl 0%N)) cg rA (mem_nth SENT iA).
have [c' [p' [cg2 pg2 e2 g2]]] := refined_sideP al (or_intror (erefl n)) cg rB (mem_nth SENT iB).
rewrite e1 e2; exists c, p, c', p'; split=> //; split=> //; exists ax; split=> //.
by apply: opposite_coords => //; rewrite -e1 -e2; exact: cE.
Qed.
Lemma opposite_step c p c' p' : c \in grid n d -> p \in grid m d -> c' \in grid n d -> p' \in grid m d ->
  opposite (global c p) (global c' p') -> link_step (links_of pm') (slot c p) (slot c' p').
Proof.
move=> cg pg cg' pg' [ax [al ap g1 g2 g3]].
have [c0 cg0 X] := refined_side_mem al (or_introl (erefl 0%N)) cg pg g1.
have lin : (side_cell n ax 0%N c0, side_cell n ax n c0) \in links_of pm by apply/mem_links; exists ax, c0.
case/(nthP ([::], [::])): lin => k kl kE.
have [rA rB sAB cE] := links_pass_cube kl al cg0 kE.
case/(nthP SENT): (X _ rA) => i iA iE; have iB := iA; rewrite sAB in iB.
exists (nth ([::], [::]) (links_of pm') k); first by rewrite mem_nth ?size_links.
exists i; rewrite !(set_nth_default SENT 0) //; split=> //.
have [c2 [p2 [cg2 pg2 e2 gg2]]] := refined_sideP al (or_intror (erefl n)) cg0 rB (mem_nth SENT iB).
rewrite e2; apply/sharing => //; apply: (@eq_from_nth _ 0%N); first by rewrite !sglobal.
move=> j _; have [->|/eqP ne] := eqVneq j ax; first by rewrite g2 gg2.
rewrite -g3 //; move: j ne; apply: opposite_coords => //; rewrite -iE -e2; exact: cE.
Qed.

(** ** The classes of periodic points *)
Lemma global_in c p : c \in grid n d -> p \in grid m d -> global c p \in grid N.+1 d.
Proof.
move=> cg pg; rewrite mem_grid sglobal // eqxx; apply/(all_nthP 0%N) => j; rewrite sglobal // => jd.
rewrite (nth_global cg pg) // ltnS; have := nth_lt cg jd; have := nth_lt pg jd; move: (nth 0%N c j) (nth 0%N p j) n0 m2 => x y; clear; nia.
Qed.
Lemma cube_position g : g \in grid N.+1 d -> exists c p, [/\ c \in grid n d, p \in grid m d & global c p = g].
Proof.
move=> gg; have M0 : (0 < m.-1)%N by lia.
have cg : [seq minn (x %/ m.-1) n.-1 | x <- g] \in grid n d.
  by move: gg; rewrite !mem_grid size_map => /andP[-> _] /=; rewrite all_map; apply/allP => x _ /=; lia.
have pg : [seq (x - minn (x %/ m.-1) n.-1 * m.-1)%N | x <- g] \in grid m d.
  move: gg; rewrite !mem_grid size_map => /andP[-> /allP gl] /=; rewrite all_map; apply/allP => x /gl /= xl.
  by have := divn_eq x m.-1; have := ltn_pmod x M0; case: (leqP (x %/ m.-1) n.-1) => le; nia.
eexists _, _; split; [exact: cg|exact: pg|].
apply: (@eq_from_nth _ 0%N); first by rewrite sglobal // (size_grid_in gg).
move=> j; rewrite sglobal // => jl.
rewrite (nth_global cg pg) // !(nth_map 0%N) ?(size_grid_in gg) //.
have := leq_trunc_div (nth 0%N g j) m.-1; nia.
Qed.

Definition wrap g := [seq if (j \in pd) && (nth 0%N g j == N) then 0%N else nth 0%N g j | j <- iota 0 d].
Lemma nth_wrap g j : (j < d)%N -> nth 0%N (wrap g) j = if (j \in pd) && (nth 0%N g j == N) then 0%N else nth 0%N g j.
Proof. by move=> jd; rewrite (nth_map 0%N) ?size_iota // nth_iota. Qed.
Lemma wrap_opposite g g' : opposite g g' -> wrap g = wrap g'.
Proof.
move=> [ax [al ap g1 g2 g3]]; apply/eq_in_map => j; rewrite mem_iota add0n /= => jd.
have [->|/eqP ne] := eqVneq j ax; last by rewrite g3.
by rewrite ap g1 g2 eqxx /=; case: ifP.
Qed.

Lemma linked_wrap x y : linked (links_of pm') x y -> x = y \/
  exists c p c' p', [/\ c \in grid n d, p \in grid m d, c' \in grid n d & p' \in grid m d] /\
    [/\ x = slot c p, y = slot c' p' & wrap (global c p) = wrap (global c' p')].
Proof.
elim=> [{}x {}y /step_opposite[c [p [c' [p' [G [-> -> /wrap_opposite]]]]]]|{}x|{}x {}y _ IH|{}x {}y z _ IH1 _ IH2].
- by right; exists c, p, c', p'.
- by left.
- case: IH => [->|[c [p [c' [p' [[g1 g2 g3 g4] [-> -> e]]]]]]]; first by left.
  by right; exists c', p', c, p.
case: IH1 => [->|[c [p [c' [p' [[g1 g2 g3 g4] [-> yE e]]]]]]] //.
case: IH2 => [<-|[c1 [p1 [c1' [p1' [[h1 h2 h3 h4] [yE' -> e']]]]]]]; first by right; exists c, p, c', p'.
right; exists c, p, c1', p1'; split=> //; split=> //; rewrite e -e'; congr wrap; apply/sharing => //.
by rewrite -yE -yE'.
Qed.

Lemma linked_wrapped c p c' p' : c \in grid n d -> p \in grid m d -> c' \in grid n d -> p' \in grid m d ->
  global c' p' = wrap (global c p) -> linked (links_of pm') (slot c p) (slot c' p').
Proof.
move=> cg pg cg' pg'; set g := global c p.
pose gk k := [seq if [&& (j < k)%N, j \in pd & nth 0%N g j == N] then 0%N else nth 0%N g j | j <- iota 0 d].
have ngk k j : (j < d)%N -> nth 0%N (gk k) j = if [&& (j < k)%N, j \in pd & nth 0%N g j == N] then 0%N else nth 0%N g j.
  by move=> jd; rewrite (nth_map 0%N) ?size_iota // nth_iota.
have gin k : gk k \in grid N.+1 d.
  rewrite mem_grid size_map size_iota eqxx /= all_map; apply/allP => j; rewrite mem_iota add0n /= => jd.
  by case: ifP => // _; exact: (nth_lt (global_in cg pg) jd).
suff H k : (k <= d)%N -> forall c' p', c' \in grid n d -> p' \in grid m d -> global c' p' = gk k -> linked (links_of pm') (slot c p) (slot c' p').
  move=> e; apply: (H d) => //; rewrite e; apply/eq_in_map => j; rewrite mem_iota add0n /= => jd; by rewrite jd.
elim: k {c' p' cg' pg'} => [|k IH] kd c' p' cg' pg' e.
  suff -> : slot c' p' = slot c p by exact: rst_refl.
  apply/sharing => //; rewrite e; apply: (@eq_from_nth _ 0%N); rewrite size_map size_iota ?sglobal // => j jd.
  by rewrite ngk.
have [c1 [p1 [cg1 pg1 e1]]] := cube_position (gin k).
apply: (rst_trans _ _ _ _ _ (IH (ltnW kd) _ _ cg1 pg1 e1)).
case B : ((k \in pd) && (nth 0%N g k == N)); last first.
  suff -> : slot c' p' = slot c1 p1 by exact: rst_refl.
  apply/sharing => //; rewrite e e1; apply/eq_in_map => j; rewrite mem_iota add0n /= => jd.
  by have [->|ne] := eqVneq j k; rewrite ?ltnn ?B ?andbF //= ltnS leq_eqVlt (negbTE ne).
apply: rst_sym; apply: rst_step; apply: opposite_step => //; rewrite e e1; exists k; case/andP: B => B1 B2; split=> //.
- by rewrite ngk // B1 B2 ltnSn.
- by rewrite ngk // ltnn /= (eqP B2).
move=> j /eqP ne; case: (ltnP j d) => jd; last by rewrite !nth_default // size_map size_iota.
by rewrite !ngk // ltnS leq_eqVlt (negbTE ne).
Qed.

Lemma wrap_in g : g \in grid N.+1 d -> wrap g \in grid N.+1 d.
Proof.
move=> gg; rewrite mem_grid size_map size_iota eqxx /= all_map; apply/allP => j; rewrite mem_iota add0n /= => jd.
by case: ifP => // _; exact: (nth_lt gg jd).
Qed.

(** Two points of the refined grid get the same index exactly if they are the same
    point once the periodic sides are joined. *)
Theorem cube_refined_periodic c p c' p' : c \in grid n d -> p \in grid m d -> c' \in grid n d -> p' \in grid m d ->
  unique_index (pm_links pm') (slot c p) = unique_index (pm_links pm') (slot c' p') <-> wrap (global c p) = wrap (global c' p').
Proof.
move=> cg pg cg' pg'; rewrite !uid_links C14_same_index_iff_linked; split.
  case/linked_wrap=> [/sharing-> //|[c1 [p1 [c2 [p2 [[g1 g2 g3 g4] [/sharing e1 /sharing e2 e]]]]]]].
  by rewrite e1 // e2.
move=> e; have [c1 [p1 [cg1 pg1 e1]]] := cube_position (wrap_in (global_in cg pg)).
apply: (rst_trans _ _ _ _ _ (linked_wrapped cg pg cg1 pg1 e1)); apply: rst_sym.
by apply: linked_wrapped => //; rewrite e1.
Qed.
End Cube.
Print Assumptions cube_refined_boundary.
Print Assumptions cube_refined_periodic.
