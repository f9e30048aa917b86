(** The meshes that the Stokes discretisation is built on: refining a first-order
    premesh (mesh_refiner.py) and finalizing it (premesh.py) gives a [mesh_family]. *)
From mathcomp Require Import all_ssreflect all_algebra polyrcf zify ring.
From Verif Require Import PyDict_model PyDict_proofs Facet_model Facet_spec Facet_proofs GS_model FES_model Premesh_model.
From Verif Require Import Refiner_model Refiner_spec Refiner_proofs9 Refiner_props.
From Verif Require Import Interp_model Interp_spec Lagrange_proofs Interp_proofs Interp_proofs2 Tensor_proofs Nodes_sym.
From Verif Require Import Stokes_model Stokes_spec.
Set Implicit Arguments.
Unset Strict Implicit.
Unset Printing Implicit Defensive.
Import Order.TTheory GRing.Theory Num.Theory.
Local Open Scope ring_scope.

Section Refined.
Variables (R : rcfType) (d : nat) (L : eqType).
Notation V := [lmodType R of 'rV[R]_d].
Notation rmesh := (Premesh_model.mesh [zmodType of 'rV[R]_d] L).

(** Errors of the refiner as errors of the oracle of [Stokes_model]; [ierror] has
    no KeyError, which is reported as [IAssertion]. *)
Definition ierror_of (e : rerror) : ierror :=
  match e with RTypeError => ITypeError | RValueError => IValueError | RKeyError => IAssertion end.
Definition mat_entry (M : seq (seq R)) (i c : nat) : R := nth 0 (nth [::] M i) c.
(** [refine_premesh(premesh, gridpoints_1d).finalize()], navier_stokes.py l.119 and
    l.177, for a premesh of order 1 whose own gridpoints are [pg].  The
    interpolation matrix of mesh_refiner.py l.88-91 is that of
    [BarycentricInterpolator]; [finalize()] without an axis name raises for a
    partitioned premesh. *)
Definition refined_mesh (pg : nodes1d R) (pm : premesh V L) (g : nodes1d R) : ierror + rmesh :=
  match interpolation_matrix_1d pg g with
  | inl e => inl e
  | inr M =>
      match refine_premesh d (nd_num_points g) (is_continuous g) (mat_entry M) 1 pm with
      | inl e => inl (ierror_of e)
      | inr pm' => if finalize pm' false is inr [:: m] then inr m else inl IValueError
      end
  end.

(** The multilinear map of an element: the hat functions of the reference cube
    times the coordinates of the corners. *)
Definition hat (c : nat) : {poly R} := 2%:R^-1 *: (if c == 0%N then 1 - 'X else 1 + 'X).
Definition corner (pm : premesh V L) (e : nat) (a : nat) : 'rV[R]_d := at_ (pm_coords pm) (nth SENT (nth [::] (pm_elements pm) e) a).
Definition element_map (pm : premesh V L) (e : nat) (j : 'I_d) : tpoly R :=
  [seq (corner pm e (flat 2 c) 0 j, [seq hat x | x <- c]) | c <- grid 2 d].
End Refined.

Section Family.
Variables (R : rcfType) (d : nat) (L : eqType).
Notation V := [lmodType R of 'rV[R]_d].
Variables (pg : nodes1d R) (tp : node_type) (pm : premesh V L).
Hypotheses (hpg : nodes1d_create R 2 tp = inr pg) (cpg : is_continuous pg).
Notation els := (pm_elements pm).

Lemma end_values : nd_values pg = [:: -1; 1].
Proof.
have [_ _ sz _ _] := created_grid (ltn0Sn _) hpg; move: cpg; rewrite /is_continuous.
by case: (nd_values pg) sz => [|x [|y [|]]] //= _ /andP[/eqP-> /eqP->].
Qed.

Lemma end_matrix (g : nodes1d R) : (0 < size (nd_values g))%N -> exists2 M, interpolation_matrix_1d pg g = inr M &
  forall i c, (i < size (nd_values g))%N -> (c < 2)%N -> mat_entry M i c = (hat R c).[nth 0 (nd_values g) i].
Proof.
move=> g0; have [_ _ sz un [ws wE bar]] := created_grid (ltn0Sn _) hpg.
rewrite /interpolation_matrix_1d wE; rewrite interpolation_matrix_1d_ofE //; last by rewrite -size_eq0 -lt0n.
exists (lag_matrix (nd_values pg) (nd_values g)) => // i c il c2.
rewrite /mat_entry /lag_matrix (nth_map 0) // (nth_map 0%N) ?size_iota ?sz // nth_iota ?sz // add0n end_values.
move: (nth 0 _ i) => x.
have t0 : 2%:R != 0 :> R by rewrite pnatr_eq0.
have u2 : uniq [:: -1; 1 : R] by rewrite -end_values.
have -> // : lag [:: -1; 1 : R] c = hat R c.
apply: (poly_by_nodes u2).
- exact: size_lag.
- rewrite /hat (leq_trans (size_scale_leq _ _)) //; case: ifP => _; rewrite (leq_trans (size_add _ _)) // ?size_opp size_poly1 size_polyX //.
move=> k kl; rewrite lag_node //= /hat hornerZ.
case: c c2 => [|[|]] // _; case: k kl => [|[|]] // _ /=; rewrite !hornerE ?opprK ?subrr ?addNr ?mulr0 //.
all: by rewrite -mulr2n -[_ *+ 2]mulr_natr mul1r mulVf.
Qed.

Lemma hat_sum x : (hat R 0).[x] + (hat R 1).[x] = 1.
Proof.
have t0 : 2%:R != 0 :> R by rewrite pnatr_eq0.
rewrite /hat /= !hornerE -mulrDr (_ : _ + _ = 2%:R) ?mulVf //; by rewrite addrACA addNr addr0 -mulr2n.
Qed.
Lemma hat_weights (g : nodes1d R) n t M : (1 < n)%N -> nodes1d_create R n t = inr g -> is_continuous g ->
  interpolation_matrix_1d pg g = inr M -> weights_ok n (mat_entry M).
Proof.
move=> n1 hg cg hM; have n0 := ltnW n1; have [_ _ sz _ _] := created_grid n0 hg.
have [M' hM' ME] := end_matrix (ltac:(by rewrite sz) : (0 < size (nd_values g))%N); rewrite sz in ME.
move: hM'; rewrite hM => -[EM]; rewrite -{M'}EM in ME.
have lst : nth 0 (nd_values g) n.-1 = 1 by move: cg => /andP[_ /eqP <-]; rewrite -nth_last sz.
have fst : nth 0 (nd_values g) 0 = -1 by move: cg => /andP[/eqP].
have t0 : 2%:R != 0 :> R by rewrite pnatr_eq0.
have e1 : 2%:R^-1 * (1 + 1) = 1 :> R by rewrite -mulr2n -[_ *+ 2]mulr_natr mul1r mulVf.
have nl : (n.-1 < n)%N by rewrite prednK.
split; rewrite ?ME // ?fst ?lst /hat /= ?hornerE ?opprK ?subrr ?mulr0 //.
move=> x c xl c2; rewrite !ME //; [|by lia|by lia].
rewrite (created_symmetric n1 hg xl) /hat; case: c c2 => [|[|]] // _ /=; by rewrite !hornerE ?opprK.
Qed.

Lemma grid_pointE (g : nodes1d R) n p : size (nd_values g) = n -> p \in grid n d ->
  grid_point d g (flat n p) = [seq nth 0 (nd_values g) i | i <- p].
Proof.
move=> sz pg'; rewrite /grid_point.
have -> : nseq d (nd_values g) = [seq [seq nth 0 (nd_values g) i | i <- l] | l <- nseq d (iota 0 n)].
  by rewrite map_nseq -{1}sz map_nth_iota0 // take_size.
by rewrite cart_map -/(grid n d) nth_map_grid.
Qed.

Lemma element_mapE (g : nodes1d R) n (w : nat -> nat -> R) e p : size (nd_values g) = n ->
  (forall i c, (i < n)%N -> (c < 2)%N -> w i c = (hat R c).[nth 0 (nd_values g) i]) -> p \in grid n d ->
  multilinear w d (corner pm e) p = \row_j teval (element_map pm e j) (grid_point d g (flat n p)).
Proof.
move=> sz wE pg'; apply/rowP => j; rewrite mxE grid_pointE // /teval big_map /multilinear summxE.
rewrite big_seq [RHS]big_seq; apply: eq_bigr => c cg; rewrite !mxE mulrC; congr (_ * _).
move: pg' cg; rewrite !mem_grid => /andP[/eqP sp /allP pl] /andP[/eqP sc /allP cl].
rewrite (big_nth (0, 0)) size_zip !size_map sp sc minnn big_mkord; apply: eq_bigr => b _.
have bl : (b < d)%N := ltn_ord b.
rewrite nth_zip ?size_map ?sp ?sc // (nth_map 0%N) ?sc // (nth_map 0%N) ?sp //= wE //.
  by apply: pl; rewrite mem_nth ?sp.
by apply: cl; rewrite mem_nth ?sc.
Qed.

Lemma element_map_deg e j : tdeg d 2 (element_map pm e j).
Proof.
apply/allP => x /mapP[c cg ->] /=; move: cg; rewrite mem_grid => /andP[/eqP sc _].
rewrite size_map sc eqxx /=; apply/allP => q /mapP[y _ ->].
rewrite /hat (leq_trans (size_scale_leq _ _)) //; case: ifP => _; rewrite (leq_trans (size_add _ _)) // ?size_opp size_poly1 size_polyX //.
Qed.

(** ** One refined mesh *)
Hypothesis d0 : (0 < d)%N.
Hypothesis some : (0 < size els)%N.
Hypothesis ok : mesh_ok d (size (pm_coords pm)) els.
Hypothesis used : forall x, (x < size (pm_coords pm))%N -> exists2 e, e \in els & Posz x \in e.
Lemma grid_of n k : (k < n ^ d)%N -> exists2 p, p \in grid n d & k = flat n p.
Proof.
move=> kl; exists (nth [::] (grid n d) k); first by rewrite mem_nth // size_grid.
by rewrite -(nth_map [::] 0%N) ?size_grid // map_flat_grid nth_iota.
Qed.

Lemma final_facts (pm' : premesh V L) : let rm := finalize_serial pm' in
  [/\ all (fun gm => size gm.2 == size (m_coords rm)) (m_masks rm),
      size (m_node_indices rm) = size (m_coords rm),
      m_gi rm = Some (exchange_indices_serial (m_node_indices rm)).1,
      m_ui rm = Some (exchange_indices_serial (m_node_indices rm)).2 &
      forall gm k j, gm \in m_masks rm -> (k < size (m_coords rm))%N -> (j < size (m_coords rm))%N ->
        nth 0 (m_node_indices rm) k = nth 0 (m_node_indices rm) j -> nth false gm.2 k = nth false gm.2 j].
Proof.
move=> rm; have si : size (m_node_indices rm) = size (m_coords rm) by rewrite /rm /= size_map size_iota.
split=> //.
  by apply/allP => gm /mapP[x _ ->] /=; rewrite size_map; apply/eqP.
move=> gm k j /mapP[x _ ->] kl jl /= e.
by rewrite /mask_of !(nth_map 0) ?si // e.
Qed.

Lemma refined_meshE g rm : refined_mesh pg pm g = inr rm ->
  exists M pm', [/\ interpolation_matrix_1d pg g = inr M,
    refine_premesh d (nd_num_points g) (is_continuous g) (mat_entry M) 1 pm = inr pm' & rm = finalize_serial pm'].
Proof.
rewrite /refined_mesh; case: (interpolation_matrix_1d _ _) => // M.
case E : (refine_premesh _ _ _ _ _ _) => [|pm'] //; rewrite /finalize.
case: (pm_parts pm') => // -[<-]; by exists M, pm'.
Qed.

Lemma at_Posz (W : zmodType) (u : seq W) x : at_ u (Posz x) = nth 0 u x. Proof. by []. Qed.

Lemma nth_int (s : seq int) k z : (k < size s)%N -> nth SENT s k = z -> nth 0 s k = z.
Proof. by move=> kl <-; apply: set_nth_default. Qed.

Theorem refined_mesh_on n t g rm : (0 < n)%N -> nodes1d_create R n t = inr g -> refined_mesh pg pm g = inr rm ->
  (n <= 3)%N \/ exchanging d els \/ ~~ is_continuous g -> mesh_on (size els) (element_map pm) n g rm.
Proof.
move=> n0 hg /refined_meshE[M [pm' [hM run ->]]] ex.
have [np _ sz _ _] := created_grid n0 hg; rewrite np in run.
have [M' hM' ME] := end_matrix (ltac:(by rewrite sz) : (0 < size (nd_values g))%N); rewrite sz in ME.
move: hM'; rewrite hM => -[EM]; rewrite -{M'}EM in ME.
have [f1 f2 f3 f4 f5] := final_facts pm'.
case cg : (is_continuous g) in run ex.
- have n1 : (1 < n)%N.
    case: n n0 sz {hg np run ex ME} => [|[|]] // _; move: cg; rewrite /is_continuous.
    by case: (nd_values g) => [|x [|]] //= /andP[/eqP-> /eqP/esym]; move/eqP; rewrite -subr_eq0 opprK -mulr2n pnatr_eq0.
  have wok := hat_weights n1 hg cg hM.
  have [[h1 h2 h3 h4] [h5 h6 h7]] := C23_structure n1 ok run.
  have ex' : (n <= 3)%N \/ exchanging d els by case: ex => [|[|]] //; [left|right].
  have xc := C24_coordinates n1 ok run wok ex'.
  split=> //.
  + apply/allP => el /(nthP [::])[j jl <-]; rewrite h2 //; by rewrite -h1.
  + move=> e k el kl; have [p pin ->] := grid_of kl; have [x xl xE] := h5 e p el pin.
    exists x; first by [].
    split; first by apply: nth_int; rewrite ?h2 ?flat_lt.
    rewrite -at_Posz -xE xc // -(element_mapE _ sz ME pin) //.
  + by move=> x xl; have [e e1 e2] := h7 used x xl; apply/flattenP; exists e.
  + by rewrite cg.
have ni : ~ (n = 1%N /\ (3 <= d)%N).
  by case=> n1 d3; move: run; rewrite n1 C23_single_gridpoint_rejected.
have [pm2 run2 [h1 h2 h3 h4 [h5 h6]]] := C23_discontinuous (mat_entry M) pm ni.
move: run2; rewrite run => -[E]; rewrite -{pm2}E in h1 h2 h3 h4 h5 h6.
have rows j : (j < size els)%N -> size (nth [::] (pm_elements pm') j) = (n ^ d)%N.
  have ie : init_error d n = false by apply/negbTE; apply/negP => /andP[/eqP a b]; apply: ni.
  move: run; rewrite (refine_disc _ _ ie) => -[<-] jl /=.
  by rewrite (nth_map 0%N) ?size_iota // size_map size_iota.
split=> //.
- apply/allP => el /(nthP [::])[j jl <-]; rewrite rows //; by rewrite -h2.
- move=> e k el kl; have [p pin ->] := grid_of kl; have xE := h3 e p el pin.
  exists (e * n ^ d + flat n p)%N.
    rewrite /= h1 (leq_trans (n := (e * n ^ d + n ^ d))) //; first by rewrite ltn_add2l flat_lt.
    by rewrite -mulSnr leq_mul2r el orbT.
  split; first by apply: nth_int; rewrite ?rows ?flat_lt.
  rewrite -at_Posz -xE h4 // -(element_mapE _ sz ME pin) //.
- move=> x; rewrite /= h1 => xl.
  have nd : (0 < n ^ d)%N by rewrite expn_gt0 n0.
  have jl : (x %/ n ^ d < size els)%N by rewrite ltn_divLR.
  have [p pin pE] := grid_of (ltn_pmod x nd).
  apply/flattenP; exists (nth [::] (pm_elements pm') (x %/ n ^ d)); first by rewrite mem_nth // h2.
  have := h3 _ p jl pin; rewrite -pE -divn_eq => <-; rewrite mem_nth // rows //; exact: ltn_pmod.
- by move=> _; rewrite /= h6 /= map_inj_uniq ?iota_uniq // => x y [].
Qed.

Theorem refined_family : exchanging d els -> mesh_family (refined_mesh pg pm) (size els) (element_map pm).
Proof.
move=> ex; split=> //; first by move=> e j _; apply: element_map_deg.
move=> n t g rm n0 hg hr; by apply: (refined_mesh_on n0 hg hr); right; left.
Qed.
End Family.
