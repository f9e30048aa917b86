(** The velocity nodes of a Stokes discretisation of a cube: which are copies of one
    another and which carry a Dirichlet condition. *)
From Coq Require List.
From mathcomp Require Import all_ssreflect all_algebra polyrcf zify ring.
From Verif Require Import PyDict_model PyDict_proofs Facet_model Facet_spec Facet_proofs GS_model GS_proofs GS_props Interp_model Interp_spec Lagrange_proofs.
From Verif Require Import Legendre_proofs Gauss_proofs2 Interp_proofs2 Tensor_proofs Interp_props FES_model FES_proofs FES_proofs2 FES_props FES_props2 Premesh_model.
From Verif Require Import Refiner_model Refiner_spec UnitCube_model UnitCube_spec UnitCube_proofs UnitCube_proofs2 UnitCube_proofs3 UnitCube_props UnitCube_refine UnitCube_links.
From Verif Require Import CG_model CG_proofs CG_props TimeCoef_model Stokes_model Stokes_spec Stokes_proofs Stokes_proofs2 Stokes_proofs3.
From Verif Require Import Stokes_create Stokes_create2 Stokes_create3 Stokes_proofs4 Stokes_create4 Stokes_momentum Stokes_props Stokes_family Stokes_instance Stokes_props3 Stokes_props4.
From Verif Require Import Tensor_nodal Unisolvent_proofs Tensor_parts.
Set Implicit Arguments.
Unset Strict Implicit.
Unset Printing Implicit Defensive.
Import Order.TTheory GRing.Theory Num.Theory.
Local Open Scope ring_scope.

(** Positions [x * l + y] on an axis of cells with [l] intervals each. *)
Lemma pos_same l x x' y y' : (y <= l)%N -> (y' <= l)%N -> (x * l + y = x' * l + y')%N ->
  (x = x' /\ y = y') \/ ((y = 0 \/ y = l) /\ (y' = 0 \/ y' = l))%N.
Proof.
move=> yl yl' e; case: (ltngtP x x') => h.
- have := leq_mul h (leqnn l); rewrite mulSn; lia.
- have := leq_mul h (leqnn l); rewrite mulSn; lia.
by left; split=> //; move: e; rewrite h => /addnI.
Qed.
Lemma pos_last l k x y : (x < k)%N -> (y <= l)%N -> (x * l + y = k * l)%N -> y = l.
Proof. move=> xk yl e; have := leq_mul xk (leqnn l); rewrite mulSn; lia. Qed.
Lemma pos_wrap l k B x x' y y' : (x < k)%N -> (x' < k)%N -> (y <= l)%N -> (y' <= l)%N ->
  (if B && (x * l + y == k * l)%N then 0%N else (x * l + y)%N) = (if B && (x' * l + y' == k * l)%N then 0%N else (x' * l + y')%N) ->
  (x = x' /\ y = y') \/ ((y = 0 \/ y = l) /\ (y' = 0 \/ y' = l))%N.
Proof.
move=> xk xk' yl yl'; case: B => /=; last exact: pos_same.
case: eqP => [/(pos_last xk yl)->|_]; case: eqP => [/(pos_last xk' yl')->|_].
- by right; split; right.
- by move=> /esym/eqP; rewrite addn_eq0 => /andP[_ /eqP->]; right; split; [right|left].
- by move=> /eqP; rewrite addn_eq0 => /andP[_ /eqP->]; right; split; [left|right].
exact: pos_same.
Qed.

(** Entries of gradients. *)
Lemma nth_rows (R : ringType) (f : nat -> nat -> R) k r0 r j c : (j < r)%N -> (c < k)%N ->
  nth 0 (flatten [seq [seq f j c | c <- iota 0 k] | j <- iota r0 r]) (j * k + c) = f (r0 + j)%N c.
Proof.
elim: r r0 j => [|r IH] r0 [|j] //= jr ck; rewrite nth_cat size_map size_iota.
  by rewrite mul0n add0n ck (nth_map 0%N) ?size_iota // nth_iota // addn0.
rewrite mulSn -addnA ltnNge leq_addr /= addKn IH //; by rewrite addSnnS.
Qed.
Lemma vgrad_nodal (R : rcfType) d (eps : R) (fs : fespace R d) (a : larray R) e q j c : (j < d)%N -> (c < d)%N ->
  vgrad d (evaluate_nodal eps fs (KVector) a e q) j c = nth 0 (phys_grad fs e (comp a e c) q) j.
Proof.
move=> jd cd; rewrite /vgrad /evaluate_nodal nth_cat size_map size_iota /= ltnNge leq_addr /= addKn.
exact: (@nth_rows R (fun j c => nth 0 (phys_grad fs e (comp a e c) q) j)).
Qed.

Section Cube.
Variables (R : rcfType) (d : nat) (eps : R) (inv : 'M[R]_d -> 'M[R]_d) (L : eqType) (BCV : Type).
Notation V := [lmodType R of 'rV[R]_d].
Variables (lbl : L) (n : nat) (a b : R) (pd : seq nat) (pm : premesh V L).
Hypotheses (d0 : (0 < d)%N) (n0 : (0 < n)%N) (ab : a < b).
Hypothesis gen : unit_cube_mesh d lbl n a b pd None = inr pm.
Variables (pg : nodes1d R) (tp : node_type).
Hypotheses (hpg : nodes1d_create R 2 tp = inr pg) (cpg : is_continuous pg).
Variables (order overint : nat) (bcs : seq (L * (bctype * BCV))) (s : sem R d).
Hypothesis hs : sem_create eps inv (refined_mesh pg pm) 1 order bcs overint = inr s.
Notation m := order.+1.
Notation N := (n * m.-1)%N.
Notation global := (global m).
Notation wrap := (wrap d n pd m).
Notation vel := (s_velocity s).
Let fam := (C61_family d0 n0 ab gen hpg cpg).1.

(** Node [p] of cell [c]. *)
Definition nd c p : nat := node_of (vm s) (flat n c) (flat m p).
(** Is the point [g] of the grid on a side of the cube that is not periodic? *)
Definition on_wall (g : seq nat) : Prop := exists axis, [/\ (axis < d)%N, axis \notin pd & nth 0%N g axis = 0%N \/ nth 0%N g axis = N].
(** The boundary has a Dirichlet condition. *)
Definition walls_fixed : Prop := exists v, List.In (lbl, (DIRICHLET, v)) bcs.

Lemma cube_made : exists gp gv rp rv quad M pm',
  [/\ created_facts eps inv (n ^ d)%N (element_map pm) order bcs s gp gv rp rv quad,
      interpolation_matrix_1d pg gv = inr M,
      refine_premesh d m true (mat_entry M) 1 pm = inr pm' & rv = finalize_serial pm'].
Proof.
have [gp [gv [rp [rv [quad [og [oq [[_ o1 h1 h2] [[h3 h4 h5 h6 h7] [[h8 h9 _ _ _] [h10 h11 [h12 h13] [h14 h15] h16]]]]]]]]]]] := sem_createE hs.
have [M [pm' [hM run rvE]]] := refined_meshE h4.
have [np _ _ _ _] := created_grid (ltn0Sn _) h2; rewrite np (gll_continuous h2) in run.
exists gp, gv, rp, rv, quad, M, pm'; split=> //.
by split=> //; [apply: (mf_mesh fam _ h1)|apply: (mf_mesh fam _ h2)]; rewrite ?subn_gt0.
Qed.

Section Made.
Variables (gp gv : nodes1d R) (rp rv : Premesh_model.mesh [zmodType of 'rV[R]_d] L) (quad : quadrature1d R) (M : seq (seq R)) (pm' : premesh V L).
Hypothesis cf : created_facts eps inv (n ^ d)%N (element_map pm) order bcs s gp gv rp rv quad.
Hypothesis hM : interpolation_matrix_1d pg gv = inr M.
Hypothesis run : refine_premesh d m true (mat_entry M) 1 pm = inr pm'.
Hypothesis rvE : rv = finalize_serial pm'.
Notation slot c p := (nth SENT (nth [::] (pm_elements pm') (flat n c)) (flat m p)).
Notation ids := (m_node_indices rv).

Let m2 : (2 <= m)%N. Proof. by have := cf_order cf; lia. Qed.
Lemma gv_sorted : [/\ sorted <%R (nd_values gv), size (nd_values gv) = m & is_continuous gv].
Proof. by move: (cf_gv cf) (cf_order cf); case: (order) => // k h _; have [] := C33_lobatto_nodes h. Qed.
Let wok : weights_ok m (mat_entry M) := hat_weights hpg cpg m2 (cf_gv cf) (gll_continuous (cf_gv cf)) hM.
Let entE i c : (i < m)%N -> (c < 2)%N -> mat_entry M i c = (hat R c).[nth 0 (nd_values gv) i].
Proof.
have [_ sz _] := gv_sorted; have [M' hM' ME] := end_matrix hpg cpg (ltac:(by rewrite sz) : (0 < size (nd_values gv))%N).
by move: hM'; rewrite hM => -[->] il; apply: ME; rewrite sz.
Qed.
Let w1 i : (i < m)%N -> mat_entry M i 0%N + mat_entry M i 1%N = 1.
Proof. by move=> il; rewrite !entE // hat_sum. Qed.
Let winc i j : (i < j)%N -> (j < m)%N -> mat_entry M i 1%N < mat_entry M j 1%N.
Proof.
move=> ij jm; have [srt sz _] := gv_sorted.
rewrite !entE ?(ltn_trans ij) // /hat /= !hornerE ltr_pmul2l ?invr_gt0 ?ltr0n // ltr_add2l.
by apply: (sorted_ltn_nth lt_trans) => //; rewrite inE sz ?(ltn_trans ij).
Qed.
Let abn : a != b. Proof. by rewrite lt_eqF. Qed.
Let share := cube_refined_sharing n0 d0 gen m2 wok w1 winc abn run.
Let period := cube_refined_periodic n0 d0 gen m2 wok w1 winc abn run.
Let bound := cube_refined_boundary n0 d0 gen m2 wok w1 winc abn run.
Let steps := linked_wrap n0 d0 gen m2 wok w1 winc abn run.

Lemma slotE c p : c \in grid n d -> p \in grid m d -> slot c p = Posz (nd c p) /\ (nd c p < nv s)%N.
Proof.
move=> cg pg'; have el : (flat n c < n ^ d)%N := flat_lt cg; have kl : (flat m p < m ^ d)%N := flat_lt pg'.
have [x xl [e1 _]] := fe_index (ltn0Sn _) (cf_gv cf) (cf_rv cf) (cf_vm cf) el kl.
have se := fe_rows (ltn0Sn _) (cf_gv cf) (cf_rv cf) (cf_vm cf) el.
have [_ eE _ _] := feE (ltn0Sn _) (cf_gv cf) (cf_vm cf).
have mE : FES_model.m_elements (vm s) = pm_elements pm' by rewrite eE rvE.
by rewrite /nd /node_of (set_nth_default 0) -mE ?se // e1.
Qed.
Lemma nd_lt c p : c \in grid n d -> p \in grid m d -> (nd c p < nv s)%N.
Proof. by move=> cg pg'; case: (slotE cg pg'). Qed.
Lemma nd_exists i : (i < nv s)%N -> exists c p, [/\ c \in grid n d, p \in grid m d & i = nd c p].
Proof.
move=> il; have /flattenP[el /(nthP [::])[e he <-] /(nthP 0)[k hk ek]] := v_used cf il.
have eK : num_elements (vm s) = (n ^ d)%N := fe_num (ltn0Sn _) (cf_gv cf) (cf_rv cf) (cf_vm cf).
rewrite [size _]eK in he; rewrite (fe_rows (ltn0Sn _) (cf_gv cf) (cf_rv cf) (cf_vm cf) he) in hk.
have [c cg eE] := grid_of he; have [p pg' kE] := grid_of hk; exists c, p; split=> //.
by rewrite /nd /node_of -eE -kE ek.
Qed.
Lemma nd_eq c p c' p' : c \in grid n d -> c' \in grid n d -> p \in grid m d -> p' \in grid m d ->
  nd c p = nd c' p' <-> global c p = global c' p'.
Proof.
move=> cg cg' pg1 pg2; rewrite -(share cg cg' pg1 pg2) (slotE cg pg1).1 (slotE cg' pg2).1; by split=> [->|[]].
Qed.

Lemma ids_nd c p : c \in grid n d -> p \in grid m d -> nth 0 ids (nd c p) = unique_index (pm_links pm') (slot c p).
Proof.
move=> cg pg'; have [e il] := slotE cg pg'; rewrite e rvE /= (nth_map 0%N) ?size_iota ?nth_iota //.
  by have [eC _ _ _] := feE (ltn0Sn _) (cf_gv cf) (cf_vm cf); move: il; rewrite /nv /nn eC rvE.
by have [eC _ _ _] := feE (ltn0Sn _) (cf_gv cf) (cf_vm cf); move: il; rewrite /nv /nn eC rvE.
Qed.
Lemma uid_slot c p : c \in grid n d -> p \in grid m d -> exists c' p', [/\ c' \in grid n d, p' \in grid m d,
  unique_index (pm_links pm') (slot c p) = slot c' p' & wrap (global c p) = wrap (global c' p')].
Proof.
move=> cg pg'; rewrite uid_links; have [lk _] := C14_smallest_of_class (links_of pm') (slot c p).
case: (steps lk) => [<-|[c1 [p1 [c2 [p2 [[g1 g2 g3 g4] [e1 -> e]]]]]]]; first by exists c, p.
exists c2, p2; split=> //; rewrite -e; congr UnitCube_links.wrap; exact/(share cg g1 pg' g2).
Qed.
Lemma shared_nd c p c' p' : c \in grid n d -> p \in grid m d -> c' \in grid n d -> p' \in grid m d ->
  shared ids (nd c p) (nd c' p') <-> wrap (global c p) = wrap (global c' p').
Proof.
move=> cg pg1 cg' pg2; rewrite -(period cg pg1 cg' pg2) /shared !ids_nd //.
have [c1 [p1 [cg1 pg3 -> _]]] := uid_slot cg pg1; have [-> _] := slotE cg1 pg3.
by rewrite /=; split=> [/eqP->|<-] //; rewrite eqxx.
Qed.

Lemma wall_wrap g g' : wrap g = wrap g' -> on_wall g -> on_wall g'.
Proof.
move=> e [ax [al ap h]]; exists ax; split=> //; have := congr1 (fun w => nth 0%N w ax) e.
by rewrite !nth_wrap // (negbTE ap) /= => <-.
Qed.
Lemma dirichlet_nd c p : c \in grid n d -> p \in grid m d -> dirichlet_node s (nd c p) <-> walls_fixed /\ on_wall (global c p).
Proof.
move=> cg pg'; have il := nd_lt cg pg'; rewrite /dirichlet_node (mask_entry cf il).
have [gE _ mem] := bound; set bnd := (if pm_groups pm' is (_, fs) :: _ then fs else [::]) in gE mem.
have W : unique_index (pm_links pm') (slot c p) \in flatten bnd <-> on_wall (global c p).
  have [c1 [p1 [cg1 pg1 -> e]]] := uid_slot cg pg'.
  by rewrite mem //; split=> h; apply: wall_wrap h.
have mk x : (x < nv s)%N -> nth false (mask_of bnd ids) x = (nth 0 ids x \in flatten bnd).
  move=> xl; rewrite /mask_of (nth_map 0) // (mo_indices (cf_rv cf)).
  by have [eC _ _ _] := feE (ltn0Sn _) (cf_gv cf) (cf_vm cf); rewrite -eC.
have masks : m_masks rv = if pm_groups pm' is [::] then [::] else [:: (lbl, mask_of bnd ids)].
  by rewrite rvE /=; case: gE => ->.
pose isD t := if t is DIRICHLET then true else false.
have hitE (gb : L * (bctype * BCV)) : hit (m_masks rv) (nd c p) gb = [&& gb.1 == lbl, isD gb.2.1 & nth 0 ids (nd c p) \in flatten bnd].
  case: gb => g [t v]; rewrite /hit masks /=; case: gE; rewrite /bnd => -> /=.
    by case: t; rewrite ?nth_nil !andbF.
  by rewrite [lbl == g]eq_sym; case: (g == lbl); case: t => //=; rewrite ?nth_nil // mk.
rewrite ids_nd // in hitE *.
have -> : has (hit (m_masks rv) (nd c p)) bcs = has (fun gb => (gb.1 == lbl) && isD gb.2.1) bcs && (unique_index (pm_links pm') (slot c p) \in flatten bnd).
  rewrite (eq_has hitE); elim: (bcs) => [|x l IH] //=; rewrite IH andbA; by case: (_ \in _); rewrite ?andbT ?andbF.
split.
  move/eqP; rewrite pnatr_eq0 eqb0 negbK => /andP[/(hasP')[[g [t v]] hin /= /andP[/eqP eg et]] /W hw]; split=> //.
  by exists v; rewrite -eg; case: t et hin.
move=> [[v hin] /W ->]; rewrite andbT.
have -> // : has (fun gb : L * (bctype * BCV) => (gb.1 == lbl) && isD gb.2.1) bcs.
by apply/hasP'; exists (lbl, (DIRICHLET, v)) => //=; rewrite eqxx.
Qed.

(** Conforming velocities in terms of the points of the grid. *)
Lemma cube_conforming u : conforming s u <-> [/\ vgood s u,
  (forall k c p, (k < d)%N -> c \in grid n d -> p \in grid m d -> walls_fixed -> on_wall (global c p) -> ent u k (nd c p) = 0) &
  forall k c p c' p', (k < d)%N -> c \in grid n d -> p \in grid m d -> c' \in grid n d -> p' \in grid m d ->
    wrap (global c p) = wrap (global c' p') -> ent u k (nd c p) = ent u k (nd c' p')].
Proof.
have he := vel_exchanges cf; rewrite (conformingP he); split=> [[gu vu au]|[gu vu au]]; split=> //.
- move=> k c p kd cg pg' wf hw; apply: vu => //; first exact: nd_lt.
  exact/(dirichlet_nd cg pg').
- move=> k c p c' p' kd cg pg1 cg' pg2 e; have [si _] := he; apply: (au k kd); rewrite ?si; [exact: nd_lt|exact: nd_lt|].
  exact/shared_nd.
- move=> k i kd il m0; have [c [p [cg pg' e]]] := nd_exists il; move: m0; rewrite e => m0.
  by have [wf hw] := (dirichlet_nd cg pg').1 m0; apply: vu.
move=> k kd i j; have [-> _] := he => il jl sh.
have [c [p [cg pg1 e]]] := nd_exists il; have [c' [p' [cg' pg2 e']]] := nd_exists jl.
rewrite e e' in sh *; apply: au => //; exact/(shared_nd cg pg1 cg' pg2).
Qed.

(** ** The filter *)
Section Filter.
Variable low : nodes1d R.
Hypothesis hl : nodes1d_create R order GAUSS_LOBATTO_LEGENDRE = inr low.
Notation xv := (nd_values gv).
Notation xl := (nd_values low).
Let o0 : (0 < order)%N := ltnW (cf_order cf).
Let szl : size xl = order. Proof. by have [] := created_grid o0 hl. Qed.
Let szv : size xv = m. Proof. by have [] := gv_sorted. Qed.
Let uv : uniq xv. Proof. by have [] := created_grid (ltn0Sn _) (cf_gv cf). Qed.
Let ul : uniq xl. Proof. by have [] := created_grid o0 hl. Qed.

(** Interpolation to the coarser grid and back, on one axis. *)
Definition smooth1 (i k : nat) : R := \sum_(r <- iota 0 order) (lag xl r).[nth 0 xv i] * (lag xv k).[nth 0 xl r].
Lemma ends : [/\ nth 0 xl 0 = nth 0 xv 0 & nth 0 xl order.-1 = nth 0 xv order].
Proof.
have := gll_continuous hl; have := gll_continuous (cf_gv cf); rewrite /is_continuous -!nth_last szl szv /=.
by move=> /andP[/eqP-> /eqP->] /andP[/eqP-> /eqP->].
Qed.
Lemma smooth1_end i : i = 0%N \/ i = order -> unit_row m smooth1 i.
Proof.
move=> hi; pose j := if i == 0%N then 0%N else order.-1.
have jo : (j < order)%N by rewrite /j; case: ifP => _; move: o0; clear; lia.
have il : (i < m)%N by case: hi => ->.
have e : nth 0 xl j = nth 0 xv i.
  have [e1 e2] := ends; rewrite /j; case: hi => ->; first by rewrite eqxx.
  by rewrite (gtn_eqF o0).
split=> // k km; rewrite /smooth1 -e.
rewrite (eq_big_seq (fun r => (r == j)%:R * (lag xv k).[nth 0 xl r])); last first.
  by move=> r; rewrite mem_iota add0n => /= ro; rewrite lag_node ?szl // eq_sym.
by rewrite sum_unit // e lag_node ?szv // eq_sym.
Qed.

Lemma gather_nd (v : seq R) c p : c \in grid n d -> p \in grid m d -> gather_comp (vm s) v (flat n c) (flat m p) = nth 0 v (nd c p).
Proof.
move=> cg pg'; have el : (flat n c < n ^ d)%N := flat_lt cg; have kl : (flat m p < m ^ d)%N := flat_lt pg'.
have [x xl [e1 _]] := fe_index (ltn0Sn _) (cf_gv cf) (cf_rv cf) (cf_vm cf) el kl.
rewrite /gather_comp /gather (nth_map 0) ?(fe_rows (ltn0Sn _) (cf_gv cf) (cf_rv cf) (cf_vm cf)) //.
by rewrite /nd /node_of e1.
Qed.
Lemma map_grid (T : Type) k (f : nat -> T) : [seq f x | x <- iota 0 (k ^ d)] = [seq f (flat k q) | q <- grid k d].
Proof. by rewrite -map_flat_grid -map_comp. Qed.

Lemma filter_nd (v : seq R) c p : c \in grid n d -> p \in grid m d ->
  filter_local eps (vm s) low v (flat n c) (flat m p) = tsum m d (fun _ => smooth1) p (fun q => nth 0 v (nd c q)).
Proof.
move=> cg pg'; have [_ _ per gE] := feE (ltn0Sn _) (cf_gv cf) (cf_vm cf).
rewrite /filter_local per gE map_grid.
have -> : [seq gather_comp (vm s) v (flat n c) (flat m q) | q <- grid m d] = [seq nth 0 v (nd c q) | q <- grid m d].
  by apply/eq_in_map => q qg; rewrite gather_nd.
set x := [seq _ | q <- _]; have sx : size x = (m ^ d)%N by rewrite size_map size_grid.
have [M1 [M2 [h1 h2 ->]]] := filter_oneE fam cf hl sx; rewrite [getr _]/=.
have l0 : xl != [::] by rewrite -size_eq0 szl -lt0n.
have v0 : xv != [::] by rewrite -size_eq0 szv.
have e1 : matvec M1 x = [seq tsum m d (fun _ i k => (lag xv k).[nth 0 xl i]) r (fun q => nth 0 v (nd c q)) | r <- grid order d].
  have [M1' h1' [s1 _]] := C35_tensor_exact (ltn0Sn _) d0 (cf_gv cf) l0; move: h1'; rewrite h1 => -[E1].
  apply: (@eq_from_nth _ 0); first by rewrite !size_map E1 s1 szl size_grid.
  move=> i; rewrite size_map E1 s1 szl => io; have [r rg ->] := grid_of io; rewrite -E1.
  have := interpolation_entry (fun q => nth 0 v (nd c q)) (ltn0Sn _) d0 (cf_gv cf) l0 h1 (p := r).
  by rewrite szl nth_map_grid // => -> //.
rewrite e1.
have := interpolation_entry (fun r => tsum m d (fun _ i k => (lag xv k).[nth 0 xl i]) r (fun q => nth 0 v (nd c q))) o0 d0 hl v0 h2 (p := p).
by rewrite szv => -> //; rewrite tsum_comp // (size_grid_in pg').
Qed.

(** If the local results agree, the filter returns them. *)
Lemma smoothed_nd (v : seq R) c p : c \in grid n d -> p \in grid m d ->
  (forall c' p', c' \in grid n d -> p' \in grid m d -> global c p = global c' p' ->
     tsum m d (fun _ => smooth1) p (fun q => nth 0 v (nd c q)) = tsum m d (fun _ => smooth1) p' (fun q => nth 0 v (nd c' q))) ->
  nth 0 (smoothed eps s low v) (nd c p) = tsum m d (fun _ => smooth1) p (fun q => nth 0 v (nd c q)).
Proof.
move=> cg pg' H; have il := nd_lt cg pg'; set t := tsum _ _ _ _ _ in H *.
rewrite (nth_smoothed cf) //; have q0 := qqt_gt0 cf il; have pv := ok_v (facts_ok cf).
have eK : num_elements (vm s) = (n ^ d)%N := fe_num (ltn0Sn _) (cf_gv cf) (cf_rv cf) (cf_vm cf).
have [_ _ per _] := feE (ltn0Sn _) (cf_gv cf) (cf_vm cf).
suff -> : nth 0 (scatter_comp (vm s) (filter_local eps (vm s) low v)) (nd c p) = nth 0 (v_qqt vel) (nd c p) * t.
  by rewrite mulKf // gt_eqF.
rewrite (cf_qqt cf) !scatter_sum // mulr_suml; apply: eq_bigr => e _; rewrite mulr_suml; apply: eq_bigr => k _.
rewrite mul1r mulrC; have [c' cg' ->] : exists2 c', c' \in grid n d & val e = flat n c' by apply: grid_of; rewrite -eK; exact: ltn_ord.
have [p' pg2 ->] : exists2 p', p' \in grid m d & val k = flat m p' by apply: grid_of; rewrite -per; exact: ltn_ord.
rewrite /is_node filter_nd //; case: eqP => [ek|]; last by rewrite !mul0r.
congr (_ * _); symmetry; apply: H => //; apply/nd_eq => //; by rewrite /nd /node_of ek.
Qed.

(** Copies of a node get the same local result. *)
Lemma smooth_copies k u c p c' p' : conforming s u -> (k < d)%N -> c \in grid n d -> p \in grid m d -> c' \in grid n d -> p' \in grid m d ->
  wrap (global c p) = wrap (global c' p') ->
  tsum m d (fun _ => smooth1) p (fun q => ent u k (nd c q)) = tsum m d (fun _ => smooth1) p' (fun q => ent u k (nd c' q)).
Proof.
move=> /cube_conforming[gu vu au] kd cg pg1 cg' pg2 e.
apply: (@tsum_rel _ m d _ (fun j => (nth 0%N c j == nth 0%N c' j) && (nth 0%N p j == nth 0%N p' j))).
- exact: size_grid_in pg1.
- exact: size_grid_in pg2.
- move=> j jd; case: ifP => [/andP[_ /eqP]//|ne].
  have := congr1 (fun w => nth 0%N w j) e; rewrite !nth_wrap //.
  rewrite !(@nth_global d n m) // => we.
  have := pos_wrap (nth_lt cg jd) (nth_lt cg' jd) (ltnSE (nth_lt pg1 jd)) (ltnSE (nth_lt pg2 jd)) we.
  case=> [[e1 e2]|[h1 h2]]; first by rewrite e1 e2 !eqxx in ne.
  by split; apply: smooth1_end.
move=> q q' qg qg' H; apply: au => //; apply/eq_in_map => j; rewrite mem_iota add0n /= => jd.
have := congr1 (fun w => nth 0%N w j) e; have := H j jd; rewrite !nth_wrap // !(@nth_global d n m) //.
by case: ifP => [/andP[/eqP-> _] ->|_ [-> ->]].
Qed.

(** Nodes on the walls get zero. *)
Lemma smooth_walls k u c p : conforming s u -> (k < d)%N -> c \in grid n d -> p \in grid m d -> walls_fixed -> on_wall (global c p) ->
  tsum m d (fun _ => smooth1) p (fun q => ent u k (nd c q)) = 0.
Proof.
move=> /cube_conforming[gu vu au] kd cg pg1 wf [ax [al ap hw]]; apply: (tsum_zero al).
  apply: smooth1_end; move: hw; rewrite (@nth_global d n m) // => -[/eqP|/(pos_last (nth_lt cg al) (ltnSE (nth_lt pg1 al)))]; last by right.
  by rewrite addn_eq0 => /andP[_ /eqP]; left.
move=> q qg e; apply: vu => //; exists ax; split=> //.
by move: hw; rewrite !(@nth_global d n m) // e.
Qed.

Theorem filter_conforming alpha u u2 : conforming s u -> filter eps s alpha u = inr u2 -> conforming s u2.
Proof.
move=> cu fE; have [gu vu au] := (cube_conforming u).1 cu.
have S k c p : (k < d)%N -> c \in grid n d -> p \in grid m d ->
    ent u2 k (nd c p) = (1 - alpha) * ent u k (nd c p) + alpha * tsum m d (fun _ => smooth1) p (fun q => ent u k (nd c q)).
  move=> kd cg pg'; rewrite (ent_filter fam cf _ gu hl fE kd) smoothed_nd // => c' p' cg' pg2 e.
  by apply: smooth_copies => //; rewrite e.
apply/cube_conforming; split; first exact: (good_filter fam cf gu fE).
  by move=> k c p kd cg pg' wf hw; rewrite S // vu // (smooth_walls cu) // !mulr0 addr0.
by move=> k c p c' p' kd cg pg1 cg' pg2 e; rewrite !S // (au k c p c' p') // (smooth_copies cu kd cg pg1 cg' pg2 e).
Qed.
End Filter.

(** ** The flux *)
Section Divergence.
Hypothesis inv_ok : forall J : 'M[R]_d, J \in unitmx -> inv J = invmx J.
Hypothesis o2 : (2 < order)%N.
Notation xv := (nd_values gv).
Notation ws := (qd_weights quad).
Notation h := ((b - a) / n%:R).
Let szv : size xv = m. Proof. by have [] := gv_sorted. Qed.
Let uv : uniq xv. Proof. by have [] := created_grid (ltn0Sn _) (cf_gv cf). Qed.
Let h2 : h / 2%:R != 0. Proof. by rewrite gt_eqF // !divr_gt0 ?subr_gt0 ?ltr0n. Qed.

Lemma quad_gv : qd_nodes quad = gv.
Proof. by have [_ + _] := quad_facts (ltn0Sn _) (cf_quad cf); rewrite (cf_gv cf) => -[]. Qed.
Lemma point_nd p : p \in grid m d -> grid_point d gv (flat m p) = [seq nth 0 xv i | i <- p].
Proof. by move=> pg'; rewrite /grid_point (cart_grid d szv) nth_map_grid. Qed.
Lemma weight_nd p : p \in grid m d -> nth 0 (getr (weights_nd quad d)) (flat m p) = \prod_(b < d) nth 0 ws (nth 0%N p b).
Proof.
move=> pg'; have [w -> [wE _ _]] := C36_weights_nd d0 (ltn0Sn _) (cf_quad cf).
have [sw _ _ _] := C36_exact (ltn0Sn _) (cf_quad cf).
rewrite /= wE (cart_grid d sw) -map_comp nth_map_grid //= big_map (big_nth 0%N) (size_grid_in pg') big_mkord.
by [].
Qed.
Lemma ref_grad_nd (u : nat -> R) v c p (k : 'I_d) : p \in grid m d ->
  (forall q, q \in grid m d -> u (flat m q) = nth 0 v (nd c q)) ->
  ref_grad (vm s) gv u (flat m p) k = teval (tderiv k (nodal d xv (fun q => nth 0 v (nd c q)))) [seq nth 0 xv i | i <- p].
Proof.
move=> pg' H; have [_ _ per gE] := feE (ltn0Sn _) (cf_gv cf) (cf_vm cf).
rewrite /ref_grad /node_list per gE map_grid.
have -> : [seq u (flat m q) | q <- grid m d] = [seq teval (nodal d xv (fun q => nth 0 v (nd c q))) y | y <- cart (nseq d xv)].
  rewrite (nodal_values d (fun q => nth 0 v (nd c q)) uv) szv; exact/eq_in_map.
have e0 : xv != [::] by rewrite -size_eq0 szv.
rewrite (C35_interpolate_grad (ltn0Sn _) d0 (cf_gv cf) e0) /=; last by rewrite -szv nodal_deg.
by rewrite (nth_map 0%N) ?size_iota // nth_iota // (cart_grid d szv) -map_comp nth_map_grid.
Qed.
Lemma coord_grad_nd c p (i j : 'I_d) : c \in grid n d -> p \in grid m d ->
  ref_grad (vm s) gv (fun k => FES_model.element_coords (vm s) (flat n c) k 0 j) (flat m p) i = (h / 2%:R) *+ (i == j).
Proof.
move=> cg pg'; have [_ _ per gE] := feE (ltn0Sn _) (cf_gv cf) (cf_vm cf).
have el : (flat n c < n ^ d)%N := flat_lt cg; have ml : (1 < m)%N := m2.
rewrite /ref_grad (fe_node_list (ltn0Sn _) (cf_gv cf) (cf_rv cf) (cf_vm cf)) // gE.
have e0 : xv != [::] by rewrite -size_eq0 szv.
rewrite (C35_interpolate_grad (ltn0Sn _) d0 (cf_gv cf) e0 (tdeg_le ml (mf_multilinear fam j el))) /=.
rewrite (nth_map 0%N) ?size_iota // nth_iota // (cart_grid d szv) -map_comp nth_map_grid //= add0n.
have ep : (flat n c < size (pm_elements pm))%N by have [-> _] := C26_cells gen.
have := cube_jacobian gen (x := [seq nth 0 xv i | i <- p]) ep.
rewrite size_map (size_grid_in pg') => /(_ erefl) /matrixP /(_ i j); rewrite !mxE; exact.
Qed.
Lemma jac_nd c p : c \in grid n d -> p \in grid m d ->
  fs_jacdets (v_space vel) (flat n c) (flat m p) = (h / 2%:R) ^+ d /\ fs_jacdets (p_space (s_pressure s)) (flat n c) (flat m p) = (h / 2%:R) ^+ d.
Proof.
move=> cg pg'; have el : (flat n c < n ^ d)%N := flat_lt cg; have kl : (flat m p < m ^ d)%N := flat_lt pg'.
have op : (0 < order - 1)%N by rewrite subn_gt0 (cf_order cf).
have ep : (flat n c < size (pm_elements pm))%N by have [-> _] := C26_cells gen.
have := fs_jac fam (ltn0Sn _) (cf_gv cf) (cf_rv cf) (cf_vm cf) (ltn0Sn _) (cf_quad cf) (cf_vs cf) (e := flat n c) (q := flat m p).
have := fs_jac fam op (cf_gp cf) (cf_rp cf) (cf_pm cf) (ltn0Sn _) (cf_quad cf) (cf_ps cf) (e := flat n c) (q := flat m p).
rewrite quad_gv point_nd // (cube_jacobian gen) ?size_map ?(size_grid_in pg') // det_scalar => H1 H2.
by rewrite H1 // ?H2 // ltn_subRL.
Qed.
Lemma phys_nd (u : nat -> R) v c p (k : 'I_d) : c \in grid n d -> p \in grid m d ->
  (forall q, q \in grid m d -> u (flat m q) = nth 0 v (nd c q)) ->
  nth 0 (phys_grad (v_space vel) (flat n c) u (flat m p)) k =
  (h / 2%:R)^-1 * teval (tderiv k (nodal d xv (fun q => nth 0 v (nd c q)))) [seq nth 0 xv i | i <- p].
Proof.
move=> cg pg' H; rewrite -(ref_grad_nd k pg' H).
have J0 : fs_jacdets (v_space vel) (flat n c) (flat m p) != 0 by rewrite (jac_nd cg pg').1 expf_neq0.
have := chain_rule u k inv_ok (cf_vs cf) J0; rewrite quad_gv => <-.
rewrite (bigD1 k) //= coord_grad_nd // eqxx big1 => [|j jk]; last by rewrite coord_grad_nd // eq_sym (negbTE jk) mul0r.
by rewrite addr0 mulrA mulVf // mul1r.
Qed.

(** What flows out of a cell in direction [k]. *)
Definition outflow (k : nat) (v : seq nat -> R) : R :=
  \sum_(q <- grid m d) (\prod_(b < d) (if b == k :> nat then (nth 0%N q b == order)%:R - (nth 0%N q b == 0%N)%:R else nth 0 ws (nth 0%N q b))) * v q.
Lemma cell_outflow k v : \sum_(p <- grid m d) (\prod_(b < d) nth 0 ws (nth 0%N p b)) * teval (tderiv k (nodal d xv v)) [seq nth 0 xv i | i <- p] = outflow k v.
Proof.
have /andP[/eqP e0 /eqP e1] := gll_continuous (cf_gv cf).
have [sw _ _ ex] := C36_exact (ltn0Sn _) (cf_quad cf).
have := @quad_deriv _ d xv ws v k; rewrite szv; apply=> //.
- by rewrite -nth_last szv in e1.
move=> p sp; have := ex p^`(); rewrite quad_gv /Interp_spec.quad szv integral_deriv; apply.
rewrite /exactness /=; case: (eqVneq p 0) => [->|/lt_size_deriv sp']; first by rewrite deriv0 size_poly0.
apply: (leq_trans (ltnSE (leq_trans sp' sp))); by move: m2; move: (order) => x; clear; lia.
Qed.

Lemma sum_cells (f : nat -> R) k : suml (k ^ d) f = \sum_(p <- grid k d) f (flat k p).
Proof.
rewrite sumlE -(big_map (flat k) xpredT f) map_flat_grid.
have -> : iota 0 (k ^ d) = index_iota 0 (k ^ d) by rewrite /index_iota subn0.
by rewrite big_mkord.
Qed.

(** The sum of the divergence over the pressure nodes is what flows out of all cells. *)
Lemma total_divergence u : vgood s u -> \sum_(i < np s) nth 0 (D eps s u) i * nth 0 (nseq (np s) 1) i =
  (h / 2%:R) ^+ d / (h / 2%:R) * \sum_(c <- grid n d) \sum_(k < d) outflow k (fun q => ent u k (nd c q)).
Proof.
move=> gu; have ok := facts_ok cf; have [pmE pq pnq] := fs_basic (ltn0Sn _) (cf_quad cf) (cf_ps cf).
have sp : size (nseq (np s) (1 : R)) = np s by rewrite size_nseq.
have op : (0 < order - 1)%N by rewrite subn_gt0 (cf_order cf).
have eKp : num_elements (Stokes_proofs2.pm s) = (n ^ d)%N := fe_num op (cf_gp cf) (cf_rp cf) (cf_pm cf).
apply: (etrans (divergence_form eps ok (facts_geometry fam cf o2) gu sp)).
rewrite /form_integral /integrate pq pnq pmE eKp sum_cells mulr_sumr; apply: eq_big_seq => c cg.
rewrite sum_cells.
have el : (flat n c < n ^ d)%N := flat_lt cg.
rewrite (eq_big_seq (fun p => \sum_(k < d) (h / 2%:R) ^+ d / (h / 2%:R) * ((\prod_(b < d) nth 0 ws (nth 0%N p b)) * teval (tderiv k (nodal d xv (fun q => ent u k (nd c q)))) [seq nth 0 xv i | i <- p]))).
  rewrite exchange_big /= mulr_sumr; apply: eq_bigr => k _; by rewrite -mulr_sumr cell_outflow.
move=> p pg' /=; have [_ ->] := jac_nd cg pg'; rewrite weight_nd //; rewrite /divq /arg /= sumlE.
have -> : at_quad eps (fs_mesh (p_space (s_pressure s))) (evalpoints (p_space (s_pressure s)))
    (comp (p_gather (s_pressure s) (nseq (np s) 1)) (flat n c) 0) (flat m p) = 1.
  rewrite /evalpoints pq pmE (p_at_quad fam cf (f := tone R d)) ?flat_lt //.
  - by rewrite tone_eval // quad_gv point_nd // size_map (size_grid_in pg').
  - exact: tone_deg.
  - by move=> k hk; rewrite tone_eval; [exact: (gather_ones cf el hk)|exact: (size_point op (cf_gp cf) hk)].
rewrite mulr1 !mulr_suml; apply: eq_bigr => k _.
have -> : vgrad d (value_list eps (v_space vel) (v_gather vel u) d (flat n c) (flat m p) ++ grad_list (v_space vel) (v_gather vel u) d (flat n c) (flat m p)) k k =
    nth 0 (phys_grad (v_space vel) (flat n c) (comp (v_gather vel u) (flat n c) k) (flat m p)) k.
  exact: (vgrad_nodal eps (v_space vel) (v_gather vel u) (flat n c) (flat m p) (ltn_ord k) (ltn_ord k)).
rewrite (@phys_nd _ (nth [::] u k)) // => [|q qg]; last by rewrite -gather_nd.
by move: (\prod_(b < d) _) (teval _ _) (h / 2%:R) => x y z; rewrite -!mulrA; move: (z ^+ d) (z^-1) => ? ?; ring.
Qed.

(** What flows through one of the two faces of a cell. *)
Notation onface k x := (mkseq (fun b => if b == k then x else 0%N) d).
Definition face (k x : nat) (v : seq nat -> R) : R :=
  tsum m d (fun b y z => if b == k then (z == y)%:R else nth 0 ws z) (onface k x) v.
Lemma outflow_faces k v : (k < d)%N -> outflow k v = face k order v - face k 0 v.
Proof.
move=> kd; rewrite /outflow /face /tsum -sumrB; apply: eq_bigr => q _; rewrite -mulrBl; congr (_ * _).
have P (g : nat -> R) : \prod_(b < d) (if b == k :> nat then g b else nth 0 ws (nth 0%N q b)) = g k * \prod_(b < d | b != Ordinal kd) nth 0 ws (nth 0%N q b).
  rewrite (bigD1 (Ordinal kd)) //= eqxx; congr (_ * _).
  by apply: eq_bigr => x; rewrite -val_eqE => /= /negbTE->.
rewrite (P (fun b => (nth 0%N q b == order)%:R - (nth 0%N q b == 0%N)%:R)).
rewrite (P (fun b => (nth 0%N q b == nth 0%N (onface k order) b)%:R)).
rewrite (P (fun b => (nth 0%N q b == nth 0%N (onface k 0%N) b)%:R)).
by rewrite !nth_mkseq // eqxx mulrBl.
Qed.
(** The next cell in direction [k], around the end. *)
Definition next k (c : seq nat) : seq nat := set_nth 0%N c k ((nth 0%N c k).+1 %% n)%N.
Lemma next_grid k c : (k < d)%N -> c \in grid n d -> next k c \in grid n d.
Proof.
move=> kd cg; have := cg; rewrite !mem_grid => /andP[/eqP sc /allP al].
rewrite /next size_set_nth sc (maxn_idPr _) // eqxx /=; apply/(all_nthP 0%N) => i.
rewrite size_set_nth sc (maxn_idPr _) // => id; rewrite nth_set_nth /=; case: eqP => _; first by rewrite ltn_mod.
by apply: al; rewrite mem_nth ?sc.
Qed.
Lemma next_inj k c c' : (k < d)%N -> c \in grid n d -> c' \in grid n d -> next k c = next k c' -> c = c'.
Proof.
move=> kd cg cg' e; apply: (@eq_from_nth _ 0%N) => [|i]; rewrite !(size_grid_in cg) ?(size_grid_in cg') // => id.
have := congr1 (fun w => nth 0%N w i) e; rewrite !nth_set_nth /=; case: (i =P k) => [-> |//].
move: (nth_lt cg kd) (nth_lt cg' kd); move: (nth 0%N c k) (nth 0%N c' k) => x y xn yn.
have F z : (z < n)%N -> (z.+1 %% n)%N = if z.+1 == n then 0%N else z.+1.
  by move=> zn; case: eqP => [->|ne]; [rewrite modnn|rewrite modn_small // ltn_neqAle zn andbT; apply/eqP].
by rewrite !F //; case: eqP => ex; case: eqP => ey //; [move: ex; rewrite -ey => -[]|move=> []].
Qed.
Lemma sum_next k (f : seq nat -> R) : (k < d)%N -> \sum_(c <- grid n d) f (next k c) = \sum_(c <- grid n d) f c.
Proof.
move=> kd; rewrite -(big_map (next k) xpredT f); apply: perm_big.
have U : uniq [seq next k c | c <- grid n d].
  by rewrite map_inj_in_uniq ?grid_uniq // => c c' cg cg'; apply: next_inj.
have S : {subset [seq next k c | c <- grid n d] <= grid n d} by move=> x /mapP[c cg ->]; apply: next_grid.
apply: uniq_perm => //; first exact: grid_uniq.
apply: (uniq_min_size U S _).2; by rewrite size_map.
Qed.

Section Closed.
Hypothesis closed : walls_fixed \/ forall axis, (axis < d)%N -> axis \in pd.
Lemma face_next k u c : conforming s u -> (k < d)%N -> c \in grid n d ->
  face k order (fun q => ent u k (nd c q)) = face k 0 (fun q => ent u k (nd (next k c) q)).
Proof.
move=> /cube_conforming[gu vu au] kd cg; have ng := next_grid kd cg.
apply: (@tsum_rel _ m d _ (fun j => j != k)); rewrite ?size_mkseq //.
  move=> j jd; rewrite !nth_mkseq //; case: (j =P k) => //= _; by split; split.
move=> q q' qg qg' H.
have Hk : nth 0%N q k = order /\ nth 0%N q' k = 0%N by have := H k kd; rewrite eqxx !nth_mkseq // eqxx.
have ck := nth_lt cg kd.
have nk : nth 0%N (next k c) k = ((nth 0%N c k).+1 %% n)%N by rewrite nth_set_nth /= eqxx.
have [e|ne] := eqVneq (nth 0%N c k).+1 n; last first.
  apply: au => //; congr (UnitCube_links.wrap d n pd m _); apply: (@eq_from_nth _ 0%N) => [|j].
    by rewrite !size_map !size_zip (size_grid_in cg) (size_grid_in ng) (size_grid_in qg) (size_grid_in qg').
  rewrite size_map size_zip (size_grid_in cg) (size_grid_in qg) minnn => jd; rewrite !(@nth_global d n m) //.
  have := H j jd; have [-> _|jk /= ->] := eqVneq j k; last by rewrite nth_set_nth /= (negbTE jk).
  rewrite nk Hk.1 Hk.2 modn_small; first by rewrite mulSn addn0 addnC.
  by rewrite ltn_neqAle ne.
have N0 : (nth 0%N c k * order + order = N)%N by rewrite /= addnC -mulSn e.
have [kp|kp] := boolP (k \in pd); last first.
  have wf : walls_fixed by case: closed => // /(_ k kd); rewrite (negbTE kp).
  rewrite !vu //; exists k; split=> //; rewrite (@nth_global d n m) //.
    by left; rewrite nk e modnn Hk.2.
  by right; rewrite Hk.1.
apply: au => //; apply: (@eq_from_nth _ 0%N) => [|j]; first by rewrite !size_mkseq.
rewrite size_mkseq => jd; rewrite !nth_wrap // !(@nth_global d n m) //.
have := H j jd; have [-> _|jk /= ->] := eqVneq j k; last by rewrite nth_set_nth /= (negbTE jk).
by rewrite nk Hk.1 Hk.2 e modnn kp [(_ + order)%N]N0 eqxx /= mul0n; case: ifP.
Qed.
Theorem cube_enclosed : enclosed eps s.
Proof.
split; first exact: size_nseq.
move=> u cu; have [gu _ _] := cu; rewrite total_divergence // exchange_big /= big1 ?mulr0 // => k _.
have kd := ltn_ord k; rewrite (eq_bigr (fun c => face k order (fun q => ent u k (nd c q)) - face k 0 (fun q => ent u k (nd c q)))); last first.
  by move=> c _; rewrite outflow_faces.
rewrite sumrB (eq_big_seq (fun c => face k 0 (fun q => ent u k (nd (next k c) q)))); last by move=> c cg; apply: face_next.
by rewrite (@sum_next k (fun c => face k 0 (fun q => ent u k (nd c q)))) // subrr.
Qed.
End Closed.

(** An open side lets a velocity out. *)
Section Open.
Variable k : nat.
Hypotheses (kd : (k < d)%N) (kp : k \notin pd) (nf : ~ walls_fixed).
Definition leaving : seq (seq R) :=
  [seq [seq if j == k then (has (fun c => has (fun p => (nd c p == i) && (nth 0%N (global c p) k == N)) (grid m d)) (grid n d))%:R else 0 | i <- iota 0 (nv s)] | j <- iota 0 d].
Lemma leaving_nd j c p : (j < d)%N -> c \in grid n d -> p \in grid m d -> ent leaving j (nd c p) = if j == k then (nth 0%N (global c p) k == N)%:R else 0.
Proof.
move=> jd cg pg'; have il := nd_lt cg pg'.
rewrite /ent (nth_map 0%N) ?size_iota // nth_iota // (nth_map 0%N) ?size_iota // nth_iota // !add0n.
case: ifP => // _; congr (_%:R); congr (nat_of_bool _); apply/hasP/idP => [[c' cg' /hasP[p' pg2 /andP[/eqP e]]]|h].
  by have -> : global c p = global c' p' by apply/nd_eq.
by exists c => //; apply/hasP; exists p => //; rewrite eqxx.
Qed.
Lemma leaving_conforming : conforming s leaving.
Proof.
apply/cube_conforming; split.
- apply: goodP => [|j jd]; first by rewrite size_map size_iota.
  by rewrite (nth_map 0%N) ?size_iota // size_map size_iota.
- by move=> ? ? ? _ _ _ /nf.
move=> j c p c' p' jd cg pg1 cg' pg2 e; rewrite !leaving_nd //; case: ifP => // _.
by have := congr1 (fun w => nth 0%N w k) e; rewrite !nth_wrap // (negbTE kp) /= => ->.
Qed.
Lemma leaving_face c : c \in grid n d ->
  outflow k (fun q => ent leaving k (nd c q)) = ((nth 0%N c k).+1 == n)%:R * \prod_(b < d) (if b == k :> nat then 1 else 2%:R).
Proof.
move=> cg; have o0 : (0 < order)%N := ltnW (cf_order cf).
have ck := nth_lt cg kd; have [_ _ w2 _] := C36_exact (ltn0Sn _) (cf_quad cf); have [sw _ _ _] := C36_exact (ltn0Sn _) (cf_quad cf).
rewrite outflow_faces // [X in _ - X](_ : _ = 0); last first.
  rewrite /face /tsum big_seq big1 // => q qg; rewrite leaving_nd // eqxx (@nth_global d n m) //.
  case: eqP => [e|]; last by rewrite mulr0.
  rewrite mulr1 (bigD1 (Ordinal kd)) //= eqxx nth_mkseq // eqxx.
  case: eqP => [q0|]; last by rewrite mul0r.
  by move: e; rewrite q0 addn0 => /eqP; rewrite eqn_pmul2r // (ltn_eqF ck).
rewrite subr0 /face /tsum.
rewrite (eq_big_seq (fun q => ((nth 0%N c k).+1 == n)%:R * \prod_(b < d) (if b == k :> nat then (nth 0%N q b == order)%:R else nth 0 ws (nth 0%N q b)))); last first.
  move=> q qg /=; rewrite leaving_nd // eqxx (@nth_global d n m) //.
  have -> : \prod_(b < d) (if b == k :> nat then (nth 0%N q b == nth 0%N (onface k order) b)%:R else nth 0 ws (nth 0%N q b)) =
     \prod_(b < d) (if b == k :> nat then (nth 0%N q b == order)%:R else nth 0 ws (nth 0%N q b)) :> R.
    by apply: eq_bigr => x _; case: eqP => // ->; rewrite nth_mkseq // eqxx.
  rewrite mulrC; have [qo|qo] := eqVneq (nth 0%N q k) order.
    by rewrite qo /= addnC -mulSn eqn_pmul2r.
  by rewrite (bigD1 (Ordinal kd)) //= eqxx (negbTE qo) mul0r !mulr0.
rewrite -mulr_sumr; congr (_ * _).
rewrite (sum_grid_prod m d (fun b x => if b == k then (x == order)%:R else nth 0 ws x)); apply: eq_bigr => x _; case: eqP => _.
  rewrite (eq_bigr (fun y => (y == order)%:R * 1)) => [|y _]; last by rewrite mulr1.
  exact: sum_unit.
by rewrite -w2 foldrE -sw -(big_map (nth 0 ws) xpredT id) map_nth_iota0 // take_size.
Qed.
Lemma open_flux : 0 < \sum_(c <- grid n d) \sum_(j < d) outflow j (fun q => ent leaving j (nd c q)).
Proof.
have E c : c \in grid n d -> \sum_(j < d) outflow j (fun q => ent leaving j (nd c q)) = ((nth 0%N c k).+1 == n)%:R * \prod_(b < d) (if b == k :> nat then 1 else 2%:R).
  move=> cg; rewrite (bigD1 (Ordinal kd)) //= leaving_face // [X in _ + X]big1 ?addr0 // => j; rewrite -val_eqE /= => jk.
  rewrite /outflow big_seq big1 // => q qg; by rewrite leaving_nd // (negbTE jk) mulr0.
rewrite (eq_big_seq _ E) -mulr_suml mulr_gt0 //; last by apply: prodr_gt0 => j _; case: ifP; rewrite ?ltr01 ?ltr0n.
have c0 : nseq d n.-1 \in grid n d.
  by rewrite mem_grid size_nseq eqxx /= all_nseq prednK // leqnn orbT.
rewrite (bigD1_seq (nseq d n.-1)) ?grid_uniq //= nth_nseq kd prednK // eqxx.
by apply: (lt_le_trans ltr01); rewrite ler_addl sumr_ge0 // => c _; rewrite ler0n.
Qed.
End Open.

Theorem cube_enclosedE : enclosed eps s <-> walls_fixed \/ forall axis, (axis < d)%N -> axis \in pd.
Proof.
split=> [[_ en]|]; last exact: cube_enclosed.
have [/allP al|/allPn[k]] := boolP (all (fun x => x \in pd) (iota 0 d)).
  by right=> x xd; apply: al; rewrite mem_iota.
rewrite mem_iota /= => kd kp; left.
pose isD t := if t is DIRICHLET then true else false.
have [/hasP'[[g [t v]] hin /= /andP[/eqP eg et]]|nh] := boolP (has (fun gb : L * (bctype * BCV) => (gb.1 == lbl) && isD gb.2.1) bcs).
  by exists v; rewrite -eg; case: t et hin.
have nf : ~ walls_fixed.
  by move=> [v hin]; case/negP: nh; apply/hasP'; exists (lbl, (DIRICHLET, v)) => //=; rewrite eqxx.
have cl := leaving_conforming kd kp nf; have [gl _ _] := cl.
have := en _ cl; rewrite total_divergence // => /eqP; rewrite gt_eqF // mulr_gt0 ?open_flux //.
by have h0 : 0 < h / 2%:R; rewrite ?divr_gt0 ?exprn_gt0 // ?subr_gt0 ?ltr0n // divr_gt0 ?subr_gt0 ?ltr0n.
Qed.

(** ** Pressures no conforming velocity sees *)
Section Kernel.
Notation xp := (nd_values gp).
Notation l := (order - 1)%N.
Let op : (0 < l)%N. Proof. by rewrite subn_gt0 (cf_order cf). Qed.
Let szp : size xp = l. Proof. by have [] := created_grid op (cf_gp cf). Qed.
Let up : uniq xp. Proof. by have [] := created_grid op (cf_gp cf). Qed.
Notation W q := (\prod_(b < d) nth 0 ws (nth 0%N q b)).
Notation pt q := [seq nth 0 xv i | i <- q].
(** Pressure node [j] of cell [c], and the pressure on the cell as a polynomial. *)
Definition pnd c j : nat := node_of (Stokes_proofs2.pm s) (flat n c) (flat l j).
Definition pres (z : seq R) c : tpoly R := nodal d xp (fun j => nth 0 z (pnd c j)).
Lemma pres_deg z c : tdeg d l (pres z c).
Proof. by rewrite -szp nodal_deg. Qed.
Lemma gather_pnd (z : seq R) c j : c \in grid n d -> j \in grid l d -> gather_comp (Stokes_proofs2.pm s) z (flat n c) (flat l j) = nth 0 z (pnd c j).
Proof.
move=> cg jg; have el : (flat n c < n ^ d)%N := flat_lt cg; have kl : (flat l j < l ^ d)%N := flat_lt jg.
have [x xl [e1 _]] := fe_index op (cf_gp cf) (cf_rp cf) (cf_pm cf) el kl.
rewrite /gather_comp /gather (nth_map 0) ?(fe_rows op (cf_gp cf) (cf_rp cf) (cf_pm cf)) //.
by rewrite /pnd /node_of e1.
Qed.
Lemma pnd_exists i : (i < np s)%N -> exists c j, [/\ c \in grid n d, j \in grid l d & i = pnd c j].
Proof.
move=> il; have [eC eE _ _] := feE op (cf_gp cf) (cf_pm cf).
have : Posz i \in flatten (FES_model.m_elements (Stokes_proofs2.pm s)).
  by rewrite eE; apply: (mo_used (cf_rp cf)); move: il; rewrite /np /nn eC.
move=> /flattenP[el /(nthP [::])[e he <-] /(nthP 0)[k hk ek]].
have eK : num_elements (Stokes_proofs2.pm s) = (n ^ d)%N := fe_num op (cf_gp cf) (cf_rp cf) (cf_pm cf).
rewrite [size _]eK in he; rewrite (fe_rows op (cf_gp cf) (cf_rp cf) (cf_pm cf) he) in hk.
have [c cg ee] := grid_of he; have [j jg kE] := grid_of hk; exists c, j; split=> //.
by rewrite /pnd /node_of -ee -kE ek.
Qed.
Lemma pres_node z c j : j \in grid l d -> teval (pres z c) [seq nth 0 xp i | i <- j] = nth 0 z (pnd c j).
Proof. by move=> jg; rewrite /pres nodal_node // szp. Qed.

Let parts (p q : {poly R}) : (size p <= size xv)%N -> (size q <= l)%N ->
  \sum_(i < size xv) nth 0 ws i * (p^`().[nth 0 xv i] * q.[nth 0 xv i]) = p.[1] * q.[1] - p.[-1] * q.[-1] - \sum_(i < size xv) nth 0 ws i * (p.[nth 0 xv i] * q^`().[nth 0 xv i]).
Proof.
rewrite szv => sp sq; have [sw _ _ ex] := C36_exact (ltn0Sn _) (cf_quad cf).
have sz : (size (p * q)^`() <= exactness GAUSS_LOBATTO_LEGENDRE m)%N.
  rewrite /exactness; apply: (leq_trans (leq_size_deriv _)); apply: (leq_trans (size_mul_leq _ _)).
  by move: sp sq m2; move: (size p) (size q) => x y; clear; lia.
have := ex _ sz; rewrite quad_gv /Interp_spec.quad szv integral_deriv !hornerM => <-.
apply/eqP; rewrite -subr_eq0 opprB addrA subr_eq0; apply/eqP; rewrite -big_split /=; apply: eq_bigr => i _.
by rewrite derivM hornerD !hornerM mulrDr.
Qed.
Notation sign k q := (\prod_(b < d) (if b == k :> nat then (nth 0%N q b == order)%:R - (nth 0%N q b == 0%N)%:R else nth 0 ws (nth 0%N q b))).
Lemma cell_parts k v (Z : tpoly R) : (k < d)%N -> tdeg d l Z ->
  \sum_(r <- grid m d) W r * teval (tderiv k (nodal d xv v)) (pt r) * teval Z (pt r) =
  \sum_(q <- grid m d) v q * (sign k q * teval Z (pt q) - W q * teval (tderiv k Z) (pt q)).
Proof.
move=> kd dZ; have /andP[/eqP e0 /eqP e1] := gll_continuous (cf_gv cf).
have := @quad_parts _ d xv ws l; rewrite szv => H; apply: (H) => //.
  by rewrite -nth_last szv in e1.
by have := parts; rewrite szv.
Qed.
(** What a velocity and a pressure contribute, after integration by parts. *)
Definition share_of k c q (z : seq R) : R := sign k q * teval (pres z c) (pt q) - W q * teval (tderiv k (pres z c)) (pt q).
Lemma pairing u z : vgood s u -> size z = np s -> \sum_(i < np s) nth 0 (D eps s u) i * nth 0 z i =
  (h / 2%:R) ^+ d / (h / 2%:R) * \sum_(c <- grid n d) \sum_(k < d) \sum_(q <- grid m d) ent u k (nd c q) * share_of k c q z.
Proof.
move=> gu sp; have ok := facts_ok cf; have [pmE pq pnq] := fs_basic (ltn0Sn _) (cf_quad cf) (cf_ps cf).
have eKp : num_elements (Stokes_proofs2.pm s) = (n ^ d)%N := fe_num op (cf_gp cf) (cf_rp cf) (cf_pm cf).
apply: (etrans (divergence_form eps ok (facts_geometry fam cf o2) gu sp)).
rewrite /form_integral /integrate pq pnq pmE eKp sum_cells mulr_sumr; apply: eq_big_seq => c cg.
rewrite sum_cells.
have el : (flat n c < n ^ d)%N := flat_lt cg.
rewrite (eq_big_seq (fun p => \sum_(k < d) (h / 2%:R) ^+ d / (h / 2%:R) * ((\prod_(b < d) nth 0 ws (nth 0%N p b)) * teval (tderiv k (nodal d xv (fun q => ent u k (nd c q)))) (pt p) * teval (pres z c) (pt p)))).
  rewrite exchange_big /= mulr_sumr; apply: eq_bigr => k _; by rewrite -mulr_sumr cell_parts // pres_deg.
move=> p pg' /=; have [_ ->] := jac_nd cg pg'; rewrite weight_nd //; rewrite /divq /arg /= sumlE.
have -> : at_quad eps (fs_mesh (p_space (s_pressure s))) (evalpoints (p_space (s_pressure s)))
    (comp (p_gather (s_pressure s) z) (flat n c) 0) (flat m p) = teval (pres z c) (pt p).
  rewrite /evalpoints pq pmE (p_at_quad fam cf (f := pres z c)) ?flat_lt //.
  - by rewrite quad_gv point_nd.
  - exact: pres_deg.
  - move=> k hk; have [j jg kE] := grid_of hk; rewrite kE.
    have -> : grid_point d gp (flat l j) = [seq nth 0 xp i | i <- j] by rewrite /grid_point (cart_grid d szp) nth_map_grid.
    by rewrite pres_node //; exact: gather_pnd.
rewrite !mulr_suml; apply: eq_bigr => k _.
have -> : vgrad d (value_list eps (v_space vel) (v_gather vel u) d (flat n c) (flat m p) ++ grad_list (v_space vel) (v_gather vel u) d (flat n c) (flat m p)) k k =
    nth 0 (phys_grad (v_space vel) (flat n c) (comp (v_gather vel u) (flat n c) k) (flat m p)) k.
  exact: (vgrad_nodal eps (v_space vel) (v_gather vel u) (flat n c) (flat m p) (ltn_ord k) (ltn_ord k)).
rewrite (@phys_nd _ (nth [::] u k)) // => [|q qg]; last by rewrite -gather_nd.
move: (\prod_(b < d) _) (teval (tderiv _ _) _) (teval (pres _ _) _) (h / 2%:R) => x y t w; rewrite -!mulrA; move: (w ^+ d) (w^-1) => ? ?; ring.
Qed.

(** One component, one class of positions. *)
Definition point_velocity k (g : seq nat) : seq (seq R) :=
  [seq [seq if j == k then (has (fun c => has (fun p => (nd c p == i) && (wrap (global c p) == g)) (grid m d)) (grid n d))%:R else 0 | i <- iota 0 (nv s)] | j <- iota 0 d].
Lemma point_nd_val k g j c p : (j < d)%N -> c \in grid n d -> p \in grid m d -> ent (point_velocity k g) j (nd c p) = if j == k then (wrap (global c p) == g)%:R else 0.
Proof.
move=> jd cg pg'; have il := nd_lt cg pg'.
rewrite /ent (nth_map 0%N) ?size_iota // nth_iota // (nth_map 0%N) ?size_iota // nth_iota // !add0n.
case: ifP => // _; congr (_%:R); congr (nat_of_bool _); apply/hasP/idP => [[c' cg' /hasP[p' pg2 /andP[/eqP e]]]|hh].
  by have -> : global c p = global c' p' by apply/nd_eq.
by exists c => //; apply/hasP; exists p => //; rewrite eqxx.
Qed.
Lemma point_conforming k g : (k < d)%N -> (forall ax, (ax < d)%N -> ax \notin pd -> nth 0%N g ax <> 0%N /\ nth 0%N g ax <> N) ->
  conforming s (point_velocity k g).
Proof.
move=> kd off; apply/cube_conforming; split.
- apply: goodP => [|j jd]; first by rewrite size_map size_iota.
  by rewrite (nth_map 0%N) ?size_iota // size_map size_iota.
- move=> j c p jd cg pg' _ [ax [al ap hw]]; rewrite point_nd_val //; case: ifP => // _; case: eqP => // e.
  by have := off ax al ap; rewrite -e nth_wrap // (negbTE ap) /=; case: hw => -> [].
by move=> j c p c' p' jd cg pg1 cg' pg2 e; rewrite !point_nd_val // e.
Qed.
Lemma point_pairing k g z : (k < d)%N -> (forall ax, (ax < d)%N -> ax \notin pd -> nth 0%N g ax <> 0%N /\ nth 0%N g ax <> N) ->
  unseen eps s z -> \sum_(c <- grid n d) \sum_(q <- grid m d) (wrap (global c q) == g)%:R * share_of k c q z = 0.
Proof.
move=> kd off [sz uz]; have cu := point_conforming kd off; have [gu _ _] := cu.
have h0 : (h / 2%:R) ^+ d / (h / 2%:R) != 0 by rewrite mulf_neq0 ?expf_neq0 ?invr_eq0.
have := uz _ cu; rewrite pairing // => /eqP; rewrite mulf_eq0 (negbTE h0) /= => /eqP e; rewrite -[RHS]e; apply: eq_big_seq => c cg.
rewrite (bigD1 (Ordinal kd)) //= [X in _ + X]big1 ?addr0 => [|j].
  by apply: eq_big_seq => q qg; rewrite point_nd_val // eqxx.
rewrite -val_eqE /= => jk; rewrite big_seq big1 // => q qg; by rewrite point_nd_val // (negbTE jk) mul0r.
Qed.
Lemma pick_one c0 q0 (X : seq nat -> seq nat -> R) : c0 \in grid n d -> q0 \in grid m d ->
  \sum_(c <- grid n d) \sum_(q <- grid m d) ((c == c0) && (q == q0))%:R * X c q = X c0 q0.
Proof.
move=> cg qg; rewrite (bigD1_seq c0) ?grid_uniq //= [X in _ + X]big1 ?addr0 => [|c /negbTE->].
  rewrite eqxx (bigD1_seq q0) ?grid_uniq //= [X in _ + X]big1 ?addr0 => [|q /negbTE->]; by rewrite ?eqxx ?mul1r ?mul0r.
by rewrite big1 // => q _; rewrite mul0r.
Qed.
Lemma W_gt0 q : q \in grid m d -> 0 < W q.
Proof. by move=> qg; rewrite -weight_nd // (weights_gt0 fam cf) // flat_lt. Qed.

(** Inside a cell the gradient vanishes. *)
Lemma unseen_grad z c k q : unseen eps s z -> c \in grid n d -> (k < d)%N -> q \in grid m d ->
  (forall j, (j < d)%N -> (0 < nth 0%N q j < order)%N) -> teval (tderiv k (pres z c)) (pt q) = 0.
Proof.
move=> uz cg kd qg inn.
have one c' q' : c' \in grid n d -> q' \in grid m d -> (wrap (global c' q') == wrap (global c q)) = (c' == c) && (q' == q).
  move=> cg' qg'; apply/eqP/andP => [e|[/eqP-> /eqP->]] //.
  have ax j : (j < d)%N -> nth 0%N c' j = nth 0%N c j /\ nth 0%N q' j = nth 0%N q j.
    move=> jd; have := congr1 (fun w => nth 0%N w j) e; rewrite !nth_wrap // !(@nth_global d n m) // => we.
    have := pos_wrap (nth_lt cg' jd) (nth_lt cg jd) (ltnSE (nth_lt qg' jd)) (ltnSE (nth_lt qg jd)) we.
    by case=> // -[_ h]; have := inn j jd; move: h; clear; lia.
  split; apply/eqP; apply: (@eq_from_nth _ 0%N); rewrite ?(size_grid_in cg) ?(size_grid_in cg') ?(size_grid_in qg) ?(size_grid_in qg') // => j jd.
    by have [] := ax j jd.
  by have [] := ax j jd.
have off ax : (ax < d)%N -> ax \notin pd -> nth 0%N (wrap (global c q)) ax <> 0%N /\ nth 0%N (wrap (global c q)) ax <> N.
  move=> al ap; rewrite nth_wrap // (negbTE ap) /= (@nth_global d n m) //; have := inn ax al => ii; split.
    by move: ii; clear; lia.
  by move=> /(pos_last (nth_lt cg al) (ltnSE (nth_lt qg al))); move: ii; clear; lia.
have := point_pairing kd off uz.
rewrite (eq_big_seq (fun c' => \sum_(q' <- grid m d) ((c' == c) && (q' == q))%:R * share_of k c' q' z)); last first.
  by move=> c' cg'; apply: eq_big_seq => q' qg'; rewrite one.
rewrite (pick_one (fun c q => share_of k c q z)) // /share_of.
have -> : sign k q = 0.
  rewrite (bigD1 (Ordinal kd)) //= eqxx; have /andP[i0 i1] := inn k kd.
  by rewrite (ltn_eqF i1) (gtn_eqF i0) subrr mul0r.
rewrite mul0r sub0r => /eqP; rewrite oppr_eq0 mulf_eq0 (gt_eqF (W_gt0 qg)) /= => /eqP; exact.
Qed.
Lemma unseen_grad0 z c k y : unseen eps s z -> c \in grid n d -> (k < d)%N -> size y = d -> teval (tderiv k (pres z c)) y = 0.
Proof.
move=> uz cg kd; set xi := [seq nth 0 xv i | i <- iota 1 l].
have sxi : size xi = l by rewrite size_map size_iota.
apply: (@tunique _ d l _ xi); first exact: (tdeg_deriv k (pres_deg z c)).
- rewrite map_inj_in_uniq ?iota_uniq // => i j; rewrite !mem_iota => hi hj /eqP.
  rewrite nth_uniq ?szv //; [by move=> /eqP|move: hi|move: hj]; move: op; clear; lia.
- by rewrite sxi.
move=> w; rewrite (cart_grid d sxi) => /mapP[r rg ->].
have -> : [seq nth 0 xi i | i <- r] = pt [seq i.+1 | i <- r].
  rewrite -map_comp; apply/eq_in_map => i ir /=; have il : (i < l)%N.
    by move: rg; rewrite mem_grid => /andP[_ /allP]; apply.
  by rewrite (nth_map 0%N) ?size_iota // nth_iota.
have sr := size_grid_in rg.
apply: unseen_grad => //.
  rewrite mem_grid size_map sr eqxx /=; apply/allP => i /mapP[i' ir ->].
  have : (i' < l)%N by move: rg; rewrite mem_grid => /andP[_ /allP]; apply.
  by clear; lia.
move=> j jd; rewrite (nth_map 0%N) ?sr //; have := nth_lt rg jd; clear; lia.
Qed.
Lemma unseen_flat z c y y' : unseen eps s z -> c \in grid n d -> size y = d -> size y' = d -> teval (pres z c) y = teval (pres z c) y'.
Proof. by move=> uz cg; apply: (tconst (pres_deg z c)) => k w kd; apply: unseen_grad0. Qed.

(** Across a face nothing jumps. *)
Notation onf k x := (mkseq (fun b => if b == k then x else 1%N) d).
Lemma onf_grid k x : (x < m)%N -> onf k x \in grid m d.
Proof. by move=> xm; rewrite mem_grid size_mkseq eqxx /=; apply/allP => y /mapP[b' _ ->]; case: ifP => // _; exact: m2. Qed.
Lemma unseen_jump z c k : unseen eps s z -> c \in grid n d -> (k < d)%N -> ((nth 0%N c k).+1 < n)%N ->
  teval (pres z c) (nseq d 0) = teval (pres z (next k c)) (nseq d 0).
Proof.
move=> uz cg kd lt; have ng := next_grid kd cg; have o1 : (1 < order)%N := cf_order cf.
have q0g := onf_grid k (ltnSn order); have q1g := onf_grid k (ltn0Sn order).
have nk : nth 0%N (next k c) k = (nth 0%N c k).+1 by rewrite nth_set_nth /= eqxx modn_small.
have njk j : j != k -> nth 0%N (next k c) j = nth 0%N c j by move=> jk; rewrite nth_set_nth /= (negbTE jk).
set q0 := onf k order in q0g *; set q1 := onf k 0%N in q1g *.
have q0k : nth 0%N q0 k = order by rewrite nth_mkseq // eqxx.
have q1k : nth 0%N q1 k = 0%N by rewrite nth_mkseq // eqxx.
have q0j j : (j < d)%N -> j != k -> nth 0%N q0 j = 1%N by move=> jd jk; rewrite nth_mkseq // (negbTE jk).
have q1j j : (j < d)%N -> j != k -> nth 0%N q1 j = 1%N by move=> jd jk; rewrite nth_mkseq // (negbTE jk).
clearbody q0 q1.
have gk : (nth 0%N (global c q0) k = (nth 0%N c k).+1 * order)%N by rewrite (@nth_global d n m) // q0k /= mulSn addnC.
have kN : ((nth 0%N c k).+1 * order < N)%N by rewrite ltn_pmul2r //; exact: ltnW.
have two c' q' : c' \in grid n d -> q' \in grid m d ->
    (wrap (global c' q') == wrap (global c q0))%:R = ((c' == c) && (q' == q0))%:R + ((c' == next k c) && (q' == q1))%:R :> R.
  move=> cg' qg'.
  have dis : c != next k c by apply/eqP => /(congr1 (fun w => nth 0%N w k)); rewrite nk; clear; lia.
  case: eqP => [e|ne].
    have off j : (j < d)%N -> j != k -> nth 0%N c' j = nth 0%N c j /\ nth 0%N q' j = 1%N.
      move=> jd jk; have := congr1 (fun w => nth 0%N w j) e; rewrite !nth_wrap // !(@nth_global d n m) // q0j // => we.
      have := pos_wrap (nth_lt cg' jd) (nth_lt cg jd) (ltnSE (nth_lt qg' jd)) (ltnW o1 : 1 <= m.-1)%N we.
      by case=> // -[_ h]; move: h o1; clear; lia.
    have onk : (nth 0%N c' k = nth 0%N c k /\ nth 0%N q' k = order) \/ (nth 0%N c' k = (nth 0%N c k).+1 /\ nth 0%N q' k = 0%N).
      have := congr1 (fun w => nth 0%N w k) e; rewrite !nth_wrap // gk (ltn_eqF kN) andbF (@nth_global d n m) //.
      case: ifP => [_ /esym/eqP|_]; first by rewrite muln_eq0 /= (gtn_eqF (ltnW o1)).
      have yl := ltnSE (nth_lt qg' kd); move: yl o1; move: (nth 0%N c' k) (nth 0%N c k) (nth 0%N q' k) => x x0 y yl o1 /= e1.
      have e2 : (x * order + y = x0 * order + order)%N by rewrite e1 mulSn addnC.
      have [[-> ->]|[[y0|y0] _]] := pos_same yl (leqnn order) e2; [by left| |].
        right; split=> //; move: e1; rewrite y0 addn0 => /eqP; rewrite eqn_pmul2r ?(ltnW o1) //; by move=> /eqP.
      left; split=> //; move: e2; rewrite y0 => /eqP; rewrite eqn_add2r eqn_pmul2r ?(ltnW o1) //; by move=> /eqP.
    case: onk => -[ek qk].
      have -> : c' = c.
        apply: (@eq_from_nth _ 0%N); rewrite (size_grid_in cg') ?(size_grid_in cg) // => j jd.
        by have [->|jk] := eqVneq j k => //; have [] := off j jd jk.
      have -> : q' = q0.
        apply: (@eq_from_nth _ 0%N); rewrite (size_grid_in qg') ?(size_grid_in q0g) // => j jd.
        by have [->|jk] := eqVneq j k; [rewrite qk q0k|have [_ ->] := off j jd jk; rewrite q0j].
      by rewrite !eqxx (negbTE dis) addr0.
    have -> : c' = next k c.
      apply: (@eq_from_nth _ 0%N); rewrite (size_grid_in cg') ?(size_grid_in ng) // => j jd.
      by have [->|jk] := eqVneq j k; [rewrite ek nk|have [-> _] := off j jd jk; rewrite njk].
    have -> : q' = q1.
      apply: (@eq_from_nth _ 0%N); rewrite (size_grid_in qg') ?(size_grid_in q1g) // => j jd.
      by have [->|jk] := eqVneq j k; [rewrite qk q1k|have [_ ->] := off j jd jk; rewrite q1j].
    by rewrite !eqxx eq_sym (negbTE dis) add0r.
  case: andP => [[/eqP ec /eqP eq']|_]; first by case: ne; rewrite ec eq'.
  case: andP => [[/eqP ec /eqP eq']|_]; last by rewrite addr0.
  case: ne; rewrite ec eq'; congr (UnitCube_links.wrap d n pd m _); apply: (@eq_from_nth _ 0%N) => [|j].
    by rewrite !size_map !size_zip (size_grid_in cg) (size_grid_in ng) (size_grid_in q0g) (size_grid_in q1g).
  rewrite size_map size_zip (size_grid_in ng) (size_grid_in q1g) minnn => jd; rewrite !(@nth_global d n m) //.
  have [->|jk] := eqVneq j k; last by rewrite njk // q0j // q1j.
  by rewrite nk q0k q1k addn0 mulSn addnC.
have off ax : (ax < d)%N -> ax \notin pd -> nth 0%N (wrap (global c q0)) ax <> 0%N /\ nth 0%N (wrap (global c q0)) ax <> N.
  move=> al ap; rewrite nth_wrap // (negbTE ap) /=; have [->|ak] := eqVneq ax k.
    by rewrite gk; split=> e; move: kN; rewrite ?e ?ltnn //; move/eqP: e; rewrite muln_eq0 /= (gtn_eqF (ltnW o1)).
  rewrite (@nth_global d n m) // q0j //; split; first by rewrite addn1.
  by move=> /(pos_last (nth_lt cg al) (ltnW o1 : 1 <= m.-1)%N) e; move: o1; rewrite -[order]/(m.-1) -e.
have := point_pairing kd off uz.
rewrite (eq_big_seq (fun c' => \sum_(q' <- grid m d) ((c' == c) && (q' == q0))%:R * share_of k c' q' z + \sum_(q' <- grid m d) ((c' == next k c) && (q' == q1))%:R * share_of k c' q' z)); last first.
  by move=> c' cg'; rewrite -big_split /=; apply: eq_big_seq => q' qg'; rewrite two // mulrDl.
rewrite big_split /= !(pick_one (fun c q => share_of k c q z)) // /share_of.
have sp q' : q' \in grid m d -> size (pt q') = d by move=> qg'; rewrite size_map (size_grid_in qg').
rewrite !unseen_grad0 ?sp // !mulr0 !subr0.
rewrite (unseen_flat uz cg (sp _ q0g) (size_nseq d 0)) (unseen_flat uz ng (sp _ q1g) (size_nseq d 0)).
have S q' (x : R) : (forall j, (j < d)%N -> j != k -> nth 0%N q' j = 1%N) -> (nth 0%N q' k == order)%:R - (nth 0%N q' k == 0%N)%:R = x ->
    sign k q' = x * \prod_(i < d | i != Ordinal kd) nth 0 ws 1%N.
  move=> qj <-; rewrite (bigD1 (Ordinal kd)) //= eqxx; congr (_ * _); apply: eq_bigr => i; rewrite -val_eqE /= => ik.
  by rewrite (negbTE ik) qj.
rewrite (S q0 1) // ?(S q1 (-1)) //; last 2 first.
- by rewrite q1k eqxx (ltn_eqF (ltnW o1)) sub0r.
- by rewrite q0k eqxx (gtn_eqF (ltnW o1)) subr0.
have P0 : \prod_(i < d | i != Ordinal kd) nth 0 ws 1%N != 0 :> R.
  have := gt_eqF (W_gt0 (onf_grid k m2)); rewrite (bigD1 (Ordinal kd)) //= => /negbT; rewrite mulf_eq0 negb_or => /andP[_].
  by rewrite (eq_bigr (fun _ => nth 0 ws 1%N)) // => i _; rewrite nth_mkseq //; case: ifP.
move: (\prod_(i < d | _) _) P0 (teval _ _) (teval _ _) => P P0 x y; rewrite mul1r mulN1r mulNr -mulrBr => /eqP.
by rewrite mulf_eq0 (negbTE P0) /= subr_eq0 => /eqP.
Qed.
Lemma unseen_same z c : unseen eps s z -> c \in grid n d -> teval (pres z c) (nseq d 0) = teval (pres z (nseq d 0%N)) (nseq d 0).
Proof.
move=> uz; have [k le] := ubnP (\sum_(i < d) nth 0%N c i)%N; elim: k c le => // k IH c le cg; have sc := size_grid_in cg.
have [z0|/allPn[x /(nthP 0%N)[j jc <-] xj]] := boolP (all (fun x => x == 0%N) c).
  have -> // : c = nseq d 0%N by rewrite -sc; apply/all_pred1P.
rewrite sc in jc; pose c' := set_nth 0%N c j (nth 0%N c j).-1.
have jn := nth_lt cg jc.
have c'g : c' \in grid n d.
  have := cg; rewrite !mem_grid => /andP[_ /allP al]; rewrite /c' size_set_nth sc (maxn_idPr _) // eqxx /=.
  apply/(all_nthP 0%N) => i; rewrite size_set_nth sc (maxn_idPr _) // => id; rewrite nth_set_nth /=; case: eqP => _.
    by rewrite (leq_ltn_trans (leq_pred _)).
  by apply: al; rewrite mem_nth ?sc.
have c'j : nth 0%N c' j = (nth 0%N c j).-1 by rewrite nth_set_nth /= eqxx.
have j1 : (nth 0%N c' j).+1 = nth 0%N c j by rewrite c'j prednK // lt0n.
have nE : next j c' = c.
  apply: (@eq_from_nth _ 0%N); rewrite ?(size_grid_in (next_grid jc c'g)) ?sc // => i id.
  rewrite /next j1 modn_small // nth_set_nth /=; case: eqP => [->//|/eqP ij].
  by rewrite nth_set_nth /= (negbTE ij).
rewrite -nE -unseen_jump // ?j1 //; apply: IH => //.
apply: (leq_trans _ (ltnSE le)); rewrite (bigD1 (Ordinal jc)) //= [X in (_ < X)%N](bigD1 (Ordinal jc)) //= -j1 addSn ltnS leq_add2l.
rewrite leq_eqVlt; apply/orP; left; apply/eqP; apply: eq_bigr => i; rewrite -val_eqE /= => ij.
by rewrite nth_set_nth /= (negbTE ij).
Qed.
Theorem cube_kernel z : unseen eps s z <-> exists2 x, z = nseq (np s) x & (walls_fixed \/ forall axis, (axis < d)%N -> axis \in pd) \/ x = 0.
Proof.
split=> [uz|[x -> [cl|->]]]; last 2 first.
- split; first by rewrite size_nseq.
  move=> u cu; have [_ /(_ u cu) e] := cube_enclosed cl; rewrite -[RHS](mulr0 x) -[X in _ * X]e mulr_sumr; apply: eq_bigr => i _.
  by rewrite !nth_nseq ltn_ord mulr1 mulrC.
- by split=> [|u _]; rewrite ?size_nseq // big1 // => i _; rewrite nth_nseq ltn_ord mulr0.
pose x := teval (pres z (nseq d 0%N)) (nseq d 0); have [sz uz'] := uz.
have zE : z = nseq (np s) x.
  apply: (@eq_from_nth _ 0); rewrite ?size_nseq // sz => i il; rewrite nth_nseq il.
  have [c [j [cg jg ->]]] := pnd_exists il; rewrite -pres_node // /x -(unseen_same uz cg); apply: unseen_flat => //.
    by rewrite size_map (size_grid_in jg).
  exact: size_nseq.
exists x => //; have [->|x0] := eqVneq x 0; first by right.
left; apply/cube_enclosedE; split; first exact: size_nseq.
move=> u cu; apply/(mulIf x0); rewrite mul0r -[RHS](uz' u cu) mulr_suml; apply: eq_bigr => i _.
by rewrite zE !nth_nseq ltn_ord mulr1.
Qed.
End Kernel.
End Divergence.
End Made.
End Cube.
