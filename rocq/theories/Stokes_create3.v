(** Facts about what [sem_create] makes: the mass is diagonal and positive; the
    filter. *)
From mathcomp Require Import all_ssreflect all_algebra polyrcf zify ring.
From Verif Require Import PyDict_model PyDict_proofs GS_model GS_proofs GS_props Interp_model Interp_spec.
From Verif Require Import Gauss_proofs2 Interp_proofs2 Tensor_proofs Interp_props FES_model FES_proofs FES_proofs2 FES_props FES_props2 Premesh_model.
From Verif Require Import CG_model CG_proofs CG_props TimeCoef_model Stokes_model Stokes_spec Stokes_proofs Stokes_proofs2 Stokes_proofs3.
From Verif Require Import Stokes_create Stokes_create2.
Set Implicit Arguments.
Unset Strict Implicit.
Unset Printing Implicit Defensive.
Import Order.TTheory GRing.Theory Num.Theory.
Local Open Scope ring_scope.

Section Scatter.
Variables (R : rcfType) (d : nat).
Notation mesh := (FES_model.mesh R d).
Implicit Types (m : mesh) (p : seq R).

Lemma gather_entry m e k : proper m -> (e < num_elements m)%N -> (k < m_per_element m)%N ->
  (nth 0 (nth [::] (FES_model.m_elements m) e) k = SENT /\ forall p, gather_comp m p e k = 0) \/
  exists2 x, (x < nn m)%N & nth 0 (nth [::] (FES_model.m_elements m) e) k = Posz x /\ forall p, gather_comp m p e k = nth 0 p x.
Proof.
move=> [al ea] he hk; have se : size (nth [::] (FES_model.m_elements m) e) = m_per_element m.
  by apply/eqP; apply: (allP al); apply: mem_nth.
have hz : nth 0 (nth [::] (FES_model.m_elements m) e) k \in flatten (FES_model.m_elements m).
  by apply/flattenP; exists (nth [::] (FES_model.m_elements m) e); apply: mem_nth; rewrite ?se.
have := ea (index (nth 0 (nth [::] (FES_model.m_elements m) e) k) (flatten (FES_model.m_elements m))).
rewrite index_mem hz nth_index // => /(_ isT).
case=> [e1|[x hx e1]]; [left|right; exists x => //]; split=> // p;
  by rewrite /gather_comp /gather (nth_map 0) ?se // e1.
Qed.
(** Is node [k] of element [e] the global node [x]? *)
Definition is_node m x e k : bool := nth 0 (nth [::] (FES_model.m_elements m) e) k == Posz x.
Lemma gather_unit m x e k : proper m -> (x < nn m)%N -> (e < num_elements m)%N -> (k < m_per_element m)%N ->
  gather_comp m (unitv R (nn m) x) e k = (is_node m x e k)%:R.
Proof.
move=> pr hx he hk; rewrite /is_node; have [[-> H]|[y hy [-> H]]] := gather_entry pr he hk; rewrite H //.
by rewrite nth_mkseq // eqz_nat.
Qed.
Lemma scatter_sum m b x : proper m -> (x < nn m)%N ->
  nth 0 (scatter_comp m b) x = \sum_(e < num_elements m) \sum_(k < m_per_element m) b e k * (is_node m x e k)%:R.
Proof.
move=> pr hx; rewrite nth_scatter_comp //; apply: eq_bigr => e _; apply: eq_bigr => k _; by rewrite gather_unit.
Qed.
Lemma scatter_gather m b p x : proper m -> (x < nn m)%N ->
  nth 0 (scatter_comp m (fun e k => b e k * gather_comp m p e k)) x = nth 0 (scatter_comp m b) x * nth 0 p x.
Proof.
move=> pr hx; rewrite !scatter_sum // mulr_suml; apply: eq_bigr => e _; rewrite mulr_suml; apply: eq_bigr => k _.
rewrite /is_node; have [[-> H]|[y hy [-> H]]] := gather_entry pr (ltn_ord e) (ltn_ord k); first by rewrite !mulr0 !mul0r.
rewrite H eqz_nat; case: (y =P x) => [->|_]; by rewrite ?mulr1 ?mulr0 ?mul0r.
Qed.
Lemma scatter_gt0 m b x : proper m -> (x < nn m)%N -> Posz x \in flatten (FES_model.m_elements m) ->
  (forall e k, (e < num_elements m)%N -> (k < m_per_element m)%N -> 0 < b e k) -> 0 < nth 0 (scatter_comp m b) x.
Proof.
move=> pr hx /flattenP[el /(nthP [::])[e he <-] /(nthP 0)[k hk ek]] pos.
have [al _] := pr; have se : size (nth [::] (FES_model.m_elements m) e) = m_per_element m.
  by apply/eqP; apply: (allP al); apply: mem_nth.
rewrite se in hk; rewrite scatter_sum // (bigD1 (Ordinal he)) //= (bigD1 (Ordinal hk)) //=.
rewrite {1}/is_node ek eqxx mulr1 -addrA; apply: ltr_paddr; last exact: pos.
have g0 e' k' : (e' < num_elements m)%N -> (k' < m_per_element m)%N -> 0 <= b e' k' * (is_node m x e' k')%:R.
  by move=> h h'; rewrite mulr_ge0 ?ler0n // ltW // pos.
apply: addr_ge0; apply: sumr_ge0 => i _; first exact: g0.
by apply: sumr_ge0 => j _; apply: g0.
Qed.
End Scatter.

Section Create.
Variables (R : rcfType) (d : nat) (eps : R) (inv : 'M[R]_d -> 'M[R]_d) (L : eqType) (BCV : Type).
Notation rmesh := (Premesh_model.mesh [zmodType of 'rV[R]_d] L).
Variables (refined : nodes1d R -> ierror + rmesh) (K : nat) (F : nat -> 'I_d -> tpoly R).
Hypothesis fam : mesh_family refined K F.
Variables (order : nat) (bcs : seq (L * (bctype * BCV))) (s : sem R d).
Variables (gp gv : nodes1d R) (rp rv : rmesh) (quad : quadrature1d R).
Hypothesis cf : created_facts eps inv K F order bcs s gp gv rp rv quad.
Let d0 : (0 < d)%N := mf_dim fam.
Let op : (0 < order - 1)%N. Proof. by rewrite subn_gt0 (cf_order cf). Qed.
Let vE := feE (ltn0Sn _) (cf_gv cf) (cf_vm cf).
Let pE := feE op (cf_gp cf) (cf_pm cf).
Let ok := facts_ok cf.
Let eK : num_elements (vm s) = K := fe_num (ltn0Sn _) (cf_gv cf) (cf_rv cf) (cf_vm cf).
Let eKp : num_elements (pm s) = K := fe_num op (cf_gp cf) (cf_rp cf) (cf_pm cf).
Let eN : m_per_element (vm s) = (order.+1 ^ d)%N. Proof. by have [] := vE. Qed.

Lemma v_used x : (x < nv s)%N -> Posz x \in flatten (FES_model.m_elements (vm s)).
Proof. by have [eC -> _ _] := vE; rewrite /nv /nn eC; exact: (mo_used (cf_rv cf)). Qed.

Lemma quad_points q : (q < order.+1 ^ d)%N ->
  size (grid_point d (qd_nodes quad) q) = d /\ all (fun y => -1 <= y <= 1) (grid_point d (qd_nodes quad) q).
Proof.
have [_ hq sq] := quad_facts (ltn0Sn _) (cf_quad cf) => hlt.
have hm : grid_point d (qd_nodes quad) q \in cart (nseq d (nd_values (qd_nodes quad))).
  by apply: mem_nth; rewrite size_cart_nseq sq.
split; first exact: (size_cart_mem hm).
case: (order) hq (cf_order cf) => // N hq _.
have [srt sz cont _] := C33_lobatto_nodes hq.
have B y : y \in nd_values (qd_nodes quad) -> -1 <= y <= 1.
  move=> /(nthP 0)[i hi <-]; move: cont; rewrite /is_continuous -nth_last sz /= => /andP[/eqP e0 /eqP e1].
  have h := sorted_leq_nth le_trans le_refl 0 (sub_sorted (@ltW _ _) srt).
  apply/andP; split; [rewrite -e0|rewrite -e1]; apply: h; rewrite ?inE ?sz //; move: hi; by rewrite sz.
apply/allP => y hy; apply: B.
move: hm hy; move: (grid_point _ _ _) => x; rewrite mem_cart; elim: x (d) => [|a x IH] [|k] //= /andP[ha hx].
by rewrite inE => /orP[/eqP ->|/(IH k)] //; apply.
Qed.
Lemma weights_gt0 q : (q < order.+1 ^ d)%N -> 0 < nth 0 (getr (weights_nd quad d)) q.
Proof.
move=> hq; have [w hw [wE _ _]] := C36_weights_nd d0 (ltn0Sn _) (cf_quad cf).
rewrite hw /=; apply: (allP (weights_nd_pos (ltn0Sn _) (cf_quad cf) hw)); apply: mem_nth.
rewrite wE size_map size_cart_nseq; have [-> _ _ _] := C36_exact (ltn0Sn _) (cf_quad cf); exact: hq.
Qed.
Lemma mass_weight_gt0 e n : oriented_elements K F -> (e < K)%N -> (n < order.+1 ^ d)%N -> 0 < mass_weight s quad e n.
Proof.
move=> ori he hn; rewrite mulr_gt0 ?weights_gt0 //.
rewrite (fs_jac fam (ltn0Sn _) (cf_gv cf) (cf_rv cf) (cf_vm cf) (ltn0Sn _) (cf_quad cf) (cf_vs cf)) //; last by have := cf_order cf; lia.
have [sx bx] := quad_points hn; exact: ori.
Qed.
Lemma mass_entry c i : (c < d)%N ->
  ent (s_mass s) c i = nth 0 (scatter_comp (vm s) (mass_weight s quad)) i.
Proof.
move=> hc; rewrite (cf_massE cf) /v_scatter ent_scatter_vector //; congr nth; apply: scatter_ext => e n.
by rewrite -/(vm s) eK eN => he hn; rewrite (B_localE cf) //= mul1r.
Qed.
Lemma facts_positive : oriented_elements K F -> mass_positive s.
Proof.
move=> ori c i hc hi; rewrite mass_entry //; apply: scatter_gt0 => //; [exact: (ok_v ok)|exact: v_used|].
by rewrite eK eN => e k he hk; apply: mass_weight_gt0.
Qed.
(** The diagonal mass is the assembled mass matrix. *)
Lemma mass_assembled u c i : vgood s u -> (c < d)%N -> (i < nv s)%N ->
  ent (v_scatter (s_velocity s) (B_local eps (s_velocity s) (v_gather (s_velocity s) u))) c i = ent (s_mass s) c i * ent u c i.
Proof.
move=> gu hc hi; rewrite mass_entry // /v_scatter ent_scatter_vector // -/(vm s).
rewrite -(scatter_gather _ (nth [::] u c)) //; last exact: (ok_v ok).
congr nth; apply: scatter_ext => e n; rewrite eK eN => he hn; by rewrite (B_localE cf) // mulrC.
Qed.

(** ** The filter *)
Lemma qqt_gt0 i : (i < nv s)%N -> 0 < nth 0 (v_qqt (s_velocity s)) i.
Proof. move=> hi; rewrite (cf_qqt cf); apply: scatter_gt0 => //; [exact: (ok_v ok)|exact: v_used|by move=> *; exact: ltr01]. Qed.
Lemma size_qqt : size (v_qqt (s_velocity s)) = nv s.
Proof. by rewrite (cf_qqt cf) size_scatter_comp. Qed.

Lemma low_grid : exists low, nodes1d_create R order GAUSS_LOBATTO_LEGENDRE = inr low.
Proof. by apply: created_exists => //; exact: (cf_order cf). Qed.
Lemma filter_oneE low (x : seq R) : nodes1d_create R order GAUSS_LOBATTO_LEGENDRE = inr low -> size x = (order.+1 ^ d)%N ->
  exists M M', [/\ interpolation_matrix d gv low = inr M, interpolation_matrix d low gv = inr M' &
    filter_one d eps gv low x = inr (matvec M' (matvec M x))].
Proof.
move=> hl sx; have o0 : (0 < order)%N := ltnW (cf_order cf).
have [M hM e1] := @C37_interpolate_matrix R eps d _ _ _ _ _ _ x d0 (ltn0Sn _) o0 (cf_gv cf) hl sx.
have [_ _ sz _ _] := created_grid o0 hl; have l0 : nd_values low != [::] by rewrite -size_eq0 sz -lt0n.
have [M0 hM0 [sM _]] := C35_tensor_exact (ltn0Sn _) d0 (cf_gv cf) l0.
have sM' : size (matvec M x) = (order ^ d)%N by rewrite size_map; move: hM0 sM; rewrite hM => -[<-] ->; rewrite sz.
have [M' hM' e2] := @C37_interpolate_matrix R eps d _ _ _ _ _ _ (matvec M x) d0 o0 (ltn0Sn _) hl (cf_gv cf) sM'.
by exists M, M'; split=> //; rewrite /filter_one e1 e2.
Qed.
Lemma filter_one_low low (f : tpoly R) : nodes1d_create R order GAUSS_LOBATTO_LEGENDRE = inr low -> tdeg d order f ->
  let x := [seq teval f y | y <- cart (nseq d (nd_values gv))] in filter_one d eps gv low x = inr x.
Proof.
move=> hl df x; have o0 : (0 < order)%N := ltnW (cf_order cf).
have [_ _ sz _ _] := created_grid o0 hl; have l0 : nd_values low != [::] by rewrite -size_eq0 sz -lt0n.
have [_ _ sv _ _] := created_grid (ltn0Sn _) (cf_gv cf); have v0 : nd_values gv != [::] by rewrite -size_eq0 sv.
have sx : size x = (order.+1 ^ d)%N by rewrite size_map size_cart_nseq sv.
have [M [M' [hM hM' ->]]] := filter_oneE hl sx.
have [N1 e1 [_ H1]] := C35_tensor_exact (ltn0Sn _) d0 (cf_gv cf) l0.
have [N2 e2 [_ H2]] := C35_tensor_exact o0 d0 hl v0.
move: e1 e2 H1 H2; rewrite hM hM' => -[<-] [<-] H1 H2.
have df' := tdeg_le (leqnSn _) df; by rewrite H1 // H2.
Qed.

Notation filter := (filter eps).
Definition smoothed low (c : seq R) : seq R :=
  vmul (vinv (v_qqt (s_velocity s))) (scatter_comp (vm s) (filter_local eps (vm s) low c)).
Lemma filterE alpha u : exists2 low, nodes1d_create R order GAUSS_LOBATTO_LEGENDRE = inr low &
  filter s alpha u = inr [seq map2 +%R [seq (1 - alpha) * x | x <- c] [seq alpha * x | x <- smoothed low c] | c <- u].
Proof.
have [low hl] := low_grid; exists low => //; have [_ _ per gE] := vE.
have [np ty _ _ _] := created_grid (ltn0Sn _) (cf_gv cf).
rewrite /filter -/(vm s) gE np ty subn1 hl /= per.
have [M [M' [_ _ ->]]] := filter_oneE hl (size_nseq (order.+1 ^ d) 0).
by [].
Qed.
Lemma size_smoothed low c : size (smoothed low c) = nv s.
Proof. by rewrite size_vmul size_scatter_comp // size_map size_qqt. Qed.
Lemma nth_smoothed low c i : (i < nv s)%N ->
  nth 0 (smoothed low c) i = (nth 0 (v_qqt (s_velocity s)) i)^-1 * nth 0 (scatter_comp (vm s) (filter_local eps (vm s) low c)) i.
Proof. by move=> hi; rewrite nth_vmul ?size_map ?size_qqt ?size_scatter_comp // nth_vinv // size_qqt. Qed.
Lemma size_ssmoothed k low c : size [seq k * x | x <- smoothed low c] = nv s.
Proof. rewrite size_map; exact: size_smoothed. Qed.
Lemma size_scaled (k : R) c : size c = nv s -> size [seq k * x | x <- c] = nv s.
Proof. by rewrite size_map. Qed.
Lemma good_filter alpha u v : vgood s u -> filter s alpha u = inr v -> vgood s v.
Proof.
move=> gu; have [low _ ->] := filterE alpha u => -[<-]; apply: good_mapc => // c sc.
have e := size_ssmoothed alpha low c; by rewrite size_map2 // e size_scaled.
Qed.
Lemma ent_filter alpha u v low c i : vgood s u -> nodes1d_create R order GAUSS_LOBATTO_LEGENDRE = inr low ->
  filter s alpha u = inr v -> (c < d)%N -> ent v c i = (1 - alpha) * ent u c i + alpha * nth 0 (smoothed low (nth [::] u c)) i.
Proof.
move=> gu hl; have [low' hl' ->] := filterE alpha u => -[<-] hc; have <- : low' = low by move: hl'; rewrite hl => -[].
have e1 := size_ssmoothed alpha low' (nth [::] u c); have e2 := size_scaled (1 - alpha) (good_comp gu hc).
by rewrite /ent (ent_map _ gu) // nth_map2d ?addr0 // ?e1 ?e2 // nth_scale nth_scale.
Qed.
End Create.
