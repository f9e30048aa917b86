(** The momentum and pressure solves with conjugate gradients. *)
From mathcomp Require Import all_ssreflect all_algebra zify ring.
From Verif Require Import GS_model GS_proofs GS_props Interp_model FES_model FES_proofs FES_props.
From Verif Require Import CG_model CG_proofs CG_props CG_props2 CG_props3 TimeCoef_model Stokes_model Stokes_proofs Stokes_proofs2 Stokes_proofs3 Stokes_proofs4 Stokes_solve.
Set Implicit Arguments.
Unset Strict Implicit.
Unset Printing Implicit Defensive.
Import Order.TTheory GRing.Theory Num.Theory.
Local Open Scope ring_scope.

Lemma foldr_nth (R : realFieldType) (l : seq R) : foldr +%R 0 l = \sum_(i < size l) nth 0 l i.
Proof. by elim: l => [|x l IH] /=; rewrite ?big_ord0 // big_ord_recl IH. Qed.

Section Sem.
Variables (R : rcfType) (d : nat) (eps : R) (s : sem R d).
Hypothesis ok : sem_ok s.
Notation vel := (s_velocity s).
Notation pr := (s_pressure s).
Notation D := (@D R d eps s).
Notation Dt := (@Dt R d eps s).
Notation A := (@A R d eps s).
Notation E := (@Stokes_model.E R d eps s).
Notation H := (@H R d eps s).
Notation N := (nv s).
Notation vsh := (nseq d N).
Notation dot := (tree_vdot (@jnp_vdot R)).
Notation inner := (vinner d N).
Implicit Types (u v w : seq (seq R)) (p q r : seq R).

Lemma dot_vinner u v : vgood s u -> vgood s v -> dot u v = inner u v.
Proof.
move=> gu gv; rewrite /tree_vdot foldr_nth.
have su := good_size gu; have sv := good_size gv.
have sm : size (map2 (@jnp_vdot R) u v) = d by rewrite size_map size_zip su sv minnn.
rewrite sm; apply: eq_bigr => c _.
rewrite (nth_map ([::], [::])) ?size_zip ?su ?sv ?minnn // nth_zip ?su ?sv //= jnp_vdotE.
by rewrite (good_comp gu) // (good_comp gv) // minnn.
Qed.

Variable ids : seq int.
Hypothesis he : exchanges R N (v_gi vel) (v_ui vel) ids.
Let si : size ids = N. Proof. by case: he. Qed.
Notation mask := (nth 0 (v_mask vel)).
Hypotheses (mb : mask_binary s) (mc : consistent ids mask).
Let mcs : mask_consistent s. Proof. by exists ids. Qed.

(** Copies of a node have the same value. *)
Definition agrees u : Prop := forall c, (c < d)%N -> consistent ids (ent u c).
(** The velocities the solver works with: copies agree, zero on Dirichlet nodes. *)
Definition admissible u : Prop := [/\ vgood s u, vanishes s u & agrees u].

Lemma ent_exch_sum u c i : vgood s u -> (c < d)%N -> (i < N)%N ->
  ent (v_exchange vel u) c i = \sum_(j < N) (shared ids i j)%:R * ent u c j.
Proof.
move=> gu hc hi; rewrite (ent_exch _ he gu hc) ex_sum ?si ?(good_comp gu hc) //.
Qed.
Lemma agrees_exch u : vgood s u -> agrees (v_exchange vel u).
Proof.
move=> gu c hc k j; rewrite si => hk hj sh; rewrite !ent_exch_sum //; apply: eq_bigr => i _; by rewrite (shared_trans _ sh).
Qed.
Lemma exch_agrees u c i : vgood s u -> agrees u -> (c < d)%N -> (i < N)%N -> ent (v_exchange vel u) c i = mult R ids i * ent u c i.
Proof.
move=> gu au hc hi; rewrite ent_exch_sum // /mult mulr_suml; rewrite si; apply: eq_bigr => j _.
by case sk : (shared ids i j); rewrite ?mul0r // -(au c hc i j) // si.
Qed.
Lemma vanishes_exch u : vgood s u -> vanishes s u -> vanishes s (v_exchange vel u).
Proof.
move=> gu vu c i hc hi m0; rewrite ent_exch_sum // big1 // => j _; case sk : (shared ids i j); last by rewrite mul0r.
by rewrite vu ?mulr0 // -(mc (k := i) (j := j)) // si.
Qed.
Lemma masked_vanishing u : vgood s u -> vanishes s u -> v_masked vel u = u.
Proof.
move=> gu vu; apply: (good_eq (good_masked ok gu) gu) => c i hc hi; rewrite (ent_masked ok _ gu hc).
by have [m0|->] := mb hi; rewrite ?mul1r // m0 mul0r (vu c i).
Qed.
(** Adding up copies, without Dirichlet nodes. *)
Definition Mx u : seq (seq R) := v_exchange vel (v_masked vel u).
Lemma good_Mx u : vgood s u -> vgood s (Mx u).
Proof. by move=> gu; apply: good_exch; apply: (good_masked ok). Qed.
Lemma ent_Mx u c i : vgood s u -> (c < d)%N -> (i < N)%N -> ent (Mx u) c i = mask i * ent (v_exchange vel u) c i.
Proof.
move=> gu hc hi; have gm := good_masked ok gu; rewrite /Mx !ent_exch_sum // mulr_sumr; apply: eq_bigr => j _.
rewrite (ent_masked ok _ gu hc); case sk : (shared ids i j); last by rewrite !mul0r mulr0.
by rewrite !mul1r (mc (k := i) (j := j)) // si.
Qed.
Lemma Mx_admissible u : vgood s u -> admissible (Mx u).
Proof.
move=> gu; have gm := good_masked ok gu; split; [exact: good_Mx| |exact: agrees_exch].
by apply: vanishes_exch => //; exact: vanishes_masked.
Qed.
Lemma Mx_linear : tree_linear vsh Mx.
Proof.
split=> [u|a u v gu gv]; first exact: good_Mx.
have gw := good_add (good_scale a gu) gv; have [gu' gv'] := (good_Mx gu, good_Mx gv).
apply: (good_eq (good_Mx gw) (good_add (good_scale a gu') gv')) => c i hc hi.
rewrite (ent_add _ _ (good_scale a gu') gv') ent_scale !ent_Mx //.
have e c' i' : ent (tree_add (tree_scale a u) v) c' i' = a * ent u c' i' + ent v c' i' by rewrite (ent_add _ _ (good_scale a gu) gv) ent_scale.
rewrite (exch_lin ok c i gu gv gw e); ring.
Qed.
Lemma Mx_sym u v : vgood s u -> vgood s v -> dot u (Mx v) = dot (Mx u) v.
Proof.
move=> gu gv; have [gu' gv'] := (good_Mx gu, good_Mx gv); rewrite !dot_vinner //; apply: eq_bigr => c _.
have E a b : vgood s a -> vgood s b -> \sum_(i < N) ent (Mx a) c i * ent b c i =
    \sum_(k < size ids) mask k * nth 0 (serial_exchange ids (nth [::] a c)) k * nth 0 (nth [::] b c) k.
  by move=> ga gb; rewrite si; apply: eq_bigr => i _; rewrite ent_Mx // (ent_exch _ he ga).
have su : size (nth [::] u c) = size ids by rewrite si (good_comp gu).
have sv : size (nth [::] v c) = size ids by rewrite si (good_comp gv).
rewrite (E u v gu gv) (weighted_sym mc su sv) -(E v u gv gu).
by apply: eq_bigr => i _; rewrite mulrC.
Qed.

(** The admissible velocities are those that [Mx] returns. *)
Lemma admissible_Mx u : admissible u -> exists2 v, vgood s v & u = Mx v.
Proof.
move=> [gu vu au]; pose v : seq (seq R) := [seq mkseq (fun i => ent u c i / mult R ids i) N | c <- iota 0 d].
have gv : vgood s v by apply: goodP; [rewrite size_map size_iota|move=> c hc; rewrite (nth_map 0%N) ?size_iota // size_mkseq].
have ev c i : (c < d)%N -> (i < N)%N -> ent v c i = ent u c i / mult R ids i.
  by move=> hc hi; rewrite /ent (nth_map 0%N) ?size_iota // nth_iota // add0n nth_mkseq.
exists v => //; apply: (good_eq gu (good_Mx gv)) => c i hc hi.
have av : agrees v by move=> c' hc' k j hk hj sk; rewrite !ev -?si // (au c' hc' k j) // (mult_consistent R hk hj sk).
rewrite ent_Mx // exch_agrees // ev // (mulrC (mult R ids i)) divfK; last by rewrite gt_eqF // mult_gt0 // si.
by have [m0|->] := mb hi; rewrite ?mul1r // m0 mul0r (vu c i).
Qed.
Definition basis : seq (tree R) := [seq Mx w | w <- unit_trees R vsh].
Lemma size_basis : size basis = (d * N)%N.
Proof. by rewrite size_map size_unit_trees sumn_nseq mulnC. Qed.
Lemma good_basis w : w \in basis -> vgood s w.
Proof. by case/mapP => v /good_unit_trees gv ->; exact: good_Mx. Qed.
Lemma span_basis u : in_span vsh basis u <-> admissible u.
Proof.
have S := span_map Mx_linear u (@good_unit_trees R vsh); split=> [/S[v /span_unit_trees gv ->]|/admissible_Mx[v gv uE]].
  exact: Mx_admissible.
by apply/S; exists v => //; apply/span_unit_trees.
Qed.
Lemma Mx_pos u : admissible u -> u <> zero_tree R vsh -> 0 < dot u (Mx u).
Proof.
move=> [gu vu au] nz; rewrite dot_vinner //; last exact: good_Mx.
have E : inner u (Mx u) = \sum_(c < d) \sum_(i < N) mult R ids i * ent u c i ^+ 2.
  apply: eq_bigr => c _; apply: eq_bigr => i _; rewrite ent_Mx // exch_agrees //.
  by have [m0|->] := mb (ltn_ord i); [rewrite (vu c i) // !mulr0 expr0n mulr0|rewrite mul1r mulrCA].
have P c i : (i < N)%N -> 0 <= mult R ids i * ent u c i ^+ 2.
  by move=> hi; rewrite mulr_ge0 ?sqr_ge0 // ltW // mult_gt0 // si.
rewrite lt_neqAle E sumr_ge0 ?andbT => [|c _]; last by apply: sumr_ge0 => i _; exact: P.
rewrite eq_sym; apply/eqP => e; apply: nz; apply: (good_eq gu (good_zero R vsh)) => c i hc hi.
have Pc (c' : 'I_d) : true -> 0 <= \sum_(i < N) mult R ids i * ent u c' i ^+ 2 by move=> _; apply: sumr_ge0 => j _; exact: P.
have e1 := psumr_eq0P Pc e (i := Ordinal hc) isT.
have Pi (j : 'I_N) : true -> 0 <= mult R ids j * ent u c j ^+ 2 by move=> _; exact: P.
have /eqP := psumr_eq0P Pi e1 (i := Ordinal hi) isT.
rewrite /= mulf_eq0 sqrf_eq0 gt_eqF /=; last by rewrite mult_gt0 // si.
by move=> /eqP ->; rewrite /ent /zero_tree (nth_map 0%N) ?size_nseq // !nth_nseq hc hi.
Qed.

(** ** The momentum operator *)
Section Momentum.
Variables (beta dt mu : R).
Hypotheses (mp : mass_positive s) (wg : weights_ge0 s) (bdt : 0 < beta / dt) (mu0 : 0 <= mu).
Lemma H_inner u v : vgood s u -> vgood s v ->
  inner v (H beta dt mu u) = beta / dt * inner v (B s u) + mu * inner v (A u).
Proof.
move=> gu gv; rewrite /vinner !mulr_sumr -big_split; apply: eq_bigr => c _; rewrite !mulr_sumr -big_split; apply: eq_bigr => i _.
rewrite [ent (H _ _ _ _) _ _](ent_H eps ok beta dt mu c i gu) /=; move: (ent v c i) (beta / dt) (ent (B s u) c i) (ent (A u) c i) => x a y z; ring.
Qed.
Lemma B_inner u v : vgood s u -> vgood s v -> inner v (B s u) = \sum_(c < d) \sum_(i < N) mask i * ent (s_mass s) c i * (ent u c i * ent v c i).
Proof. by move=> gu gv; apply: eq_bigr => c _; apply: eq_bigr => i _; rewrite (ent_B ok _ gu) // mulrC mulrA. Qed.
Lemma H_spd : spd vsh dot (in_span vsh basis) (H beta dt mu).
Proof.
have gH w : vgood s w -> vgood s (H beta dt mu w) by exact: (good_H eps ok).
split=> [u v /span_basis[gu vu au] /span_basis[gv vv av]|u /span_basis[gu vu au] nz].
  have sB : inner u (B s v) = inner v (B s u).
    rewrite !B_inner //; apply: eq_bigr => c _; apply: eq_bigr => i _; by rewrite (mulrC (ent u c i)).
  have sA : inner u (A v) = inner v (A u).
    by apply: (etrans (vinnerC _ _ _ _)); apply: (etrans (A_sym eps ok mb gv gu vv vu)); exact: vinnerC.
  apply: (etrans (dot_vinner gu (gH v gv))); apply: (etrans (H_inner gv gu)).
  apply: (etrans (congr2 (fun x y => beta / dt * x + mu * y) sB sA)).
  by apply: (etrans (esym (H_inner gu gv))); apply: (etrans _ (esym (dot_vinner (gH u gu) gv))); exact: vinnerC.
have X := etrans (dot_vinner gu (gH u gu)) (H_inner gu gu); apply: (eq_ind_r (fun x => 0 < x) _ X) => {X}.
apply: ltr_paddr.
  by rewrite mulr_ge0 // vinnerC; exact: (A_ge0 eps ok wg mb gu vu).
rewrite mulr_gt0 // B_inner //.
have P c i : (c < d)%N -> (i < N)%N -> 0 <= mask i * ent (s_mass s) c i * (ent u c i * ent u c i).
  move=> hc hi; rewrite mulr_ge0 // -?expr2 ?sqr_ge0 // mulr_ge0 //; last by rewrite ltW // mp.
  by have [->|->] := mb hi; rewrite ?ler01.
have Pc (c : 'I_d) : true -> 0 <= \sum_(i < N) mask i * ent (s_mass s) c i * (ent u c i * ent u c i).
  by move=> _; apply: sumr_ge0 => i _; exact: P.
rewrite lt_neqAle sumr_ge0 ?andbT => [|c _]; last exact: Pc.
rewrite eq_sym; apply/eqP => e; apply: nz; apply: (good_eq gu (good_zero R vsh)) => c i hc hi.
have -> : ent (zero_tree R vsh) c i = 0 by rewrite /ent /zero_tree (nth_map 0%N) ?size_nseq // !nth_nseq hc hi.
have [m0|m1] := mb hi; first exact: vu.
have e1 := psumr_eq0P Pc e (i := Ordinal hc) isT.
have Pi (j : 'I_N) : true -> 0 <= mask j * ent (s_mass s) c j * (ent u c j * ent u c j) by move=> _; exact: P.
have /eqP := psumr_eq0P Pi e1 (i := Ordinal hi) isT.
by rewrite /= m1 mul1r mulf_eq0 (gt_eqF (mp hc hi)) /= mulf_eq0 orbb => /eqP.
Qed.
Lemma vanishes_H u : vgood s u -> vanishes s (H beta dt mu u).
Proof.
move=> gu c i hc hi m0; rewrite (ent_H eps ok beta dt mu c i gu) (ent_B ok _ gu) // m0 !mul0r mulr0 add0r.
by rewrite (vanishes_masked ok (good_vscatter _ _)) // mulr0.
Qed.
Lemma space_vanishes : linear_space vsh (fun u => vgood s u /\ vanishes s u).
Proof.
split=> [u [] //||a u v [gu vu] [gv vv]].
  split=> [|c i hc hi _]; first exact: good_zero.
  by rewrite /ent /zero_tree (nth_map 0%N) ?size_nseq // !nth_nseq hc hi.
split=> [|c i hc hi m0]; first by apply: good_add => //; exact: good_scale.
by rewrite (ent_add _ _ (good_scale a gu) gv) ent_scale vu // vv // mulr0 addr0.
Qed.
(** Conjugate gradients with the exchange as preconditioner. *)
Theorem momentum_solve b tol atol : vgood s b -> vanishes s b -> exists x gamma k,
  [/\ cg (H beta dt mu) b None tol atol None (Some (v_exchange vel)) (@jnp_vdot R) = CGDone x gamma k, (k <= d * N)%N, admissible x &
      tol = 0 -> atol = 0 -> gamma = 0 /\ v_exchange vel (H beta dt mu x) = v_exchange vel b].
Proof.
move=> gb vb; have gH w : vgood s w -> vgood s (H beta dt mu w) by exact: (good_H eps ok).
have E : cg (H beta dt mu) b None tol atol None (Some (v_exchange vel)) (@jnp_vdot R) = cg (H beta dt mu) b None tol atol None (Some Mx) (@jnp_vdot R).
  apply: (@cg_ext R vsh (H beta dt mu) (v_exchange vel) Mx (@jnp_vdot R) b (vgood s) (fun u => vgood s u /\ vanishes s u)) => //.
  - exact: space_good.
  - exact: space_vanishes.
  - by move=> p gp; split; [exact: gH|exact: vanishes_H].
  - by move=> r [gr _]; exact: good_exch.
  - by move=> r [gr vr]; rewrite /Mx masked_vanishing.
have [||x [g [k [h1 h2 [y /span_basis ay xE] h4]]]] := @C63_dual R vsh (H beta dt mu) Mx (@jnp_vdot R) b None basis gb I (H_linear eps ok beta dt mu)
  good_Mx (@C42_default_dot R vsh) (@vdot_pos R vsh) good_basis _ Mx_sym H_spd _ tol atol None.
- by move=> r gr; apply/span_basis; exact: Mx_admissible.
- by move=> u /span_basis; exact: Mx_pos.
have [gy vy agy] := ay.
have xy : x = y.
  rewrite xE /start; have [g0 e0] := vecD (good_zero R vsh) gy; apply: (vec_inj g0 gy); by rewrite e0 vec_zero add0r.
rewrite -xy in ay gy vy agy; exists x, g, k; split=> //; [by rewrite E|by rewrite -size_basis|].
move=> t0 a0; have [|-> e] := h4 t0 a0.
  by rewrite /limit size_basis sumn_nseq mulnC leq_pmull.
split=> //; have gHx := gH x gy; have vHx := vanishes_H gy.
have -> : v_exchange vel (H beta dt mu x) = Mx (H beta dt mu x) by rewrite /Mx masked_vanishing.
have -> : v_exchange vel b = Mx b by rewrite /Mx masked_vanishing.
have [gr er] := vecB gHx gb; set r := tree_sub _ _ in gr er.
have rE : r = tree_add (tree_scale (-1) b) (H beta dt mu x) := sub_comb gHx gb.
have Mr : Mx r = zero_tree R vsh.
  apply: (dot_eq0 (@vdot_pos R vsh) (good_Mx gr)).
  have Vr : in_span vsh basis (Mx (Mx r)) by apply/span_basis; apply: Mx_admissible; exact: good_Mx.
  apply: (etrans (esym (Mx_sym gr (good_Mx gr)))); move: Vr (good_Mx (good_Mx gr)); move: (Mx (Mx r)) => w Vw gw.
  have okd := @C42_default_dot R vsh; have [_ dc] := okd; apply: (etrans (dc _ _ gr gw)).
  apply: (etrans (congr1 (dot w) rE)); apply: (etrans (dot_comb_r okd _ gb gHx gw)).
  by rewrite (e w Vw) mulN1r addNr.
have [gx gb'] := (good_Mx gHx, good_Mx gb); have := proj2 Mx_linear (-1) _ _ gb gHx; rewrite -rE Mr => /esym.
rewrite -(sub_comb gx gb') => e1; have [_ e2] := vecB gx gb'.
by apply: (vec_inj gx gb'); apply/eqP; rewrite -subr_eq0 -e2 e1 vec_zero.
Qed.
End Momentum.
End Sem.
