(** C59: time steps with conjugate gradients always end, and with zero tolerances
    they solve the equations. *)
From mathcomp Require Import all_ssreflect all_algebra polyrcf zify ring.
From Verif Require Import PyDict_model PyDict_proofs GS_model GS_proofs GS_props Interp_model Interp_spec.
From Verif Require Import Gauss_proofs2 Interp_proofs2 Tensor_proofs Interp_props FES_model FES_proofs FES_proofs2 FES_props FES_props2 Premesh_model.
From Verif Require Import UnitCube_model.
From Verif Require Import CG_model CG_proofs CG_props CG_props2 CG_props3 TimeCoef_model TimeCoef_props Stokes_model Stokes_spec Stokes_proofs Stokes_proofs2 Stokes_proofs3.
From Verif Require Import Stokes_create Stokes_create2 Stokes_create3 Stokes_proofs4 Stokes_create4 Stokes_solve Stokes_momentum Stokes_pressure Stokes_props Stokes_props2 Stokes_family Stokes_instance Stokes_props3.
Set Implicit Arguments.
Unset Strict Implicit.
Unset Printing Implicit Defensive.
Import Order.TTheory GRing.Theory Num.Theory.
Local Open Scope ring_scope.

Section Step.
Variables (R : rcfType) (d : nat) (eps : R) (inv : 'M[R]_d -> 'M[R]_d) (L : eqType) (BCV : Type).
Notation rmesh := (Premesh_model.mesh [zmodType of 'rV[R]_d] L).
Variables (refined : nodes1d R -> ierror + rmesh) (K : nat) (F : nat -> 'I_d -> tpoly R).
Hypothesis fam : mesh_family refined K F.
Variables (o order overint : nat) (bcs : seq (L * (bctype * BCV))) (s : sem R d).
Hypothesis hs : sem_create eps inv refined o order bcs overint = inr s.
Notation vel := (s_velocity s).
Notation pr := (s_pressure s).
Notation D := (@D R d eps s).
Notation Dt := (@Dt R d eps s).
Notation A := (@A R d eps s).
Notation E := (@Stokes_model.E R d eps s).
Notation H := (@Stokes_model.H R d eps s).
Notation np := (np s).
Notation nv := (nv s).
Implicit Types (u v w : seq (seq R)) (p q z : seq R).

(** The velocities of the discrete problem: zero on Dirichlet nodes, and all copies
    of a node of a periodic mesh have the same value, so that adding up copies
    multiplies by their number. *)
Definition conforming u : Prop :=
  [/\ vgood s u, forall c i, (c < d)%N -> (i < nv)%N -> dirichlet_node s i -> ent u c i = 0 &
      forall c i, (c < d)%N -> (i < nv)%N -> ent (v_exchange vel u) c i = ent (v_exchange vel (nseq d (nseq nv 1))) c i * ent u c i].
(** The pressures that are orthogonal to the divergences of all of them. *)
Definition unseen z : Prop := size z = np /\ forall u, conforming u -> \sum_(i < np) nth 0 (D u) i * nth 0 z i = 0.
(** No conforming velocity has a net flux out of the domain. *)
Definition enclosed : Prop := unseen (nseq np 1).

Let good_ones : vgood s (nseq d (nseq nv 1)).
Proof. by apply: goodP => [|c hc]; rewrite ?nth_nseq ?hc size_nseq. Qed.
Section Ids.
Variable ids : seq int.
Hypothesis he : exchanges R nv (v_gi vel) (v_ui vel) ids.
Let si : size ids = nv. Proof. by case: he. Qed.
Lemma exch_ones c i : (c < d)%N -> (i < nv)%N -> ent (v_exchange vel (nseq d (nseq nv 1))) c i = mult R ids i.
Proof.
move=> hc hi; rewrite (ent_exch_sum he good_ones hc hi) /mult si; apply: eq_bigr => j _.
by rewrite /ent nth_nseq hc nth_nseq ltn_ord mulr1.
Qed.
Lemma conformingP u : conforming u <-> admissible s ids u.
Proof.
split=> [[gu vu au]|[gu vu au]]; split=> //.
  move=> c hc k j; rewrite si => hk hj sk.
  have m0 i : (i < nv)%N -> mult R ids i != 0 by move=> hi; rewrite gt_eqF // mult_gt0 // si.
  have X i : (i < nv)%N -> mult R ids i * ent u c i = ent (v_exchange vel u) c i by move=> hi; rewrite (au c i hc hi) exch_ones.
  apply: (mulfI (m0 _ hk)); rewrite X // (mult_consistent R _ _ sk) ?si // X //.
  by apply: (agrees_exch he gu hc) => //; rewrite si.
by move=> c i hc hi; rewrite exch_ones // (exch_agrees he).
Qed.
End Ids.

Section Facts.
Variables (dt beta : R).
Hypotheses (o2 : (2 < order)%N) (ori : oriented_elements K F) (dt0 : 0 < dt) (b0 : 0 < beta).

Lemma kernel_unseen z : size z = np -> E dt beta z = nseq np 0 -> unseen z.
Proof.
move=> sz ez; have [gp [gv [rp [rv [quad cf]]]]] := created fam hs; have [ids he mc] := facts_consistent cf.
split=> // u /(conformingP he) au.
exact: (D_compatible (facts_ok cf) he (facts_binary cf) mc (facts_geometry fam cf o2) (facts_positive fam cf ori) dt0 b0 au sz ez).
Qed.
(** B^-1 D^T q is conforming. *)
Lemma conforming_correction (a : R) q : conforming (tree_scale a (Bi s (Dt q))).
Proof.
have [gp [gv [rp [rv [quad cf]]]]] := created fam hs; have [ids he mc] := facts_consistent cf; have ok := facts_ok cf.
have gD := good_Dt eps ok q; have gB := good_Bi ok gD; have mcs : mask_consistent s by exists ids.
apply/(conformingP he); split; first exact: good_scale.
  by move=> c i hc hi m0; rewrite ent_scale (vanishes_Bi ok mcs gD (@vanishes_Dt R d eps s ok q)) ?mulr0.
move=> c hc k j hk hj sk; have [si _] := he; rewrite !ent_scale; congr (_ * _).
have hk' : (k < nv)%N by rewrite -si. have hj' : (j < nv)%N by rewrite -si.
rewrite (ent_Bi ok gD hc hk') (ent_Bi ok gD hc hj').
by rewrite (inv_mass_consistent ok he hc hk hj sk) (agrees_exch he gD hc hk hj sk).
Qed.
Lemma unseen_kernel z : unseen z -> E dt beta z = nseq np 0.
Proof.
move=> [sz uz]; have [gp [gv [rp [rv [quad cf]]]]] := created fam hs; have [ids he mc] := facts_consistent cf; have ok := facts_ok cf.
have gD := good_Dt eps ok z; have mcs : mask_consistent s by exists ids.
have e0 := uz _ (conforming_correction (dt / beta) z).
have e1 := etrans (esym (E_inner eps ok dt beta (facts_geometry fam cf o2) (facts_binary cf) mcs sz sz)) e0.
have {}e1 : vinner d nv (Bi s (Dt z)) (Dt z) = 0.
  by apply/eqP; move/eqP: e1; rewrite mulf_eq0 (gt_eqF (divr_gt0 dt0 b0)).
have ex := Bi_eq0 ok he (facts_positive fam cf ori) gD e1.
have gQ := good_Q ok dt beta gD; have gz := good_zero R (nseq d nv).
have X c i : ent (Q s dt beta (Dt z)) c i = 0 * ent (Q s dt beta (Dt z)) c i + ent (zero_tree R (nseq d nv)) c i.
  rewrite mul0r add0r; case: (ltnP c d) => hc; last by rewrite (ent_out _ gQ hc) (ent_out _ gz hc).
  case: (ltnP i nv) => hi; last by rewrite (ent_beyond _ gQ hi) (ent_beyond _ gz hi).
  rewrite ent_scale (ent_Bi ok gD hc hi) ex // !mulr0.
  by rewrite /ent /zero_tree (nth_map 0%N) ?size_nseq // !nth_nseq hc hi.
have Y c i : ent (zero_tree R (nseq d nv)) c i = -1 * ent (zero_tree R (nseq d nv)) c i + ent (zero_tree R (nseq d nv)) c i.
  by rewrite mulN1r addNr; case: (ltnP c d) => hc; [case: (ltnP i nv) => hi|]; rewrite ?(ent_out _ gz hc) ?(ent_beyond _ gz hi) //
    /ent /zero_tree (nth_map 0%N) ?size_nseq // !nth_nseq hc hi.
apply: (@eq_from_nth _ 0); first by rewrite [LHS](size_E eps s dt beta z) size_nseq.
move=> i _; rewrite nth_nseq if_same; apply: (etrans (D_lin eps ok i gQ gz gQ X)); rewrite mul0r add0r.
apply: (etrans (D_lin eps ok i gz gz gz Y)); by rewrite mulN1r addNr.
Qed.
End Facts.

(** ** The step *)
Variables (tol atol : R) (us : seq (seq (seq R))) (ps : seq (seq R)) (f : seq (seq R)) (mu dt : R) (k : nat) (alpha : R)
  (lift : option (seq (seq R))) (project : bool).
Hypotheses (o2 : (2 < order)%N) (ori : oriented_elements K F) (dt0 : 0 < dt) (mu0 : 0 <= mu) (k0 : (0 < k)%N).
Hypothesis us_good : forall j, (j < size us)%N -> vgood s (nth [::] us j).
Hypothesis ps_good : forall j, (j < size ps)%N -> size (nth [::] ps j) = np.
Hypothesis ps_two : (1 < size ps)%N.
(** The force is zero on Dirichlet nodes. *)
Hypothesis f_good : vgood s f.
Hypothesis f_zero : forall c i, (c < d)%N -> (i < nv)%N -> dirichlet_node s i -> ent f c i = 0.
(** The filter keeps velocities conforming. *)
Hypothesis filtered : forall u u2, conforming u -> filter eps s alpha u = inr u2 -> conforming u2.
(** The divergence of the (filtered) lift can be balanced by that of a conforming velocity. *)
Hypothesis lift_good : if lift is Some ub then vgood s ub else True.
Hypothesis lift_balanced : if lift is Some ub then forall u2 z, filter eps s alpha ub = inr u2 -> unseen z ->
  \sum_(i < np) nth 0 (D u2) i * nth 0 z i = 0 else True.
(** Constants are only projected out if nothing flows through the boundary. *)
Hypothesis projected : project -> enclosed.
Notation step := (stokes_one_step eps (cg_solver tol atol) s us ps f mu dt k alpha lift None project).

Let ok : sem_ok s. Proof. by have [gp [gv [rp [rv [quad cf]]]]] := created fam hs; exact: (facts_ok cf). Qed.
Let bdf_gt0 bdf : bdfk_coeffs R k = inr bdf -> 0 < nth 0 bdf k.
Proof. by move=> hb; have [] := C44_last k0 hb. Qed.
Let exp q : size q = np -> p_exchange pr q = q.
Proof. by have [gp [gv [rp [rv [quad cf]]]]] := created fam hs; exact: (facts_pexchange cf). Qed.

Lemma solve_momentum b beta : 0 < beta -> vgood s b -> vanishes s b -> exists x,
  [/\ cg_solver tol atol (H beta dt mu) b (Some (v_exchange vel)) = Some x, conforming x &
      tol = 0 -> atol = 0 -> v_exchange vel (H beta dt mu x) = v_exchange vel b].
Proof.
move=> b0 gb vb; have [gp [gv [rp [rv [quad cf]]]]] := created fam hs; have [ids he mc] := facts_consistent cf.
have [x [g [n [h1 h2 h3 h4]]]] := momentum_solve eps ok he (facts_binary cf) mc (facts_positive fam cf ori)
  (facts_weights fam cf ori) (divr_gt0 b0 dt0) mu0 tol atol gb vb.
exists x; split; [by rewrite /cg_solver h1|by apply/(conformingP he)|by move=> t0 a0; have [] := h4 t0 a0].
Qed.
Lemma solve_pressure u beta : 0 < beta -> vgood s u -> (forall z, unseen z -> \sum_(i < np) nth 0 (D u) i * nth 0 z i = 0) -> exists dp,
  [/\ cg_solver tol atol (E_tree eps s dt beta) [:: [seq - x | x <- D u]] (preconditioner eps s None project) = Some [:: dp], size dp = np &
      tol = 0 -> atol = 0 -> E dt beta dp = [seq - x | x <- D u]].
Proof.
move=> b0 gu comp; have [gp [gv [rp [rv [quad cf]]]]] := created fam hs; have [ids he mc] := facts_consistent cf.
have comp' z : size z = np -> E dt beta z = nseq np 0 -> pinner np (D u) z = 0.
  by move=> sz ez; apply: comp; exact: (kernel_unseen o2 ori dt0 b0 sz ez).
have proj : project -> E dt beta (nseq np 1) = nseq np 0 by move=> /projected en; exact: unseen_kernel.
have [dp [g [n [h1 h2 h3 h4]]]] := pressure_solve ok he (facts_binary cf) mc (facts_geometry fam cf o2) (facts_positive fam cf ori) dt0 b0
  tol atol gu exp comp' proj.
by exists dp; split; [rewrite /cg_solver h1| |move=> t0 a0; have [] := h4 t0 a0].
Qed.
(** What the pressure solve is given can be balanced. *)
Lemma tentative_balanced u0 u1 u2 : conforming u0 -> vgood s u1 ->
  (forall c i, ent u1 c i = ent u0 c i + (if lift is Some ub then ent ub c i else 0)) -> filter eps s alpha u1 = inr u2 ->
  forall z, unseen z -> \sum_(i < np) nth 0 (D u2) i * nth 0 z i = 0.
Proof.
move=> c0 g1 e1 h2 z uz; have [g0 _ _] := c0; have [gp [gv [rp [rv [quad cf]]]]] := created fam hs.
case: (lift) lift_good lift_balanced e1 => [ub|] gub bal e1; last first.
  have u10 : u1 = u0 by apply: (good_eq g1 g0) => c i _ _; rewrite e1 addr0.
  by rewrite u10 in h2; apply: (proj2 uz); exact: filtered h2.
have [v0 [vb [f0 fb]]] := C49_linear fam hs alpha 1 g0 gub.
have u1E : u1 = tree_add (tree_scale 1 u0) ub.
  by apply: (good_eq g1 (good_add (good_scale 1 g0) gub)) => c i _ _; rewrite e1 (ent_add _ _ (good_scale 1 g0) gub) ent_scale mul1r.
rewrite -u1E h2 => -[u2E]; have [gv0 gvb] := (good_filter fam cf g0 f0, good_filter fam cf gub fb); have g2 := good_filter fam cf g1 h2.
have e c i : ent u2 c i = 1 * ent v0 c i + ent vb c i by rewrite u2E (ent_add _ _ (good_scale 1 gv0) gvb) ent_scale.
have eD i : nth 0 (D u2) i = nth 0 (D v0) i + nth 0 (D vb) i.
  by apply: (etrans (D_lin eps ok i gv0 gvb g2 e)); rewrite mul1r.
have sumD (a b c' y : nat -> R) : (forall i, a i = b i + c' i) ->
    \sum_(i < np) b i * y i = 0 -> \sum_(i < np) c' i * y i = 0 -> \sum_(i < np) a i * y i = 0.
  by move=> ea b0 c0'; under eq_bigr do rewrite ea mulrDl; rewrite big_split /= b0 c0' addr0.
exact: (sumD _ _ _ (nth 0 z) eD (proj2 uz v0 (filtered c0 f0)) (bal vb z fb uz)).
Qed.

(** The step never meets a division by zero, for any tolerances. *)
Theorem C59_ends : exists u p, step = inr (u, p).
Proof.
have [ext he [sE _]] := @C43_exact R 1 isT; have [bdf hb [sb _]] := C44_exact R k0; have b0 := bdf_gt0 hb.
rewrite /stokes_one_step he /=; case hp : (p_extrapolated ext ps) => [e|p_ext].
  by move: hp; rewrite /p_extrapolated sE ltnNge ps_two.
rewrite hb /=; have lb : last 0 bdf = nth 0 bdf k by rewrite -nth_last sb.
rewrite lb /tentative; set rhs := momentum_rhs _ _ _ _ _ _ _ _ _ _; have [grhs vrhs] : vgood s rhs /\ vanishes s rhs.
  have gz : vgood s (zeros_like (s_mass s)) := good_zeros (ok_mass ok).
  have [gh _] := history_good (take (size bdf).-1 bdf) gz us_good.
  have gw : vgood s (tree_scale (1 / dt) (history_sum s (take (size bdf).-1 bdf) us)) := good_scale _ gh.
  have gD := good_Dt eps ok p_ext; have gB := good_B ok gw; have gf1 := good_add f_good gD; have gf2 := good_sub gf1 gB.
  have v2 : vanishes s (tree_sub (tree_add f (Dt p_ext)) (B s (tree_scale (1 / dt) (history_sum s (take (size bdf).-1 bdf) us)))).
    move=> c i hc hi m0; rewrite (ent_sub _ _ gf1 gB) (ent_add _ _ f_good gD) f_zero // (vanishes_Dt eps ok) // (ent_B ok _ gw) // m0.
    by rewrite !mul0r addr0 subr0.
  rewrite /rhs /momentum_rhs; case: (lift) lift_good => [ub|] gub //; have gH := good_H eps ok (nth 0 bdf k) dt mu gub.
  split; first exact: good_sub.
  by move=> c i hc hi m0; rewrite (ent_sub _ _ gf2 gH) v2 // (vanishes_H eps ok) // subr0.
have [u0 [-> c0 _]] := solve_momentum b0 grhs vrhs; have [g0 _ _] := c0.
rewrite /sbind; set u1 := (if lift is Some ub then _ else _).
have [g1 e1] : vgood s u1 /\ forall c i, ent u1 c i = ent u0 c i + (if lift is Some ub then ent ub c i else 0).
  rewrite /u1; case: (lift) lift_good => [ub|] gub; last by split=> // c i; rewrite addr0.
  by split=> [|c i]; [exact: good_add|rewrite (ent_add _ _ g0 gub)].
have [gp [gv [rp [rv [quad cf]]]]] := created fam hs.
have [low _ h2] := filterE fam cf alpha u1; have g2 := good_filter fam cf g1 h2; move: h2 g2; set u2 := [seq _ | c <- u1]; move=> h2 g2.
rewrite h2; have [dp [h _ _]] := solve_pressure b0 g2 (tentative_balanced c0 g1 e1 h2).
rewrite [cg_solver _ _ _ _ _](h); by do 2 eexists.
Qed.
(** With zero tolerances the velocity it returns has no divergence, and it is
    conforming up to the filtered lift; the tentative velocity solves the momentum
    equation. *)
Theorem C59_exact u p : tol = 0 -> atol = 0 -> step = inr (u, p) ->
  [/\ vgood s u, D u = nseq np 0,
      exists2 v, conforming v & forall c i, (c < d)%N -> (i < nv)%N -> ent u c i = ent v c i +
        (if lift is Some ub then (if filter eps s alpha ub is inr ub2 then ent ub2 c i else 0) else 0) &
      size us = k -> exists bdf p_ext u1, [/\ vgood s u1, corrected eps s ps dt k alpha bdf p_ext u1 u p &
        momentum_of eps s us f mu dt k bdf p_ext u1 (v_exchange vel)]].
Proof.
move=> t0 a0 h; have shv bdf hb := (cg_shapes fam hs tol atol mu dt (k := k) (given := None) project I (bdf := bdf) hb).1.
have shp bdf hb := (cg_shapes fam hs tol atol mu dt (k := k) (given := None) project I (bdf := bdf) hb).2.
have [bdf [p_ext [u0 [u1 [u2 [dp [_ parts]]]]]]] := stepP fam hs shv shp us_good ps_good f_good lift_good k0 h.
have b0 := bdf_gt0 (sp_bdf parts).
have M b : cg_solver tol atol (H (nth 0 bdf k) dt mu) b (Some (v_exchange vel)) = Some u0 -> vgood s b -> vanishes s b ->
    conforming u0 /\ v_exchange vel (H (nth 0 bdf k) dt mu u0) = v_exchange vel b.
  move=> hM gb vb; have [x [hx cx ex]] := solve_momentum b0 gb vb; move: hM; rewrite hx => -[<-]; split=> //; exact: ex.
have c0 : conforming u0 by have [b [hM [gb [vb _]]]] := sp_momentum parts; have [] := M b hM gb (vb f_zero).
have mom : size us = k -> momentum_of eps s us f mu dt k bdf p_ext u1 (v_exchange vel).
  by move=> su; apply: (assembled_step fam hs us_good f_good lift_good su parts) => b hM gb vb; have [] := M b hM gb (vb f_zero).
move: parts => [hb [sx ex1] g0 [g1 e1] [g2 h2] sdp [gu eu] [sp ep] _ hp].
have bal := tentative_balanced c0 g1 e1 h2.
have Ed : E dt (nth 0 bdf k) dp = [seq - x | x <- D u2].
  by have [q [hq _ eq]] := solve_pressure b0 g2 bal; move: hp; rewrite hq => -[<-]; exact: eq.
split=> //.
- have eD i := divergence_residual fam hs i hb g2 gu eu.
  apply: (@eq_from_nth _ 0); first by rewrite size_D size_nseq.
  by move=> i; rewrite size_D => hi; rewrite eD Ed subrr nth_nseq hi.
- have [gp [gv [rp [rv [quad cf]]]]] := created fam hs; have [ids he mc] := facts_consistent cf.
  have [low _ f0] := filterE fam cf alpha u0; move: f0; set v0 := [seq _ | c <- u0]; move=> f0.
  have cv0 := filtered c0 f0; have cq := conforming_correction (dt / nth 0 bdf k) dp.
  have [[gv0 vv0 av0] [gq vq aq]] := (proj1 (conformingP he _) cv0, proj1 (conformingP he _) cq).
  exists (tree_add v0 (tree_scale (dt / nth 0 bdf k) (Bi s (Dt dp)))).
    apply/(conformingP he); split; first exact: good_add.
      by move=> c i hc hi m0; rewrite (ent_add _ _ gv0 gq) vv0 // vq // addr0.
    by move=> c hc i j hi hj sij; rewrite !(ent_add _ _ gv0 gq) (av0 c hc i j) // (aq c hc i j).
  move=> c i hc hi; rewrite (ent_add _ _ gv0 gq) ent_scale eu // addrAC; congr (_ + _).
  case: (lift) lift_good e1 => [ub|] gub e1; last first.
    have u10 : u1 = u0 by apply: (good_eq g1 g0) => c' i' _ _; rewrite e1 addr0.
    by move: h2; rewrite u10 f0 addr0 => -[->].
  have [v0' [vb [f0' fb]]] := C49_linear fam hs alpha 1 g0 gub.
  have u1E : u1 = tree_add (tree_scale 1 u0) ub.
    by apply: (good_eq g1 (good_add (good_scale 1 g0) gub)) => c' i' _ _; rewrite e1 (ent_add _ _ (good_scale 1 g0) gub) ent_scale mul1r.
  rewrite -u1E h2 => -[->]; rewrite fb; move: f0'; rewrite f0 => -[<-].
  by rewrite (ent_add _ _ (good_scale 1 gv0) (good_filter fam cf gub fb)) ent_scale mul1r.
- by move=> su; exists bdf, p_ext, u1; split=> //; [split=> //; exists u2, dp|exact: mom].
Qed.
End Step.

(** ** Without filter, lift and projection *)
Section Plain.
Variables (R : rcfType) (d : nat) (eps : R) (inv : 'M[R]_d -> 'M[R]_d) (L : eqType) (BCV : Type).
Notation rmesh := (Premesh_model.mesh [zmodType of 'rV[R]_d] L).
Variables (refined : nodes1d R -> ierror + rmesh) (K : nat) (F : nat -> 'I_d -> tpoly R).
Hypothesis fam : mesh_family refined K F.
Variables (o order overint : nat) (bcs : seq (L * (bctype * BCV))) (s : sem R d).
Hypothesis hs : sem_create eps inv refined o order bcs overint = inr s.
Variables (us : seq (seq (seq R))) (ps : seq (seq R)) (f : seq (seq R)) (mu dt : R) (k : nat).
Hypotheses (o2 : (2 < order)%N) (ori : oriented_elements K F) (dt0 : 0 < dt) (mu0 : 0 <= mu) (k0 : (0 < k)%N).
Hypothesis us_good : forall j, (j < size us)%N -> vgood s (nth [::] us j).
Hypothesis ps_good : forall j, (j < size ps)%N -> size (nth [::] ps j) = np s.
Hypothesis ps_two : (1 < size ps)%N.
Hypothesis f_good : vgood s f.
Hypothesis f_zero : forall c i, (c < d)%N -> (i < nv s)%N -> dirichlet_node s i -> ent f c i = 0.

Lemma filter_off u u2 : conforming s u -> filter eps s 0 u = inr u2 -> conforming s u2.
Proof. by move=> cu; have [gu _ _] := cu; rewrite (C49_identity fam hs gu) => -[<-]. Qed.
Theorem C59_plain : size us = k -> exists u p,
  [/\ stokes_one_step eps (cg_solver 0 0) s us ps f mu dt k 0 None None false = inr (u, p),
      D eps s u = nseq (np s) 0, conforming s u &
      exists bdf p_ext u1, [/\ vgood s u1, corrected eps s ps dt k 0 bdf p_ext u1 u p &
        momentum_of eps s us f mu dt k bdf p_ext u1 (v_exchange (s_velocity s))]].
Proof.
move=> su; have [u [p h]] := @C59_ends R d eps inv L BCV refined K F fam o order overint bcs s hs 0 0 us ps f mu dt k 0 None false o2 ori
  dt0 mu0 k0 us_good ps_two f_good f_zero filter_off I I (fun h => ltac:(by [])).
have [gu hD [v cv ev] hm] := @C59_exact R d eps inv L BCV refined K F fam o order overint bcs s hs 0 0 us ps f mu dt k 0 None false o2 ori
  dt0 mu0 k0 us_good ps_good f_good f_zero filter_off I I (fun h => ltac:(by [])) u p erefl erefl h.
exists u, p; split=> //; last exact: hm.
have [gv _ _] := cv; have -> // : u = v by apply: (good_eq gu gv) => c i hc hi; rewrite ev // addr0.
Qed.
End Plain.

(** ** Example *)
(** On the square of [ex_square] every pair of pressures and every velocity has an
    exact first-order step. *)
Example ex_step (R : rcfType) (eps mu : R) : 0 <= mu -> exists pm : premesh [lmodType R of 'rV[R]_2] bool, exists s,
  [/\ unit_cube_mesh 2 true 3 (0 : R) 1 [:: 0%N] None = inr pm,
      sem_create eps invmx (refined_mesh (ex_pg R) pm) 1 3 [:: (true, (DIRICHLET, tt))] 2 = inr s &
  forall u0 p0 p1, vgood s u0 -> size p0 = np s -> size p1 = np s -> exists u p,
  [/\ stokes_one_step eps (cg_solver 0 0) s [:: u0] [:: p0; p1] (nseq 2 (nseq (nv s) 0)) mu 1 1 0 None None false = inr (u, p),
      D eps s u = nseq (np s) 0 & conforming s u]].
Proof.
move=> mu0; have [pm [s [gen _ fam ori hs]]] := ex_square eps; exists pm, s; split=> //.
move=> u0 p0 p1 g0 s0 s1.
have g : vgood s (nseq 2 (nseq (nv s) 0)) by apply: goodP => [|c hc]; rewrite ?nth_nseq ?hc size_nseq.
have z c i : (c < 2)%N -> (i < nv s)%N -> dirichlet_node s i -> ent (nseq 2 (nseq (nv s) (0 : R))) c i = 0.
  by move=> hc hi _; rewrite /ent nth_nseq hc nth_nseq hi.
have [||u [p [h1 h2 h3 _]]] := @C59_plain R 2 eps invmx _ _ _ _ _ fam _ _ _ _ s hs [:: u0] [:: p0; p1] _ mu 1 1 isT ori ltr01 mu0 isT _ _ isT g z erefl.
- by case=> // j; rewrite /= ltnS ltn0.
- by case=> [|[|j]] //.
by exists u, p.
Qed.

Print Assumptions C59_ends.
Print Assumptions C59_exact.
Print Assumptions C59_plain.
