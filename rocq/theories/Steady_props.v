(** C74: flows that a time step keeps. *)
From Coq Require List.
From mathcomp Require Import all_ssreflect all_algebra polyrcf zify ring.
From Verif Require Import PyDict_model PyDict_proofs GS_model GS_proofs GS_props Interp_model Interp_spec.
From Verif Require Import Gauss_proofs2 Interp_proofs2 Tensor_proofs Interp_props FES_model FES_proofs FES_proofs2 FES_props FES_props2 Premesh_model.
From Verif Require Import UnitCube_model.
From Verif Require Import CG_model CG_proofs CG_props CG_props2 CG_props3 TimeCoef_model TimeCoef_props Stokes_model Stokes_spec Stokes_proofs Stokes_proofs2 Stokes_proofs3.
From Verif Require Import Stokes_create Stokes_create2 Stokes_create3 Stokes_proofs4 Stokes_create4 Stokes_solve Stokes_momentum Stokes_pressure Stokes_props Stokes_props2 Stokes_family Stokes_instance Stokes_props3 Stokes_props4.
Set Implicit Arguments.
Unset Strict Implicit.
Unset Printing Implicit Defensive.
Import Order.TTheory GRing.Theory Num.Theory.
Local Open Scope ring_scope.

(** Conjugate gradients for the right-hand side 0 return 0. *)
Lemma vdot_zero (R : realFieldType) (sh : seq nat) (t : tree R) : tree_vdot (@jnp_vdot R) (zero_tree R sh) t = 0.
Proof.
rewrite /tree_vdot /zero_tree; elim: sh t => [|n sh IH] [|x t] //=; rewrite [foldr _ _ _]IH addr0.
rewrite /jnp_vdot; elim: n x => [|n IHn] [|y x] //=; by rewrite [foldr _ _ _]IHn mul0r addr0.
Qed.
Lemma cg_zero (R : rcfType) (sh : seq nat) (A : tree R -> tree R) M tol atol : A (zero_tree R sh) = zero_tree R sh ->
  cg_solver tol atol A (zero_tree R sh) M = Some (zero_tree R sh).
Proof.
move=> A0; rewrite /cg_solver /cg (zeros_likeE (good_zero R sh)) /cg_run /initial A0.
have -> : tree_sub (zero_tree R sh) (zero_tree R sh) = zero_tree R sh.
  have [g e] := vecB (good_zero R sh) (good_zero R sh); apply: (vec_inj g (good_zero R sh)); by rewrite e subrr vec_zero.
rewrite vdot_zero; set st := State _ _ _ _ _; case E : (10 * _)%N => [|N] /=.
  by rewrite /cond /= ltn0 andbF.
by rewrite /cond /= [_ < 0](_ : _ = false) //; apply/negbTE; rewrite -leNgt /atol2_of le_maxr sqr_ge0 orbT.
Qed.

Section Steady.
Variables (R : rcfType) (d : nat) (eps : R) (inv : 'M[R]_d -> 'M[R]_d) (L : eqType) (BCV : Type).
Notation rmesh := (Premesh_model.mesh [zmodType of 'rV[R]_d] L).
Variables (refined : nodes1d R -> ierror + rmesh) (K : nat) (F : nat -> 'I_d -> tpoly R).
Hypothesis fam : mesh_family refined K F.
Variables (o order overint : nat) (bcs : seq (L * (bctype * BCV))) (s : sem R d).
Hypothesis hs : sem_create eps inv refined o order bcs overint = inr s.
Notation vel := (s_velocity s).
Notation D := (@D R d eps s).
Notation Dt := (@Dt R d eps s).
Notation A := (@A R d eps s).
Notation E := (@Stokes_model.E R d eps s).
Notation H := (@Stokes_model.H R d eps s).
Notation np := (np s).
Notation nv := (nv s).
Notation vfield := (seq (seq R)).
Notation conforming := (conforming s).
Implicit Types (u v w U W : vfield) (p q z P : seq R).

(** The pairing of two velocity fields, of two pressure fields. *)
Definition vpair u v : R := \sum_(c < d) \sum_(i < nv) ent u c i * ent v c i.
Definition ppair p q : R := \sum_(i < np) nth 0 p i * nth 0 q i.
(** [u] minus the lift of the boundary values. *)
Definition unlifted (lift : option vfield) u v : Prop :=
  vgood s v /\ forall c i, (c < d)%N -> (i < nv)%N -> ent v c i = ent u c i - (if lift is Some ub then ent ub c i else 0).

Variables (us : seq vfield) (ps : seq (seq R)) (f : vfield) (mu dt : R) (k : nat) (alpha : R) (lift : option vfield) (project : bool).
Hypotheses (o2 : (2 < order)%N) (ori : oriented_elements K F) (dt0 : 0 < dt) (mu0 : 0 <= mu) (k0 : (0 < k)%N).
Hypothesis us_good : forall j, (j < size us)%N -> vgood s (nth [::] us j).
Hypothesis us_size : size us = k.
Hypothesis ps_good : forall j, (j < size ps)%N -> size (nth [::] ps j) = np.
Hypothesis ps_two : (1 < size ps)%N.
Hypothesis f_good : vgood s f.
Hypothesis f_zero : forall c i, (c < d)%N -> (i < nv)%N -> dirichlet_node s i -> ent f c i = 0.
Hypothesis lift_good : if lift is Some ub then vgood s ub else True.

(** A velocity [U] and a pressure [P] at the new time solve the discrete Stokes
    equations: [P] is the extrapolated pressure, [U] has the boundary values of the
    lift, no divergence and solves the momentum equation
    B (sum_j beta_j u_j + beta_k U) / dt + mu A U = f + D^T P
    tested with conforming velocities. *)
Record solves U P : Prop := Solves {
  so_good : vgood s U /\ size P = np;
  so_boundary : exists2 V, conforming V & unlifted lift U V;
  so_divergence : D U = nseq np 0;
  so_pressure : forall i, nth 0 P i = 2%:R * nth 0 (nth [::] ps (size ps - 1)) i - nth 0 (nth [::] ps (size ps - 2)) i;
  so_momentum : forall bdf W w, bdfk_coeffs R k = inr bdf -> vgood s W -> conforming w ->
    (forall c i, ent W c i = (\sum_(j < k) nth 0 bdf j * ent (nth [::] us j) c i + nth 0 bdf k * ent U c i) / dt) ->
    vpair (B s W) w + mu * vpair (A U) w = vpair f w + ppair P (D w) }.

Let ok : sem_ok s. Proof. by have [gp [gv [rp [rv [quad cf]]]]] := created fam hs; exact: (facts_ok cf). Qed.

Lemma vpair_vinner u v : vpair u v = vinner d nv u v. Proof. by []. Qed.
Lemma vpairC u v : vpair u v = vpair v u. Proof. exact: vinnerC. Qed.
Lemma vpair_lin a u v w y : (forall c i, (c < d)%N -> (i < nv)%N -> ent w c i = a * ent u c i + ent v c i) ->
  vpair w y = a * vpair u y + vpair v y.
Proof.
move=> e; rewrite /vpair mulr_sumr -big_split; apply: eq_bigr => c _; rewrite mulr_sumr -big_split; apply: eq_bigr => i _ /=.
by rewrite e // mulrDl mulrA.
Qed.

(** Such a pair is what the step returns, as long as the filter keeps the velocity. *)
Theorem C74_step U P : solves U P -> filter eps s alpha U = inr U ->
  stokes_one_step eps (cg_solver 0 0) s us ps f mu dt k alpha lift None project = inr (U, P).
Proof.
move=> [[gU sP] [V cV [gV eV]] dU ePs mom] fU; have [gp [gv [rp [rv [quad cf]]]]] := created fam hs.
have [ids he mc] := facts_consistent cf; have mb := facts_binary cf.
have [ext hext [sE _]] := @C43_exact R 1 isT; have [bdf hb [sb _]] := C44_exact R k0; have [_ b0] := C44_last k0 hb.
rewrite /stokes_one_step hext /=; case hp : (p_extrapolated ext ps) => [e|p_ext] /=.
  by move: hp; rewrite /p_extrapolated sE ltnNge ps_two.
have [_ s_ext eext] := p_extE ps_good k0 hext hp.
have {eext s_ext} pE : p_ext = P by apply: (@eq_from_nth _ 0) => [|i _]; rewrite ?s_ext ?sP // eext ePs.
subst p_ext; rewrite hb /=; have lb : last 0 bdf = nth 0 bdf k by rewrite -nth_last sb.
rewrite lb /tentative; set bh := take _ bdf; set rhs := momentum_rhs _ _ _ _ _ _ _ _ _ _.
have gz : vgood s (zeros_like (s_mass s)) := good_zeros (ok_mass ok).
have [gh eh] := history_good bh gz us_good.
have gw : vgood s (tree_scale (1 / dt) (history_sum s bh us)) := good_scale _ gh.
have gD := good_Dt eps ok P; have gB := good_B ok gw; have gf1 := good_add f_good gD; have gf2 := good_sub gf1 gB.
have [grhs erhs] : vgood s rhs /\ forall c i, ent rhs c i = ent f c i + ent (Dt P) c i - ent (B s (tree_scale (1 / dt) (history_sum s bh us))) c i
    - (if lift is Some ub then ent (H (nth 0 bdf k) dt mu ub) c i else 0).
  rewrite /rhs /momentum_rhs; case: (lift) lift_good => [ub|] gub.
    have gH := good_H eps ok (nth 0 bdf k) dt mu gub; split=> [|c i]; first exact: good_sub.
    by rewrite (ent_sub _ _ gf2 gH) (ent_sub _ _ gf1 gB) (ent_add _ _ f_good gD).
  by split=> // c i; rewrite (ent_sub _ _ gf1 gB) (ent_add _ _ f_good gD) subr0.
have vrhs : vanishes s rhs.
  move=> c i hc hi m0; rewrite erhs f_zero // (vanishes_Dt eps ok) // (ent_B ok _ gw) // m0 !mul0r addr0 subr0 add0r.
  by case: (lift) lift_good => [ub|] gub; rewrite ?(vanishes_H eps ok) ?oppr0.
have [u0 [-> c0 ex]] := solve_momentum fam hs 0 0 ori dt0 mu0 b0 grhs vrhs; have {ex} ex := ex erefl erefl.
have [g0 v0 a0] := proj1 (conformingP he _) c0; have [_ vV aV] := proj1 (conformingP he _) cV.
have sub_ent u v c i : vgood s u -> vgood s v -> ent (tree_sub u v) c i = -1 * ent v c i + ent u c i.
  by move=> gu gv'; rewrite (ent_sub _ _ gu gv') mulN1r addrC.
have u0V : u0 = V.
  pose z := tree_sub u0 V; have gz' : vgood s z := good_sub g0 gV; have ez := sub_ent u0 V _ _ g0 gV.
  have az : admissible s ids z.
    split=> // [c i hc hi m0|c hc i j hi hj sh]; first by rewrite ez v0 // vV // mulr0 addr0.
    by rewrite !ez (a0 c hc i j) // (aV c hc i j).
  have cz : conforming z by apply/(conformingP he).
  have gH0 := good_H eps ok (nth 0 bdf k) dt mu g0; have gHV := good_H eps ok (nth 0 bdf k) dt mu gV.
  (* the equation for u0, tested with z *)
  have e1 : vpair (H (nth 0 bdf k) dt mu u0) z = vpair rhs z.
    have gr := good_sub gH0 grhs; have [_ _ agz] := az.
    have := agrees_orthogonal he gz' agz gr; rewrite -vpair_vinner vpairC => h.
    have /eqP : vpair (tree_sub (H (nth 0 bdf k) dt mu u0) rhs) z = 0.
      apply: h => c i hc hi; apply: (etrans (exch_lin ok c i grhs gH0 gr _)); first by move=> c' i'; exact: sub_ent.
      by rewrite ex mulN1r addNr.
    by rewrite (@vpair_lin (-1) rhs (H (nth 0 bdf k) dt mu u0)) ?mulN1r 1?addrC ?subr_eq0 => [/eqP|c i _ _] //; exact: sub_ent.
  (* and for V *)
  have e2 : vpair (H (nth 0 bdf k) dt mu V) z = vpair rhs z.
    have gwU : vgood s (tree_scale (nth 0 bdf k / dt) U) := good_scale _ gU.
    pose W := tree_add (tree_scale (1 / dt) (history_sum s bh us)) (tree_scale (nth 0 bdf k / dt) U).
    have gW : vgood s W := good_add gw gwU.
    have eW c i : ent W c i = (\sum_(j < k) nth 0 bdf j * ent (nth [::] us j) c i + nth 0 bdf k * ent U c i) / dt.
      rewrite (ent_add _ _ gw gwU) !ent_scale /history_sum eh ent_zeros add0r mulrDl; congr (_ + _); last by rewrite mulrAC.
      rewrite div1r mulrC us_size size_take sb /= ltnSn minnn; congr (_ / _); apply: eq_bigr => j _.
      by rewrite nth_take ?sb.
    have {}mom := mom bdf W z hb gW cz eW.
    have [_ vz _] := az; have adj : vpair (Dt P) z = ppair P (D z).
      rewrite vpairC [LHS](esym (adjoint_masked eps ok (facts_geometry fam cf o2) mb gz' vz sP)).
      by apply: eq_bigr => i _; rewrite mulrC.
    have BW : vpair (B s W) z = nth 0 bdf k / dt * vpair (B s U) z + vpair (B s (tree_scale (1 / dt) (history_sum s bh us))) z.
      apply: vpair_lin => c i hc hi; rewrite (ent_B ok i gW hc) (ent_B ok i gU hc) (ent_B ok i gw hc) (ent_add c i gw gwU) [ent (tree_scale (_ / dt) U) c i]ent_scale.
      move: (nth 0 (v_mask vel) i) (ent (s_mass s) c i) (ent (tree_scale _ _) c i) (ent U c i) (nth 0 bdf k / dt) => x1 x2 x3 x4 x5; ring.
    have HU : vpair (H (nth 0 bdf k) dt mu U) z = nth 0 bdf k / dt * vpair (B s U) z + mu * vpair (A U) z.
      rewrite vpairC [LHS](H_inner eps ok (nth 0 bdf k) dt mu gU gz').
      by congr (_ * _ + _ * _); exact: vinnerC.
    pose l := if lift is Some ub then vpair (H (nth 0 bdf k) dt mu ub) z else 0.
    have HV : vpair (H (nth 0 bdf k) dt mu V) z = vpair (H (nth 0 bdf k) dt mu U) z - l.
      rewrite /l; case: (lift) lift_good eV => [ub|] gub eV; last first.
        have -> : V = U by apply: (good_eq gV gU) => c i hc hi; rewrite eV // subr0.
        by rewrite subr0.
      rewrite (@vpair_lin (-1) (H (nth 0 bdf k) dt mu ub) (H (nth 0 bdf k) dt mu U)) ?mulN1r 1?addrC // => c i hc hi.
      apply: (H_lin eps ok _ _ _ c i gub gU gV) => c' i'; rewrite mulN1r addrC.
      case: (ltnP c' d) => hc'; last by rewrite (ent_out _ gV hc') (ent_out _ gub hc') (ent_out _ gU hc') subr0.
      case: (ltnP i' nv) => hi'; last by rewrite (ent_beyond _ gV hi') (ent_beyond _ gub hi') (ent_beyond _ gU hi') subr0.
      exact: eV.
    have rE : vpair rhs z = vpair f z + vpair (Dt P) z - vpair (B s (tree_scale (1 / dt) (history_sum s bh us))) z - l.
      rewrite (@vpair_lin 1 f (tree_sub rhs f)) => [|c i _ _]; last by rewrite mul1r (ent_sub _ _ grhs f_good) addrC subrK.
      rewrite mul1r -!addrA; congr (_ + _).
      rewrite (@vpair_lin 1 (Dt P) (tree_sub (tree_sub rhs f) (Dt P))) => [|c i _ _]; last first.
        by rewrite mul1r (ent_sub _ _ (good_sub grhs f_good) gD) addrC subrK.
      rewrite mul1r; congr (_ + _).
      rewrite (@vpair_lin (-1) (B s (tree_scale (1 / dt) (history_sum s bh us)))
        (if lift is Some ub then tree_scale (-1) (H (nth 0 bdf k) dt mu ub) else zero_tree R (nseq d nv))) => [|c i hc hi]; last first.
        rewrite (ent_sub _ _ (good_sub grhs f_good) gD) (ent_sub _ _ grhs f_good) erhs.
        case: (lift) => [ub|]; first by rewrite ent_scale; ring.
        rewrite [ent (zero_tree _ _) _ _](_ : _ = 0); first by ring.
        by rewrite /ent /zero_tree (nth_map 0%N) ?size_nseq // !nth_nseq hc hi.
      rewrite mulN1r; congr (_ + _); rewrite /l; case: (lift) => [ub|].
        rewrite (@vpair_lin (-1) (H (nth 0 bdf k) dt mu ub) (zero_tree R (nseq d nv))) => [|c i hc hi].
          rewrite mulN1r [X in _ + X](_ : _ = 0) ?addr0 //; apply: big1 => c _; apply: big1 => i _.
          by rewrite /ent /zero_tree (nth_map 0%N) ?size_nseq // !nth_nseq !ltn_ord mul0r.
        by rewrite ent_scale [ent (zero_tree _ _) _ _](_ : _ = 0) ?addr0 // /ent /zero_tree (nth_map 0%N) ?size_nseq // !nth_nseq hc hi.
      rewrite oppr0; apply: big1 => c _; apply: big1 => i _.
      by rewrite /ent /zero_tree (nth_map 0%N) ?size_nseq // !nth_nseq !ltn_ord mul0r.
    rewrite HV rE HU adj -mom BW.
    move: (vpair (B s _) z) (vpair (B s U) z) (vpair (A U) z) (nth 0 bdf k / dt) => x1 x2 x3 x4; clear; ring.
  have [_ pos] := H_spd eps ok he mb mc (facts_positive fam cf ori) (facts_weights fam cf ori) (divr_gt0 b0 dt0) mu0.
  have z0 : z = zero_tree R (nseq d nv).
    apply/eqP/negPn/negP => /eqP nz.
    have := pos z (proj2 (span_basis ok he mb mc z) az) nz.
    rewrite [X in 0 < X](dot_vinner gz' (good_H eps ok _ _ _ gz')) -vpair_vinner vpairC.
    rewrite (@vpair_lin (-1) (H (nth 0 bdf k) dt mu V) (H (nth 0 bdf k) dt mu u0)) => [|c i _ _].
      by rewrite e1 e2 mulN1r addNr ltxx.
    by apply: (H_lin eps ok _ _ _ c i gV g0 gz') => c' i'; exact: ez.
  apply: (good_eq g0 gV) => c i hc hi; have := ez c i; rewrite -/z z0 /ent /zero_tree (nth_map 0%N) ?size_nseq // nth_nseq hc nth_nseq hi.
  by rewrite mulN1r addrC => /esym/eqP; rewrite subr_eq0 => /eqP.
subst u0; set u1 := (if lift is Some ub then _ else _); have -> : u1 = U.
  rewrite /u1; case: (lift) lift_good eV => [ub|] gub eV; last by apply: (good_eq gV gU) => c i hc hi; rewrite eV // subr0.
  by apply: (good_eq (good_add gV gub) gU) => c i hc hi; rewrite (ent_add _ _ gV gub) eV // subrK.
rewrite /= fU /= dU.
have -> : [:: [seq - x | x <- nseq np (0 : R)]] = zero_tree R [:: np] by rewrite map_nseq oppr0.
have lE := E_tree_linear eps ok dt (nth 0 bdf k).
rewrite [cg_solver _ _ _ _ _](@cg_zero R [:: np] (E_tree eps s dt (nth 0 bdf k))); last exact: linear_zero lE.
congr (inr (_, _)).
  have gQ := good_Q ok dt (nth 0 bdf k) (good_Dt eps ok (nseq np 0)).
  have z0 c i : ent (Dt (nseq np 0)) c i = 0.
    apply: (etrans (@Dt_lin R d eps s ok (-1) (nseq np 0) (nseq np 0) (nseq np 0) c i erefl erefl _)).
      by move=> j; rewrite nth_nseq if_same mulr0 addr0.
    by rewrite mulN1r addNr.
  have gDz := good_Dt eps ok (nseq np 0).
  apply: (good_eq (good_add gU gQ) gU) => c i hc hi; rewrite (ent_add _ _ gU gQ) ent_scale.
  rewrite (@Bi_lin R d s ok (-1) _ _ _ c i gDz gDz gDz) => [|c' i']; last by rewrite z0 mulr0 addr0.
  by rewrite mulN1r addNr mulr0 addr0.
apply: (@eq_from_nth _ 0) => [|i hi]; first by rewrite size_map2 // sP size_nseq.
by rewrite nth_map2d ?addr0 ?sP ?size_nseq // nth_nseq if_same addr0.
Qed.
(** Repeated states: with the history made of copies of [U] and [P] the time
    derivative is zero, and [U], [P] are kept if they solve the stationary
    equations. *)
Record stationary (f : vfield) (mu : R) (lift : option vfield) U P : Prop := Stationary {
  st_good : vgood s U /\ size P = np;
  st_boundary : exists2 V, conforming V & unlifted lift U V;
  st_divergence : D U = nseq np 0;
  st_momentum : forall w, conforming w -> mu * vpair (A U) w = vpair f w + ppair P (D w) }.
Theorem C74_steady U P (m : nat) : us = nseq k U -> ps = nseq m P -> stationary f mu lift U P -> filter eps s alpha U = inr U ->
  stokes_one_step eps (cg_solver 0 0) s us ps f mu dt k alpha lift None project = inr (U, P).
Proof.
move=> usE psE [[gU sP] bU dU mom] fU; apply: C74_step => //; split=> //.
  move: ps_two; rewrite psE size_nseq => m2 i; rewrite !nth_nseq.
  have -> : (m - 1 < m)%N by rewrite ltn_subrL; lia.
  have -> : (m - 2 < m)%N by rewrite ltn_subrL; lia.
  by rewrite mulr_natl mulr2n addrK.
move=> bdf W w hb gW cw eW; rewrite mom // [X in X + _](_ : _ = 0) ?add0r //.
apply: big1 => c _; apply: big1 => i _; rewrite (ent_B ok i gW (ltn_ord c)) eW usE.
rewrite (eq_bigr (fun j : 'I_k => nth 0 bdf j * ent U c i)) => [|j _]; last by rewrite nth_nseq ltn_ord.
rewrite -mulr_suml -mulrDl; have := C44_sum k0 hb; rewrite big_ord_recr /= => ->.
by rewrite !mul0r !mulr0 mul0r.
Qed.
(** Conversely, without filter and lift only those are kept. *)
Theorem C74_only U P (m : nat) : alpha = 0 -> lift = None -> (project -> enclosed eps s) -> us = nseq k U -> ps = nseq m P ->
  stokes_one_step eps (cg_solver 0 0) s us ps f mu dt k alpha lift None project = inr (U, P) -> stationary f mu None U P.
Proof.
move=> al ln proj usE psE h; have [gp [gv [rp [rv [quad cf]]]]] := created fam hs.
have [ids he mc] := facts_consistent cf; have mb := facts_binary cf.
have filtered u u2 : conforming u -> filter eps s alpha u = inr u2 -> conforming u2.
  by move=> cu; have [gu _ _] := cu; rewrite al (C49_identity fam hs gu) => -[<-].
have [gU dU [v cv ev] _] := C59_exact fam hs o2 ori dt0 mu0 k0 us_good ps_good f_good f_zero filtered lift_good (ltac:(by rewrite ln)) proj erefl erefl h.
have cU : conforming U.
  by have [gv' _ _] := cv; have -> // : U = v; apply: (good_eq gU gv') => c i hc hi; rewrite ev // ln addr0.
have shv bdf hb := (cg_shapes fam hs 0 0 mu dt (k := k) (given := None) project I (bdf := bdf) hb).1.
have shp bdf hb := (cg_shapes fam hs 0 0 mu dt (k := k) (given := None) project I (bdf := bdf) hb).2.
have [bdf [p_ext [u0 [u1 [u2 [dp [_ parts]]]]]]] := stepP fam hs shv shp us_good ps_good f_good lift_good k0 h.
have hb := sp_bdf parts; have [_ b0] := C44_last k0 hb.
have mom : momentum_of eps s us f mu dt k bdf p_ext u1 (v_exchange vel).
  apply: (assembled_step fam hs us_good f_good lift_good us_size parts) => b hM gb vb.
  have [x [hx _ ex]] := solve_momentum fam hs 0 0 ori dt0 mu0 b0 gb (vb f_zero).
  by move: hM; rewrite [cg_solver _ _ _ _ _]hx => -[<-]; exact: ex.
move: parts => [_ [sx ex1] g0 [g1 e1] [g2 h2] sdp [_ eu] [sp ep] _ _].
have m2 : (1 < m)%N by move: ps_two; rewrite psE size_nseq.
have pE : p_ext = P.
  apply: (@eq_from_nth _ 0) => [|i _]; first by rewrite sx sp.
  rewrite ex1 psE size_nseq !nth_nseq.
  have -> : (m - 1 < m)%N by rewrite ltn_subrL; lia.
  have -> : (m - 2 < m)%N by rewrite ltn_subrL; lia.
  by rewrite mulr_natl mulr2n addrK.
have dp0 i : nth 0 dp i = 0 by have := ep i; rewrite pE => /eqP; rewrite -subr_eq0 opprD addrA subrr add0r oppr_eq0 => /eqP.
have uE : u1 = U.
  have u12 : u2 = u1 by move: h2; rewrite al (C49_identity fam hs g1) => -[].
  have gD := good_Dt eps ok dp; have z0 c i : ent (Dt dp) c i = 0.
    apply: (etrans (@Dt_lin R d eps s ok (-1) dp dp dp c i erefl erefl _)) => [j|]; first by rewrite dp0 mulr0 addr0.
    by rewrite mulN1r addNr.
  apply: (good_eq g1 gU) => c i hc hi; rewrite eu // u12.
  rewrite (@Bi_lin R d s ok (-1) _ _ _ c i gD gD gD) => [|c' i']; last by rewrite z0 mulr0 addr0.
  by rewrite mulN1r addNr mulr0 addr0.
split=> //; first by exists U => //; split=> // c i hc hi; rewrite subr0.
move=> w cw; have [gw vw aw] := proj1 (conformingP he _) cw.
have [gW eW] : vgood s (nseq d (nseq nv 0)) /\ forall c i, ent (nseq d (nseq nv (0 : R))) c i = 0.
  split; first by apply: goodP => [|c hc]; rewrite ?nth_nseq ?hc size_nseq.
  by move=> c i; rewrite /ent nth_nseq; case: ifP => _; rewrite ?nth_nseq ?nth_nil // if_same.
have := mom _ gW; rewrite uE => /(_ _) X.
have {X} X : v_exchange vel (tree_add (B s (nseq d (nseq nv 0))) (tree_scale mu (A U))) = v_exchange vel (tree_add f (Dt p_ext)).
  apply: X => c i; rewrite eW usE.
  rewrite (eq_bigr (fun j : 'I_k => nth 0 bdf j * ent U c i)) => [|j _]; last by rewrite nth_nseq ltn_ord.
  rewrite -mulr_suml -mulrDl; have := C44_sum k0 hb; rewrite big_ord_recr /= => ->.
  by rewrite !mul0r.
have gB := good_B ok gW; have gA := good_scale mu (good_A eps ok U); have gl := good_add gB gA.
have gD := good_Dt eps ok p_ext; have gr := good_add f_good gD; have gs := good_sub gl gr.
have es c i : ent (tree_sub (tree_add (B s (nseq d (nseq nv 0))) (tree_scale mu (A U))) (tree_add f (Dt p_ext))) c i =
   -1 * ent (tree_add f (Dt p_ext)) c i + ent (tree_add (B s (nseq d (nseq nv 0))) (tree_scale mu (A U))) c i.
  by rewrite (ent_sub _ _ gl gr) mulN1r addrC.
have /eqP := agrees_orthogonal he gw aw gs (ltac:(
  by move=> c i hc hi; apply: (etrans (exch_lin ok c i gr gl gs es)); rewrite X mulN1r addNr)).
rewrite -vpair_vinner vpairC (@vpair_lin (-1) (tree_add f (Dt p_ext)) (tree_add (B s (nseq d (nseq nv 0))) (tree_scale mu (A U)))) => [|c i _ _]; last exact: es.
rewrite mulN1r addrC subr_eq0 => /eqP Y.
have adj : vpair (Dt P) w = ppair P (D w).
  rewrite vpairC [LHS](esym (adjoint_masked eps ok (facts_geometry fam cf o2) mb gw vw sp)).
  by apply: eq_bigr => i _; rewrite mulrC.
rewrite -adj -pE.
have -> : vpair f w + vpair (Dt p_ext) w = vpair (tree_add f (Dt p_ext)) w.
  by rewrite [RHS](@vpair_lin 1 f (Dt p_ext)) ?mul1r // => c i _ _; rewrite mul1r (ent_add _ _ f_good gD).
rewrite -Y [RHS](@vpair_lin mu (A U) (B s (nseq d (nseq nv 0)))) => [|c i _ _]; last by rewrite (ent_add _ _ gB gA) ent_scale addrC.
rewrite [X in _ = _ + X](_ : _ = 0) ?addr0 //; apply: big1 => c _; apply: big1 => i _.
by rewrite (ent_B ok i gW (ltn_ord c)) eW !mulr0 mul0r.
Qed.
End Steady.

Print Assumptions C74_step.
Print Assumptions C74_steady.
Print Assumptions C74_only.
