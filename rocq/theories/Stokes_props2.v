(** C45: one time step. *)
From mathcomp Require Import all_ssreflect all_algebra polyrcf zify ring.
From Verif Require Import PyDict_model PyDict_proofs GS_model GS_proofs GS_props Interp_model Interp_spec.
From Verif Require Import Gauss_proofs2 Interp_proofs2 Tensor_proofs Interp_props FES_model FES_proofs FES_proofs2 FES_props FES_props2 Premesh_model.
From Verif Require Import CG_model CG_proofs CG_props TimeCoef_model TimeCoef_props Stokes_model Stokes_spec Stokes_proofs Stokes_proofs2 Stokes_proofs3.
From Verif Require Import Stokes_create Stokes_create2 Stokes_create3 Stokes_proofs4 Stokes_create4 Stokes_solve Stokes_momentum Stokes_props.
Set Implicit Arguments.
Unset Strict Implicit.
Unset Printing Implicit Defensive.
Import Order.TTheory GRing.Theory Num.Theory.
Local Open Scope ring_scope.

Section Step.
Variables (R : rcfType) (d : nat) (eps : R) (inv : 'M[R]_d -> 'M[R]_d) (L : eqType) (BCV : Type).
Notation rmesh := (Premesh_model.mesh [zmodType of 'rV[R]_d] L).
Variables (refined : nodes1d R -> ierror + rmesh) (K : nat) (F : nat -> 'I_d -> tpoly R).
Hypothesis fam : mesh_family refined K F.
Variables (o order overint : nat) (bcs : seq (L * (bctype * BCV))) (s : sem R d).
Hypothesis hs : sem_create eps inv refined o order bcs overint = inr s.
Notation vel := (s_velocity s).
Notation pr := (s_pressure s).
Notation D := (@D R d eps s).
Notation Dt := (@Dt R d eps s).
Notation A := (@A R d eps s).
Notation E := (@E R d eps s).
Notation H := (@H R d eps s).
Notation field := (seq R).
Notation vfield := (seq (seq R)).
Implicit Types (u v w : vfield) (p q : field).

(** What both linear solves are asked to solve. *)
Definition solver := (tree R -> tree R) -> tree R -> option (tree R -> tree R) -> option (tree R).
(** What is asked of a solver, for the operator [op] on trees of shape [sh] and
    the preconditioner [M]: it keeps shapes; *)
Definition keeps_shape (solve : solver) (sh : seq nat) (op : tree R -> tree R) M : Prop :=
  forall b x, good sh b -> solve op b M = Some x -> good sh x.
(** what it returns solves the equation; *)
Definition exact_for (solve : solver) (sh : seq nat) (op : tree R -> tree R) M : Prop :=
  forall b x, good sh b -> solve op b M = Some x -> op x = b.
(** what it returns solves the equation after adding up the copies of every node. *)
Definition exact_assembled (solve : solver) (op : tree R -> tree R) M : Prop :=
  forall b x, vgood s b -> solve op b M = Some x -> v_exchange vel (op x) = v_exchange vel b.
Notation E_tree := (@E_tree R d eps s).

Variables (solve : solver) (us : seq vfield) (ps : seq field) (f : vfield) (mu dt : R) (k : nat) (alpha : R)
  (lift : option vfield) (given : option (tree R -> tree R)) (project : bool).
Notation vsh := (nseq d (nv s)).
Notation psh := [:: np s].
Notation Mv := (Some (v_exchange vel)).
Notation Mp := (preconditioner eps s given project).
Hypothesis shape_v : forall bdf, bdfk_coeffs R k = inr bdf -> keeps_shape solve vsh (H (nth 0 bdf k) dt mu) Mv.
Hypothesis shape_p : forall bdf, bdfk_coeffs R k = inr bdf -> keeps_shape solve psh (E_tree dt (nth 0 bdf k)) Mp.
Hypothesis us_good : forall j, (j < size us)%N -> vgood s (nth [::] us j).
Hypothesis ps_good : forall j, (j < size ps)%N -> size (nth [::] ps j) = np s.
Hypothesis f_good : vgood s f.
Hypothesis lift_good : if lift is Some ub then vgood s ub else True.
Hypothesis k0 : (0 < k)%N.

Let ok : sem_ok s. Proof. by have [gp [gv [rp [rv [quad cf]]]]] := created fam hs; exact: (facts_ok cf). Qed.

Lemma history_good bs (vs : seq vfield) acc : vgood s acc -> (forall j, (j < size vs)%N -> vgood s (nth [::] vs j)) ->
  vgood s (foldl (fun acc cu => tree_add acc (tree_scale cu.1 cu.2)) acc (zip bs vs)) /\
  forall c i, ent (foldl (fun acc cu => tree_add acc (tree_scale cu.1 cu.2)) acc (zip bs vs)) c i =
    ent acc c i + \sum_(j < minn (size bs) (size vs)) nth 0 bs j * ent (nth [::] vs j) c i.
Proof.
elim: bs vs acc => [|b bs IH] [|v vs] acc ga gvs /=; try by rewrite ?min0n ?minn0; split=> // c i; rewrite big_ord0 addr0.
have gv : vgood s v := gvs 0%N isT; have g1 := good_add ga (good_scale b gv).
have [g2 e2] := IH vs _ g1 (fun j => gvs j.+1); split=> // c i.
by rewrite e2 (ent_add _ _ ga (good_scale b gv)) ent_scale minnSS big_ord_recl /= addrA.
Qed.

(** The extrapolated pressure: twice the newest minus the one before. *)
Lemma p_extE ext p_ext : extk_coeffs R 1 = inr ext -> p_extrapolated ext ps = inr p_ext ->
  [/\ (1 < size ps)%N, size p_ext = np s &
      forall i, nth 0 p_ext i = 2%:R * nth 0 (nth [::] ps (size ps - 1)) i - nth 0 (nth [::] ps (size ps - 2)) i].
Proof.
move=> he; have [c he' [sc _]] := @C43_exact R 1 isT.
have ec : c = ext by move: he'; rewrite he => -[].
subst c; have c0 := @C43_values R 1 isT ext 0 he isT; have c1 := @C43_values R 1 isT ext 1 he isT.
rewrite /= subn0 expr1 bin0 mulr1 in c0; rewrite /= subnn expr0 mul1r bin1 in c1.
rewrite /p_extrapolated sc; case: ltnP => // h [<-].
have s1 : size (nth [::] ps (size ps - 1)) = np s by apply: ps_good; lia.
have s2 : size (nth [::] ps (size ps - 2)) = np s by apply: ps_good; lia.
have sl : size (last [::] ps) = np s by rewrite -nth_last -subn1.
have m1 : size [seq nth 0 ext (2 - 1) * x | x <- nth [::] ps (size ps - 1)] = np s by rewrite size_map.
have m2 : size [seq nth 0 ext (2 - 2) * x | x <- nth [::] ps (size ps - 2)] = np s by rewrite size_map.
have m0 : size (nseq (size (last [::] ps)) (0 : R)) = np s by rewrite size_nseq.
have a1 : size (map2 +%R (nseq (size (last [::] ps)) 0) [seq nth 0 ext (2 - 1) * x | x <- nth [::] ps (size ps - 1)]) = np s.
  by rewrite size_map2 // m0 m1.
split=> //; first by rewrite [LHS]size_map2 // a1 m2.
move=> i; rewrite [LHS]nth_map2d ?addr0 ?a1 ?m2 // nth_map2d ?addr0 ?m0 ?m1 // nth_nseq if_same add0r !nth_scale c0 c1.
by rewrite mulN1r.
Qed.

(** The parts of a step: the extrapolated pressure [p_ext], the solution [u0] of
    the momentum solve, the tentative velocity [u1] ([u0] plus the lift), the
    filtered [u2] and the correction [dp]. *)
Record step_parts (bdf : seq R) (u : vfield) (p p_ext : field) (u0 u1 u2 : vfield) (dp : field) : Prop := StepParts {
  sp_bdf : bdfk_coeffs R k = inr bdf;
  sp_ext : size p_ext = np s /\
    forall i, nth 0 p_ext i = 2%:R * nth 0 (nth [::] ps (size ps - 1)) i - nth 0 (nth [::] ps (size ps - 2)) i;
  sp_u0 : vgood s u0;
  sp_u1 : vgood s u1 /\ forall c i, ent u1 c i = ent u0 c i + (if lift is Some ub then ent ub c i else 0);
  sp_u2 : vgood s u2 /\ filter eps s alpha u1 = inr u2;
  sp_dp : size dp = np s;
  sp_u : vgood s u /\ forall c i, (c < d)%N -> (i < nv s)%N -> ent u c i = ent u2 c i + dt / nth 0 bdf k * ent (Bi s (Dt dp)) c i;
  sp_p : size p = np s /\ forall i, nth 0 p i = nth 0 p_ext i + nth 0 dp i;
  (** the two solves *)
  sp_momentum : exists b, solve (H (nth 0 bdf k) dt mu) b Mv = Some u0 /\ vgood s b /\ (vanishes s f -> vanishes s b) /\
    forall w, vgood s w ->
     (forall c i, ent w c i = (\sum_(j < minn k (size us)) nth 0 bdf j * ent (nth [::] us j) c i) / dt) ->
     forall c i, ent b c i = ent f c i + ent (Dt p_ext) c i - ent (B s w) c i -
       (if lift is Some ub then ent (H (nth 0 bdf k) dt mu ub) c i else 0);
  sp_pressure : solve (E_tree dt (nth 0 bdf k)) [:: [seq - x | x <- D u2]] Mp = Some [:: dp] }.

Lemma stepP u p : stokes_one_step eps solve s us ps f mu dt k alpha lift given project = inr (u, p) ->
  exists bdf p_ext u0 u1 u2 dp, (1 < size ps)%N /\ step_parts bdf u p p_ext u0 u1 u2 dp.
Proof.
rewrite /stokes_one_step => hh; have [ext he {}hh] := ibindP hh; move: hh; cbv beta => hh.
have [p_ext hp {}hh] := sbindP hh; move: hh; cbv beta => hh.
have [bdf hb {}hh] := ibindP hh; move: hh; cbv beta zeta => hh.
have [u1 hu1 {}hh] := sbindP hh; move: hh; cbv beta => hh.
have [u2 hu2 {}hh] := sbindP hh; move: hh; cbv beta.
have [c hb' [sb _]] := C44_exact R k0; have ec : c = bdf by move: hb'; rewrite hb => -[].
subst c; have lb : last 0 bdf = nth 0 bdf k by rewrite -nth_last sb.
have tb j : (j < k)%N -> nth 0 (take (size bdf).-1 bdf) j = nth 0 bdf j by move=> hj; rewrite nth_take ?sb.
have st : size (take (size bdf).-1 bdf) = k by rewrite size_take sb /= ltnSn.
rewrite lb in hu1 *; case hq : (solve _ _ _) => [t|] // [uE pE].
have [ps1 s_ext eext] := p_extE he hp.
have gz : vgood s (zeros_like (s_mass s)) := good_zeros (ok_mass ok).
have [gh eh] := history_good (take (size bdf).-1 bdf) gz us_good.
set hist := foldl _ _ _ in gh eh.
have gD q : vgood s (Dt q) := good_Dt eps ok q.
have gw0 : vgood s (tree_scale (1 / dt) hist) := good_scale _ gh.
have gf1 := good_add f_good (gD p_ext); have gf2 := good_sub gf1 (good_B ok gw0).
have gb : vgood s (momentum_rhs eps s (take (size bdf).-1 bdf) (nth 0 bdf k) dt mu us f p_ext lift).
  by rewrite /momentum_rhs; case: (lift) lift_good => [ub|] // gub; apply: good_sub => //; apply: (good_H eps ok).
move: hu1; rewrite /tentative; case h0 : (solve _ _ _) => [u0|] // [u1E].
have g0 : vgood s u0 := shape_v hb gb h0.
have [g1 e1] : vgood s u1 /\ forall c i, ent u1 c i = ent u0 c i + (if lift is Some ub then ent ub c i else 0).
  rewrite -u1E; case: (lift) lift_good => [ub|] gub; last by split=> // c i; rewrite addr0.
  by split=> [|c i]; [exact: good_add|rewrite (ent_add _ _ g0 gub)].
have [gp [gv [rp [rv [quad cf]]]]] := created fam hs.
have g2 := good_filter fam cf g1 hu2.
have gDu : good psh [:: [seq - x | x <- D u2]] by rewrite /good /shape /= size_map size_D.
have [dp tE sdp] := one_leaf (shape_p hb gDu hq).
rewrite tE /= in uE pE.
exists bdf, p_ext, u0, u1, u2, dp; split=> //; split=> //.
- rewrite -uE; have gB := good_Q ok dt (nth 0 bdf k) (gD dp).
  by split=> [|c i hc hi]; [exact: good_add|rewrite (ent_add _ _ g2 gB) ent_scale].
- by rewrite -pE; split=> [|i]; [rewrite size_map2 // s_ext|rewrite nth_map2d ?addr0 // s_ext].
- eexists; split; [exact: h0|split=> //]; split=> [vf c i hc hi m0|w gw ew c i].
    have v2 : ent (tree_sub (tree_add f (Dt p_ext)) (B s (tree_scale (1 / dt) hist))) c i = 0.
      rewrite (ent_sub _ _ gf1 (good_B ok gw0)) (ent_add _ _ f_good (gD p_ext)) vf // (vanishes_Dt eps ok) // (ent_B ok _ gw0) // m0.
      by rewrite !mul0r addr0 subr0.
    rewrite /momentum_rhs; case: (lift) lift_good => [ub|] gub //.
    by rewrite (ent_sub _ _ gf2 (good_H eps ok _ _ _ gub)) v2 (vanishes_H eps ok) // subr0.
  have -> : ent (B s w) c i = ent (B s (tree_scale (1 / dt) hist)) c i.
    congr ent; congr (B s _); apply: (good_eq gw gw0) => c' i' hc' hi'.
    rewrite ew ent_scale eh ent_zeros add0r div1r mulrC st; congr (_ * _); apply: eq_bigr => j _; rewrite tb //.
    by have := ltn_ord j; rewrite leq_min => /andP[].
  rewrite /momentum_rhs; case: (lift) lift_good => [ub|] gub.
    by rewrite (ent_sub _ _ gf2 (good_H eps ok _ _ _ gub)) (ent_sub _ _ gf1 (good_B ok gw0)) (ent_add _ _ f_good (gD p_ext)).
  by rewrite (ent_sub _ _ gf1 (good_B ok gw0)) (ent_add _ _ f_good (gD p_ext)) subr0.
- by rewrite tE in hq; exact: hq.
Qed.

Lemma divergence_residual bdf u u2 dp i : bdfk_coeffs R k = inr bdf -> vgood s u2 -> vgood s u ->
  (forall c i, (c < d)%N -> (i < nv s)%N -> ent u c i = ent u2 c i + dt / nth 0 bdf k * ent (Bi s (Dt dp)) c i) ->
  nth 0 (D u) i = nth 0 (E dt (nth 0 bdf k) dp) i - nth 0 [seq - x | x <- D u2] i.
Proof.
move=> hb g2 gu eu; have gB := good_Q ok dt (nth 0 bdf k) (good_Dt eps ok dp); have gBi := good_Bi ok (good_Dt eps ok dp).
have e c j : ent u c j = 1 * ent (Q s dt (nth 0 bdf k) (Dt dp)) c j + ent u2 c j.
  rewrite mul1r ent_scale addrC; case: (ltnP c d) => hc; last by rewrite (ent_out _ gu hc) (ent_out _ g2 hc) (ent_out _ gBi hc) mulr0 addr0.
  case: (ltnP j (nv s)) => hj; first exact: eu.
  by rewrite /ent [nth 0 (nth _ u c) j]nth_default ?(good_comp gu hc) // [nth 0 (nth _ u2 c) j]nth_default ?(good_comp g2 hc) //
    [nth 0 (nth _ (Bi _ _) c) j]nth_default ?(good_comp gBi hc) // mulr0 addr0.
apply: (etrans (D_lin eps ok i gB g2 gu e)); rewrite mul1r; congr (_ + _); case: (ltnP i (np s)) => hi.
  by rewrite (nth_map 0) ?size_D // opprK.
by rewrite !nth_default ?size_map ?size_D // oppr0.
Qed.
(** The divergence of the result is the residual of the pressure solve. *)
Theorem C45_residual u p : stokes_one_step eps solve s us ps f mu dt k alpha lift given project = inr (u, p) ->
  exists bdf b dp, [/\ bdfk_coeffs R k = inr bdf, solve (E_tree dt (nth 0 bdf k)) [:: b] Mp = Some [:: dp], size b = np s &
    forall i, nth 0 (D u) i = nth 0 (E dt (nth 0 bdf k) dp) i - nth 0 b i].
Proof.
case/stepP => bdf [p_ext [u0 [u1 [u2 [dp [_ [hb _ _ _ [g2 _] sdp [gu eu] _ _ hM]]]]]]].
exists bdf, [seq - x | x <- D u2], dp; split=> //; first by rewrite size_map size_D.
by move=> i; exact: divergence_residual.
Qed.
Theorem C45_divergence_free u p : (forall bdf, bdfk_coeffs R k = inr bdf -> exact_for solve psh (E_tree dt (nth 0 bdf k)) Mp) ->
  stokes_one_step eps solve s us ps f mu dt k alpha lift given project = inr (u, p) -> D u = nseq (np s) 0.
Proof.
move=> ex /C45_residual[bdf [b [dp [hb hM sb e]]]]; have gb : good psh [:: b] by rewrite /good /shape /= sb.
have [/= eb] : E_tree dt (nth 0 bdf k) [:: dp] = [:: b] := ex _ hb _ _ gb hM.
apply: (@eq_from_nth _ 0); first by rewrite size_D size_nseq.
by move=> i; rewrite size_D => hi; rewrite e eb subrr nth_nseq hi.
Qed.
(** The residual of the momentum equation, with the backward difference of the
    history, the extrapolated pressure and the lift, is the residual of the
    momentum solve. *)
Lemma momentum_residual bdf u p p_ext u0 u1 u2 dp : size us = k -> step_parts bdf u p p_ext u0 u1 u2 dp ->
  exists b, [/\ solve (H (nth 0 bdf k) dt mu) b Mv = Some u0, vgood s b, vanishes s f -> vanishes s b &
  forall w, vgood s w ->
    (forall c i, ent w c i = (\sum_(j < k) nth 0 bdf j * ent (nth [::] us j) c i + nth 0 bdf k * ent u1 c i) / dt) ->
    forall c i, ent (B s w) c i + mu * ent (A u1) c i =
      (ent f c i + ent (Dt p_ext) c i) + (ent (H (nth 0 bdf k) dt mu u0) c i - ent b c i)].
Proof.
move=> su [hb [sx ex1] g0 [g1 e1] [g2 h2] sdp [gu eu] [sp ep] [b [hM [gb [vb eb]]]] _].
pose wh : vfield := [seq mkseq (fun i => (\sum_(j < k) nth 0 bdf j * ent (nth [::] us j) c i) / dt) (nv s) | c <- iota 0 d].
have gwh : vgood s wh.
  by apply: goodP; [rewrite size_map size_iota|move=> c' hc'; rewrite (nth_map 0%N) ?size_iota // size_mkseq].
have ewh c' i' : ent wh c' i' = (\sum_(j < k) nth 0 bdf j * ent (nth [::] us j) c' i') / dt.
  have gj (j : 'I_k) : vgood s (nth [::] us j) by apply: us_good; rewrite su.
  case: (ltnP c' d) => hc'; last first.
    rewrite (ent_out _ gwh hc') big1 ?mul0r // => j _; by rewrite (ent_out _ (gj j) hc') mulr0.
  case: (ltnP i' (nv s)) => hi'.
    by rewrite /ent (nth_map 0%N) ?size_iota // nth_iota // add0n nth_mkseq.
  rewrite (ent_beyond _ gwh hi') big1 ?mul0r // => j _; by rewrite (ent_beyond _ (gj j) hi') mulr0.
have {eb} := eb wh gwh; rewrite su minnn => /(_ ewh) e0'.
exists b; split=> // w gw ew c i.
have e0 := e0' c i.
have eH : ent (H (nth 0 bdf k) dt mu u1) c i =
    ent (H (nth 0 bdf k) dt mu u0) c i + (if lift is Some ub then ent (H (nth 0 bdf k) dt mu ub) c i else 0).
  case: (lift) lift_good e1 => [ub|] gub e1.
    have e1' c' i' : ent u1 c' i' = 1 * ent u0 c' i' + ent ub c' i' by rewrite mul1r.
    have X := H_lin eps ok (nth 0 bdf k) dt mu c i g0 gub g1 e1'; by apply: (etrans X); rewrite mul1r.
  by rewrite addr0; congr ent; congr (H _ _ _ _); apply: (good_eq g1 g0) => c' i' _ _; rewrite e1 addr0.
have eB : ent (B s w) c i = nth 0 bdf k / dt * ent (B s u1) c i + ent (B s wh) c i.
  by apply: (B_lin ok c i g1 gwh gw) => c' i'; rewrite ew ewh mulrDl addrC mulrAC.
have eX := ent_H eps ok (nth 0 bdf k) dt mu c i g1.
have alg (b' f' D' Bh l H1 H0 Bw X m : R) : b' = f' + D' - Bh - l -> H1 = H0 + l -> Bw = X + Bh -> H1 = X + m ->
  Bw + m = f' + D' + (H0 - b').
  move=> -> e2 -> e3; have -> : m = H0 + l - X by rewrite -e2 e3 addrAC subrr add0r.
  ring.
exact: (alg _ _ _ _ _ _ _ _ _ _ e0 eH eB eX).
Qed.
Definition momentum_of (bdf : seq R) (p_ext : field) (u1 : vfield) (S : vfield -> vfield) : Prop :=
  forall w, vgood s w ->
    (forall c i, ent w c i = (\sum_(j < k) nth 0 bdf j * ent (nth [::] us j) c i + nth 0 bdf k * ent u1 c i) / dt) ->
    S (tree_add (B s w) (tree_scale mu (A u1))) = S (tree_add f (Dt p_ext)).
(** The rest of the step: the filter and the corrections. *)
Definition corrected (bdf : seq R) (p_ext : field) (u1 u : vfield) (p : field) : Prop :=
  [/\ bdfk_coeffs R k = inr bdf,
    (forall i, nth 0 p_ext i = 2%:R * nth 0 (nth [::] ps (size ps - 1)) i - nth 0 (nth [::] ps (size ps - 2)) i) &
    exists u2 dp, [/\ filter eps s alpha u1 = inr u2,
      (forall c i, (c < d)%N -> (i < nv s)%N -> ent u c i = ent u2 c i + dt / nth 0 bdf k * ent (Bi s (Dt dp)) c i) &
      (forall i, nth 0 p i = nth 0 p_ext i + nth 0 dp i)]].

(** The tentative velocity [u1] solves the momentum equation
    B (sum_j beta_j u_j + beta_k u1) / dt + mu A u1 = f + D^T p_ext. *)
Theorem C45_momentum u p : (forall bdf, bdfk_coeffs R k = inr bdf -> exact_for solve vsh (H (nth 0 bdf k) dt mu) Mv) -> size us = k ->
  stokes_one_step eps solve s us ps f mu dt k alpha lift given project = inr (u, p) ->
  exists bdf p_ext u1, [/\ vgood s u1, corrected bdf p_ext u1 u p & momentum_of bdf p_ext u1 id].
Proof.
move=> ex su /stepP[bdf [p_ext [u0 [u1 [u2 [dp [_ parts]]]]]]].
have [b [hM gb _ hr]] := momentum_residual su parts.
move: parts => [hb [sx ex1] g0 [g1 e1] [g2 h2] sdp [gu eu] [sp ep] _ _].
exists bdf, p_ext, u1; split=> //; first by split=> //; exists u2, dp.
move=> w gw ew; have gD := good_Dt eps ok p_ext; have gA := good_scale mu (good_A eps ok u1).
apply: (good_eq (good_add (good_B ok gw) gA) (good_add f_good gD)) => c i _ _.
rewrite (ent_add _ _ (good_B ok gw) gA) (ent_add _ _ f_good gD) ent_scale.
by apply: (etrans (hr w gw ew c i)); rewrite (ex _ hb _ _ gb hM) subrr addr0.
Qed.
Lemma assembled_step bdf u p p_ext u0 u1 u2 dp : size us = k -> step_parts bdf u p p_ext u0 u1 u2 dp ->
  (forall b, solve (H (nth 0 bdf k) dt mu) b Mv = Some u0 -> vgood s b -> (vanishes s f -> vanishes s b) ->
    v_exchange vel (H (nth 0 bdf k) dt mu u0) = v_exchange vel b) -> momentum_of bdf p_ext u1 (v_exchange vel).
Proof.
move=> su parts ex; have [b [hM gb vb hr]] := momentum_residual su parts.
move: parts => [hb [sx ex1] g0 [g1 e1] [g2 h2] sdp [gu eu] [sp ep] _ _].
move=> w gw ew; have gD := good_Dt eps ok p_ext; have gA := good_scale mu (good_A eps ok u1).
have gL := good_add (good_B ok gw) gA; have gR := good_add f_good gD.
have gH := good_H eps ok (nth 0 bdf k) dt mu g0; have gr := good_sub gH gb.
have er c i : ent (tree_sub (H (nth 0 bdf k) dt mu u0) b) c i = ent (H (nth 0 bdf k) dt mu u0) c i - ent b c i by apply: (ent_sub _ _ gH gb).
have eL c i : ent (tree_add (B s w) (tree_scale mu (A u1))) c i =
    1 * ent (tree_sub (H (nth 0 bdf k) dt mu u0) b) c i + ent (tree_add f (Dt p_ext)) c i.
  have alg (x b' m a f' D' r t h0 : R) : x = b' + m -> m = a -> r = h0 -> t = f' + D' -> b' + a = (f' + D') + h0 -> x = 1 * r + t.
    by move=> -> -> -> -> ->; rewrite mul1r addrC.
  exact: (alg _ _ _ _ _ _ _ _ _ (ent_add c i (good_B ok gw) gA) (ent_scale mu (A u1) c i) (er c i) (ent_add c i f_good gD) (hr w gw ew c i)).
have e0 c i : ent (v_exchange vel (tree_sub (H (nth 0 bdf k) dt mu u0) b)) c i = 0.
  have X : forall c i, ent (tree_sub (H (nth 0 bdf k) dt mu u0) b) c i = -1 * ent b c i + ent (H (nth 0 bdf k) dt mu u0) c i.
    by move=> c' i'; rewrite er mulN1r addrC.
  apply: (etrans (exch_lin ok c i gb gH gr X)); rewrite (ex _ hM gb vb) mulN1r; exact: addNr.
apply: (good_eq (good_exch gL) (good_exch gR)) => c i _ _.
by apply: (etrans (exch_lin ok c i gr gR gL eL)); rewrite e0 mulr0 add0r.
Qed.
(** On periodic meshes the solver works up to [exchange], and so does the
    equation. *)
Theorem C45_momentum_assembled u p : (forall bdf, bdfk_coeffs R k = inr bdf -> exact_assembled solve (H (nth 0 bdf k) dt mu) Mv) ->
  size us = k -> stokes_one_step eps solve s us ps f mu dt k alpha lift given project = inr (u, p) ->
  exists bdf p_ext u1, [/\ vgood s u1, corrected bdf p_ext u1 u p & momentum_of bdf p_ext u1 (v_exchange vel)].
Proof.
move=> ex su /stepP[bdf [p_ext [u0 [u1 [u2 [dp [_ parts]]]]]]].
have M : momentum_of bdf p_ext u1 (v_exchange vel).
  by apply: (assembled_step su parts) => b hM gb _; apply: ex => //; exact: (sp_bdf parts).
move: parts => [hb [sx ex1] g0 [g1 e1] [g2 h2] sdp [gu eu] [sp ep] _ _].
by exists bdf, p_ext, u1; split=> //; split=> //; exists u2, dp.
Qed.
End Step.

(** ** With conjugate gradients as the solver *)
Section WithCG.
Variables (R : rcfType) (d : nat) (eps : R) (inv : 'M[R]_d -> 'M[R]_d) (L : eqType) (BCV : Type).
Notation rmesh := (Premesh_model.mesh [zmodType of 'rV[R]_d] L).
Variables (refined : nodes1d R -> ierror + rmesh) (K : nat) (F : nat -> 'I_d -> tpoly R).
Hypothesis fam : mesh_family refined K F.
Variables (o order overint : nat) (bcs : seq (L * (bctype * BCV))) (s : sem R d).
Hypothesis hs : sem_create eps inv refined o order bcs overint = inr s.
Variables (tol atol : R).
(** [partial(cg, M=., tol=tol, atol=atol)], l.425, 438 *)
Definition cg_solver : solver R := fun op b M =>
  if cg op b None tol atol None M (@jnp_vdot R) is CGDone x _ _ then Some x else None.
Variables (us : seq (seq (seq R))) (ps : seq (seq R)) (f : seq (seq R)) (mu dt : R) (k : nat) (alpha : R)
  (lift : option (seq (seq R))) (given : option (tree R -> tree R)) (project : bool).
Hypothesis us_good : forall j, (j < size us)%N -> vgood s (nth [::] us j).
Hypothesis ps_good : forall j, (j < size ps)%N -> size (nth [::] ps j) = np s.
Hypothesis f_good : vgood s f.
Hypothesis lift_good : if lift is Some ub then vgood s ub else True.
Hypothesis k0 : (0 < k)%N.
Notation Mp := (preconditioner eps s given project).
Hypothesis given_ok : if given is Some m then tree_map_ok [:: np s] m else True.
Let ok : sem_ok s. Proof. by have [gp [gv [rp [rv [quad cf]]]]] := created fam hs; exact: (facts_ok cf). Qed.

Lemma prec_v : tree_map_ok (nseq d (nv s)) (precond (Some (v_exchange (s_velocity s)))).
Proof. by move=> u gu; apply: good_exch. Qed.
Lemma prec_p : tree_map_ok [:: np s] (precond Mp).
Proof.
rewrite /preconditioner; case: (given) given_ok => [m|] // _; case: (project) => //= t /one_leaf[p -> sp].
have [gp [gv [rp [rv [quad cf]]]]] := created fam hs.
by rewrite /good /shape /= (projectE eps sp (facts_pexchange cf)) size_map sp.
Qed.
Lemma cg_keeps sh op M : tree_linear sh op -> tree_map_ok sh (precond M) -> keeps_shape cg_solver sh op M.
Proof.
move=> lin okM b x gb; rewrite /cg_solver.
case e : (cg _ _ _ _ _ _ _ _) => [y g n|] // [<-].
by have [] := @C41_residual _ sh op M (@jnp_vdot R) b None tol atol None gb I _ _ _ lin okM e.
Qed.
Lemma cg_shapes bdf : bdfk_coeffs R k = inr bdf ->
  keeps_shape cg_solver (nseq d (nv s)) (H eps s (nth 0 bdf k) dt mu) (Some (v_exchange (s_velocity s))) /\
  keeps_shape cg_solver [:: np s] (E_tree eps s dt (nth 0 bdf k)) Mp.
Proof.
move=> _; split; apply: cg_keeps; [exact: H_linear|exact: prec_v|exact: E_tree_linear|exact: prec_p].
Qed.
Notation D := (@Stokes_model.D R d eps s).
Notation dot := (tree_vdot (@jnp_vdot R)).
Lemma dot_leaf (x y : seq R) : size x = np s -> size y = np s -> dot [:: x] [:: y] = \sum_(i < np s) nth 0 x i * nth 0 y i.
Proof. by move=> sx sy; rewrite /tree_vdot /= addr0 jnp_vdotE sx sy minnn. Qed.

Lemma residual_list (b e du : seq R) : size b = np s -> size e = np s -> size du = np s ->
  (forall i, nth 0 du i = nth 0 e i - nth 0 b i) -> tree_sub [:: b] [:: e] = [:: [seq - x | x <- du]].
Proof.
move=> sb se sd H; rewrite -[tree_sub _ _]/[:: map2 (fun x y => x - y) b e]; congr [:: _].
apply: (@eq_from_nth _ 0); first by rewrite size_map2 ?size_map ?sb ?sd.
move=> i; rewrite size_map2 ?sb ?se // => hi; rewrite nth_map2d ?subr0 ?sb // (nth_map 0) ?sd // H; ring.
Qed.
(** The divergence [r] of the result is minus the residual that [cg] stopped with:
    its product with the preconditioned [r] is within the tolerance, relative to
    the divergence of the filtered tentative velocity [u2], or the iteration
    limit was reached. *)
Theorem C45_cg u p : stokes_one_step eps cg_solver s us ps f mu dt k alpha lift given project = inr (u, p) ->
  let r := [:: [seq - x | x <- D u]] in let g := dot r (precond Mp r) in
  exists bdf u2 dp n, [/\ bdfk_coeffs R k = inr bdf, (exists u1, filter eps s alpha u1 = inr u2),
    cg (E_tree eps s dt (nth 0 bdf k)) [:: [seq - x | x <- D u2]] None tol atol None Mp (@jnp_vdot R) = CGDone [:: dp] g n &
    g <= Num.max (tol ^+ 2 * \sum_(i < np s) nth 0 (D u2) i ^+ 2) (atol ^+ 2) \/ n = (10 * np s)%N].
Proof.
move=> h r g; have shv bdf hb := (cg_shapes (bdf := bdf) hb).1; have shp bdf hb := (cg_shapes (bdf := bdf) hb).2.
have [bdf [p_ext [u0 [u1 [u2 [dp [_ [hb _ _ _ [g2 h2] sdp [gu eu] _ _ hM]]]]]]]] := stepP fam hs shv shp us_good ps_good f_good lift_good k0 h.
have eD i := divergence_residual fam hs i hb g2 gu eu; exists bdf, u2, dp.
move: hM; rewrite /cg_solver; case e : (cg _ _ _ _ _ _ _ _) => [y g' n|] // [ey]; rewrite ey in e.
have gb : good [:: np s] [:: [seq - x | x <- D u2]] by rewrite /good /shape /= size_map size_D.
have [_ eg hn hl] := @C41_residual _ _ _ Mp (@jnp_vdot R) _ None tol atol None gb I _ _ _ (E_tree_linear eps ok dt (nth 0 bdf k)) prec_p e.
have er : tree_sub [:: [seq - x | x <- D u2]] (E_tree eps s dt (nth 0 bdf k) [:: dp]) = r.
  by apply: (residual_list _ (size_E eps s dt (nth 0 bdf k) dp) _ eD); rewrite ?size_map size_D.
have eg' : g' = g := etrans eg (congr1 (fun t => dot t (precond Mp t)) er).
have eL : limit [:: np s] None = (10 * np s)%N by rewrite /limit /= addn0.
have eb : dot [:: [seq - x | x <- D u2]] [:: [seq - x | x <- D u2]] = \sum_(i < np s) nth 0 (D u2) i ^+ 2.
  have sb : size [seq - x | x <- D u2] = np s by rewrite size_map size_D.
  apply: (etrans (dot_leaf sb sb)); apply: eq_bigr => i _; by rewrite (nth_map 0) ?size_D // mulrNN.
move: e hl; rewrite eg' eL eb => e hl.
exists n; split=> //; first by exists u1.
by rewrite ey.
Qed.
(** Without preconditioner the product is the squared norm of the divergence. *)
Theorem C45_cg_plain u p : given = None -> project = false ->
  stokes_one_step eps cg_solver s us ps f mu dt k alpha lift given project = inr (u, p) ->
  exists bdf u1 u2 dp n, [/\ filter eps s alpha u1 = inr u2,
    cg (E_tree eps s dt (nth 0 bdf k)) [:: [seq - x | x <- D u2]] None tol atol None None (@jnp_vdot R) =
      CGDone [:: dp] (\sum_(i < np s) nth 0 (D u) i ^+ 2) n &
    \sum_(i < np s) nth 0 (D u) i ^+ 2 <= Num.max (tol ^+ 2 * \sum_(i < np s) nth 0 (D u2) i ^+ 2) (atol ^+ 2) \/ n = (10 * np s)%N].
Proof.
move=> gN pN h; have [bdf [u2 [dp [n [hb [u1 hu] e hl]]]]] := C45_cg h.
have eM : Mp = None by rewrite gN pN.
have eg : dot [:: [seq - x | x <- D u]] (precond Mp [:: [seq - x | x <- D u]]) = \sum_(i < np s) nth 0 (D u) i ^+ 2.
  have sb : size [seq - x | x <- D u] = np s by rewrite size_map size_D.
  rewrite eM; apply: (etrans (dot_leaf sb sb)); apply: eq_bigr => i _; by rewrite (nth_map 0) ?size_D // mulrNN.
by move: e hl; rewrite eg eM => e hl; exists bdf, u1, u2, dp, n.
Qed.
End WithCG.

Print Assumptions C45_residual.
Print Assumptions C45_divergence_free.
Print Assumptions C45_momentum.
Print Assumptions C45_momentum_assembled.
Print Assumptions C45_cg.
Print Assumptions C45_cg_plain.
