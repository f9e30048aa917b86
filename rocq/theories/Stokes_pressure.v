(** The pressure solve with conjugate gradients. *)
From mathcomp Require Import all_ssreflect all_algebra zify ring.
From Verif Require Import GS_model GS_proofs GS_props Interp_model FES_model FES_proofs FES_props.
From Verif Require Import CG_model CG_proofs CG_props CG_props2 CG_props3 TimeCoef_model Stokes_model Stokes_proofs Stokes_proofs2 Stokes_proofs3 Stokes_proofs4 Stokes_solve Stokes_momentum.
Set Implicit Arguments.
Unset Strict Implicit.
Unset Printing Implicit Defensive.
Import Order.TTheory GRing.Theory Num.Theory.
Local Open Scope ring_scope.

Section Sem.
Variables (R : rcfType) (d : nat) (eps : R) (s : sem R d).
Hypothesis ok : sem_ok s.
Notation vel := (s_velocity s).
Notation pr := (s_pressure s).
Notation D := (@D R d eps s).
Notation Dt := (@Dt R d eps s).
Notation E := (@Stokes_model.E R d eps s).
Notation E_tree := (@E_tree R d eps s).
Notation N := (nv s).
Notation dot := (tree_vdot (@jnp_vdot R)).
Notation inner := (vinner d N).
Notation psh := [:: np s].
Implicit Types (u v w : seq (seq R)) (p q r z : seq R).

Variable ids : seq int.
Hypothesis he : exchanges R N (v_gi vel) (v_ui vel) ids.
Let si : size ids = N. Proof. by case: he. Qed.
Notation mask := (nth 0 (v_mask vel)).
Hypotheses (mb : mask_binary s) (mc : consistent ids mask) (sg : same_geometry s) (mp : mass_positive s).
Let mcs : mask_consistent s. Proof. by exists ids. Qed.
Notation admissible := (admissible s ids).

Lemma dot_pinner p q : size p = np s -> size q = np s -> dot [:: p] [:: q] = pinner (np s) p q.
Proof. by move=> sp sq; rewrite /tree_vdot /= addr0 jnp_vdotE sp sq minnn. Qed.

(** The norm of the inverse mass. *)
Lemma Bi_eq0 u c i : vgood s u -> inner (Bi s u) u = 0 -> (c < d)%N -> (i < N)%N -> ent (v_exchange vel u) c i = 0.
Proof.
move=> gu; rewrite (Bi_inner ok he) // => e hc hi.
pose w c (k : nat) := (ent (v_exchange vel (s_mass s)) c k)^-1.
have W (c' : 'I_d) : \sum_(k < size ids) w c' k * nth 0 (serial_exchange ids (nth [::] u c')) k * nth 0 (nth [::] u c') k =
    \sum_(k < size ids) w c' k / mult R ids k * nth 0 (serial_exchange ids (nth [::] u c')) k ^+ 2.
  apply: weighted_square; [exact: (inv_mass_consistent ok he)|by rewrite (good_comp gu) // si].
have w0 c' k : (c' < d)%N -> (k < size ids)%N -> 0 < w c' k / mult R ids k.
  by move=> hc' hk; rewrite divr_gt0 ?mult_gt0 // invr_gt0 ex_mass_gt0 // -si.
have P (c' : 'I_d) (k : 'I_(size ids)) : true -> 0 <= w c' k / mult R ids k * nth 0 (serial_exchange ids (nth [::] u c')) k ^+ 2.
  by move=> _; rewrite mulr_ge0 ?sqr_ge0 // ltW // w0.
have Pc (c' : 'I_d) : true -> 0 <= \sum_(k < size ids) w c' k * nth 0 (serial_exchange ids (nth [::] u c')) k * nth 0 (nth [::] u c') k.
  by move=> _; rewrite W; apply: sumr_ge0 => k _; exact: P.
have := psumr_eq0P Pc e (i := Ordinal hc) isT; rewrite W => e1.
have hi' : (i < size ids)%N by rewrite si.
have /eqP := psumr_eq0P (P (Ordinal hc)) e1 (i := Ordinal hi') isT.
by rewrite /= mulf_eq0 (gt_eqF (w0 _ _ hc hi')) /= sqrf_eq0 => /eqP; rewrite (ent_exch _ he gu hc).
Qed.
(** A velocity whose copies agree does not see what cancels when copies are added. *)
Lemma agrees_orthogonal u v : vgood s u -> agrees d ids u -> vgood s v ->
  (forall c i, (c < d)%N -> (i < N)%N -> ent (v_exchange vel v) c i = 0) -> inner u v = 0.
Proof.
move=> gu au gv v0; apply: big1 => c _.
have su : size (nth [::] u c) = size ids by rewrite si (good_comp gu).
have sv : size (nth [::] v c) = size ids by rewrite si (good_comp gv).
have cw : consistent ids (fun k => (mult R ids k)^-1) by move=> k j hk hj sk; rewrite (mult_consistent R hk hj sk).
have := weighted_sym cw su sv; rewrite [RHS]big1 => [W|k _]; last first.
  by rewrite -(ent_exch _ he gv) // v0 ?mulr0 ?mul0r // -si.
apply: (etrans _ W); rewrite si; apply: eq_bigr => k _; rewrite -(ent_exch _ he gu) // (exch_agrees he gu au) // mulKf //.
by rewrite gt_eqF // mult_gt0 // si.
Qed.

Section Solve.
Variables (dt beta : R).
Hypotheses (dt0 : 0 < dt) (b0 : 0 < beta).

(** The kernel of E. *)
Lemma E_kernel z : size z = np s -> E dt beta z = nseq (np s) 0 ->
  forall c i, (c < d)%N -> (i < N)%N -> ent (v_exchange vel (Dt z)) c i = 0.
Proof.
move=> sz ez c i hc hi; apply: Bi_eq0 => //; first exact: good_Dt.
have := E_inner eps ok dt beta sg mb mcs sz sz; rewrite ez /pinner big1 => [/esym/eqP|j _]; last by rewrite nth_nseq if_same mul0r.
by rewrite mulf_eq0 (gt_eqF (divr_gt0 dt0 b0)) => /eqP.
Qed.
(** The divergence of an admissible velocity is orthogonal to it. *)
Lemma D_compatible u z : admissible u -> size z = np s -> E dt beta z = nseq (np s) 0 -> pinner (np s) (D u) z = 0.
Proof.
move=> [gu vu au] sz ez; apply: (etrans (adjoint_masked eps ok sg mb gu vu sz)).
apply: agrees_orthogonal => //; first exact: good_Dt.
exact: E_kernel.
Qed.

Lemma E_tree_sym (t1 t2 : tree R) : good psh t1 -> good psh t2 -> dot t1 (E_tree dt beta t2) = dot (E_tree dt beta t1) t2.
Proof.
move=> /one_leaf[p -> sp] /one_leaf[q -> sq]; have [sEp sEq] := (size_E eps s dt beta p, size_E eps s dt beta q).
apply: (etrans (dot_pinner sp sEq)); apply: (etrans (pinnerC _ _ _)).
apply: (etrans (E_inner eps ok dt beta sg mb mcs sq sp)); apply: (etrans _ (esym (dot_pinner sEp sq))).
apply: (etrans _ (esym (E_inner eps ok dt beta sg mb mcs sp sq))).
exact: (congr1 ( *%R (dt / beta)) (Bi_sym ok (good_Dt eps ok q) (good_Dt eps ok p))).
Qed.
Lemma E_tree_psd (t : tree R) : good psh t -> 0 <= dot t (E_tree dt beta t).
Proof.
move=> /one_leaf[p -> sp]; have sE := size_E eps s dt beta p.
have X := etrans (dot_pinner sp sE) (etrans (pinnerC _ _ _) (E_inner eps ok dt beta sg mb mcs sp sp)).
apply: (eq_ind_r (fun x => 0 <= x) _ X); rewrite mulr_ge0 //; first by rewrite divr_ge0 ?ltW.
by apply: (Bi_ge0 ok mp); exact: good_Dt.
Qed.
(** The preconditioner takes away constants; these are in the kernel. *)
Lemma project_kernel r : (forall q, size q = np s -> p_exchange pr q = q) -> size r = np s ->
  E dt beta (nseq (np s) 1) = nseq (np s) 0 -> E dt beta (project_out eps s r) = E dt beta r.
Proof.
move=> ex sr e1; rewrite (projectE eps sr ex); set c := _ / _; clearbody c.
have s1 : size (nseq (np s) (1 : R)) = np s := size_nseq _ _; have sc : size (sub_const r c) = np s by rewrite size_map.
have e i : nth 0 (sub_const r c) i = - c * nth 0 (nseq (np s) 1) i + nth 0 r i.
  case: (ltnP i (np s)) => hi; first by rewrite nth_nseq hi (nth_map 0) ?sr // mulr1 addrC.
  by rewrite !nth_default ?s1 ?sr ?sc // mulr0 addr0.
have sE x := size_E eps s dt beta x.
apply: (@eq_from_nth _ 0); first exact: (etrans (sE _) (esym (sE _))).
move=> i _; apply: (etrans (E_lin eps ok dt beta i s1 sr sc e)).
by rewrite e1 nth_nseq if_same mulr0 add0r.
Qed.
(** The solve, with any right-hand side orthogonal to the kernel. *)
Theorem pressure_solve_any (b : seq R) (project : bool) tol atol : size b = np s -> (forall q, size q = np s -> p_exchange pr q = q) ->
  (forall z, size z = np s -> E dt beta z = nseq (np s) 0 -> pinner (np s) b z = 0) ->
  (project -> E dt beta (nseq (np s) 1) = nseq (np s) 0) ->
  exists dp gamma k,
  [/\ cg (E_tree dt beta) [:: b] None tol atol None (preconditioner eps s None project) (@jnp_vdot R) = CGDone [:: dp] gamma k,
      size dp = np s, (k <= np s)%N & tol = 0 -> atol = 0 -> gamma = 0 /\ E dt beta dp = b].
Proof.
move=> sb ex compat proj.
have gb : good psh [:: b] by rewrite /good /shape /= sb.
have okM : tree_map_ok psh (precond (preconditioner eps s None project)).
  rewrite /preconditioner; case: (project) => //= t /one_leaf[p -> sp].
  by rewrite /good /shape /= (projectE eps sp ex) size_map sp.
have AM t : good psh t -> E_tree dt beta (precond (preconditioner eps s None project) t) = E_tree dt beta t.
  move=> /one_leaf[p -> sp]; case: (project) proj => [/(_ isT) e1|_]; last by [].
  exact: (congr1 (fun x => [:: x]) (project_kernel ex sp e1)).
have cb t : good psh t -> E_tree dt beta t = zero_tree R psh -> dot t [:: b] = 0.
  move=> /one_leaf[z -> sz] [ez]; apply: (etrans (dot_pinner sz sb)).
  apply: (@etrans _ _ (pinner (np s) b z)); last exact: compat z sz ez.
  by rewrite /pinner; apply: eq_bigr => i _; rewrite mulrC.
have [x [g [k [h1 h2 h3 h4]]]] := C63_consistent (E_tree_linear eps ok dt beta) (@C42_default_dot R psh) (@vdot_pos R psh) E_tree_sym E_tree_psd gb cb tol atol None okM AM.
have [dp xE sdp] := one_leaf h2; exists dp, g, k; split=> //; [by rewrite -xE|by rewrite /= addn0 in h3|].
move=> t0 a0; have [|-> e] := h4 t0 a0; first by rewrite /limit /= addn0 leq_pmull.
by split=> //; move: e; rewrite xE => -[].
Qed.
Theorem pressure_solve u (project : bool) tol atol : vgood s u -> (forall q, size q = np s -> p_exchange pr q = q) ->
  (forall z, size z = np s -> E dt beta z = nseq (np s) 0 -> pinner (np s) (D u) z = 0) ->
  (project -> E dt beta (nseq (np s) 1) = nseq (np s) 0) ->
  exists dp gamma k,
  [/\ cg (E_tree dt beta) [:: [seq - x | x <- D u]] None tol atol None (preconditioner eps s None project) (@jnp_vdot R) = CGDone [:: dp] gamma k,
      size dp = np s, (k <= np s)%N & tol = 0 -> atol = 0 -> gamma = 0 /\ E dt beta dp = [seq - x | x <- D u]].
Proof.
move=> gu ex compat proj; apply: pressure_solve_any => //; first by rewrite size_map size_D.
move=> z sz ez; apply: (@etrans _ _ (- pinner (np s) (D u) z)); last by rewrite (compat z sz ez) oppr0.
rewrite /pinner -sumrN; apply: eq_bigr => i _; by rewrite (nth_map 0) ?size_D // mulNr.
Qed.
End Solve.
End Sem.
