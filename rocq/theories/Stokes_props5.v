(** C64: time steps on generated cubes need no condition on the filter, and need one
    for the projection that can be read off the boundary conditions. *)
From Coq Require List.
From mathcomp Require Import all_ssreflect all_algebra polyrcf zify ring.
From Verif Require Import PyDict_model PyDict_proofs GS_model Interp_model Interp_spec FES_model FES_proofs Premesh_model.
From Verif Require Import Refiner_model Refiner_spec UnitCube_model UnitCube_spec UnitCube_props UnitCube_refine UnitCube_links.
From Verif Require Import CG_model TimeCoef_model Stokes_model Stokes_spec Stokes_proofs Stokes_proofs2 Stokes_proofs3.
From Verif Require Import Stokes_create Stokes_create2 Stokes_create3 Stokes_proofs4 Stokes_create4 Stokes_momentum Stokes_props Stokes_family Stokes_instance Stokes_props3 Stokes_props2 Stokes_props4 Stokes_cube.
Set Implicit Arguments.
Unset Strict Implicit.
Unset Printing Implicit Defensive.
Import Order.TTheory GRing.Theory Num.Theory.
Local Open Scope ring_scope.

Section Cube.
Variables (R : rcfType) (d : nat) (eps : R) (inv : 'M[R]_d -> 'M[R]_d) (L : eqType) (BCV : Type).
Variables (lbl : L) (n : nat) (a b : R) (pd : seq nat) (pm : premesh [lmodType R of 'rV[R]_d] L).
Hypotheses (d0 : (0 < d)%N) (n0 : (0 < n)%N) (ab : a < b).
Hypothesis gen : unit_cube_mesh d lbl n a b pd None = inr pm.
Variables (pg : nodes1d R) (tp : node_type).
Hypotheses (hpg : nodes1d_create R 2 tp = inr pg) (cpg : is_continuous pg).
Variables (order overint : nat) (bcs : seq (L * (bctype * BCV))) (s : sem R d).
Hypothesis hs : sem_create eps inv (refined_mesh pg pm) 1 order bcs overint = inr s.
Notation m := order.+1.
Notation at_point c p := (nd n order s c p).
Notation position c p := (global m c p).
Notation wall := (on_wall d n pd order).
Notation fixed := (walls_fixed lbl bcs).

(** Which nodes are one node, which are copies of one another, and which have a
    Dirichlet condition is determined by the position on the grid. *)
Theorem C64_nodes c p c' p' : c \in grid n d -> p \in grid m d -> c' \in grid n d -> p' \in grid m d ->
  [/\ (at_point c p < nv s)%N, at_point c p = at_point c' p' <-> position c p = position c' p' &
      dirichlet_node s (at_point c p) <-> fixed /\ wall (position c p)].
Proof.
move=> cg pg1 cg' pg2; have [gp [gv [rp [rv [quad [M [pm' [cf hM run rvE]]]]]]]] := cube_made d0 n0 ab gen hpg cpg hs.
split; first exact: (nd_lt cf rvE cg pg1).
  exact: (nd_eq d0 n0 ab gen hpg cpg cf hM run rvE cg cg' pg1 pg2).
exact: (dirichlet_nd d0 n0 ab gen hpg cpg cf hM run rvE cg pg1).
Qed.
Theorem C64_all i : (i < nv s)%N -> exists c p, [/\ c \in grid n d, p \in grid m d & i = at_point c p].
Proof.
have [gp [gv [rp [rv [quad [M [pm' [cf hM run rvE]]]]]]]] := cube_made d0 n0 ab gen hpg cpg hs.
exact: (nd_exists cf).
Qed.
Theorem C64_conforming u : conforming s u <-> [/\ vgood s u,
  (forall k c p, (k < d)%N -> c \in grid n d -> p \in grid m d -> fixed -> wall (position c p) -> ent u k (at_point c p) = 0) &
  forall k c p c' p', (k < d)%N -> c \in grid n d -> p \in grid m d -> c' \in grid n d -> p' \in grid m d ->
    wrap d n pd m (position c p) = wrap d n pd m (position c' p') -> ent u k (at_point c p) = ent u k (at_point c' p')].
Proof.
have [gp [gv [rp [rv [quad [M [pm' [cf hM run rvE]]]]]]]] := cube_made d0 n0 ab gen hpg cpg hs.
exact: (cube_conforming d0 n0 ab gen hpg cpg cf hM run rvE u).
Qed.
(** The filter keeps velocities conforming. *)
Theorem C64_filter alpha u u2 : conforming s u -> filter eps s alpha u = inr u2 -> conforming s u2.
Proof.
have [gp [gv [rp [rv [quad [M [pm' [cf hM run rvE]]]]]]]] := cube_made d0 n0 ab gen hpg cpg hs.
have [low hl _] := filterE (C61_family d0 n0 ab gen hpg cpg).1 cf alpha u.
exact: (filter_conforming d0 n0 ab gen hpg cpg cf hM run rvE hl).
Qed.
(** Conforming velocities have no net flux exactly if there is a condition on the
    walls or there are no walls. *)
Hypothesis inv_ok : forall J : 'M[R]_d, J \in unitmx -> inv J = invmx J.
Theorem C64_enclosed : (2 < order)%N -> enclosed eps s <-> fixed \/ forall axis, (axis < d)%N -> axis \in pd.
Proof.
have [gp [gv [rp [rv [quad [M [pm' [cf hM run rvE]]]]]]]] := cube_made d0 n0 ab gen hpg cpg hs.
move=> o2; exact: (cube_enclosedE d0 n0 ab gen hpg cpg cf hM run rvE inv_ok o2).
Qed.

(** ** The step *)
Variables (us : seq (seq (seq R))) (ps : seq (seq R)) (f : seq (seq R)) (mu dt : R) (k : nat) (alpha : R) (project : bool).
Hypotheses (o2 : (2 < order)%N) (dt0 : 0 < dt) (mu0 : 0 <= mu) (k0 : (0 < k)%N).
Hypothesis us_good : forall j, (j < size us)%N -> vgood s (nth [::] us j).
Hypothesis ps_good : forall j, (j < size ps)%N -> size (nth [::] ps j) = np s.
Hypothesis ps_two : (1 < size ps)%N.
Hypothesis f_good : vgood s f.
Hypothesis f_zero : forall c i, (c < d)%N -> (i < nv s)%N -> dirichlet_node s i -> ent f c i = 0.
Hypothesis projected : project -> fixed \/ forall axis, (axis < d)%N -> axis \in pd.
Let fam := (C61_family d0 n0 ab gen hpg cpg).1.
Let ori := (C61_family d0 n0 ab gen hpg cpg).2.
Let proj : project -> enclosed eps s. Proof. by move=> /projected h; apply/C64_enclosed. Qed.

Theorem C64_ends tol atol : exists u p, stokes_one_step eps (cg_solver tol atol) s us ps f mu dt k alpha None None project = inr (u, p).
Proof.
exact: (@C59_ends R d eps inv L BCV _ _ _ fam _ order overint bcs s hs tol atol us ps f mu dt k alpha None project o2 ori
  dt0 mu0 k0 us_good ps_two f_good f_zero (@C64_filter alpha) I I proj).
Qed.
Theorem C64_exact : size us = k -> exists u p,
  [/\ stokes_one_step eps (cg_solver 0 0) s us ps f mu dt k alpha None None project = inr (u, p),
      D eps s u = nseq (np s) 0, conforming s u &
      exists bdf p_ext u1, [/\ vgood s u1, corrected eps s ps dt k alpha bdf p_ext u1 u p &
        momentum_of eps s us f mu dt k bdf p_ext u1 (v_exchange (s_velocity s))]].
Proof.
move=> su; have [u [p h]] := C64_ends 0 0.
have [gu hD [v cv ev] hm] := @C59_exact R d eps inv L BCV _ _ _ fam _ order overint bcs s hs 0 0 us ps f mu dt k alpha None project o2 ori
  dt0 mu0 k0 us_good ps_good f_good f_zero (@C64_filter alpha) I I proj u p erefl erefl h.
exists u, p; split=> //; last exact: hm.
have [gv _ _] := cv; have -> // : u = v by apply: (good_eq gu gv) => c i hc hi; rewrite ev // addr0.
Qed.
End Cube.

(** ** Examples *)
(** On the square of [ex_square], periodic in one direction with fixed walls in the
    other, filtered and projected steps are exact; without the condition on the
    walls there is a net flux. *)
Example ex_filtered_step (R : rcfType) (eps mu alpha : R) : 0 <= mu -> exists pm : premesh [lmodType R of 'rV[R]_2] bool, exists s,
  [/\ unit_cube_mesh 2 true 3 (0 : R) 1 [:: 0%N] None = inr pm,
      sem_create eps invmx (refined_mesh (ex_pg R) pm) 1 3 [:: (true, (DIRICHLET, tt))] 2 = inr s &
  forall u0 p0 p1, vgood s u0 -> size p0 = np s -> size p1 = np s -> exists u p,
  [/\ stokes_one_step eps (cg_solver 0 0) s [:: u0] [:: p0; p1] (nseq 2 (nseq (nv s) 0)) mu 1 1 alpha None None true = inr (u, p),
      D eps s u = nseq (np s) 0 & conforming s u]].
Proof.
move=> mu0; have [pm [s [gen _ fam ori hs]]] := ex_square eps; exists pm, s; split=> //.
move=> u0 p0 p1 g0 s0 s1.
have g : vgood s (nseq 2 (nseq (nv s) 0)) by apply: goodP => [|c hc]; rewrite ?nth_nseq ?hc size_nseq.
have z c i : (c < 2)%N -> (i < nv s)%N -> dirichlet_node s i -> ent (nseq 2 (nseq (nv s) (0 : R))) c i = 0.
  by move=> hc hi _; rewrite /ent nth_nseq hc nth_nseq hi.
have fx : true -> walls_fixed true [:: (true, (DIRICHLET, tt))] \/ forall axis, (axis < 2)%N -> axis \in [:: 0%N].
  by left; exists tt; left.
have [||u [p [h1 h2 h3 _]]] := @C64_exact R 2 eps invmx _ _ _ _ _ _ _ _ (isT : (0 < 2)%N) (isT : (0 < 3)%N) ltr01 gen _ _ (ex_pg_created R) (ex_pg_continuous R)
  _ _ _ _ hs (fun _ _ => erefl) [:: u0] [:: p0; p1] _ mu 1 1 alpha true isT ltr01 mu0 isT _ _ isT g z fx erefl.
- by case=> // j; rewrite /= ltnS ltn0.
- by case=> [|[|j]] //.
by exists u, p.
Qed.
Example ex_outflow (R : rcfType) (eps : R) : exists pm : premesh [lmodType R of 'rV[R]_2] bool, exists s : sem R 2,
  [/\ unit_cube_mesh 2 true 3 (0 : R) 1 [:: 0%N] None = inr pm,
      sem_create eps invmx (refined_mesh (ex_pg R) pm) 1 3 [:: (true, (NEUMANN, tt))] 2 = inr s & ~ enclosed eps s].
Proof.
case gen : (unit_cube_mesh 2 true 3 (0 : R) 1 [:: 0%N] None) => [e|pm] //.
have [_ H] := C61_creates eps invmx (isT : (0 < 2)%N) (isT : (0 < 3)%N) gen (ex_pg_created R) (ex_pg_continuous R) (order := 3) 2
  [:: (true, (NEUMANN, tt))] isT (fun h => ltac:(by case: h)).
have [g v|s hs] := H; first by case.
exists pm, s; split=> // /(@C64_enclosed R 2 eps invmx _ _ _ _ _ _ _ _ (isT : (0 < 2)%N) (isT : (0 < 3)%N) ltr01 gen _ _ (ex_pg_created R) (ex_pg_continuous R)
  _ _ _ _ hs (fun _ _ => erefl) isT).
by case=> [[v [|[]]]|/(_ 1%N isT)].
Qed.

Print Assumptions C64_nodes.
Print Assumptions C64_all.
Print Assumptions C64_conforming.
Print Assumptions C64_filter.
Print Assumptions C64_enclosed.
Print Assumptions C64_ends.
Print Assumptions C64_exact.
