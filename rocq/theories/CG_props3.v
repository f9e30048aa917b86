(** C63, continued: consistent singular systems, with preconditioners that add
    elements of the kernel. *)
From mathcomp Require Import all_ssreflect all_algebra zify ring.
From Verif Require Import CG_model CG_proofs CG_props CG_props2.
Set Implicit Arguments.
Unset Strict Implicit.
Unset Printing Implicit Defensive.
Import Order.TTheory GRing.Theory Num.Theory.
Local Open Scope ring_scope.

Section Whole.
Variables (R : realFieldType) (sh : seq nat).
Notation tree := (tree R).
Notation good := (good sh).
Notation N := (sumn sh).
Notation comb a u v := (tree_add (tree_scale a u) v).
Notation zero := (zero_tree R sh).
Implicit Types (t u v w x y r p b : tree) (P Q : tree -> Prop) (A M : tree -> tree).

(** ** The unit trees *)
Definition unit_trees : seq tree := [seq unvec (sh := sh) (delta_mx 0 i) | i <- enum 'I_N].
Lemma size_unit_trees : size unit_trees = N. Proof. by rewrite size_map size_enum_ord. Qed.
Lemma good_unit_trees w : w \in unit_trees -> good w.
Proof. by case/mapP => i _ ->; exact: good_unvec. Qed.
Lemma span_unit_trees u : in_span sh unit_trees u <-> good u.
Proof.
split=> [[c ->]|gu]; first by have [] := good_combination c good_unit_trees.
apply/(in_spanP good_unit_trees gu); rewrite (row_sum_delta (vec sh u)) rpred_sum // => i _.
rewrite rpredZ // memv_span //; apply/mapP; exists (unvec (sh := sh) (delta_mx 0 i)); last by rewrite unvecK.
by apply/mapP; exists i; rewrite ?mem_enum.
Qed.
Lemma vdot_pos u : good u -> u <> zero -> 0 < tree_vdot (@jnp_vdot R) u u.
Proof.
move=> gu nz; rewrite tree_vdotE // jnp_vdotE minnn (size_good gu) lt_neqAle sumr_ge0 => [|i _]; last by rewrite -expr2 sqr_ge0.
rewrite andbT eq_sym; apply/eqP => e; apply: nz; apply: (vec_inj gu (good_zero R sh)); rewrite vec_zero.
have P0 (i : 'I_N) : true -> 0 <= (flatten u)`_i * (flatten u)`_i by rewrite -expr2 sqr_ge0.
apply/rowP => i; rewrite !mxE; have /eqP := psumr_eq0P P0 e (i := i) isT; by rewrite mulf_eq0 orbb => /eqP.
Qed.

Section Dot.
Variables (A : tree -> tree) (dot : tree -> tree -> R).
Hypotheses (linA : tree_linear sh A) (okd : tree_dot_ok sh dot) (dpos : forall u, good u -> u <> zero -> 0 < dot u u).
Hypothesis sym : forall u v, good u -> good v -> dot u (A v) = dot (A u) v.
Let okA := proj1 linA.
Let dc : forall u v, good u -> good v -> dot u v = dot v u := proj2 okd.

Lemma dot_eq0 u : good u -> dot u u = 0 -> u = zero.
Proof. by move=> gu e; apply/eqP; apply: contraT => /eqP /(dpos gu); rewrite e ltxx. Qed.
(** The Fredholm alternative. *)
Lemma fredholm b : good b -> (forall z, good z -> A z = zero -> dot z b = 0) -> exists2 w, good w & A w = b.
Proof.
move=> gb compat; pose us := [seq A w | w <- unit_trees].
have gus u : u \in us -> good u by case/mapP => w /good_unit_trees gw ->; apply: okA.
have SM u : in_span sh us u <-> exists2 v, good v & u = A v.
  split=> [/(span_map linA u good_unit_trees)[v /span_unit_trees gv ->]|[v gv ->]]; first by exists v.
  by apply/(span_map linA _ good_unit_trees); exists v => //; apply/span_unit_trees.
have [S [[okS linS] PS]] := projection okd dpos gus; have [rS oS] := PS b gb.
have gSb := okS _ gb; have [gr er] := vecB gb gSb; set r := tree_sub b (S b) in gr er.
have rE w : good w -> dot r w = dot b w - dot (S b) w.
  by move=> gw; rewrite /r (sub_comb gb gSb) (proj1 okd) // mulN1r addrC.
have r0 v : good v -> dot r (A v) = 0.
  move=> gv; rewrite rE; last exact: okA.
  by rewrite oS ?subrr //; apply/SM; exists v.
have Ar : A r = zero.
  by apply: dot_eq0; [exact: okA|rewrite -sym ?r0 //; exact: okA].
have rr : r = zero.
  apply: dot_eq0 => //; have [v gv e] := proj1 (SM _) rS.
  rewrite {2}/r (sub_comb gb gSb) (dot_comb_r okd) // {1}e r0 // mulr0 add0r; exact: compat.
have [v gv e] := proj1 (SM _) rS; exists v => //; rewrite -e.
by apply: (vec_inj gSb gb); apply/eqP; rewrite eq_sym -subr_eq0 -er rr vec_zero.
Qed.
End Dot.

Section Solve.
Variables (A : tree -> tree) (dot_fn : seq R -> seq R -> R) (b : tree).
Notation dot := (tree_vdot dot_fn).
Hypotheses (linA : tree_linear sh A) (okd : tree_dot_ok sh dot) (dpos : forall u, good u -> u <> zero -> 0 < dot u u).
Hypothesis sym : forall u v, good u -> good v -> dot u (A v) = dot (A u) v.
Hypothesis psd : forall u, good u -> 0 <= dot u (A u).
Hypothesis gb : good b.
Hypothesis compat : forall z, good z -> A z = zero -> dot z b = 0.
Let okA := proj1 linA.
Let dc : forall u v, good u -> good v -> dot u v = dot v u := proj2 okd.
Notation body := (body (@tree_add R) (@tree_sub R) (@tree_scale R) dot A).
Notation loop := (loop (@tree_add R) (@tree_sub R) (@tree_scale R) dot A).
Notation initial := (initial (@tree_sub R) dot A).

(** Two runs whose preconditioners differ by elements of the kernel. *)
Lemma kernel_runs M tol atol maxiter : tree_map_ok sh M -> (forall r, good r -> A (M r) = A r) ->
  match cg A b None tol atol maxiter (Some M) dot_fn, cg A b None tol atol maxiter None dot_fn with
  | CGDone x g k, CGDone x' g' k' => [/\ good x, good x', A x = A x', g = g' & k = k']
  | CGBroken k, CGBroken k' => k = k'
  | _, _ => False
  end.
Proof.
move=> okM AM; have [w gw wE] := fredholm linA okd dpos sym gb compat.
have gz := good_zero R sh; have A0 := linear_zero linA.
pose rg r := exists2 v, good v & r = A v.
have grg r : rg r -> good r by move=> [v gv ->]; apply: okA.
have rg_sub u v : rg u -> rg v -> rg (tree_sub u v).
  move=> [p gp ->] [q gq ->]; exists (tree_sub p q); first by have [] := vecB gp gq.
  by rewrite (sub_comb gp gq) (sub_comb (okA gp) (okA gq)) (proj2 linA).
have rg_scale a u : rg u -> rg (tree_scale a u).
  move=> [p gp ->]; exists (tree_scale a p); first by have [] := vecZ a gp.
  by rewrite (scale_comb a gp) (proj2 linA) // A0 -(scale_comb a (okA gp)).
have gamma r : rg r -> dot r (M r) = dot r r.
  move=> rr; have gr := grg _ rr; have [v gv e] := rr; rewrite {1 3}e -!sym //; last exact: okM.
  by rewrite AM.
pose R1 (s s' : state R tree) := [/\ good (st_x s) /\ good (st_x s') /\ A (st_x s) = A (st_x s'), st_r s = st_r s', st_gamma s = st_gamma s',
  good (st_p s) /\ good (st_p s') /\ A (st_p s) = A (st_p s') & st_k s = st_k s' /\ rg (st_r s)].
have step s s' : R1 s s' -> match body M s, body id s' with
  | Some t, Some t' => R1 t t' | None, None => True | _, _ => False end.
  case: s s' => [x r g p k] [x' r' g' p' k'] [/= [gx [gx' ex]] <- <- [gp [gp' ep]] [<- rr]].
  have gAp' := okA gp'; have gr := grg _ rr.
  have pAp : dot p (A p) = dot p' (A p').
    by rewrite ep sym // ep dc.
  rewrite /CG_model.body /= pAp; case: ifP => // _; rewrite ep; set a := _ / _.
  have rr' : rg (tree_sub r (tree_scale a (A p'))) by apply: rg_sub => //; apply: rg_scale; exists p'.
  have gr' := grg _ rr'; rewrite gamma //; set c := _ / g.
  have gMr := okM _ gr'; have [g1 _] := vecZ a gp; have [g2 _] := vecZ a gp'; have [g3 _] := vecZ c gp; have [g4 _] := vecZ c gp'.
  have addA u v : good u -> good v -> A (tree_add u v) = tree_add (A u) (A v).
    by move=> gu gv; rewrite (add_comb gu gv) (add_comb (okA gu) (okA gv)) (proj2 linA).
  have scA e u : good u -> A (tree_scale e u) = tree_scale e (A u).
    by move=> gu; rewrite (scale_comb e gu) (proj2 linA) // A0 -(scale_comb e (okA gu)).
  split=> //=.
  - by do 2 (split; first by apply: (proj1 (vecD _ _))); rewrite !addA // !scA // ex ep.
  - by do 2 (split; first by apply: (proj1 (vecD _ _))); rewrite !addA // !scA // AM // ep.
have Hloop a2 n f s s' : R1 s s' ->
  match loop M a2 n f s, loop id a2 n f s' with
  | CGDone x g k, CGDone x' g' k' => [/\ good x, good x', A x = A x', g = g' & k = k']
  | CGBroken k, CGBroken k' => k = k'
  | _, _ => False
  end.
  elim: f s s' => [|f IH] s s' rs /=; have := step _ _ rs; have [[gx [gx' ex]] er eg ep [ek _]] := rs;
  rewrite /cond eg ek; case: ifP => // _; case: (body M s) => [t|]; case: (body id s') => [t'|] // h.
  exact: IH.
rewrite !(cgE _ _ _ _ _ _ _ gb) /cg_run; apply: Hloop.
rewrite /CG_model.initial /start /= A0.
have rE : tree_sub b zero = A w.
  rewrite wE; have [g e] := vecB gb gz; apply: (vec_inj g gb); by rewrite e vec_zero subr0.
have rr : rg (A w) by exists w.
have gAw := okA gw; have gM := okM _ gAw.
by rewrite rE; split=> //=; [exact: gamma|do 2 split=> //; exact: AM].
Qed.

(** Symmetric positive semidefinite systems whose right-hand side is orthogonal
    to the kernel.  The preconditioner may change residuals by elements of the
    kernel. *)
Theorem C63_consistent (M : option (tree -> tree)) tol atol maxiter : tree_map_ok sh (precond M) -> (forall r, good r -> A (precond M r) = A r) ->
  exists x gamma k,
  [/\ cg A b None tol atol maxiter M dot_fn = CGDone x gamma k, good x, (k <= N)%N &
      tol = 0 -> atol = 0 -> (N <= limit sh maxiter)%N -> gamma = 0 /\ A x = b].
Proof.
move=> okM AM; have [w gw wE] := fredholm linA okd dpos sym gb compat.
have U u := proj1 (span_unit_trees u); have gz := good_zero R sh.
have rE : tree_sub b (A (start sh None)) = A w.
  rewrite /start linear_zero // wE; have [g e] := vecB gb gz; apply: (vec_inj g gb); by rewrite e vec_zero subr0.
have [|||||x [g [k [h1 h2 h3 h4]]]] := @C63_semidefinite R sh A dot_fn b None unit_trees gb I linA okd good_unit_trees
  _ _ _ _ w tol atol maxiter _ rE.
- by move=> u /U gu; apply/span_unit_trees; exact: okA.
- by move=> u /U; exact: dpos.
- by move=> u v /U gu /U gv; exact: sym.
- by move=> u /U; exact: psd.
- exact/span_unit_trees.
rewrite size_unit_trees in h2 h4.
case: M okM AM => [M|] okM AM; last first.
  exists x, g, k; split=> //; case: h3 => y /U gy ->; have := vecD (good_zero R sh) (okA gy); by case.
have := kernel_runs tol atol maxiter okM AM; rewrite h1; case: (cg _ _ _ _ _ _ _ _) => // x' g' k' [gx' gx e -> ->].
by exists x', g, k; split=> // t0 a0 l; have [-> ?] := h4 t0 a0 l; rewrite e.
Qed.
End Solve.

(** ** Preconditioners that agree on the residuals *)
Section Ext.
Variables (A M M' : tree -> tree) (dot_fn : seq R -> seq R -> R) (b : tree) (P Q : tree -> Prop).
Hypotheses (gb : good b) (sP : linear_space sh P) (sQ : linear_space sh Q).
Hypotheses (AQ : forall p, P p -> Q (A p)) (MP : forall r, Q r -> P (M r)) (MM : forall r, Q r -> M r = M' r).
Hypothesis Qb : Q b.
Notation dot := (tree_vdot dot_fn).
Lemma cg_ext tol atol maxiter : cg A b None tol atol maxiter (Some M) dot_fn = cg A b None tol atol maxiter (Some M') dot_fn.
Proof.
have [gP zP cP] := sP; have [gQ zQ cQ] := sQ.
rewrite !(cgE _ _ _ _ _ _ _ gb) /cg_run.
have Q0 : Q (tree_sub b (A (start sh None))) by apply: (space_sub sQ) => //; apply: AQ.
have -> : initial (@tree_sub R) dot A (precond (Some M')) b (start sh None) = initial (@tree_sub R) dot A (precond (Some M)) b (start sh None).
  by rewrite /initial /= MM.
have : Q (st_r (initial (@tree_sub R) dot A (precond (Some M)) b (start sh None))) /\ P (st_p (initial (@tree_sub R) dot A (precond (Some M)) b (start sh None))).
  by split=> //; exact: MP.
move: (initial _ _ _ _ _ _) (atol2_of _ _ _ _) => s a2; move: (limit _ _) => n; move: {2 4}n => f.
elim: f s => [|f IH] s [qr pp] /=; case: ifP => // _.
  rewrite /body /=; set Ap := A _; case: ifP => //.
rewrite /body /=; case: ifP => // _; set a := _ / _.
have q' : Q (tree_sub (st_r s) (tree_scale a (A (st_p s)))).
  by apply: (space_sub sQ) => //; apply: (space_scale _ sQ); exact: AQ.
rewrite -MM //; apply: IH; split=> //=.
by apply: (space_add sP); [exact: MP|apply: (space_scale _ sP)].
Qed.
End Ext.
End Whole.

(** ** Examples *)
(** The Laplacian of a path; the preconditioner subtracts the mean weighted by 1, 2, 1. *)
Definition ex_P (R : realFieldType) (t : tree R) : tree R :=
  if t is [:: [:: x; y; z]] then let c := (x + 2%:R * y + z) / 4%:R in [:: [:: x - c; y - c; z - c]] else [::].
Example ex_consistent (R : realFieldType) (x y : R) : exists u g k,
  [/\ cg (@ex_S R) [:: [:: x; y; - x - y]] None 0 0 None (Some (@ex_P R)) (@jnp_vdot R) = CGDone u g k, (k <= 3)%N, g = 0 &
      ex_S u = [:: [:: x; y; - x - y]]].
Proof.
have L : tree_linear [:: 3%N] (@ex_S R).
  split=> [u /ex_three[a [b [c ->]]] //|a u v /ex_three[p [q [r ->]]] /ex_three[p' [q' [r' ->]]]].
  by rewrite /ex_S /tree_add /tree_scale /map2 /=; congr [:: [:: _; _; _]]; ring.
have [||||||u [g [k [h1 h2 h3 h4]]]] := @C63_consistent R [:: 3%N] (@ex_S R) (@jnp_vdot R) [:: [:: x; y; - x - y]]
  L (@C42_default_dot R [:: 3%N]) (@ex_dot3 R) _ _ _ _ (Some (@ex_P R)) 0 0 None.
- by move=> u v /ex_three[a [b [c ->]]] /ex_three[a' [b' [c' ->]]]; rewrite /tree_vdot /jnp_vdot /map2 /=; ring.
- move=> u /ex_three[a [b [c ->]]]; have -> : tree_vdot (@jnp_vdot R) [:: [:: a; b; c]] (ex_S [:: [:: a; b; c]]) = (a - b) ^+ 2 + (b - c) ^+ 2.
    by rewrite /tree_vdot /jnp_vdot /map2 /=; ring.
  by rewrite addr_ge0 ?sqr_ge0.
- by [].
- move=> u /ex_three[a [b [c ->]]]; rewrite /ex_S /zero_tree /= => -[e1 _ e3].
  have ab : a = b by apply/eqP; rewrite -subr_eq0 e1.
  have cb : c = b by apply/eqP; rewrite -subr_eq0 e3.
  by rewrite ab cb /tree_vdot /jnp_vdot /map2 /=; ring.
- by move=> u /ex_three[a [b [c ->]]].
- by move=> u /ex_three[a [b [c ->]]]; rewrite /= ; congr [:: [:: _; _; _]]; ring.
by have [g0 e] := h4 erefl erefl isT; exists u, g, k.
Qed.
Example ex_consistent_run : if cg (@ex_S _) [:: [:: 1; 1; -2%:R]] None 0 0 None (Some (@ex_P _)) (@jnp_vdot [realFieldType of rat]) is CGDone u g k
  then (ex_S u == [:: [:: 1; 1; -2%:R]]) && (g == 0) && (k == 2)%N else false.
Proof. by vm_compute. Qed.
(** A preconditioner that takes away something else than the kernel. *)
Example ex_inconsistent_run : if cg (fun t => [seq [seq 2%:R * x | x <- l] | l <- t]) [:: [:: 1; 1; 1]] None 0 0 None (Some (@ex_P _)) (@jnp_vdot [realFieldType of rat]) is CGDone u g k
  then (u == [:: [:: 0; 0; 0]]) && (g == 0) && (k == 0)%N else false.
Proof. by vm_compute. Qed.

Print Assumptions C63_consistent.
