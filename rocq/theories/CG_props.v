(** C41-C42: conjugate gradients on pytrees. *)
From mathcomp Require Import all_ssreflect all_algebra zify ring.
From Verif Require Import CG_model CG_proofs.
Set Implicit Arguments.
Unset Strict Implicit.
Unset Printing Implicit Defensive.
Import Order.TTheory GRing.Theory Num.Theory.
Local Open Scope ring_scope.

Section Trees.
Variables (R : realFieldType) (sh : seq nat).
Notation tree := (tree R).
Notation N := (sumn sh).
Implicit Types (t u v w : tree).
(** Pytrees with leaves of the sizes [sh]. *)
Definition good t : Prop := shape t = sh.

Definition vec t : 'rV[R]_N := \row_i nth 0 (flatten t) i.
Definition unvec (v : 'rV[R]_N) : tree := reshape sh [seq v 0 i | i <- enum 'I_N].

Lemma size_good t : good t -> size (flatten t) = N.
Proof. by move=> e; rewrite size_flatten e. Qed.
Lemma size_unvec0 (v : 'rV[R]_N) : size [seq v 0 i | i <- enum 'I_N] = N.
Proof. by rewrite size_map size_enum_ord. Qed.
Lemma good_unvec (v : 'rV[R]_N) : good (unvec v).
Proof. by rewrite /good reshapeKl ?size_unvec0. Qed.
Lemma vecK t : good t -> unvec (vec t) = t.
Proof.
move=> gt; rewrite /unvec -{2}(flattenK t) gt; congr reshape.
apply: (@eq_from_nth _ 0); rewrite size_unvec0 ?size_good // => i hi.
by rewrite (nth_map (Ordinal hi)) ?size_enum_ord // mxE -[i]/(nat_of_ord (Ordinal hi)) nth_ord_enum.
Qed.
Lemma unvecK (v : 'rV[R]_N) : vec (unvec v) = v.
Proof.
apply/rowP => i; rewrite mxE reshapeKr ?size_unvec0 //.
by rewrite (nth_map i) ?size_enum_ord // nth_ord_enum.
Qed.
Lemma shape_map2 (f : R -> R -> R) u v : shape u = shape v -> shape (map2 (map2 f) u v) = shape u.
Proof.
elim: u v => [|x u IH] [|y v] //= [e1 e2]; congr cons; last exact: IH.
by rewrite /map2 size_map size_zip e1 minnn.
Qed.
Lemma flatten_map2 (f : R -> R -> R) u v : shape u = shape v -> flatten (map2 (map2 f) u v) = map2 f (flatten u) (flatten v).
Proof.
elim: u v => [|x u IH] [|y v] //= [e1 e2]; have := IH v e2; rewrite /map2 /= => ->.
by rewrite zip_cat // map_cat.
Qed.
Lemma nth_map2 (f : R -> R -> R) (s s' : seq R) i : size s = size s' -> (i < size s)%N ->
  nth 0 (map2 f s s') i = f (nth 0 s i) (nth 0 s' i).
Proof. by move=> e hi; rewrite (nth_map (0, 0)) ?size_zip -?e ?minnn // nth_zip. Qed.
Lemma vec_map2 (f : R -> R -> R) u v : good u -> good v ->
  good (map2 (map2 f) u v) /\ vec (map2 (map2 f) u v) = \row_i f (vec u 0 i) (vec v 0 i).
Proof.
move=> gu gv; split; first by rewrite /good shape_map2 gu ?gv.
apply/rowP => i; rewrite !mxE flatten_map2 ?gu ?gv // nth_map2 ?(size_good gu) ?(size_good gv) //.
Qed.
Lemma vecD u v : good u -> good v -> good (tree_add u v) /\ vec (tree_add u v) = vec u + vec v.
Proof. by move=> gu gv; have [? ->] := vec_map2 +%R gu gv; split=> //; apply/rowP => i; rewrite !mxE. Qed.
Lemma vecB u v : good u -> good v -> good (tree_sub u v) /\ vec (tree_sub u v) = vec u - vec v.
Proof. by move=> gu gv; have [? ->] := vec_map2 (fun x y => x - y) gu gv; split=> //; apply/rowP => i; rewrite !mxE. Qed.
Lemma vecZ a u : good u -> good (tree_scale a u) /\ vec (tree_scale a u) = a *: vec u.
Proof.
move=> gu; split.
  by rewrite /good -gu /shape -map_comp; apply: eq_map => x /=; rewrite size_map.
apply/rowP => i; rewrite !mxE /tree_scale -map_flatten (nth_map 0) //.
by rewrite size_good.
Qed.
Lemma vec_inj u v : good u -> good v -> vec u = vec v -> u = v.
Proof. by move=> gu gv e; rewrite -(vecK gu) -(vecK gv) e. Qed.
Definition zero_tree : tree := [seq nseq n 0 | n <- sh].
Lemma zeros_likeE t : good t -> zeros_like t = zero_tree.
Proof.
move=> e; rewrite /zeros_like /zero_tree -e /shape -map_comp; apply: eq_map => x /=.
by elim: x => //= y x ->.
Qed.
Lemma good_zero : good zero_tree.
Proof. by rewrite /good /shape -map_comp -[RHS]map_id; apply: eq_map => n /=; rewrite size_nseq. Qed.
Lemma vec_zero : vec zero_tree = 0.
Proof.
apply/rowP => i; rewrite !mxE /zero_tree; elim: sh (nat_of_ord i) => [|n l IH] k /=; first by rewrite nth_nil.
by rewrite nth_cat nth_nseq if_same; case: ifP => // _; apply: IH.
Qed.

(** What is assumed of the arguments. *)
Definition tree_map_ok (A : tree -> tree) : Prop := forall u, good u -> good (A u).
Definition tree_linear (A : tree -> tree) : Prop := tree_map_ok A /\ forall a u v, good u -> good v ->
  A (tree_add (tree_scale a u) v) = tree_add (tree_scale a (A u)) (A v).
Definition tree_dot_ok (dot : tree -> tree -> R) : Prop :=
  (forall a u v w, good u -> good v -> good w ->
     dot (tree_add (tree_scale a u) v) w = a * dot u w + dot v w) /\
  (forall u v, good u -> good v -> dot u v = dot v u).

Definition vdot (dot : tree -> tree -> R) (u v : 'rV[R]_N) : R := dot (unvec u) (unvec v).
Definition vop (A : tree -> tree) (u : 'rV[R]_N) : 'rV[R]_N := vec (A (unvec u)).
Lemma vopE A u : good u -> vop A (vec u) = vec (A u).
Proof. by move=> gu; rewrite /vop vecK. Qed.
Lemma vdotE dot u v : good u -> good v -> vdot dot (vec u) (vec v) = dot u v.
Proof. by move=> gu gv; rewrite /vdot !vecK. Qed.
Lemma unvec_comb a (u v : 'rV[R]_N) : unvec (a *: u + v) = tree_add (tree_scale a (unvec u)) (unvec v).
Proof.
have [g1 e1] := vecZ a (good_unvec u); have [g2 e2] := vecD g1 (good_unvec v).
by apply: vec_inj => //; [exact: good_unvec|rewrite unvecK e2 e1 !unvecK].
Qed.
Lemma vop_linear A : tree_linear A -> linear_op (vop A).
Proof.
move=> [ok lin] a u v; rewrite /vop unvec_comb lin; try exact: good_unvec.
have [g1 e1] := vecZ a (ok _ (good_unvec u)).
by have [_ ->] := vecD g1 (ok _ (good_unvec v)); rewrite e1.
Qed.
Lemma vdot_l dot : tree_dot_ok dot -> forall a (u v w : 'rV[R]_N), vdot dot (a *: u + v) w = a * vdot dot u w + vdot dot v w.
Proof. by move=> [l _] a u v w; rewrite /vdot unvec_comb l //; exact: good_unvec. Qed.
Lemma vdot_C dot : tree_dot_ok dot -> forall (u v : 'rV[R]_N), vdot dot u v = vdot dot v u.
Proof. by move=> [_ c] u v; apply: c; exact: good_unvec. Qed.

(** Simulation. *)
Section Sim.
Variables (A M : tree -> tree) (dot : tree -> tree -> R).
Hypotheses (okA : tree_map_ok A) (okM : tree_map_ok M).
Definition vstate (s : state R tree) : state R [vectType R of 'rV[R]_N] :=
  State (vec (st_x s)) (vec (st_r s)) (st_gamma s) (vec (st_p s)) (st_k s).
Definition gstate (s : state R tree) : Prop := [/\ good (st_x s), good (st_r s) & good (st_p s)].
Notation tbody := (body (@tree_add R) (@tree_sub R) (@tree_scale R) dot A M).
Notation vbody := (body +%R (fun u v : [vectType R of 'rV[R]_N] => u - v) *:%R (vdot dot) (vop A) (vop M)).
Lemma body_sim s : gstate s ->
  match tbody s with
  | Some s' => gstate s' /\ vbody (vstate s) = Some (vstate s')
  | None => vbody (vstate s) = None
  end.
Proof.
move=> [gx gr gp]; rewrite /body /= !vopE // !vdotE //; last exact: okA.
case: ifP => // _; set a := _ / _.
have [g1 e1] := vecZ a gp; have [g2 e2] := vecD gx g1.
have [g3 e3] := vecZ a (okA gp); have [g4 e4] := vecB gr g3.
have g5 := okM g4.
rewrite -!e3 -!e4 !vopE // vdotE //; set be := _ / _.
have [g6 e6] := vecZ be gp; have [g7 e7] := vecD g5 g6.
by split; [split|rewrite /vstate /= e7 e6 e2 e1].
Qed.
Notation tloop := (loop (@tree_add R) (@tree_sub R) (@tree_scale R) dot A M).
Notation vloop := (loop +%R (fun u v : [vectType R of 'rV[R]_N] => u - v) *:%R (vdot dot) (vop A) (vop M)).
Lemma loop_sim atol2 maxiter fuel s : gstate s ->
  match tloop atol2 maxiter fuel s with
  | CGDone x g k => good x /\ vloop atol2 maxiter fuel (vstate s) = CGDone (vec x) g k
  | CGBroken k => vloop atol2 maxiter fuel (vstate s) = CGBroken _ _ k
  end.
Proof.
have cE s' : cond atol2 maxiter (vstate s') = cond atol2 maxiter s' by [].
elim: fuel s => [|fuel IH] s gs /=; rewrite !cE.
  have [gx _ _] := gs; case: (cond _ _ _) => //; by case: (tbody s); case: (vbody _).
have [gx _ _] := gs; case: (cond _ _ _) => //.
move: (body_sim gs); case: (tbody s) => [s'|->] // [gs' ->]; exact: IH.
Qed.
Lemma initial_sim b x0 : good b -> good x0 ->
  gstate (initial (@tree_sub R) dot A M b x0) /\
  vstate (initial (@tree_sub R) dot A M b x0) =
  initial (fun u v : [vectType R of 'rV[R]_N] => u - v) (vdot dot) (vop A) (vop M) (vec b) (vec x0).
Proof.
move=> gb gx; have [g1 e1] := vecB gb (okA gx); have g2 := okM g1.
by split; [split|rewrite /vstate /initial /= vopE // -e1 vopE // vdotE].
Qed.
End Sim.

Notation cgt A M dot b x0 tol atol maxiter :=
  (cg_run (@tree_add R) (@tree_sub R) (@tree_scale R) dot A M b x0 tol atol maxiter).
Lemma atol2_ge0 (dot : tree -> tree -> R) tol atol b : 0 <= atol2_of dot tol atol b.
Proof. by rewrite /atol2_of le_maxr sqr_ge0 orbT. Qed.

(** The arguments after the defaults have been filled in. *)
Definition start (x0 : option tree) : tree := if x0 is Some x0 then x0 else zero_tree.
Definition limit (maxiter : option nat) : nat := if maxiter is Some n then n else (10 * N)%N.
Definition precond (M : option (tree -> tree)) : tree -> tree := if M is Some M then M else id.
Lemma cgE A b x0 tol atol maxiter M dot_fn : good b ->
  cg A b x0 tol atol maxiter M dot_fn =
  cgt A (precond M) (tree_vdot dot_fn) b (start x0) tol atol (limit maxiter).
Proof.
move=> gb; rewrite /cg; congr cg_run; first by case: x0 => //=; rewrite zeros_likeE.
by case: maxiter => //=; rewrite -/(shape b) gb.
Qed.

Section C41.
Variables (A : tree -> tree) (M : option (tree -> tree)) (dot_fn : seq R -> seq R -> R).
Variables (b : tree) (x0 : option tree) (tol atol : R) (maxiter : option nat).
Hypotheses (gb : good b) (gx0 : if x0 is Some x0 then good x0 else True).
Notation dot := (tree_vdot dot_fn).
Notation r0 := (tree_sub b (A (start x0))).
Notation tolerance := (Num.max (tol ^+ 2 * dot b b) (atol ^+ 2)).
Let gstart : good (start x0).
Proof. by case: x0 gx0 => //= _; exact: good_zero. Qed.

(** The returned residual, iteration count and reason to stop; [M] is any
    function. *)
Theorem C41_residual x gamma k : tree_linear A -> tree_map_ok (precond M) ->
  cg A b x0 tol atol maxiter M dot_fn = CGDone x gamma k ->
  [/\ good x, gamma = dot (tree_sub b (A x)) (precond M (tree_sub b (A x))),
      (k <= limit maxiter)%N & gamma <= tolerance \/ k = limit maxiter].
Proof.
move=> linA okM; have [okA _] := linA; rewrite cgE // /cg_run.
have [gs eV] := initial_sim dot okA okM gb gstart.
move: (loop_sim dot okA okM (atol2_of dot tol atol b) (limit maxiter) (limit maxiter) gs).
case: (loop _ _ _ _ _ _ _ _ _ _) => // x' g' k' [gx].
rewrite eV => H [<- <- <-].
have [/andP[_ h1] ex eg h2 h3] := @loopP _ _ (vdot dot) (vop A) (vop (precond M)) (vec b) (vec (start x0)) _ _ (limit maxiter) 0 _ _ _ (add0n _) H.
have [e1 e2] := run_consistent (vdot dot) (vop (precond M)) (vec b) (vec (start x0)) (vop_linear linA) k'.
have [gr er] := vecB gb (okA _ gx).
split=> //; last by case/orP: h2 => [->|/eqP ->]; [left|right].
by rewrite eg e2 e1 -ex vopE // -er vopE // vdotE //; apply: okM.
Qed.

Theorem C41_start : dot r0 (precond M r0) <= tolerance ->
  cg A b x0 tol atol maxiter M dot_fn = CGDone (start x0) (dot r0 (precond M r0)) 0.
Proof.
move=> h; rewrite cgE // /cg_run.
have cF n : cond (atol2_of dot tol atol b) n (initial (@tree_sub R) dot A (precond M) b (start x0)) = false.
  by rewrite /cond ltNge h.
by case: (limit maxiter) => [|n]; rewrite [LHS]/= cF.
Qed.
End C41.

(** Symmetric positive definite. *)
Definition spd (dot : tree -> tree -> R) (P : tree -> Prop) (A : tree -> tree) : Prop :=
  (forall u v, P u -> P v -> dot u (A v) = dot (A u) v) /\
  (forall u, P u -> u <> zero_tree -> 0 < dot u (A u)).
(** The combinations of finitely many trees. *)
Fixpoint combination (ws : seq tree) (c : nat -> R) : tree :=
  if ws is w :: ws' then tree_add (tree_scale (c 0%N) w) (combination ws' (fun i => c i.+1)) else zero_tree.
Definition in_span (ws : seq tree) (u : tree) : Prop := exists c, u = combination ws c.

Lemma good_combination ws c : (forall w, w \in ws -> good w) ->
  good (combination ws c) /\ vec (combination ws c) = \sum_(i < size ws) c i *: vec (nth [::] ws i).
Proof.
elim: ws c => [|w ws IH] c gw /=; first by split; [exact: good_zero|rewrite vec_zero big_ord0].
have [g1 e1] := vecZ (c 0%N) (gw w (mem_head _ _)).
have [g2 e2] := IH (fun i => c i.+1) (fun w' h => gw w' (mem_behead (s := w :: ws) h)).
have [g3 e3] := vecD g1 g2; split=> //.
by rewrite e3 e1 e2 big_ord_recl.
Qed.
Definition span_of (ws : seq tree) : {vspace 'rV[R]_N} := <<map vec ws>>%VS.
Lemma span_coef (V : vectType R) (X : seq V) (v : V) : v \in <<X>>%VS -> exists c : nat -> R, v = \sum_(i < size X) c i *: X`_i.
Proof.
move=> h; exists (fun i => if insub i is Some i' then coord (in_tuple X) i' v else 0).
rewrite {1}(coord_span (X := in_tuple X) h) /=; apply: eq_bigr => i _; by rewrite valK.
Qed.
Lemma in_spanP ws u : (forall w, w \in ws -> good w) -> good u -> (vec u \in span_of ws) <-> in_span ws u.
Proof.
move=> gw gu; split=> [/span_coef[c]|[c ->]].
  rewrite size_map => e; have [g1 e1] := good_combination c gw.
  exists c; apply: vec_inj => //; rewrite e e1; apply: eq_bigr => i _; by rewrite (nth_map [::]).
have [g1 ->] := good_combination c gw.
rewrite rpred_sum // => i _; rewrite rpredZ // memv_span // map_f //.
by rewrite mem_nth.
Qed.
Lemma vec_eq0 u : good u -> (vec u == 0) = (u == zero_tree).
Proof.
by move=> gu; apply/eqP/eqP => [e|->]; [apply: vec_inj => //; [exact: good_zero|rewrite vec_zero]|exact: vec_zero].
Qed.

Section C42.
Variables (A : tree -> tree) (M : option (tree -> tree)) (dot_fn : seq R -> seq R -> R).
Variables (b : tree) (x0 : option tree).
Hypotheses (gb : good b) (gx0 : if x0 is Some x0 then good x0 else True).
Notation dot := (tree_vdot dot_fn).
Notation r0 := (tree_sub b (A (start x0))).
Hypotheses (linA : tree_linear A) (okM : tree_map_ok (precond M)) (okd : tree_dot_ok dot).
(** The space the iteration takes place in. *)
Variable P : tree -> Prop.
Variable W : {vspace 'rV[R]_N}.
Hypothesis PW : forall u, good u -> (vec u \in W) <-> P u.
Hypotheses (AP : forall u, good u -> P u -> P (A u)) (MP : forall u, good u -> P u -> P (precond M u)).
Hypotheses (spdA : spd dot (fun u => good u /\ P u) A) (spdM : spd dot (fun u => good u /\ P u) (precond M)).
Hypothesis Pr0 : P r0.
Let okA : tree_map_ok A. Proof. by case: linA. Qed.
Let gstart : good (start x0).
Proof. by case: x0 gx0 => //= _; exact: good_zero. Qed.
Let gPu (u : 'rV[R]_N) : u \in W -> good (unvec u) /\ P (unvec u).
Proof. by move=> h; split; [exact: good_unvec|apply/PW; [exact: good_unvec|rewrite unvecK]]. Qed.
Let vopW (B : tree -> tree) : tree_map_ok B -> (forall u, good u -> P u -> P (B u)) -> forall u : 'rV[R]_N, u \in W -> vop B u \in W.
Proof. by move=> ok BP u /gPu[g p]; apply/PW; [exact: ok|exact: BP]. Qed.
Let vsym (B : tree -> tree) : tree_map_ok B -> spd dot (fun u => good u /\ P u) B ->
  forall u v : 'rV[R]_N, u \in W -> v \in W -> vdot dot u (vop B v) = vdot dot (vop B u) v.
Proof.
move=> ok [sym _] u v /gPu pu /gPu pv; have [gu _] := pu; have [gv _] := pv.
by rewrite /vdot /vop !vecK ?sym //; exact: ok.
Qed.
Let vpos (B : tree -> tree) : tree_map_ok B -> spd dot (fun u => good u /\ P u) B ->
  forall u : 'rV[R]_N, u \in W -> u != 0 -> 0 < vdot dot u (vop B u).
Proof.
move=> ok [_ pos] u uW u0; have pu := gPu uW; have [gu _] := pu.
rewrite /vdot /vop vecK; last exact: ok.
by apply: pos => // /eqP; rewrite -vec_eq0 // unvecK; apply/negP.
Qed.
Let r0W : vec b - vop A (vec (start x0)) \in W.
Proof. by rewrite vopE //; have [g1 <-] := vecB gb (okA gstart); apply/PW. Qed.

Lemma solves_loop (atol2 : R) n : 0 <= atol2 -> exists x gamma k,
  [/\ loop (@tree_add R) (@tree_sub R) (@tree_scale R) dot A (precond M) atol2 n n
        (initial (@tree_sub R) dot A (precond M) b (start x0)) = CGDone x gamma k, (k <= \dim W)%N, good x &
      atol2 = 0 -> (\dim W <= n)%N -> gamma = 0 /\ A x = b].
Proof.
move=> a0; have [xx [gg [kk [H1 H2 H3 H4]]]] := abs_total (vdot_l okd) (vdot_C okd) (vop_linear linA) (vopW okA AP)
  (vopW okM MP) r0W (vsym okA spdA) (vsym okM spdM) (vpos okA spdA) (vpos okM spdM) n a0.
have [gs eV] := initial_sim dot okA okM gb gstart.
move: (loop_sim dot okA okM atol2 n n gs).
rewrite eV H1; case: (loop _ _ _ _ _ _ _ _ _ _) => // x g k [gx] [ex <- <-].
exists x, gg, kk; split=> // z0 hm; have [e1 e2] := H4 z0 hm.
split=> //; apply: vec_inj => //; first exact: okA.
by rewrite -vopE // -ex.
Qed.
Lemma solves_in tol atol maxiter : exists x gamma k,
  [/\ cg A b x0 tol atol maxiter M dot_fn = CGDone x gamma k, (k <= \dim W)%N, good x &
      tol = 0 -> atol = 0 -> (\dim W <= limit maxiter)%N -> gamma = 0 /\ A x = b].
Proof.
have [x [g [k [h1 h2 h3 h4]]]] := solves_loop (limit maxiter) (atol2_ge0 dot tol atol b).
exists x, g, k; split=> //; first by rewrite cgE // /cg_run h1.
by move=> t0 a0; apply: h4; rewrite /atol2_of t0 a0 expr0n mul0r maxxx.
Qed.

(** The states after [k] iterations. *)
Fixpoint iterate (k : nat) : option (state R tree) :=
  if k is k'.+1
  then obind (body (@tree_add R) (@tree_sub R) (@tree_scale R) dot A (precond M)) (iterate k')
  else Some (initial (@tree_sub R) dot A (precond M) b (start x0)).
Lemma iterate_run k s : iterate k = Some s ->
  [/\ gstate s, vstate s = run (vdot dot) (vop A) (vop (precond M)) (vec b) (vec (start x0)) k &
     forall j, (j < k)%N -> st_gamma (run (vdot dot) (vop A) (vop (precond M)) (vec b) (vec (start x0)) j) != 0].
Proof.
elim: k s => [|k IH] s /=.
  by move=> [<-]; have [gs eV] := initial_sim dot okA okM gb gstart.
case: (iterate k) IH => [s0|] //= /(_ s0 erefl)[gs0 e0 h0] hb.
move: (body_sim dot okA okM gs0); rewrite hb => -[gs' /bodyE eb]; split=> //; first by rewrite eb e0.
move=> j; rewrite ltnS leq_eqVlt => /orP[/eqP ->|]; last exact: h0.
by rewrite -e0 /=; move: hb; rewrite /body; case: ifP => // /negbT; rewrite negb_or => /andP[].
Qed.

Lemma orthogonal_in i j s s' : (i < j)%N -> iterate i = Some s -> iterate j = Some s' ->
  dot (st_r s') (precond M (st_r s)) = 0 /\ dot (st_p s') (A (st_p s)) = 0.
Proof.
move=> ij hi hj; have [[gx gr gp] ei _] := iterate_run hi; have [[gx' gr' gp'] ej h] := iterate_run hj.
have [_ _ _ /(_ i ij)[_ h1 h2]] := invP (vdot_l okd) (vdot_C okd) (vop_linear linA) (vopW okA AP)
  (vopW okM MP) r0W (vsym okA spdA) (vsym okM spdM) (vpos okA spdA) h.
move: h1 h2; have gA := okA gp; have gM := okM gr; by rewrite -ei -ej /= !vopE // !vdotE.
Qed.

Lemma optimal_in k s xs (c : nat -> R) (ps : seq tree) : iterate k = Some s -> size ps = k ->
  (forall j, (j < k)%N -> exists2 s', iterate j = Some s' & nth [::] ps j = st_p s') ->
  good xs -> A xs = b -> P (tree_sub xs (start x0)) ->
  forall y, y = tree_add (start x0) (combination ps c) ->
  dot (tree_sub xs (st_x s)) (A (tree_sub xs (st_x s))) <= dot (tree_sub xs y) (A (tree_sub xs y)).
Proof.
move=> hk sps hps gxs Axs Pxs y yE; have [[gx gr gp] ek h] := iterate_run hk.
have gps w : w \in ps -> good w.
  move/(nthP [::]) => [j hj <-]; have [|s' hs' ->] := hps j; first by rewrite -sps.
  by have [[]] := iterate_run hs'.
have [gc ec] := good_combination c gps; have [gy ey] := vecD gstart gc; rewrite -yE in gy ey.
have [g1 e1] := vecB gxs gx; have [g2 e2] := vecB gxs gy.
have xsW : vec xs - vec (start x0) \in W.
  by have [g3 <-] := vecB gxs gstart; apply/PW.
have Axs' : vop A (vec xs) = vec b by rewrite vopE // Axs.
have := optimal (vdot_l okd) (vdot_C okd) (vop_linear linA) (vopW okA AP)
  (vopW okM MP) r0W (vsym okA spdA) (vsym okM spdM) (vpos okA spdA) c h Axs' xsW.
rewrite -!ek /= -e1.
have -> : vec (start x0) + \sum_(j < k) c j *: st_p (run (vdot dot) (vop A) (vop (precond M)) (vec b) (vec (start x0)) j) = vec y.
  rewrite ey ec -sps; congr (_ + _); apply: eq_bigr => j _.
  have hj : (j < k)%N by rewrite -sps.
  by have [s' hs' ->] := hps j hj; have [_ <- _] := iterate_run hs'.
by rewrite -e2 !vopE // !vdotE //; apply: okA.
Qed.
End C42.

Section Theorems.
Variables (A : tree -> tree) (M : option (tree -> tree)) (dot_fn : seq R -> seq R -> R).
Variables (b : tree) (x0 : option tree).
Hypotheses (gb : good b) (gx0 : if x0 is Some x0 then good x0 else True).
Notation dot := (tree_vdot dot_fn).
Hypotheses (linA : tree_linear A) (okM : tree_map_ok (precond M)) (okd : tree_dot_ok dot).

(** Symmetric positive definite operators on the whole space. *)
Theorem C42_solves tol atol maxiter : spd dot good A -> spd dot good (precond M) ->
  exists x gamma k,
  [/\ cg A b x0 tol atol maxiter M dot_fn = CGDone x gamma k, (k <= N)%N &
      tol = 0 -> atol = 0 -> (N <= limit maxiter)%N -> gamma = 0 /\ A x = b].
Proof.
move=> [As Ap] [Ms Mp].
have PW : forall u, good u -> (vec u \in (fullv : {vspace 'rV[R]_N})) <-> True by move=> u _; rewrite memvf.
have [|||||x [g [k [h1 h2 h3 h4]]]] := @solves_in A M dot_fn b x0 gb gx0 linA okM okd (fun=> True) fullv PW _ _ _ _ _ tol atol maxiter => //.
- by split=> [u v [gu _] [gv _]|u [gu _]]; [exact: As|exact: Ap].
- by split=> [u v [gu _] [gv _]|u [gu _]]; [exact: Ms|exact: Mp].
by move: h2 h4; rewrite dimvf /Vector.dim /= mul1n => h2 h4; exists x, g, k.
Qed.

Theorem C42_orthogonal i j s s' : spd dot good A -> spd dot good (precond M) -> (i < j)%N ->
  iterate A M dot_fn b x0 i = Some s -> iterate A M dot_fn b x0 j = Some s' ->
  dot (st_r s') (precond M (st_r s)) = 0 /\ dot (st_p s') (A (st_p s)) = 0.
Proof.
move=> [As Ap] [Ms Mp].
have PW : forall u, good u -> (vec u \in (fullv : {vspace 'rV[R]_N})) <-> True by move=> u _; rewrite memvf.
apply: (@orthogonal_in A M dot_fn b x0 gb gx0 linA okM okd (fun=> True) fullv PW) => //.
- by split=> [u v [gu _] [gv _]|u [gu _]]; [exact: As|exact: Ap].
- by split=> [u v [gu _] [gv _]|u [gu _]]; [exact: Ms|exact: Mp].
Qed.

(** Every iterate is the best approximation, in the energy norm, among the
    combinations of the directions so far. *)
Theorem C42_optimal k s xs (c : nat -> R) (ps : seq tree) : spd dot good A -> spd dot good (precond M) ->
  iterate A M dot_fn b x0 k = Some s -> size ps = k ->
  (forall j, (j < k)%N -> exists2 s', iterate A M dot_fn b x0 j = Some s' & nth [::] ps j = st_p s') ->
  good xs -> A xs = b ->
  forall y, y = tree_add (start x0) (combination ps c) ->
  dot (tree_sub xs (st_x s)) (A (tree_sub xs (st_x s))) <= dot (tree_sub xs y) (A (tree_sub xs y)).
Proof.
move=> [As Ap] [Ms Mp] h1 h2 h3 h4 h5 y yE.
have PW : forall u, good u -> (vec u \in (fullv : {vspace 'rV[R]_N})) <-> True by move=> u _; rewrite memvf.
apply: (@optimal_in A M dot_fn b x0 gb gx0 linA okM okd (fun=> True) fullv PW) h1 h2 h3 h4 h5 _ _ yE => //.
- by split=> [u v [gu _] [gv _]|u [gu _]]; [exact: As|exact: Ap].
- by split=> [u v [gu _] [gv _]|u [gu _]]; [exact: Ms|exact: Mp].
Qed.

(** Singular operators: it is enough that the operators are symmetric positive
    definite on an invariant space spanned by [ws] that contains the first
    residual. *)
Theorem C42_subspace (ws : seq tree) tol atol maxiter : (forall w, w \in ws -> good w) ->
  (forall u, in_span ws u -> in_span ws (A u)) -> (forall u, in_span ws u -> in_span ws (precond M u)) ->
  spd dot (in_span ws) A -> spd dot (in_span ws) (precond M) ->
  in_span ws (tree_sub b (A (start x0))) ->
  exists x gamma k,
  [/\ cg A b x0 tol atol maxiter M dot_fn = CGDone x gamma k, (k <= size ws)%N &
      tol = 0 -> atol = 0 -> (size ws <= limit maxiter)%N -> gamma = 0 /\ A x = b].
Proof.
move=> gw AW MW [As Ap] [Ms Mp] hr.
have dW : (\dim (span_of ws) <= size ws)%N by rewrite (leq_trans (dim_span _)) // size_map.
have [|||||x [g [k [h1 h2 h3 h4]]]] := @solves_in A M dot_fn b x0 gb gx0 linA okM okd (in_span ws) (span_of ws) (fun u => in_spanP gw) _ _ _ _ _ tol atol maxiter => //.
- by move=> u _; exact: AW.
- by move=> u _; exact: MW.
- by split=> [u v [_ pu] [_ pv]|u [_ pu]]; [exact: As|exact: Ap].
- by split=> [u v [_ pu] [_ pv]|u [_ pu]]; [exact: Ms|exact: Mp].
exists x, g, k; split=> //; first exact: leq_trans h2 dW.
by move=> t0 a0 hm; apply: h4 => //; apply: leq_trans dW hm.
Qed.
End Theorems.
End Trees.

(** The default dot product meets the hypotheses. *)
Lemma jnp_vdotE (R : realFieldType) (x y : seq R) : jnp_vdot x y = \sum_(i < minn (size x) (size y)) x`_i * y`_i.
Proof.
rewrite /jnp_vdot /map2; elim: x y => [|a x IH] [|c y] /=; rewrite ?min0n ?minn0 ?big_ord0 //.
by rewrite minnSS big_ord_recl /= IH.
Qed.
Lemma tree_vdotE (R : realFieldType) (u v : tree R) : shape u = shape v ->
  tree_vdot (@jnp_vdot R) u v = jnp_vdot (flatten u) (flatten v).
Proof.
rewrite /tree_vdot /map2; elim: u v => [|x u IH] [|y v] //= [e1 e2]; rewrite IH //.
rewrite !jnp_vdotE !size_cat e1 !size_flatten e2 !minnn big_split_ord /=; congr (_ + _).
  by apply: eq_bigr => i _; rewrite !nth_cat e1 ltn_ord.
by apply: eq_bigr => i _; rewrite !nth_cat e1 ltnNge leq_addr /= addKn.
Qed.
Theorem C42_default_dot (R : realFieldType) sh : tree_dot_ok sh (tree_vdot (@jnp_vdot R)).
Proof.
have E u v : good sh u -> good sh v -> tree_vdot (@jnp_vdot R) u v = \sum_i vec sh u 0 i * vec sh v 0 i.
  move=> gu gv; rewrite tree_vdotE ?gu ?gv // jnp_vdotE (size_good gu) (size_good gv) minnn.
  by apply: eq_bigr => i _; rewrite !mxE.
split=> [a u v w gu gv gw|u v gu gv].
  have [g1 e1] := vecZ a gu; have [g2 e2] := vecD g1 gv.
  rewrite !E // e2 e1 mulr_sumr -big_split /=; apply: eq_bigr => i _; by rewrite !mxE mulrDl mulrA.
by rewrite !E //; apply: eq_bigr => i _; rewrite mulrC.
Qed.

(** ** Examples *)
(** Two leaves; a tridiagonal operator acting across them. *)
Definition ex_A (R : realFieldType) (t : tree R) : tree R :=
  if t is [:: [:: x; y]; [:: z]] then [:: [:: 2%:R * x - y; 2%:R * y - x - z]; [:: 2%:R * z - y]] else [::].
Lemma ex_good (R : realFieldType) (u : tree R) : good [:: 2; 1]%N u -> exists x y z, u = [:: [:: x; y]; [:: z]].
Proof.
case: u => [|l1 [|l2 [|]]] //= [e1 e2]; case: l1 e1 => [|x [|y []]] //= _; case: l2 e2 => [|z []] //= _.
by exists x, y, z.
Qed.
Example ex_linear (R : realFieldType) : tree_linear [:: 2; 1]%N (@ex_A R).
Proof.
split=> [u /ex_good[x [y [z ->]]] //|a u v /ex_good[x [y [z ->]]] /ex_good[x' [y' [z' ->]]]].
by rewrite /ex_A /tree_add /tree_scale /map2 /=; congr [:: [:: _; _]; [:: _]]; ring.
Qed.
Example ex_spd (R : realFieldType) : spd [:: 2; 1]%N (tree_vdot (@jnp_vdot R)) (good [:: 2; 1]%N) (@ex_A R).
Proof.
split=> [u v /ex_good[x [y [z ->]]] /ex_good[x' [y' [z' ->]]]|u /ex_good[x [y [z ->]]] nz].
  by rewrite /tree_vdot /jnp_vdot /map2 /=; ring.
have -> : tree_vdot (@jnp_vdot R) [:: [:: x; y]; [:: z]] (ex_A [:: [:: x; y]; [:: z]]) =
   x ^+ 2 + (x - y) ^+ 2 + (y - z) ^+ 2 + z ^+ 2 by rewrite /tree_vdot /jnp_vdot /map2 /=; ring.
rewrite lt_neqAle !addr_ge0 ?sqr_ge0 // andbT eq_sym; apply/negP => /eqP e.
have [x0 [xy [yz z0]]] : x ^+ 2 = 0 /\ (x - y) ^+ 2 = 0 /\ (y - z) ^+ 2 = 0 /\ z ^+ 2 = 0.
  have /eqP := e; rewrite !paddr_eq0 ?addr_ge0 ?sqr_ge0 // -!andbA => /and4P[/eqP -> /eqP -> /eqP -> /eqP ->] //.
move: x0 xy z0 => /eqP; rewrite sqrf_eq0 => /eqP x0 /eqP; rewrite sqrf_eq0 subr_eq0 => /eqP xy /eqP; rewrite sqrf_eq0 => /eqP z0.
by apply: nz; rewrite /zero_tree /= -xy x0 z0.
Qed.
Definition ex_result : result [realFieldType of rat] (tree [realFieldType of rat]) :=
  cg (@ex_A _) [:: [:: 1; 0]; [:: 1]] None 0 0 None None (@jnp_vdot _).
Example ex_run : if ex_result is CGDone x g k then (x == [:: [:: 1; 1]; [:: 1]]) && (g == 0) && (k == 2)%N else false.
Proof. by vm_compute. Qed.
(** An iteration limit that is hit. *)
Example ex_limit : if cg (@ex_A _) [:: [:: 1; 0]; [:: 1]] None 0 0 (Some 1%N) None (@jnp_vdot [realFieldType of rat]) is CGDone x g k
  then (x == [:: [:: 2%:R^-1; 0]; [:: 2%:R^-1]]) && (g == 1) && (k == 1)%N else false.
Proof. by vm_compute. Qed.
(** Breakdown with an indefinite operator. *)
Example ex_broken : if cg (fun t => if t is [:: [:: x; y]] then [:: [:: x; - y]] else t) [:: [:: 1; 1]] None 0 0 None None (@jnp_vdot [realFieldType of rat])
  is CGBroken k then k == 0%N else false.
Proof. by vm_compute. Qed.
(** A singular operator: the Laplacian of a path with three nodes, on the vectors with mean
    zero. *)
Definition ex_S (R : realFieldType) (t : tree R) : tree R :=
  if t is [:: [:: x; y; z]] then [:: [:: x - y; 2%:R * y - x - z; z - y]] else [::].
Definition ex_ws (R : realFieldType) : seq (tree R) := [:: [:: [:: 1; -1; 0]]; [:: [:: 0; 1; -1]]].
Lemma ex_span (R : realFieldType) (x y z : R) : in_span [:: 3%N] (ex_ws R) [:: [:: x; y; z]] <-> x + y + z = 0.
Proof.
split=> [[c]|e].
  by rewrite /ex_ws /tree_add /tree_scale /map2 /= => -[-> -> ->]; ring.
exists (fun i => if i is 0%N then x else - z); rewrite /tree_add /tree_scale /map2 /=; congr [:: [:: _; _; _]] => /=; try ring.
have yE : y = (x + y + z) - x - z by ring.
by rewrite yE e; ring.
Qed.
Lemma ex_good3 (R : realFieldType) (u : tree R) : in_span [:: 3%N] (ex_ws R) u -> exists x y z, u = [:: [:: x; y; z]].
Proof. by case=> c ->; rewrite /ex_ws /tree_add /tree_scale /map2 /=; do 3!eexists. Qed.
Example ex_singular (R : realFieldType) :
  (forall u, in_span [:: 3%N] (ex_ws R) u -> in_span [:: 3%N] (ex_ws R) (ex_S u)) /\
  spd [:: 3%N] (tree_vdot (@jnp_vdot R)) (in_span [:: 3%N] (ex_ws R)) (@ex_S R).
Proof.
split=> [u h|]; first by have [x [y [z e]]] := ex_good3 h; move: h; rewrite e => _; apply/ex_span; ring.
split=> [u v /ex_good3[x [y [z ->]]] /ex_good3[x' [y' [z' ->]]]|u h nz].
  by rewrite /tree_vdot /jnp_vdot /map2 /=; ring.
have [x [y [z e]]] := ex_good3 h; move: h nz; rewrite e => /ex_span sum0 nz.
have -> : tree_vdot (@jnp_vdot R) [:: [:: x; y; z]] (ex_S [:: [:: x; y; z]]) = (x - y) ^+ 2 + (y - z) ^+ 2.
  by rewrite /tree_vdot /jnp_vdot /map2 /=; ring.
rewrite lt_neqAle !addr_ge0 ?sqr_ge0 // andbT eq_sym; apply/negP.
rewrite paddr_eq0 ?sqr_ge0 // !sqrf_eq0 !subr_eq0 => /andP[/eqP xy /eqP yz]; apply: nz.
move: sum0; rewrite xy yz => /eqP; have -> : z + z + z = 3%:R * z by ring.
by rewrite mulf_eq0 pnatr_eq0 => /eqP ->.
Qed.

Print Assumptions C41_residual.
Print Assumptions C41_start.
Print Assumptions C42_solves.
Print Assumptions C42_orthogonal.
Print Assumptions C42_optimal.
Print Assumptions C42_subspace.
Print Assumptions C42_default_dot.
