(** C63: conjugate gradients on singular systems and with singular preconditioners. *)
From mathcomp Require Import all_ssreflect all_algebra zify ring.
From Verif Require Import CG_model CG_proofs CG_props.
Set Implicit Arguments.
Unset Strict Implicit.
Unset Printing Implicit Defensive.
Import Order.TTheory GRing.Theory Num.Theory.
Local Open Scope ring_scope.

Section Spaces.
Variables (R : realFieldType) (sh : seq nat).
Notation tree := (tree R).
Notation good := (good sh).
Notation comb a u v := (tree_add (tree_scale a u) v).
Implicit Types (t u v w x y r p b : tree) (P Q : tree -> Prop) (A M : tree -> tree).

(** A linear space of trees of the shape [sh]. *)
Definition linear_space P : Prop :=
  [/\ forall u, P u -> good u, P (zero_tree R sh) & forall a u v, P u -> P v -> P (comb a u v)].

Lemma good_comb a u v : good u -> good v -> good (comb a u v) /\ vec sh (comb a u v) = a *: vec sh u + vec sh v.
Proof. by move=> gu gv; have [g1 e1] := vecZ a gu; have [g2 ->] := vecD g1 gv; rewrite e1. Qed.
Lemma scale_comb a u : good u -> tree_scale a u = comb a u (zero_tree R sh).
Proof.
move=> gu; have [g1 e1] := vecZ a gu; have [g2 e2] := good_comb a gu (good_zero R sh).
by apply: (vec_inj g1 g2); rewrite e1 e2 vec_zero addr0.
Qed.
Lemma add_comb u v : good u -> good v -> tree_add u v = comb 1 u v.
Proof.
move=> gu gv; have [g1 e1] := vecD gu gv; have [g2 e2] := good_comb 1 gu gv.
by apply: (vec_inj g1 g2); rewrite e1 e2 scale1r.
Qed.
Lemma sub_comb u v : good u -> good v -> tree_sub u v = comb (-1) v u.
Proof.
move=> gu gv; have [g1 e1] := vecB gu gv; have [g2 e2] := good_comb (-1) gv gu.
by apply: (vec_inj g1 g2); rewrite e1 e2 scaleN1r addrC.
Qed.
Lemma space_scale P a u : linear_space P -> P u -> P (tree_scale a u).
Proof. by move=> [g z c] pu; rewrite scale_comb; [apply: c|apply: g]. Qed.
Lemma space_add P u v : linear_space P -> P u -> P v -> P (tree_add u v).
Proof. by move=> [g z c] pu pv; rewrite add_comb; [apply: c|apply: g|apply: g]. Qed.
Lemma space_sub P u v : linear_space P -> P u -> P v -> P (tree_sub u v).
Proof. by move=> [g z c] pu pv; rewrite sub_comb; [apply: c|apply: g|apply: g]. Qed.

Lemma space_good : linear_space good.
Proof. by split=> [//||a u v gu gv]; [exact: good_zero|have [] := good_comb a gu gv]. Qed.
Lemma space_span ws : (forall w, w \in ws -> good w) -> linear_space (in_span sh ws).
Proof.
move=> gw; have G u : in_span sh ws u -> good u by move=> [c ->]; have [] := good_combination c gw.
split=> // [|a u v pu pv].
  by apply/(in_spanP gw (good_zero R sh)); rewrite vec_zero mem0v.
have [g e] := good_comb a (G u pu) (G v pv); apply/(in_spanP gw g); rewrite e rpredD ?rpredZ //; exact/(in_spanP gw (G _ _)).
Qed.

Section Image.
Variable A : tree -> tree.
Hypothesis linA : tree_linear sh A.
Lemma linear_zero : A (zero_tree R sh) = zero_tree R sh.
Proof.
have [ok lin] := linA; have gz := good_zero R sh; have g0 := ok _ gz.
have [g e] := good_comb (-1) gz gz.
have E : comb (-1) (zero_tree R sh) (zero_tree R sh) = zero_tree R sh by apply: (vec_inj g gz); rewrite e vec_zero scaler0 addr0.
rewrite -{1}E lin //; have [g1 e1] := good_comb (-1) g0 g0.
by apply: (vec_inj g1 gz); rewrite e1 vec_zero scaleN1r addNr.
Qed.
Lemma combination_map ws c : (forall w, w \in ws -> good w) ->
  combination sh [seq A w | w <- ws] c = A (combination sh ws c).
Proof.
elim: ws c => [|w ws IH] c gw /=; first by rewrite linear_zero.
have gw' w' : w' \in ws -> good w' by move=> h; apply: gw; rewrite inE h orbT.
rewrite IH //; have [_ lin] := linA; have [g2 _] := good_combination (fun i => c i.+1) gw'.
by rewrite lin //; apply: gw; rewrite mem_head.
Qed.
Lemma span_map ws u : (forall w, w \in ws -> good w) ->
  in_span sh [seq A w | w <- ws] u <-> exists2 v, in_span sh ws v & u = A v.
Proof.
move=> gw; split=> [[c ->]|[v [c ->] ->]]; last by exists c; rewrite combination_map.
by exists (combination sh ws c); [exists c|rewrite combination_map].
Qed.
End Image.

(** ** Invariants of the iteration *)
Section Inv.
Variables (A : tree -> tree) (M : option (tree -> tree)) (dot_fn : seq R -> seq R -> R) (b : tree) (x0 : option tree).
Hypotheses (gb : good b) (gx0 : if x0 is Some x0 then good x0 else True).
Notation dot := (tree_vdot dot_fn).

Lemma loop_inv (I : state R tree -> Prop) (dot : tree -> tree -> R) atol2 maxiter fuel s x g k :
  (forall s s', I s -> body (@tree_add R) (@tree_sub R) (@tree_scale R) dot A (precond M) s = Some s' -> I s') ->
  I s -> loop (@tree_add R) (@tree_sub R) (@tree_scale R) dot A (precond M) atol2 maxiter fuel s = CGDone x g k ->
  exists2 s', I s' & [/\ x = st_x s', g = st_gamma s' & k = st_k s'].
Proof.
move=> st; elim: fuel s => [|fuel IH] s Is /=; case: (cond _ _ _); try by case: (body _ _ _ _ _ _ _).
- by move=> [<- <- <-]; exists s.
- by case E : (body _ _ _ _ _ _ s) => [s'|] //; apply: IH; apply: st E.
- by move=> [<- <- <-]; exists s.
Qed.
(** Directions stay in [P], residuals in [Q]. *)
Theorem C63_stays P Q tol atol maxiter x gamma k : linear_space P -> linear_space Q ->
  (forall p, P p -> Q (A p)) -> (forall r, Q r -> P (precond M r)) -> Q (tree_sub b (A (start sh x0))) ->
  cg A b x0 tol atol maxiter M dot_fn = CGDone x gamma k ->
  exists2 y, P y & x = tree_add (start sh x0) y.
Proof.
move=> sP sQ AQ MP Qr; rewrite (cgE _ _ _ _ _ _ _ gb) /cg_run.
have gs : good (start sh x0) by case: (x0) gx0 => //= _; exact: good_zero.
have [gP zP cP] := sP.
pose I (s : state R tree) := [/\ exists2 y, P y & st_x s = tree_add (start sh x0) y, Q (st_r s) & P (st_p s)].
move/(@loop_inv I) => []; last by move=> s [[y py ->] _ _] [-> _ _]; exists y.
- move=> [x' r g p k'] s' [[y py /= ->] qr pp]; rewrite /body /=; case: ifP => // _ [<-]; rewrite /I /=.
  set a := _ / _; have qr' : Q (tree_sub r (tree_scale a (A p))) by apply: (space_sub sQ) => //; apply: (space_scale _ sQ); apply: AQ.
  split=> //; last by apply: (space_add sP); [apply: MP|apply: (space_scale _ sP)].
  exists (tree_add y (tree_scale a p)); first by apply: (space_add sP) => //; apply: (space_scale _ sP).
  have [g1 e1] := vecZ a (gP _ pp); have [g2 e2] := vecD gs (gP _ py); have [g3 e3] := vecD (gP _ py) g1.
  have [g4 e4] := vecD g2 g1; have [g5 e5] := vecD gs g3.
  by apply: (vec_inj g4 g5); rewrite e4 e5 e3 e2 addrA.
- split=> //=; last exact: MP.
  exists (zero_tree R sh) => //; have [g e] := vecD gs (good_zero R sh).
  by apply: (vec_inj gs g); rewrite e vec_zero addr0.
Qed.
End Inv.

(** ** Singular systems *)
Section Semidefinite.
Variables (A : tree -> tree) (dot_fn : seq R -> seq R -> R) (b : tree) (x0 : option tree) (ws : seq tree).
Notation dot := (tree_vdot dot_fn).
Hypotheses (gb : good b) (gx0 : if x0 is Some x0 then good x0 else True).
Hypotheses (linA : tree_linear sh A) (okd : tree_dot_ok sh dot).
Hypothesis gw : forall w, w \in ws -> good w.
Notation V := (in_span sh ws).
Hypothesis AV : forall u, V u -> V (A u).
Hypothesis dpos : forall u, V u -> u <> zero_tree R sh -> 0 < dot u u.
Hypothesis sym : forall u v, V u -> V v -> dot u (A v) = dot (A u) v.
Hypothesis psd : forall u, V u -> 0 <= dot u (A u).
Let sV := space_span gw.
Let gV u : V u -> good u. Proof. by case: sV => g _ _; apply: g. Qed.
Let okA := proj1 linA.

Lemma affine_nonneg (z c : R) : (forall a, 0 <= a * z + c) -> z = 0.
Proof.
move=> H; apply/eqP; apply: contraT => z0.
by have := H (- (c + 1) / z); rewrite divfK // opprD addrAC addNr add0r oppr_ge0 ler10.
Qed.
Lemma psd_kernel u v : V u -> V v -> dot u (A u) = 0 -> dot v (A u) = 0.
Proof.
move=> vu vv u0; have [dl dc] := okd; have [_ _ cV] := sV.
have gu := gV vu; have gv := gV vv; have gAu := okA gu; have gAv := okA gv.
have E (t : R) : dot (comb t u v) (A (comb t u v)) = t * (2%:R * dot v (A u)) + dot v (A v).
  have [g1 _] := good_comb t gu gv; have [g2 _] := good_comb t gAu gAv.
  rewrite (proj2 linA) // dl // (dc u) // (dc v) // !dl //.
  have -> : dot (A v) u = dot v (A u) by rewrite (sym vv vu).
  have -> : dot (A u) u = 0 by rewrite dc.
  have -> : dot (A v) v = dot v (A v) by rewrite dc.
  by rewrite (dc (A u) v) //; ring.
have /eqP : 2%:R * dot v (A u) = 0 by apply: (@affine_nonneg _ (dot v (A v))) => t; rewrite -E; apply: psd; apply: cV.
by rewrite mulf_eq0 pnatr_eq0 /= => /eqP.
Qed.
Theorem C63_semidefinite w tol atol maxiter : V w -> tree_sub b (A (start sh x0)) = A w ->
  exists x gamma k,
  [/\ cg A b x0 tol atol maxiter None dot_fn = CGDone x gamma k, (k <= size ws)%N,
      exists2 y, V y & x = tree_add (start sh x0) (A y) &
      tol = 0 -> atol = 0 -> (size ws <= limit sh maxiter)%N -> gamma = 0 /\ A x = b].
Proof.
move=> vw rE; pose us := [seq A w | w <- ws].
have gus u : u \in us -> good u by move/mapP => [w' /gw h ->]; apply: okA.
have SM u := span_map linA u gw.
have AU u : in_span sh us u -> in_span sh us (A u).
  by move/SM => [v vv ->]; apply/SM; exists (A v) => //; apply: AV.
have UV u : in_span sh us u -> V u by move/SM => [v vv ->]; apply: AV.
have pA u : in_span sh us u -> u <> zero_tree R sh -> 0 < dot u (A u).
  move=> uu u0; have vu := UV _ uu; rewrite lt_neqAle psd // andbT eq_sym; apply/eqP => e0.
  have z1 : A u = zero_tree R sh.
    apply/eqP; apply: contraT => /eqP n0; have := dpos (AV vu) n0.
    by rewrite (psd_kernel vu (AV vu) e0) ltxx.
  apply: u0; have [v vv uE] := proj1 (SM _) uu.
  apply/eqP; apply: contraT => /eqP n0; have := dpos vu n0.
  by rewrite {1}uE -(sym vv vu) (psd_kernel vu vv e0) ltxx.
have ru : in_span sh us (tree_sub b (A (start sh x0))) by apply/SM; exists w.
have okM : tree_map_ok sh (precond (None : option (tree -> tree))) by [].
have [|||x [g [k [h1 h2 h3]]]] := @C42_subspace R sh A None dot_fn b x0 gb gx0 linA okM okd us tol atol maxiter gus AU _ _ _ ru.
- by [].
- by split=> [u v /UV vu /UV vv|u]; [exact: sym|exact: pA].
- by split=> [//|u /UV vu]; exact: dpos.
have sU := space_span gus.
have [|y /SM[v vv ->] xE] := C63_stays gb gx0 sU sU AU _ ru h1; first by [].
exists x, g, k; split=> //; first by rewrite size_map in h2.
  by exists v.
by rewrite size_map in h3.
Qed.
End Semidefinite.

(** ** Residuals outside the solution space *)
Section Projection.
Variable dot : tree -> tree -> R.
Hypothesis okd : tree_dot_ok sh dot.
Hypothesis dpos : forall u, good u -> u <> zero_tree R sh -> 0 < dot u u.

Lemma dot_comb_r a u v w : good u -> good v -> good w -> dot w (comb a u v) = a * dot w u + dot w v.
Proof.
move=> gu gv gw; have [dl dc] := okd; have [g _] := good_comb a gu gv.
by rewrite dc // dl // (dc u) // (dc v).
Qed.
Lemma dot_zero_r u : good u -> dot u (zero_tree R sh) = 0.
Proof.
move=> gu; have gz := good_zero R sh.
have E : zero_tree R sh = comb (-1) (zero_tree R sh) (zero_tree R sh).
  by have [g e] := good_comb (-1) gz gz; apply: (vec_inj gz g); rewrite e vec_zero scaler0 addr0.
by rewrite E dot_comb_r // mulN1r addNr.
Qed.
Lemma span_cons w ws u : in_span sh (w :: ws) u <-> exists a, exists2 v, in_span sh ws v & u = comb a w v.
Proof.
split=> [[c ->]|[a [v [c ->] ->]]]; first by exists (c 0%N), (combination sh ws (fun i => c i.+1)); [exists (fun i => c i.+1)|].
by exists (fun i => if i is j.+1 then c j else a).
Qed.
(** The orthogonal projection to the span of [ws]. *)
Lemma projection ws : (forall w, w \in ws -> good w) ->
  exists S : tree -> tree, tree_linear sh S /\ forall r, good r ->
    in_span sh ws (S r) /\ forall p, in_span sh ws p -> dot (S r) p = dot r p.
Proof.
have [dl dc] := okd; have gz := good_zero R sh.
elim: ws => [|w ws IH] gw.
  exists (fun=> zero_tree R sh); split.
    split=> [u _|a u v _ _]; first exact: gz.
    have [g e] := good_comb a gz gz; apply: (vec_inj gz g); by rewrite e vec_zero scaler0 addr0.
  by move=> r gr; split=> [|p [c ->]] /=; [exists (fun=> 0)|rewrite !dot_zero_r].
have gws v : v \in ws -> good v by move=> h; apply: gw; rewrite inE h orbT.
have gw1 : good w by apply: gw; rewrite mem_head.
have [S [[okS linS] PS]] := IH gws; have sP := space_span gws; have [gP zP cP] := sP.
have [pSw oSw] := PS w gw1; have gSw := okS _ gw1.
pose w' := tree_sub w (S w).
have w'E : w' = comb (-1) (S w) w by rewrite /w' sub_comb.
have [gw' ew'] := vecB gw1 gSw; rewrite -/w' in gw' ew'.
have ow' p : in_span sh ws p -> dot w' p = 0.
  by move=> pp; rewrite w'E dl ?oSw ?mulN1r ?addNr //; apply: gP.
pose c r := dot r w' / dot w' w'.
have gc r : good r -> good (comb (c r) w' (S r)) by move=> gr; have [] := good_comb (c r) gw' (okS _ gr).
have cE r : good r -> c r * dot w' w' = dot r w'.
  move=> gr; rewrite /c; have [/eqP e|ne] := boolP (w' == zero_tree R sh); first by rewrite e !dot_zero_r // mulr0.
  by rewrite divfK // gt_eqF //; apply: dpos => //; apply/eqP.
exists (fun r => comb (c r) w' (S r)); split.
  split=> [u gu|a u v gu gv]; first exact: gc.
  have [g1 e1] := good_comb a gu gv; have [g2 e2] := good_comb a (gc u gu) (gc v gv).
  apply: (vec_inj (gc _ g1) g2); rewrite e2.
  have [_ ->] := good_comb (c (comb a u v)) gw' (okS _ g1); have [_ ->] := good_comb (c u) gw' (okS _ gu).
  have [_ ->] := good_comb (c v) gw' (okS _ gv); rewrite linS //; have [_ ->] := good_comb a (okS _ gu) (okS _ gv).
  have -> : c (comb a u v) = a * c u + c v by rewrite /c dl // mulrDl mulrA.
  by rewrite scalerDl scalerDr !scalerA !addrA; congr (_ + _); rewrite -!addrA; congr (_ + _); rewrite addrC.
move=> r gr; have [pSr oSr] := PS r gr; have gSr := okS _ gr; split.
  apply/span_cons; exists (c r), (comb (- c r) (S w) (S r)); first exact: cP.
  have [g1 e1] := good_comb (- c r) gSw gSr; have [g2 e2] := good_comb (c r) gw1 g1.
  apply: (vec_inj (gc r gr) g2); rewrite e2 e1; have [_ ->] := good_comb (c r) gw' gSr.
  by rewrite ew' scalerBr scaleNr addrA.
move=> p /span_cons[a [v pv ->]]; have gv := gP _ pv.
(* p = a w' + q *)
pose q := comb a (S w) v; have pq : in_span sh ws q by apply: cP.
have gq := gP _ pq.
have -> : comb a w v = comb a w' q.
  have [g1 e1] := good_comb a gw1 gv; have [g2 e2] := good_comb a gw' gq; have [_ e3] := good_comb a gSw gv.
  by apply: (vec_inj g1 g2); rewrite e1 e2 e3 ew' scalerBr addrA subrK.
clearbody q; rewrite dl //; last by have [] := good_comb a gw' gq.
rewrite !dot_comb_r // (ow' q pq) addr0 (dc (S r)) // (ow' _ pSr) mulr0 add0r (oSr q pq) mulrCA cE //.
Qed.
End Projection.

Section Dual.
Variables (A M : tree -> tree) (dot_fn : seq R -> seq R -> R) (b : tree) (x0 : option tree) (ws : seq tree).
Notation dot := (tree_vdot dot_fn).
Hypotheses (gb : good b) (gx0 : if x0 is Some x0 then good x0 else True).
Hypotheses (linA : tree_linear sh A) (okM : tree_map_ok sh M) (okd : tree_dot_ok sh dot).
Hypothesis dpos : forall u, good u -> u <> zero_tree R sh -> 0 < dot u u.
Hypothesis gw : forall w, w \in ws -> good w.
Notation V := (in_span sh ws).
Hypotheses (MV : forall r, good r -> V (M r)) (Msym : forall u v, good u -> good v -> dot u (M v) = dot (M u) v).
Hypotheses (spdA : spd sh dot V A) (Mpos : forall u, V u -> u <> zero_tree R sh -> 0 < dot u (M u)).
Let sV := space_span gw.
Let gV u : V u -> good u. Proof. by case: sV => g _ _; apply: g. Qed.
Let okA := proj1 linA.
Let gs : good (start sh x0). Proof. by case: (x0) gx0 => //= _; exact: good_zero. Qed.
Let dc : forall u v, good u -> good v -> dot u v = dot v u := proj2 okd.

Theorem C63_dual tol atol maxiter : exists x gamma k,
  [/\ cg A b x0 tol atol maxiter (Some M) dot_fn = CGDone x gamma k, (k <= size ws)%N,
      exists2 y, V y & x = tree_add (start sh x0) y &
      tol = 0 -> atol = 0 -> (size ws <= limit sh maxiter)%N ->
      gamma = 0 /\ forall v, V v -> dot v (A x) = dot v b].
Proof.
have [S [[okS linS] PS]] := projection okd dpos gw.
have VS r : good r -> V (S r) by move=> gr; have [] := PS r gr.
have dS r p : good r -> V p -> dot (S r) p = dot r p by move=> gr; have [_] := PS r gr; apply.
have dS' r p : good r -> V p -> dot p (S r) = dot p r.
  by move=> gr pp; have gp := gV pp; rewrite dc; [rewrite dS // dc|done|apply: okS].
have MS r : good r -> M (S r) = M r.
  move=> gr; have gSr := okS _ gr; have g1 := okM gr; have g2 := okM gSr.
  have [g3 e3] := vecB g2 g1.
  have : tree_sub (M (S r)) (M r) = zero_tree R sh.
    apply/eqP; apply: contraT => /eqP n0; have := dpos g3 n0.
    set d := tree_sub _ _; have vd : V d by apply: (space_sub sV); apply: MV.
    rewrite {2}/d sub_comb // dot_comb_r // !Msym // dS' ?mulN1r ?addNr ?ltxx //; exact: MV.
  move=> e; apply: (vec_inj g2 g1); apply/eqP; by rewrite -subr_eq0 -e3 e vec_zero.
have linSA : tree_linear sh (fun u => S (A u)).
  split=> [u gu|a u v gu gv]; first by apply: okS; apply: okA.
  by rewrite (proj2 linA) // linS //; apply: okA.
have gSb := okS _ gb; have [g0 e0] := vecB gb (okA gs).
have Ssub u v : good u -> good v -> S (tree_sub u v) = tree_sub (S u) (S v).
  by move=> gu gv; rewrite !sub_comb ?linS //; apply: okS.
have Sscale a u : good u -> S (tree_scale a u) = tree_scale a (S u).
  move=> gu; rewrite (scale_comb a gu) linS //; last exact: good_zero.
  by rewrite linear_zero // -scale_comb //; exact: okS.
pose R1 (s s' : state R tree) := [/\ st_x s = st_x s', st_r s' = S (st_r s), st_gamma s = st_gamma s', st_p s = st_p s' &
  st_k s = st_k s' /\ good (st_r s) /\ V (st_p s)].
have step s s' : R1 s s' ->
  match body (@tree_add R) (@tree_sub R) (@tree_scale R) dot A M s, body (@tree_add R) (@tree_sub R) (@tree_scale R) dot (fun u => S (A u)) M s' with
  | Some t, Some t' => R1 t t' | None, None => True | _, _ => False end.
  case: s s' => [x r g p k] [x' r' g' p' k'] [/= <- -> <- <- [<- [gr vp]]].
  have gp := gV vp; have gAp := okA gp.
  rewrite /body /= dS' //; case: ifP => // _; set a := _ / _.
  have [g1 e1] := vecZ a gAp; have [g2 e2] := vecB gr g1.
  have Er : tree_sub (S r) (tree_scale a (S (A p))) = S (tree_sub r (tree_scale a (A p))).
    by rewrite Ssub // Sscale.
  rewrite /R1 /= Er MS // dS //; last exact: MV.
  by split=> //; do 2 split=> //; apply: (space_add sV); [exact: MV|apply: (space_scale _ sV)].
have Hloop a2 n f s s' : R1 s s' ->
  loop (@tree_add R) (@tree_sub R) (@tree_scale R) dot A M a2 n f s =
  loop (@tree_add R) (@tree_sub R) (@tree_scale R) dot (fun u => S (A u)) M a2 n f s'.
  elim: f s s' => [|f IH] s s' rs /=; have := step _ _ rs; have [ex er eg ep [ek _]] := rs;
  rewrite /cond eg ek ex; case: ifP => // _; case: (body _ _ _ _ _ _ s) => [t|]; case: (body _ _ _ _ _ _ s') => [t'|] // h.
  exact: IH.
have R0 : R1 (initial (@tree_sub R) dot A M b (start sh x0)) (initial (@tree_sub R) dot (fun u => S (A u)) M (S b) (start sh x0)).
  have E : tree_sub (S b) (S (A (start sh x0))) = S (tree_sub b (A (start sh x0))) by rewrite Ssub //; exact: okA.
  by rewrite /R1 /initial /= E MS // dS //; [split=> //; do 2 split=> //; exact: MV|exact: MV].
have okM' : tree_map_ok sh (precond (Some M)) by [].
have spdSA : spd sh dot (fun u => good u /\ V u) (fun u => S (A u)).
  have [As Ap] := spdA; split=> [u v [gu vu] [gv vv]|u [gu vu] u0]; last by rewrite dS' //; [exact: Ap|exact: okA].
  by rewrite dS' // ?dS //; [exact: As|exact: okA|exact: okA].
have spdM : spd sh dot (fun u => good u /\ V u) M.
  by split=> [u v [gu vu] [gv vv]|u [gu vu] u0]; [exact: Msym|exact: Mpos].
have VSA u : good u -> V u -> V (S (A u)) by move=> gu _; apply: VS; apply: okA.
have VM u : good u -> V u -> V (M u) by move=> gu _; apply: MV.
have Vr : V (tree_sub (S b) (S (A (start sh x0)))) by apply: (space_sub sV); apply: VS => //; apply: okA.
have [x [g [k [h1 h2 h3 h4]]]] := @solves_loop R sh (fun u => S (A u)) (Some M) dot_fn (S b) x0 gSb gx0 linSA okM' okd V
  (span_of sh ws) (fun u => in_spanP gw) VSA VM spdSA spdM Vr (atol2_of dot tol atol b) (limit sh maxiter) (atol2_ge0 dot tol atol b).
have E : cg A b x0 tol atol maxiter (Some M) dot_fn = CGDone x g k by rewrite (cgE _ _ _ _ _ _ _ gb) /cg_run -h1; apply: Hloop.
exists x, g, k; split=> //.
- by apply: leq_trans h2 _; rewrite (leq_trans (dim_span _)) // size_map.
- apply: (C63_stays gb gx0 sV (space_good) _ _ _ E) => //.
  by move=> p /gV gp; apply: okA.
- move=> t0 a0 hl; have [||-> e] := h4; first by rewrite /atol2_of t0 a0 expr0n mul0r maxxx.
    by apply: leq_trans hl; rewrite (leq_trans (dim_span _)) // size_map.
  split=> // v vv; rewrite -dS' //; last exact: okA.
  by rewrite e dS'.
Qed.
End Dual.
End Spaces.

(** ** Examples *)
Lemma ex_three (R : realFieldType) (u : tree R) : good [:: 3%N] u -> exists x y z, u = [:: [:: x; y; z]].
Proof. by case: u => [|[|x [|y [|z [|? ?]]]] [|? ?]] // _; exists x, y, z. Qed.
Lemma ex_dot3 (R : realFieldType) (u : tree R) : good [:: 3%N] u -> u <> zero_tree R [:: 3%N] -> 0 < tree_vdot (@jnp_vdot R) u u.
Proof.
move=> /ex_three[x [y [z ->]]] nz.
have -> : tree_vdot (@jnp_vdot R) [:: [:: x; y; z]] [:: [:: x; y; z]] = x ^+ 2 + y ^+ 2 + z ^+ 2.
  by rewrite /tree_vdot /jnp_vdot /map2 /=; ring.
rewrite lt_neqAle !addr_ge0 ?sqr_ge0 // andbT eq_sym; apply/negP.
rewrite !paddr_eq0 ?addr_ge0 ?sqr_ge0 // !sqrf_eq0 => /andP[/andP[/eqP x0 /eqP y0] /eqP z0]; apply: nz.
by rewrite x0 y0 z0.
Qed.
(** The Laplacian of a path on all vectors; any right-hand side with sum zero is in its range. *)
Definition ex_units (R : realFieldType) : seq (tree R) := [:: [:: [:: 1; 0; 0]]; [:: [:: 0; 1; 0]]; [:: [:: 0; 0; 1]]].
Lemma ex_all (R : realFieldType) (x y z : R) : in_span [:: 3%N] (ex_units R) [:: [:: x; y; z]].
Proof.
exists (fun i => if i is 0%N then x else if i is 1%N then y else z).
by rewrite /ex_units /= /tree_add /tree_scale /map2 /=; congr [:: [:: _; _; _]]; ring.
Qed.
Example ex_semidefinite (R : realFieldType) (x y : R) : exists u g k,
  [/\ cg (@ex_S R) [:: [:: x; y; - x - y]] None 0 0 None None (@jnp_vdot R) = CGDone u g k, (k <= 3)%N, g = 0 &
      ex_S u = [:: [:: x; y; - x - y]]].
Proof.
have G u : in_span [:: 3%N] (ex_units R) u -> exists x y z, u = [:: [:: x; y; z]].
  by case=> c ->; rewrite /ex_units /tree_add /tree_scale /map2 /=; do 3!eexists.
have L : tree_linear [:: 3%N] (@ex_S R).
  split=> [u /ex_three[a [b [c ->]]] //|a u v /ex_three[p [q [r ->]]] /ex_three[p' [q' [r' ->]]]].
  by rewrite /ex_S /tree_add /tree_scale /map2 /=; congr [:: [:: _; _; _]]; ring.
have [|||||||u [g [k [h1 h2 _ h3]]]] := @C63_semidefinite R [:: 3%N] (@ex_S R) (@jnp_vdot R) [:: [:: x; y; - x - y]] None (ex_units R)
  erefl I L (@C42_default_dot R [:: 3%N]) _ _ _ _ _ [:: [:: x; 0; - x - y]] 0 0 None.
- by move=> w; rewrite !inE => /or3P[] /eqP ->.
- by move=> u /G[a [b [c ->]]]; exact: ex_all.
- by move=> u /G[a [b [c ->]]]; apply: ex_dot3.
- by move=> u v /G[a [b [c ->]]] /G[a' [b' [c' ->]]]; rewrite /tree_vdot /jnp_vdot /map2 /=; ring.
- move=> u /G[a [b [c ->]]]; have -> : tree_vdot (@jnp_vdot R) [:: [:: a; b; c]] (ex_S [:: [:: a; b; c]]) = (a - b) ^+ 2 + (b - c) ^+ 2.
    by rewrite /tree_vdot /jnp_vdot /map2 /=; ring.
  by rewrite addr_ge0 ?sqr_ge0.
- exact: ex_all.
- by rewrite /start /zero_tree /tree_sub /map2 /=; congr [:: [:: _; _; _]]; ring.
have [g0 e] := h3 erefl erefl isT; by exists u, g, k.
Qed.
Example ex_semidefinite_run : if cg (@ex_S _) [:: [:: 1; 1; -2%:R]] None 0 0 None None (@jnp_vdot [realFieldType of rat]) is CGDone u g k
  then (u == [:: [:: 4%:R / 3%:R; 1 / 3%:R; - (5%:R / 3%:R)]]) && (g == 0) && (k == 2)%N else false.
Proof. by vm_compute. Qed.
(** Unknowns 0 and 2 are the same point; the preconditioner adds their residuals. *)
Definition ex_M (R : realFieldType) (t : tree R) : tree R :=
  if t is [:: [:: x; y; z]] then [:: [:: x + z; y; x + z]] else [::].
Definition ex_H (R : realFieldType) (t : tree R) : tree R :=
  if t is [:: [:: x; y; z]] then [:: [:: 2%:R * x - y; 2%:R * y - x - z; 2%:R * z - y]] else [::].
Definition ex_joined (R : realFieldType) : seq (tree R) := [:: [:: [:: 1; 0; 1]]; [:: [:: 0; 1; 0]]].
Lemma ex_joinedP (R : realFieldType) u : in_span [:: 3%N] (ex_joined R) u <-> exists x y, u = [:: [:: x; y; x]].
Proof.
split=> [[c ->]|[x [y ->]]].
  by exists (c 0%N), (c 1%N); rewrite /ex_joined /= /tree_add /tree_scale /map2 /=; congr [:: [:: _; _; _]]; ring.
exists (fun i => if i is 0%N then x else y); rewrite /ex_joined /= /tree_add /tree_scale /map2 /=; congr [:: [:: _; _; _]]; ring.
Qed.
Example ex_dual (R : realFieldType) (x y z : R) : exists u g k a b,
  [/\ cg (@ex_H R) [:: [:: x; y; z]] None 0 0 None (Some (@ex_M R)) (@jnp_vdot R) = CGDone u g k, (k <= 2)%N, u = [:: [:: a; b; a]],
      4%:R * a - 2%:R * b = x + z & 2%:R * b - 2%:R * a = y].
Proof.
have L : tree_linear [:: 3%N] (@ex_H R).
  split=> [u /ex_three[a [b [c ->]]] //|a u v /ex_three[p [q [r ->]]] /ex_three[p' [q' [r' ->]]]].
  by rewrite /ex_H /tree_add /tree_scale /map2 /=; congr [:: [:: _; _; _]]; ring.
have P u : in_span [:: 3%N] (ex_joined R) u -> u <> zero_tree R [:: 3%N] -> forall p q r, 0 < p -> 0 < q ->
   r = (fun a b => p * a ^+ 2 + q * (b - a) ^+ 2) -> exists2 ab, u = [:: [:: ab.1; ab.2; ab.1]] & 0 < r ab.1 ab.2.
  move=> /ex_joinedP[a [b ->]] nz p q r p0 q0 ->; exists (a, b) => //=.
  have H1 : 0 <= p * a ^+ 2 := mulr_ge0 (ltW p0) (sqr_ge0 _).
  have H2 : 0 <= q * (b - a) ^+ 2 := mulr_ge0 (ltW q0) (sqr_ge0 _).
  rewrite lt_neqAle addr_ge0 // andbT eq_sym; apply/negP.
  rewrite paddr_eq0 // (mulf_eq0 p) (mulf_eq0 q) !sqrf_eq0 subr_eq0 (gt_eqF p0) (gt_eqF q0) /= => /andP[/eqP a0 /eqP ba].
  by apply: nz; rewrite ba a0.
have [||||||u [g [k [h1 h2 [v vv uE] h3]]]] := @C63_dual R [:: 3%N] (@ex_H R) (@ex_M R) (@jnp_vdot R) [:: [:: x; y; z]] None (ex_joined R)
  erefl I L _ (@C42_default_dot R [:: 3%N]) (@ex_dot3 R) _ _ _ _ _ 0 0 None.
- by move=> u /ex_three[a [b [c ->]]].
- by move=> w; rewrite !inE => /orP[] /eqP ->.
- by move=> u /ex_three[a [b [c ->]]]; apply/ex_joinedP; exists (a + c), b.
- by move=> u u' /ex_three[a [b [c ->]]] /ex_three[a' [b' [c' ->]]]; rewrite /tree_vdot /jnp_vdot /map2 /=; ring.
- split=> [u u' /ex_joinedP[a [b ->]] /ex_joinedP[a' [b' ->]]|u vu nz]; first by rewrite /tree_vdot /jnp_vdot /map2 /=; ring.
  have [|[a b] -> /= h] := P u vu nz 2%:R 2%:R _ (ltr0n _ 2) _ erefl; first by rewrite ltr0n.
  suff -> : tree_vdot (@jnp_vdot R) [:: [:: a; b; a]] (ex_H [:: [:: a; b; a]]) = 2%:R * a ^+ 2 + 2%:R * (b - a) ^+ 2 by [].
  by rewrite /tree_vdot /jnp_vdot /map2 /=; ring.
- move=> u vu nz; have [a [b e]] := iffLR (ex_joinedP u) vu; rewrite e.
  have -> : tree_vdot (@jnp_vdot R) [:: [:: a; b; a]] (ex_M [:: [:: a; b; a]]) = 2%:R * a ^+ 2 + 2%:R * a ^+ 2 + b ^+ 2.
    by rewrite /tree_vdot /jnp_vdot /map2 /=; ring.
  have H1 : 0 <= 2%:R * a ^+ 2 := mulr_ge0 (ler0n _ _) (sqr_ge0 _).
  rewrite lt_neqAle !addr_ge0 ?sqr_ge0 // andbT eq_sym; apply/negP.
  rewrite !paddr_eq0 ?addr_ge0 ?sqr_ge0 // !(mulf_eq0 2%:R) !sqrf_eq0 pnatr_eq0 /= => /andP[/andP[/eqP a0 _] /eqP b0].
  by apply: nz; rewrite e a0 b0.
have /ex_joinedP[a [b vE]] := vv; have [_ H] := h3 erefl erefl isT; exists u, g, k, a, b.
have uE' : u = [:: [:: a; b; a]] by rewrite uE vE /start /zero_tree /tree_add /map2 /= !add0r.
have V1 : in_span [:: 3%N] (ex_joined R) [:: [:: 1; 0; 1]] by apply/ex_joinedP; exists 1, 0.
have V2 : in_span [:: 3%N] (ex_joined R) [:: [:: 0; 1; 0]] by apply/ex_joinedP; exists 0, 1.
have := H _ V1; have := H _ V2; rewrite uE' /tree_vdot /jnp_vdot /map2 /= => e2 e1.
split; rewrite -?uE' //.
  transitivity (1 * (2%:R * a - b) + (0 * (2%:R * b - a - a) + (1 * (2%:R * a - b) + 0)) + 0); first by ring.
  by rewrite e1; ring.
transitivity (0 * (2%:R * a - b) + (1 * (2%:R * b - a - a) + (0 * (2%:R * a - b) + 0)) + 0); first by ring.
by rewrite e2; ring.
Qed.

Print Assumptions C63_stays.
Print Assumptions C63_semidefinite.
Print Assumptions C63_dual.
