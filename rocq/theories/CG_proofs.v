(** Conjugate gradients in an abstract vector space. *)
From mathcomp Require Import all_ssreflect all_algebra zify ring.
From Verif Require Import CG_model.
Set Implicit Arguments.
Unset Strict Implicit.
Unset Printing Implicit Defensive.
Import Order.TTheory GRing.Theory Num.Theory.
Local Open Scope ring_scope.

Section Abs.
Variables (R : realFieldType) (V : vectType R) (dot : V -> V -> R).
Hypothesis dotl : forall a u v w, dot (a *: u + v) w = a * dot u w + dot v w.
Hypothesis dotC : forall u v, dot u v = dot v u.

Lemma dot0l w : dot 0 w = 0.
Proof. by have := dotl (-1) 0 0 w; rewrite scaler0 addr0 mulN1r addNr. Qed.
Lemma dotDl u v w : dot (u + v) w = dot u w + dot v w.
Proof. by rewrite -{1}[u]scale1r dotl mul1r. Qed.
Lemma dotZl a u w : dot (a *: u) w = a * dot u w.
Proof. by rewrite -[a *: u]addr0 dotl dot0l addr0. Qed.
Lemma dotBl u v w : dot (u - v) w = dot u w - dot v w.
Proof. by rewrite dotDl -scaleN1r dotZl mulN1r. Qed.
Lemma dotDr u v w : dot w (u + v) = dot w u + dot w v.
Proof. by rewrite !(dotC w) dotDl. Qed.
Lemma dotZr a u w : dot w (a *: u) = a * dot w u.
Proof. by rewrite !(dotC w) dotZl. Qed.
Lemma dotBr u v w : dot w (u - v) = dot w u - dot w v.
Proof. by rewrite !(dotC w) dotBl. Qed.
Lemma dot0r w : dot w 0 = 0.
Proof. by rewrite dotC dot0l. Qed.
Lemma dot_suml I (r : seq I) (P : pred I) (F : I -> V) w : dot (\sum_(i <- r | P i) F i) w = \sum_(i <- r | P i) dot (F i) w.
Proof. by elim/big_rec2: _ => [|i y x _ <-]; rewrite ?dot0l // dotDl. Qed.

Definition linear_op (A : V -> V) : Prop := forall a u v, A (a *: u + v) = a *: A u + A v.
Section Lin.
Variable A : V -> V.
Hypothesis Al : linear_op A.
Lemma lin0 : A 0 = 0.
Proof. by have := Al (-1) 0 0; rewrite scaler0 addr0 scaleN1r addNr. Qed.
Lemma linD u v : A (u + v) = A u + A v.
Proof. by rewrite -{1}[u]scale1r Al scale1r. Qed.
Lemma linZ a u : A (a *: u) = a *: A u.
Proof. by rewrite -[a *: u]addr0 Al lin0 addr0. Qed.
Lemma linB u v : A (u - v) = A u - A v.
Proof. by rewrite linD -scaleN1r linZ scaleN1r. Qed.
End Lin.

(** The body of the loop without the check for breakdown. *)
Variables (A M : V -> V) (b x0 : V).
Hypothesis Al : linear_op A.
Definition step (s : state R V) : state R V :=
  let alpha := st_gamma s / dot (st_p s) (A (st_p s)) in
  let r' := st_r s - alpha *: A (st_p s) in
  State (st_x s + alpha *: st_p s) r' (dot r' (M r')) (M r' + (dot r' (M r') / st_gamma s) *: st_p s) (st_k s).+1.
Notation body := (body +%R (fun u v : V => u - v) *:%R dot A M).
Notation initial := (initial (fun u v : V => u - v) dot A M b x0).
Lemma bodyE s s' : body s = Some s' -> s' = step s.
Proof. by rewrite /CG_model.body; case: ifP => // _ [<-]. Qed.

Definition consistent (s : state R V) : Prop :=
  st_r s = b - A (st_x s) /\ st_gamma s = dot (st_r s) (M (st_r s)).
Lemma consistent0 : consistent initial. Proof. by []. Qed.
Lemma consistentS s : consistent s -> consistent (step s).
Proof.
by move=> [rE _]; split=> //; rewrite [st_r (step _)]/= [st_x (step _)]/= rE (linD Al) (linZ Al) opprD addrA.
Qed.

Definition run (k : nat) : state R V := iter k step initial.
Notation x k := (st_x (run k)).
Notation r k := (st_r (run k)).
Notation g k := (st_gamma (run k)).
Notation p k := (st_p (run k)).
Lemma run_k k : st_k (run k) = k.
Proof. by elim: k => //= k ->. Qed.
Lemma run_consistent k : consistent (run k).
Proof. by elim: k => [|k IH]; [exact: consistent0|exact: consistentS]. Qed.

Notation loop := (loop +%R (fun u v : V => u - v) *:%R dot A M).
(** What the loop returns is one of the iterates, and the conditions held on all
    earlier ones. *)
Lemma loopP atol2 maxiter fuel k xx gg kk : (k + fuel)%N = maxiter ->
  loop atol2 maxiter fuel (run k) = CGDone xx gg kk ->
  [/\ (k <= kk <= maxiter)%N, xx = x kk, gg = g kk, (gg <= atol2) || (kk == maxiter) &
      forall j, (k <= j < kk)%N -> g j > atol2].
Proof.
elim: fuel k => [|fuel IH] k; rewrite ?addn0 => e /=.
  rewrite /cond run_k -e ltnn andbF => -[<- <- <-].
  by rewrite eqxx orbT leqnn; split=> // j; rewrite ltnNge andbN.
case cE : (cond _ _ _) => /=; last first.
  rewrite run_k => -[<- <- <-]; rewrite -e leqnn leq_addr; split=> //; last by move=> j; rewrite ltnNge andbN.
  move: cE; rewrite /cond run_k -e -addn1 leq_add2l ltn0Sn andbT => /negbT.
  by rewrite -leNgt => ->.
case bE : (body _) => [s'|] //; rewrite (bodyE bE) => /(IH k.+1).
rewrite addSnnS => /(_ e)[/andP[h1 h2] -> -> h3 h4]; split=> //; first by rewrite ltnW.
move=> j /andP[]; rewrite leq_eqVlt => /orP[/eqP <- _|h5 h6]; last by apply: h4; rewrite h5.
by case/andP: cE.
Qed.
Lemma loop_broken atol2 maxiter fuel k kk : (k + fuel)%N = maxiter ->
  loop atol2 maxiter fuel (run k) = CGBroken R V kk ->
  [/\ (k <= kk < maxiter)%N, forall j, (k <= j <= kk)%N -> g j > atol2 & body (run kk) = None].
Proof.
elim: fuel k => [|fuel IH] k; rewrite ?addn0 => e /=; first by rewrite /cond run_k -e ltnn andbF.
case cE : (cond _ _ _) => //=; have [cg _] := andP cE.
case bE : (body _) => [s'|].
  rewrite (bodyE bE) => /(IH k.+1); rewrite addSnnS => /(_ e)[/andP[h1 h2] h4 h5].
  split=> //; first by rewrite ltnW.
  move=> j /andP[]; rewrite leq_eqVlt => /orP[/eqP <- _|h6 h7] //; by apply: h4; rewrite h6.
move=> [<-]; rewrite run_k leqnn; split=> //; first by rewrite -e -addSnnS leq_addr.
by move=> j; rewrite -eqn_leq => /eqP <-.
Qed.
Lemma loop_total atol2 maxiter fuel k : (k + fuel)%N = maxiter ->
  (exists xx gg kk, loop atol2 maxiter fuel (run k) = CGDone xx gg kk) \/
  (exists kk, loop atol2 maxiter fuel (run k) = CGBroken R V kk).
Proof. by case: (loop _ _ _ _) => [xx gg kk|kk] _; [left; exists xx, gg, kk|right; exists kk]. Qed.

(** ** Symmetric positive definite operators on an invariant subspace *)
Section SPD.
Variable W : {vspace V}.
Hypotheses (AW : forall u, u \in W -> A u \in W) (MW : forall u, u \in W -> M u \in W).
Hypothesis r0W : b - A x0 \in W.
Hypotheses (Asym : forall u v, u \in W -> v \in W -> dot u (A v) = dot (A u) v)
           (Msym : forall u v, u \in W -> v \in W -> dot u (M v) = dot (M u) v).
Hypotheses (Apos : forall u, u \in W -> u != 0 -> 0 < dot u (A u))
           (Mpos : forall u, u \in W -> u != 0 -> 0 < dot u (M u)).

Definition inv (k : nat) : Prop :=
  [/\ r k \in W, p k \in W, dot (r k) (p k) = g k &
      forall j, (j < k)%N -> [/\ dot (r k) (p j) = 0, dot (r k) (M (r j)) = 0 & dot (p k) (A (p j)) = 0]].

Lemma p_neq0 k : inv k -> g k != 0 -> p k != 0.
Proof. by case=> _ _ e _; apply: contraNneq => p0; rewrite -e p0 dot0r. Qed.
Lemma pAp_neq0 k : inv k -> g k != 0 -> dot (p k) (A (p k)) != 0.
Proof. by move=> h g0; have [_ pW _ _] := h; rewrite gt_eqF // Apos ?p_neq0. Qed.
Lemma rS k : r k.+1 = r k - (g k / dot (p k) (A (p k))) *: A (p k). Proof. by []. Qed.
Lemma gS k : g k = dot (r k) (M (r k)). Proof. by have [_] := run_consistent k. Qed.
Lemma pS k : p k.+1 = M (r k.+1) + (g k.+1 / g k) *: p k. Proof. by []. Qed.

Lemma invP k : (forall j, (j < k)%N -> g j != 0) -> inv k.
Proof.
have [n hn] := ubnP k; elim: n k hn => // n IH [|k] hk hg.
  by split=> //=; apply: MW.
have H j : (j <= k)%N -> inv j.
  by move=> hj; apply: IH; [apply: leq_ltn_trans hj hk|move=> i hi; apply: hg; apply: leq_trans hi _; apply: leqW].
have Hk := H k (leqnn k); have gk := hg k (ltnSn k).
have [rW pW rp Hj] := Hk.
have rW' : r k.+1 \in W by rewrite rS rpredB // rpredZ // AW.
have R1 j : (j <= k)%N -> dot (r k.+1) (p j) = 0.
  rewrite leq_eqVlt => /orP[/eqP ->|hj].
    by rewrite rS dotBl dotZl rp (dotC (A _)) divfK ?subrr // pAp_neq0.
  have [h1 _ h3] := Hj j hj; have [_ pjW _ _] := H j (ltnW hj).
  by rewrite rS dotBl dotZl h1 -Asym // h3 mulr0 subr0.
have R2 j : (j <= k)%N -> dot (r k.+1) (M (r j)) = 0.
  case: j => [|j] hj; first exact: (R1 0%N).
  have -> : M (r j.+1) = p j.+1 - (g j.+1 / g j) *: p j by rewrite pS addrK.
  by rewrite dotBr dotZr !R1 // ?mulr0 ?subr0 // ltnW.
have zW : M (r k.+1) \in W by apply: MW.
have pW' : p k.+1 \in W by rewrite pS rpredD // rpredZ.
split=> //.
  by rewrite pS dotDr dotZr R1 // mulr0 addr0 -gS.
move=> j; rewrite ltnS => hj; split; [exact: R1|exact: R2|].
have hj' : inv j by apply: H.
have gj : g j != 0 by apply: hg; rewrite ltnS.
have pApj := pAp_neq0 hj' gj.
have a0 : g j / dot (p j) (A (p j)) != 0 by rewrite mulf_neq0 // invr_neq0.
have ApE : A (p j) = (g j / dot (p j) (A (p j)))^-1 *: (r j - r j.+1).
  by rewrite rS opprB addrC subrK scalerA mulVf // scale1r.
have Mr i : (i <= k.+1)%N -> r i \in W.
  by rewrite leq_eqVlt => /orP[/eqP -> //|hi]; have [] := H i hi.
have Z : dot (M (r k.+1)) (A (p j)) = (g j / dot (p j) (A (p j)))^-1 * (dot (r k.+1) (M (r j)) - dot (r k.+1) (M (r j.+1))).
  rewrite ApE dotZr dotBr ![dot (M _) _]dotC -ApE; congr (_ * (_ - _)).
    by rewrite Msym ?Mr // ?dotC // leqW.
  by rewrite Msym ?Mr // dotC.
rewrite pS dotDl dotZl Z R2 //.
move: hj; rewrite leq_eqVlt => /orP[/eqP ej|hj].
  rewrite ej in gj pApj a0 *; rewrite -gS sub0r mulrN; apply/eqP; rewrite addrC subr_eq0 invf_div; apply/eqP.
  by rewrite mulrAC -mulrA [RHS]mulrC.
have [_ _ h] := Hj j hj; by rewrite R2 // subrr mulr0 h mulr0 addr0.
Qed.

(** Residuals that do not vanish are independent. *)
Lemma residuals_bound k : (forall j, (j < k)%N -> g j != 0) -> (k <= \dim W)%N.
Proof.
move=> hg.
have Hi j : (j < k)%N -> inv j.
  by move=> hj; apply: invP => i hi; apply: hg; apply: ltn_trans hi hj.
have orth i j : (i < k)%N -> (j < k)%N -> i != j -> dot (r i) (M (r j)) = 0.
  move=> hi hj; rewrite neq_ltn => /orP[h|h].
    have [riW _ _ _] := Hi i hi; have [rjW _ _ /(_ i h)[_ e _]] := Hi j hj.
    by rewrite Msym // dotC.
  by have [_ _ _ /(_ j h)[]] := Hi i hi.
pose X := [tuple r i | i < k].
have fX : free X.
  apply/freeP => c /= Z i.
  have : dot (\sum_(j < k) c j *: X`_j) (M (r i)) = 0 by rewrite Z dot0l.
  rewrite dot_suml (bigD1 i) //= dotZl big1 ?addr0 => [|j ji].
    rewrite (nth_map i) ?size_enum_ord // nth_ord_enum -gS => /eqP.
    by rewrite mulf_eq0 (negbTE (hg _ (ltn_ord i))) orbF => /eqP.
  by rewrite dotZl (nth_map i) ?size_enum_ord // nth_ord_enum orth // mulr0.
have sX : (<<X>> <= W)%VS.
  by apply/span_subvP => v /mapP[i _ ->]; have [] := Hi i (ltn_ord i).
by move: fX; rewrite /free => /eqP e; rewrite (leq_trans _ (dimvS sX)) // e size_tuple.
Qed.

Lemma g_ge0 k : (forall j, (j < k)%N -> g j != 0) -> 0 <= g k.
Proof.
move/invP => [rW _ _ _]; rewrite gS; case: (eqVneq (r k) 0) => [->|h]; first by rewrite dot0l.
by rewrite ltW // Mpos.
Qed.
Lemma g_eq0 k : (forall j, (j < k)%N -> g j != 0) -> g k = 0 -> A (x k) = b.
Proof.
move/invP => [rW _ _ _] /eqP; case: (eqVneq (r k) 0) => [e _|h]; last by rewrite gS gt_eqF // Mpos.
by have [+ _] := run_consistent k; rewrite e => /eqP; rewrite eq_sym subr_eq0 => /eqP.
Qed.

(** Error energy. *)
Lemma x_dirs k : exists c : nat -> R, x k = x0 + \sum_(j < k) c j *: p j.
Proof.
exists (fun j => g j / dot (p j) (A (p j))); elim: k => [|k IH]; first by rewrite big_ord0 addr0.
by rewrite big_ord_recr /= addrA -IH.
Qed.
Lemma optimal k xs (c : nat -> R) : (forall j, (j < k)%N -> g j != 0) -> A xs = b -> xs - x0 \in W ->
  let y := x0 + \sum_(j < k) c j *: p j in
  dot (xs - x k) (A (xs - x k)) <= dot (xs - y) (A (xs - y)).
Proof.
move=> hg Axs xsW /=; have Hi j : (j <= k)%N -> inv j.
  by move=> hj; apply: invP => i hi; apply: hg; apply: leq_trans hi hj.
have [c' xE] := x_dirs k; set y := x0 + _; set d := y - x k.
have dE : d = \sum_(j < k) (c j - c' j) *: p j.
  rewrite /d /y xE opprD addrACA subrr add0r -sumrB; apply: eq_bigr => j _; by rewrite scalerBl.
have pW (j : 'I_k) : p j \in W by have [] := Hi j (ltnW (ltn_ord j)).
have dW : d \in W by rewrite dE rpred_sum // => j _; rewrite rpredZ.
have eW : xs - x k \in W.
  rewrite xE opprD addrA rpredB // rpred_sum // => j _; by rewrite rpredZ.
have Ae : A (xs - x k) = r k by rewrite (linB Al) Axs; have [-> _] := run_consistent k.
have rd : dot (r k) d = 0.
  rewrite dE dotC dot_suml big1 // => j _; rewrite dotZl dotC.
  by have [_ _ _ /(_ j (ltn_ord j))[-> _ _]] := Hi k (leqnn k); rewrite mulr0.
have -> : xs - y = (xs - x k) - d by rewrite /d opprB addrA subrK.
have eAd : dot (xs - x k) (A d) = 0 by rewrite Asym // Ae.
rewrite [A (_ - d)](linB Al) Ae; move: (xs - x k) eAd => e eAd.
rewrite dotBl !dotBr eAd (dotC d (r k)) rd subr0 sub0r opprK ler_addl.
by case: (eqVneq d 0) => [->|h]; rewrite ?dot0l // ltW // Apos.
Qed.

Lemma abs_total atol2 maxiter : 0 <= atol2 -> exists xx gg kk,
  [/\ loop atol2 maxiter maxiter initial = CGDone xx gg kk, (kk <= \dim W)%N, 0 <= gg &
      atol2 = 0 -> (\dim W <= maxiter)%N -> gg = 0 /\ A xx = b].
Proof.
move=> a0; have [[xx [gg [kk e]]]|[kk e]] := @loop_total atol2 maxiter maxiter 0 (add0n _).
  have [/andP[_ h1] ex eg h2 h3] := @loopP atol2 maxiter maxiter 0 xx gg kk (add0n _) e.
  have hg j : (j < kk)%N -> g j != 0 by move=> hj; rewrite gt_eqF // (le_lt_trans a0) // h3.
  have kd := residuals_bound hg; have gge := g_ge0 hg.
  exists xx, gg, kk; split=> //; first by rewrite eg.
  move=> az hm; suff g0 : g kk = 0 by rewrite eg ex; split=> //; apply: g_eq0.
  case/orP: h2 => [|/eqP km]; first by rewrite eg az => h; apply/eqP; rewrite eq_le h.
  apply/eqP; case: (eqVneq (g kk) 0) => // gn.
  have : (kk.+1 <= \dim W)%N.
    by apply: residuals_bound => j; rewrite ltnS leq_eqVlt => /orP[/eqP -> //|]; apply: hg.
  by rewrite km ltnNge hm.
have [h1 h2 +] := @loop_broken atol2 maxiter maxiter 0 kk (add0n _) e.
have hg j : (j <= kk)%N -> g j != 0 by move=> hj; rewrite gt_eqF // (le_lt_trans a0) // h2.
rewrite /CG_model.body (negbTE (pAp_neq0 (invP _) (hg kk (leqnn _)))) ?(negbTE (hg kk (leqnn _))) // => j hj.
by rewrite hg // ltnW.
Qed.
End SPD.
End Abs.
