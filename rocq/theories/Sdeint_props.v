(** Properties C51-C53: the SDE solver [sdeint] and its derivative. *)
From mathcomp Require Import all_ssreflect all_algebra ring.
From Verif Require Import Sdeint_model Sdeint_spec Sdeint_proofs.
Set Implicit Arguments. Unset Strict Implicit. Unset Printing Implicit Defensive.
Import Order.TTheory GRing.Theory Num.Theory.
Local Open Scope ring_scope.

Section C51.
Variables (R : realFieldType) (V : lmodType R) (W A : Type).
Variable f : V -> R -> W -> A -> V * V.

(** When [sdeint] runs at all: at least one output time, and a non-empty noise
    path whose length is a multiple of the number of output times.  It then
    gives one state for every output time. *)
Theorem C51_outputs y0 t0 touts dw args :
  (exists ys, sdeint f y0 (t0 :: touts) dw args = inr ys) <->
  [/\ (0 < size touts)%N, (0 < size dw)%N & (size touts %| size dw)%N].
Proof.
rewrite /sdeint /=; case: posnP => [->|k0] /=.
  by split=> [[]|[]].
case: (boolP (_ %| _)%N) => kd /=; last by split=> [[]|[]].
case: posnP => [e|n0]; first by split=> [[]|[]].
by split=> // _; eexists.
Qed.

Theorem C51_count y0 t0 touts dw args ys :
  sdeint f y0 (t0 :: touts) dw args = inr ys -> size ys = size touts.
Proof.
rewrite /sdeint /=; case: ifP => // _; case: ifP => // _ [<-].
by rewrite size_scan_fun size_zip size_segments minnn.
Qed.

Lemma sdeintE y0 t0 touts dw args ys :
  sdeint f y0 (t0 :: touts) dw args = inr ys ->
  [/\ (0 < size touts)%N, (0 < size dw)%N, (size touts %| size dw)%N &
      ys = scan_fun f y0 t0 (zip (segments (size touts) dw) touts) args].
Proof.
move=> e; have [] := (C51_outputs y0 t0 touts dw args).1 (ex_intro _ _ e).
move=> k0 n0 kd; split=> //; move: e; rewrite /sdeint /=.
by rewrite eqn0Ngt k0 kd /= eqn0Ngt n0 /= => -[<-].
Qed.

(** Every output is the result of the Euler-Heun method, started in the
    previous output (or the initial state) at the previous time, run to its
    own time with its own consecutive share of the noise, all shares having
    the same length and making up the whole path: no step is left out. *)
Theorem C51_segments y0 t0 touts dw args ys i :
  sdeint f y0 (t0 :: touts) dw args = inr ys ->
  increasing t0 touts ->
  (i < size touts)%N ->
  let m := (size dw %/ size touts)%N in
  let share := take m (drop (i * m) dw) in
  [/\ size share = m, (0 < m)%N, (size touts * m = size dw)%N &
      solves (fun x t w => (f x t w args).1) (fun x t w => (f x t w args).2)
        (nth 0 (t0 :: touts) i) (nth 0 touts i) share
        (nth 0 (y0 :: ys) i) (nth 0 ys i)].
Proof.
move=> /sdeintE [k0 n0 kd ->] inc ik m share.
have sm : size share = m by rewrite /share -(nth_segments dw ik) segment_size.
have m0 : (0 < m)%N by rewrite /m divn_gt0 // dvdn_leq.
split=> //; first by rewrite mulnC divnK.
have u2 : unzip2 (zip (segments (size touts) dw) touts) = touts.
  by rewrite unzip2_zip // size_segments.
have u1 : unzip1 (zip (segments (size touts) dw) touts) = segments (size touts) dw.
  by rewrite unzip1_zip // size_segments.
rewrite [X in solves _ _ _ _ _ _ X]nth_scan_fun; last first.
  by rewrite size_zip size_segments minnn.
rewrite u1 u2 nth_segments // -/m -/share.
apply: (sdeint1_solves f args false).
elim: (touts) (t0) (i) inc ik => [//|t' ts IH] t [|j] /= [tt inc] ik //.
exact: IH.
Qed.

(** Integrating over [touts1 ++ touts2] is integrating over [touts1] and
    restarting from the last state and time with the rest of the noise. *)
Theorem C51_restart y0 t0 touts1 touts2 dw1 dw2 args ys1 ys2 :
  (size dw1 * size touts2 = size dw2 * size touts1)%N ->
  sdeint f y0 (t0 :: touts1) dw1 args = inr ys1 ->
  sdeint f (last y0 ys1) (last t0 touts1 :: touts2) dw2 args = inr ys2 ->
  sdeint f y0 (t0 :: touts1 ++ touts2) (dw1 ++ dw2) args = inr (ys1 ++ ys2).
Proof.
move=> e /sdeintE [k1 n1 d1 ->] /sdeintE [k2 n2 d2 ->].
have em : (size dw1 %/ size touts1 = size dw2 %/ size touts2)%N.
  move/eqP: e; rewrite -{1}(divnK d1) -{1}(divnK d2).
  by rewrite -mulnA [X in _ == X]mulnAC -mulnA eqn_pmul2r ?muln_gt0 ?k1 // => /eqP.
have dvd : (size touts1 + size touts2 %| size dw1 + size dw2)%N.
  by rewrite -(divnK d1) -(divnK d2) em -mulnDr dvdn_mull.
rewrite /sdeint !size_cat addn_eq0 !eqn0Ngt k1 /= dvd addn_gt0 n1 /=.
rewrite segments_cat // zip_cat ?size_segments // scan_fun_cat.
by rewrite unzip2_zip ?size_segments.
Qed.

(** An output time that does not lie after its predecessor is not an error:
    the state is returned unchanged and its noise is ignored. *)
Theorem C51_no_progress y0 t0 touts dw args ys i :
  sdeint f y0 (t0 :: touts) dw args = inr ys ->
  (i < size touts)%N ->
  nth 0 touts i <= nth 0 (t0 :: touts) i ->
  nth 0 ys i = nth 0 (y0 :: ys) i.
Proof.
move=> /sdeintE [k0 n0 kd ->] ik back.
rewrite nth_scan_fun ?size_zip ?size_segments ?minnn //.
by rewrite unzip2_zip ?size_segments // sdeint1_still.
Qed.

End C51.

(** * C52: what the scheme computes *)
Lemma half_twice (R : realFieldType) (V : lmodType R) (x : V) :
  2%:R^-1 *: (x + x) = x.
Proof.
by rewrite -mulr2n -scaler_nat scalerA mulVf ?scale1r // pnatr_eq0.
Qed.

Section C52.
Variables (R : realFieldType) (V : lmodType R) (W A : Type).
Variable f : V -> R -> W -> A -> V * V.
Variables (y0 : V) (t0 t1 : R) (dw : seq W) (args : A) (w0 : W).
Hypothesis t01 : t0 < t1.
Hypothesis dw0 : (0 < size dw)%N.
Let n := size dw.
Let h := (t1 - t0) / n%:R.
Let time k := t0 + k%:R * h.

Lemma single (z : V) :
  solves (fun x t w => (f x t w args).1) (fun x t w => (f x t w args).2)
    t0 t1 dw y0 z ->
  sdeint f y0 [:: t0; t1] dw args = inr [:: z].
Proof.
move=> sz; rewrite /sdeint /= dvd1n /= eqn0Ngt dw0 /= /segments /= mul0n drop0.
rewrite divn1 take_size.
by rewrite (solves_fun (sdeint1_solves f args false y0 dw t01) sz).
Qed.

(** Without diffusion the solver is the forward Euler method. *)
Theorem C52_euler (xs : nat -> V) :
  (forall x t w, (f x t w args).2 = 0) ->
  xs 0%N = y0 ->
  (forall k, (k < n)%N ->
     xs k.+1 = xs k + h *: (f (xs k) (time k) (nth w0 dw k) args).1) ->
  sdeint f y0 [:: t0; t1] dw args = inr [:: xs n].
Proof.
move=> f0 x0 step; apply: single; exists xs; split=> // w k kn.
rewrite step // /heun_step !f0 addr0 scaler0 addr0.
by rewrite (set_nth_default w).
Qed.

(** Without drift, and with a diffusion that does not look at the state, the
    solver adds up the noise; time dependence is averaged over each step. *)
Theorem C52_noise (s : R -> W -> V) :
  (forall x t w, f x t w args = (0, s t w)) ->
  sdeint f y0 [:: t0; t1] dw args =
    inr [:: y0 + \sum_(k < n) 2%:R^-1 *: (s (time k) (nth w0 dw k)
                                          + s (time k.+1) (nth w0 dw k))].
Proof.
move=> fE; apply: single.
exists (fun j => y0 + \sum_(k < j) 2%:R^-1 *: (s (time k) (nth w0 dw k)
                                          + s (time k.+1) (nth w0 dw k))).
split=> //; first by rewrite big_ord0 addr0.
move=> w k kn; rewrite big_ord_recr /= addrA /heun_step !fE /= scaler0 addr0.
rewrite (set_nth_default w) // -/n -/h /time -[k.+1]addn1 natrD.
by rewrite mulrDl mul1r addrA.
Qed.

Corollary C52_noise_sum (s : W -> V) :
  (forall x t w, f x t w args = (0, s w)) ->
  sdeint f y0 [:: t0; t1] dw args = inr [:: y0 + \sum_(w <- dw) s w].
Proof.
move=> fE; rewrite (C52_noise (s := fun _ => s)) //.
congr (inr [:: _ + _]); rewrite (big_nth w0) big_mkord; apply: eq_bigr => k _.
exact: half_twice.
Qed.

(** Linear drift and diffusion: the product of the one-step factors
    [1 + h D + S + S^2 / 2]. *)
Theorem C52_linear (D : V -> V) (S : W -> V -> V) :
  (forall w x y, S w (x + y) = S w x + S w y) ->
  (forall x t w, f x t w args = (D x, S w x)) ->
  sdeint f y0 [:: t0; t1] dw args =
    inr [:: foldl (fun x w => x + h *: D x + S w x + 2%:R^-1 *: S w (S w x))
              y0 dw].
Proof.
move=> Sadd fE; apply: single.
exists (fun j => foldl (fun x w => x + h *: D x + S w x + 2%:R^-1 *: S w (S w x))
              y0 (take j dw)).
split; rewrite ?take0 ?take_size // => w k kn.
rewrite (take_nth w) // -cats1 foldl_cat /= /heun_step !fE /=.
move: (foldl _ _ _) (nth w dw k) => x v; rewrite -/n -/h Sadd.
rewrite [S v x + (_ + _)]addrA scalerDr addrA; congr (_ + _ + _).
by rewrite half_twice.
Qed.

End C52.

(** For a scalar equation [dY = l Y dt + s Y dW]. *)
Theorem C52_scalar (R : realFieldType) (A : Type) (l s y0 t0 t1 : R)
    (dw : seq R) (args : A) :
  t0 < t1 -> (0 < size dw)%N ->
  let h := (t1 - t0) / (size dw)%:R in
  sdeint (fun (y : R^o) (t : R) (w : R) (_ : A) => (l * y, s * y * w) : R^o * R^o)
    y0 [:: t0; t1] dw args =
  inr [:: (y0 * \prod_(w <- dw) (1 + l * h + s * w + (s * w) ^+ 2 / 2%:R)) : R^o].
Proof.
move=> t01 n0 h.
rewrite (@C52_linear R [lmodType R of R^o] R A _ _ _ _ _ _ t01 n0
  (fun y => l * y) (fun w y => s * y * w)) //; last first.
  by move=> w x y; rewrite mulrDr mulrDl.
congr (inr [:: _]); rewrite -/h; elim: (dw) (y0) => [|w ws IH] y /=.
  by rewrite big_nil mulr1.
rewrite IH big_cons [RHS]mulrA; congr (_ * _).
have alg (z a b c v : R) :
    z + a * (b * z) + c * z * v + 2%:R^-1 * (c * (c * z * v) * v) =
    z * (1 + b * a + c * v + (c * v) ^+ 2 / 2%:R) by field.
exact: alg.
Qed.

(** * C53: the custom derivative *)
Section C53.
Variables (R : realFieldType) (V A : lmodType R) (W : Type).
Variables (dot : V -> V -> R) (dotA : A -> A -> R).
Hypothesis (dotP : scalar_product dot) (dotAP : scalar_product dotA).
Variable f : V -> R -> W -> A -> V * V.
Variable vjp : (V -> A -> V) -> V -> A -> V -> V * A.
Hypothesis vjpP : vjp_spec dot dotA vjp.

(** Drift and diffusion are affine in the state and the extra arguments; the
    drift does not depend on the time. *)
Hypothesis drift_affine : forall t w, affine (fun y args => (f y t w args).1).
Hypothesis diff_affine : forall t w, affine (fun y args => (f y t w args).2).
Hypothesis drift_time :
  forall y t t' w args, (f y t w args).1 = (f y t' w args).1.

(** The cotangents returned by the backward pass of one call are exactly the
    transposed derivative of the result of the forward pass, with respect to
    the initial state and to the extra arguments. *)
Theorem C53_exact t0 t1 dw c y0 args :
  t0 < t1 ->
  let solve := fun y u => sdeint1 f false y (t0, t1) dw u in
  let bars := sdeint_rev f vjp false (solve y0 args) (t0, t1) dw args c in
  forall dy du,
    dot c (solve (y0 + dy) (args + du) - solve y0 args)
      = dot bars.1 dy + dotA bars.2 du.
Proof.
move=> t01 solve bars dy du.
have := backward dotP dotAP vjpP drift_affine diff_affine drift_time
  dw y0 (y0 + dy) c args (args + du) t01.
by rewrite /= -/bars => ->; rewrite ![_ + _ - _]addrAC !subrr !add0r.
Qed.

(** The same through [sdeint] with any number of output times: [bars] holds
    one cotangent for each output. *)
Theorem C53_outputs t0 touts dw bars y0 args dy du ys ys' :
  increasing t0 touts ->
  sdeint f y0 (t0 :: touts) dw args = inr ys ->
  sdeint f (y0 + dy) (t0 :: touts) dw (args + du) = inr ys' ->
  let z := sdeint_vjp f vjp y0 (t0 :: touts) dw args bars in
  \sum_(i < size touts) dot (nth 0 bars i) (nth 0 ys' i - nth 0 ys i)
    = dot z.1 dy + dotA z.2 du.
Proof.
move=> inc e e'; have [k0 n0 kd ->] := sdeintE e.
have [_ _ _ -> /=] := sdeintE e'.
set xs := zip _ _.
have sxs : size xs = size touts by rewrite size_zip size_segments minnn.
have u2 : unzip2 xs = touts by rewrite unzip2_zip // size_segments.
rewrite -u2 in inc.
have := scan_rev_exact dotP dotAP vjpP drift_affine diff_affine drift_time
  bars y0 (y0 + dy) args (args + du) inc.
by rewrite /= sxs => ->; rewrite ![_ + _ - _]addrAC !subrr !add0r.
Qed.

End C53.

(** The backward pass finds its way back to the initial state when drift and
    diffusion do not depend on the state (and the drift not on the time). *)
Theorem C53_recovers (R : realFieldType) (V A : lmodType R) (W : Type)
    (f : V -> R -> W -> A -> V * V) vjp (drift : V) (s : R -> W -> V) args
    t0 t1 dw y0 c :
  t0 < t1 ->
  (forall y t w, f y t w args = (drift, s t w)) ->
  let y1 := sdeint1 f false y0 (t0, t1) dw args in
  (sdeint_rev_state f vjp false y1 (t0, t1) dw args c).1.1 = y0.
Proof. by move=> t01 fE; apply: (recover vjp fE). Qed.

(** ** A transposer of affine functions exists in every dimension, and matrix
    equations meet the hypotheses of [C53_exact]. *)
Section Matrices.
Variables (R : realFieldType) (n m : nat).
Notation V := 'rV[R]_n.
Notation A := 'rV[R]_m.

Definition dotr k (x y : 'rV[R]_k) : R := \sum_i x 0 i * y 0 i.

Lemma dotr_product k : scalar_product (@dotr k).
Proof.
split; rewrite /dotr.
- move=> x y z; rewrite -big_split; apply: eq_bigr => i _.
  by rewrite !mxE mulrDl.
- move=> x y z; rewrite -big_split; apply: eq_bigr => i _.
  by rewrite !mxE mulrDr.
- move=> a x y; rewrite big_distrr; apply: eq_bigr => i _ /=.
  by rewrite !mxE mulrA.
- move=> a x y; rewrite big_distrr; apply: eq_bigr => i _ /=.
  by rewrite !mxE mulrCA.
- by move=> x y; apply: eq_bigr => i _; rewrite mulrC.
- move=> x x0; apply/rowP => i; rewrite [RHS]mxE.
  have := x0 (delta_mx 0 i); rewrite (bigD1 i) //= big1 => [|j ji].
    by rewrite !mxE !eqxx addr0 mulr1.
  by rewrite !mxE (negbTE ji) andbF mulr0.
Qed.

Definition diff_vjp (g : V -> A -> V) (y : V) (a : A) (c : V) : V * A :=
  (\row_i dotr c (g (y + delta_mx 0 i) a - g y a),
   \row_i dotr c (g y (a + delta_mx 0 i) - g y a)).

Lemma dotr_sum k I (r : seq I) (x : 'rV[R]_k) (F : I -> 'rV[R]_k) :
  dotr x (\sum_(i <- r) F i) = \sum_(i <- r) dotr x (F i).
Proof.
elim: r => [|i r IH]; last by rewrite !big_cons (sp_addr (dotr_product k)) IH.
by rewrite !big_nil /dotr big1 // => i _; rewrite mxE mulr0.
Qed.

Lemma diff_vjpP : vjp_spec (@dotr n) (@dotr m) diff_vjp.
Proof.
move=> g [L [M [Ladd Madd Lsc Msc gE]]] x a c.
have L0 : L 0 = 0 by have := Lsc 0 0; rewrite !scale0r.
have M0 : M 0 = 0 by have := Msc 0 0; rewrite !scale0r.
move=> y v b u; rewrite gE (sp_addr (dotr_product n)); congr (_ + _).
- rewrite {1}(row_sum_delta v).
  have -> : L (\sum_j v 0 j *: delta_mx 0 j) = \sum_j v 0 j *: L (delta_mx 0 j).
    elim: (index_enum _) => [|j r IH]; first by rewrite !big_nil.
    by rewrite !big_cons Ladd Lsc IH.
  rewrite dotr_sum /dotr; apply: eq_bigr => j _.
  rewrite -/(dotr c _) (sp_scaler (dotr_product n)) mxE mulrC; congr (_ * _).
  by have := gE x (delta_mx 0 j) a 0; rewrite addr0 M0 addr0 => ->.
- rewrite {1}(row_sum_delta u).
  have -> : M (\sum_j u 0 j *: delta_mx 0 j) = \sum_j u 0 j *: M (delta_mx 0 j).
    elim: (index_enum _) => [|j r IH]; first by rewrite !big_nil.
    by rewrite !big_cons Madd Msc IH.
  rewrite dotr_sum /dotr; apply: eq_bigr => j _.
  rewrite -/(dotr c _) (sp_scaler (dotr_product n)) mxE mulrC; congr (_ * _).
  by have := gE x 0 a (delta_mx 0 j); rewrite addr0 L0 add0r => ->.
Qed.

(** [dY = (Y D + theta B) dt + (Y S(t) + theta C) dW] with a scalar noise. *)
Variables (D : 'M[R]_n) (S : R -> 'M[R]_n) (B C : 'M[R]_(m, n)).

Definition matrix_sde (y : V) (t w : R) (th : A) : V * V :=
  (y *m D + th *m B, w *: (y *m S t + th *m C)).

Lemma matrix_affine (P : 'M[R]_n) (Q : 'M[R]_(m, n)) w :
  affine (fun (y : V) (th : A) => w *: (y *m P + th *m Q)).
Proof.
exists (fun y => w *: (y *m P)), (fun th => w *: (th *m Q)); split.
- by move=> x y; rewrite mulmxDl scalerDr.
- by move=> x y; rewrite mulmxDl scalerDr.
- by move=> c x; rewrite -scalemxAl !scalerA mulrC.
- by move=> c x; rewrite -scalemxAl !scalerA mulrC.
- move=> x y a b; rewrite !mulmxDl -scalerBr -scalerDr; congr (_ *: _).
  by rewrite [X in X - _ = _]addrACA [LHS]addrC addKr.
Qed.

Theorem C53_matrix t0 t1 dw c y0 th :
  t0 < t1 ->
  let solve := fun y u => sdeint1 matrix_sde false y (t0, t1) dw u in
  let bars := sdeint_rev matrix_sde diff_vjp false (solve y0 th) (t0, t1) dw th c in
  forall dy du,
    dotr c (solve (y0 + dy) (th + du) - solve y0 th)
      = dotr bars.1 dy + dotr bars.2 du.
Proof.
apply: (C53_exact (dotr_product n) (dotr_product m) diff_vjpP).
- move=> _ w /=; have [L [M [? ? ? ? e]]] := matrix_affine D B 1.
  by exists L, M; split=> // x y a b; have := e x y a b; rewrite !scale1r.
- by move=> t w; apply: matrix_affine.
- by [].
Qed.

End Matrices.

(** ** Limits of the backward pass *)
Section Limits.
Let R := [realFieldType of rat].
Let V := [lmodType R of R^o].

(** The central difference transposes affine functions, and is the true
    derivative of quadratic ones. *)
Definition central (g : V -> V -> V) (y a c : V) : V * V :=
  (c * ((g (y + 1) a - g (y - 1) a) / 2%:R),
   c * ((g y (a + 1) - g y (a - 1)) / 2%:R)).

Lemma product_dot : scalar_product (fun x y : V => (x : R) * y).
Proof.
split; rewrite /GRing.scale /=.
- by move=> x y z; rewrite mulrDl.
- by move=> x y z; rewrite mulrDr.
- by move=> a x y; rewrite mulrA.
- by move=> a x y; rewrite mulrCA.
- by move=> x y; rewrite mulrC.
- by move=> x /(_ 1); rewrite mulr1.
Qed.

Lemma centralP :
  vjp_spec (fun x y : V => (x : R) * y) (fun x y : V => (x : R) * y) central.
Proof.
move=> g [L [M [Ladd Madd Lsc Msc gE]]] x a c y v b u /=.
have L0 : L 0 = 0 by have := Lsc 0 0; rewrite !scale0r.
have M0 : M 0 = 0 by have := Msc 0 0; rewrite !scale0r.
have L1 z : L z = z * L 1 by rewrite -[z in LHS]mulr1 -[_ * _]/(z *: (1 : V)) Lsc.
have M1 z : M z = z * M 1 by rewrite -[z in LHS]mulr1 -[_ * _]/(z *: (1 : V)) Msc.
rewrite gE.
have e1 : g (x + 1) a - g (x - 1) a = 2%:R * L 1.
  have := gE x 1 a 0; have := gE x (-1) a 0.
  rewrite !addr0 M0 !addr0 (L1 (-1)) => e2 e3.
  have -> : g (x + 1) a - g (x - 1) a = (g (x + 1) a - g x a) - (g (x - 1) a - g x a).
    by rewrite opprB addrA subrK.
  by rewrite e2 e3; ring.
have e4 : g x (a + 1) - g x (a - 1) = 2%:R * M 1.
  have := gE x 0 a 1; have := gE x 0 a (-1).
  rewrite !addr0 L0 !add0r (M1 (-1)) => e2 e3.
  have -> : g x (a + 1) - g x (a - 1) = (g x (a + 1) - g x a) - (g x (a - 1) - g x a).
    by rewrite opprB addrA subrK.
  by rewrite e2 e3; ring.
rewrite e1 e4 (L1 v) (M1 u) !(mulrC 2%:R) !mulfK ?pnatr_eq0 //.
by rewrite mulrDr; congr (_ + _); rewrite mulrAC mulrA.
Qed.

(** With a drift that depends on time, [dY = t Y dt], the backward pass takes
    the drift at the wrong end of each step and the gradient is wrong. *)
Definition growth (y : V) (t : R) (w : R) (_ : V) : V * V := (t * y, 0).

Theorem C53_time_dependent_refuted :
  exists (t0 t1 : R) (dw : seq R) (y0 c : V),
    [/\ t0 < t1,
        (forall y, sdeint1 growth false y (t0, t1) dw 0 = y) &
        (sdeint_rev growth central false y0 (t0, t1) dw 0 c).1 <> c].
Proof.
exists 0, 1, [:: 0], 1, 1; split=> //.
move=> y; rewrite /sdeint1 /scan /= /step_fn /= /growth /=.
by rewrite !(mul0r, scaler0, addr0).
Qed.

(** With a drift that is not linear, [dY = Y^2 dt], one step from [1] with
    step size [1] gives [y + y^2], whose derivative in [1] is [3]; the
    backward pass says [5]. *)
Definition square (y : V) (t : R) (w : R) (_ : V) : V * V := ((y : R) * y, 0).

Theorem C53_nonlinear_refuted :
  let p : {poly R} := 'X + 'X ^+ 2 in
  let y1 := sdeint1 square false 1 (0, 1) [:: 0] 0 in
  [/\ (forall y, sdeint1 square false y (0, 1) [:: 0] 0 = p.[y] :> R),
      p^`().[1] = 3%:R &
      sdeint_rev square central false y1 (0, 1) [:: 0] 0 1 = (5%:R, 0) ].
Proof.
split.
- move=> y; rewrite /sdeint1 /scan /= /step_fn /= /square /=.
  by rewrite !hornerE /GRing.scale /= ?(addr0, mulr0) ?subr0 ?divr1 ?mul1r ?expr2.
- by rewrite derivD derivX derivXn !hornerE /= ?hornerMn ?hornerE.
- by vm_compute.
Qed.

(** [growth] meets the other hypotheses of [C53_exact]. *)
Example growth_affine t w : affine (fun y th => (growth y t w th).1).
Proof.
exists (fun y => t * y), (fun _ => 0); split.
- by move=> x y; rewrite mulrDr.
- by move=> a b; rewrite [RHS]addr0.
- by move=> c x; rewrite /GRing.scale /= mulrCA.
- by move=> c a; rewrite scaler0.
- by move=> x y a b; rewrite /growth /= mulrDr addr0 addrAC subrr add0r.
Qed.

(** ** Concrete runs *)
(** Two output times with two noise increments each. *)
Example run_two_outputs :
  sdeint (fun (y : V) (t w : R) (th : V) => (th * y, w) : V * V)
    1 [:: 0; 1; 2%:R] [:: 1; 0; 0; - 1] 2%:R
  = inr [:: 6%:R; 23%:R : V].
Proof. by vm_compute. Qed.

(** [C51_restart] on it. *)
Example run_restarted :
  sdeint (fun (y : V) (t w : R) (th : V) => (th * y, w) : V * V)
    6%:R [:: 1; 2%:R] [:: 0; - 1] 2%:R
  = inr [:: 23%:R : V].
Proof. by vm_compute. Qed.

Example run_scalar :
  sdeint (fun (y : V) (t w : R) (_ : unit) => (2%:R * y, 3%:R * y * w) : V * V)
    1 [:: 0; 1] [:: 1; - 1] tt
  = inr [:: ((1 + 1 + 3%:R + 9%:R / 2%:R) * (1 + 1 - 3%:R + 9%:R / 2%:R)) : V].
Proof. by vm_compute. Qed.

Example run_fails :
  sdeint (fun (y : V) (t w : R) (_ : unit) => (y, y) : V * V)
    1 [:: 0; 1; 2%:R] [:: 1; - 1; 0] tt = inl ReshapeError.
Proof. by vm_compute. Qed.

End Limits.

Print Assumptions C51_outputs.
Print Assumptions C51_count.
Print Assumptions C51_segments.
Print Assumptions C51_restart.
Print Assumptions C51_no_progress.
Print Assumptions C52_euler.
Print Assumptions C52_noise.
Print Assumptions C52_noise_sum.
Print Assumptions C52_linear.
Print Assumptions C52_scalar.
Print Assumptions C53_exact.
Print Assumptions C53_outputs.
Print Assumptions C53_recovers.
Print Assumptions C53_matrix.
Print Assumptions C53_time_dependent_refuted.
Print Assumptions C53_nonlinear_refuted.
