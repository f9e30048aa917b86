(** Lemmas about the model of [sdeint]. *)
From mathcomp Require Import all_ssreflect all_algebra ring.
From Verif Require Import Sdeint_model Sdeint_spec.
Set Implicit Arguments. Unset Strict Implicit. Unset Printing Implicit Defensive.
Import Order.TTheory GRing.Theory Num.Theory.
Local Open Scope ring_scope.

Arguments step_fn : simpl never.

Section Forward.
Variables (R : realFieldType) (V : lmodType R) (W A : Type).
Variable f : V -> R -> W -> A -> V * V.

Definition mu (args : A) := fun (x : V) t (w : W) => (f x t w args).1.
Definition sigma (args : A) := fun (x : V) t (w : W) => (f x t w args).2.

Lemma step_fnE ts dt args t x w :
  step_fn f ts dt args (t, x) w =
    (t + dt, if (ts.1 <= t) && (t < ts.2)
             then heun_step (mu args) (sigma args) dt t w x else x).
Proof.
rewrite /step_fn /heun_step /mu /sigma.
case: (f x t w args) => drift diff /=.
by case: ifP.
Qed.

Variables (a b : R) (args : A).

Lemma fold_time ts dt t x xs :
  (foldl (step_fn f ts dt args) (t, x) xs).1 = t + (size xs)%:R * dt.
Proof.
elim: xs t x => [|w xs IH] t x /=; first by rewrite mul0r addr0.
by rewrite step_fnE IH -addn1 natrD mulrDl mul1r -addrA [dt + _]addrC.
Qed.

(** The states the solver goes through. *)
Definition states ts dt x xs k : V :=
  (foldl (step_fn f ts dt args) (ts.1, x) (take k xs)).2.

Lemma states_path x xs :
  a < b ->
  is_path (mu args) (sigma args) a b xs
    (states (a, b) ((b - a) / (size xs)%:R) x xs).
Proof.
move=> ab; rewrite /is_path; set h := (b - a) / _; move=> w0 k kn.
have n0 : (0 < (size xs)%:R :> R) by rewrite ltr0n (leq_ltn_trans _ kn).
have h0 : 0 < h by rewrite divr_gt0 // subr_gt0.
rewrite /states (take_nth w0) // -cats1 foldl_cat /=.
have := fold_time (a, b) h a x (take k xs).
rewrite size_takel ?(ltnW kn) //.
case: (foldl _ _ _) => t y /= ->.
rewrite step_fnE /=.
have -> : (a <= a + k%:R * h) && (a + k%:R * h < b).
  rewrite ler_addl mulr_ge0 ?ler0n ?(ltW h0) //=.
  rewrite -ltr_subr_addl.
  have -> : b - a = (size xs)%:R * h by rewrite /h mulrC divfK // gt_eqF.
  by rewrite ltr_pmul2r // ltr_nat.
by [].
Qed.

Lemma sdeint1_solves reverse x dw :
  a < b ->
  solves (mu args) (sigma args) a b (if reverse then rev dw else dw)
    x (sdeint1 f reverse x (a, b) dw args).
Proof.
move=> ab; set xs := if reverse then _ else _.
have sxs : size xs = size dw by rewrite /xs (fun_if size) size_rev if_same.
exists (states (a, b) ((b - a) / (size xs)%:R) x xs); split.
- by rewrite /states take0.
- by rewrite /states take_size /sdeint1 /scan -/xs sxs.
- exact: states_path.
Qed.

(** Nothing happens when the end time does not lie after the start time. *)
Lemma sdeint1_still reverse x dw :
  b <= a -> sdeint1 f reverse x (a, b) dw args = x.
Proof.
move=> ba; rewrite /sdeint1 /scan /=.
set dt := _ / _; have dt0 : dt <= 0.
  by rewrite /dt mulr_le0_ge0 ?invr_ge0 ?ler0n // subr_le0.
move: (if reverse then _ else _) => xs.
have: forall t, t <= a ->
    (foldl (step_fn f (a, b) dt args) (t, x) xs).2 = x; last by apply.
elim: xs => [//|w xs IH] t ta.
rewrite /= step_fnE /=.
have -> : (a <= t) && (t < b) = false.
  apply/negbTE/negP => /andP [at1 tb].
  by move: (lt_le_trans tb ba); rewrite ltNge at1.
by apply: IH; rewrite (le_trans _ ta) // ger_addl.
Qed.

End Forward.

(** The outer scan. *)
Section Outer.
Variables (R : realFieldType) (V : lmodType R) (W A : Type).
Variable f : V -> R -> W -> A -> V * V.

Lemma solves_fun mu sigma a b (ws : seq W) (x y z : V) :
  solves mu sigma a b ws x y -> solves mu sigma a b ws x z -> y = z.
Proof.
case=> xs [x0 xn px] [ys [y0 yn py]]; rewrite -xn -yn.
have: forall k, (k <= size ws)%N -> xs k = ys k; last by apply.
elim=> [|k IH] kn; first by rewrite x0 y0.
case e : ws kn => [//|w0 ws'] kn; rewrite -e in kn.
by rewrite (px w0 k kn) (py w0 k kn) IH // ltnW.
Qed.

Lemma size_segments (T : Type) k (dw : seq T) : size (segments k dw) = k.
Proof. by rewrite size_map size_iota. Qed.

Lemma nth_segments (T : Type) k (dw : seq T) i :
  (i < k)%N ->
  nth [::] (segments k dw) i =
    take (size dw %/ k) (drop (i * (size dw %/ k)) dw).
Proof. by move=> ik; rewrite (nth_map 0%N) ?size_iota // nth_iota. Qed.

Lemma segment_size (T : Type) k (dw : seq T) i :
  (0 < k)%N -> (k %| size dw)%N -> (i < k)%N ->
  size (nth [::] (segments k dw) i) = (size dw %/ k)%N.
Proof.
move=> k0 kd ik; rewrite nth_segments // size_takel // size_drop.
set m := (_ %/ _)%N; have -> : size dw = (k * m)%N by rewrite mulnC divnK.
by rewrite -mulnBl leq_pmull // subn_gt0.
Qed.

Lemma flatten_segments (T : Type) k (dw : seq T) :
  (0 < k)%N -> (k %| size dw)%N -> flatten (segments k dw) = dw.
Proof.
move=> k0 kd; rewrite /segments; set m := (_ %/ _)%N.
have: forall j, (j <= k)%N ->
  flatten [seq take m (drop (i * m) dw) | i <- iota 0 j] = take (j * m) dw.
  elim=> [|j IH] jk; first by rewrite mul0n take0.
  rewrite -[in iota _ _]addn1 iotaD map_cat flatten_cat IH ?(ltnW jk) //= cats0.
  by rewrite add0n mulSn [(m + _)%N]addnC takeD.
move/(_ k (leqnn k)) => ->.
by rewrite mulnC divnK // take_size.
Qed.

Lemma size_scan_fun y t (xs : seq (seq W * R)) args :
  size (scan_fun f y t xs args) = size xs.
Proof. by elim: xs y t => [//|[dw tn] xs IH] y t /=; rewrite IH. Qed.

Lemma scan_fun_cat y t (xs xs' : seq (seq W * R)) args :
  scan_fun f y t (xs ++ xs') args =
    scan_fun f y t xs args
      ++ scan_fun f (last y (scan_fun f y t xs args))
                    (last t (unzip2 xs)) xs' args.
Proof. by elim: xs y t => [//|[dw tn] xs IH] y t /=; rewrite IH. Qed.

Lemma nth_scan_fun y t (xs : seq (seq W * R)) args i :
  (i < size xs)%N ->
  nth 0 (scan_fun f y t xs args) i =
    sdeint1 f false (nth 0 (y :: scan_fun f y t xs args) i)
      (nth 0 (t :: unzip2 xs) i, nth 0 (unzip2 xs) i)
      (nth [::] (unzip1 xs) i) args.
Proof.
elim: xs y t i => [//|[dw tn] xs IH] y t [|i] //= ik.
by rewrite (IH _ _ i).
Qed.

(** Two paths of the same grain one after the other. *)
Lemma segments_cat (T : Type) k l (u v : seq T) :
  (0 < k)%N -> (0 < l)%N -> (k %| size u)%N -> (l %| size v)%N ->
  (size u %/ k = size v %/ l)%N ->
  segments (k + l) (u ++ v) = segments k u ++ segments l v.
Proof.
move=> k0 l0 ku lv e; set m := (size u %/ k)%N.
have su : size u = (k * m)%N by rewrite mulnC divnK.
have sv : size v = (l * m)%N by rewrite /m e mulnC divnK.
have em : (size (u ++ v) %/ (k + l))%N = m.
  by rewrite size_cat su sv -mulnDl mulKn // addn_gt0 k0.
apply: (@eq_from_nth _ [::]) => [|i].
  by rewrite size_cat !size_segments.
rewrite size_segments => ik; rewrite nth_segments // nth_cat size_segments em.
case: ltnP => ki.
  rewrite nth_segments // -/m drop_cat su ltn_mul2r ki.
  have [m0|m0] := posnP m; first by rewrite m0 /= !take0.
  rewrite /= take_cat size_drop su -mulnBl.
  case: ltnP => // le.
  have e1 : (k - i = 1)%N.
    apply/eqP; rewrite eqn_leq subn_gt0 ki andbT.
    by move: le; rewrite -{2}[m]mul1n leq_pmul2r.
  rewrite e1 mul1n subnn take0 cats0 take_oversize // size_drop su -mulnBl e1.
  by rewrite mul1n.
rewrite nth_segments ?ltn_subLR // -e -/m drop_cat su.
by rewrite ltnNge leq_mul2r ki orbT /= -mulnBl.
Qed.

End Outer.

(** * The backward pass *)
Section Backward.
Variables (R : realFieldType) (V A : lmodType R) (W : Type).
Variables (dot : V -> V -> R) (dotA : A -> A -> R).
Hypothesis (dotP : scalar_product dot) (dotAP : scalar_product dotA).
Variable f : V -> R -> W -> A -> V * V.
Variable vjp : (V -> A -> V) -> V -> A -> V -> V * A.
Hypothesis vjpP : vjp_spec dot dotA vjp.

Hypothesis drift_affine :
  forall t w, affine (fun y args => (f y t w args).1).
Hypothesis diff_affine :
  forall t w, affine (fun y args => (f y t w args).2).
Hypothesis drift_time :
  forall y t t' w args, (f y t w args).1 = (f y t' w args).1.

Notation aug_mu args := (mu (aug_f f vjp) args).
Notation aug_sigma args := (sigma (aug_f f vjp) args).

(** A difference of values against a cotangent. *)
Lemma transposedE g c cy ca (x x' : V) (a a' : A) :
  transposed dot dotA g c cy ca ->
  dot c (g x' a') = dot c (g x a) + (dot cy (x' - x) + dotA ca (a' - a)).
Proof.
move=> gP; have := gP x (x' - x) a (a' - a).
rewrite ![_ + (_ - _)]addrC !subrK => <-.
by rewrite -(sp_addr dotP) addrC subrK.
Qed.

Lemma one_step h t w (x x' : V) (a a' : A) (s : V * V * A) :
  let z := heun_step (aug_mu a) (aug_sigma a) h (- (t + h)) w s in
  let y := heun_step (mu f a) (sigma f a) h t w x in
  let y' := heun_step (mu f a') (sigma f a') h t w x' in
  dot s.1.2 (y' - y) = dot z.1.2 (x' - x) + dotA z.2 (a' - a) - dotA s.2 (a' - a).
Proof.
case: s => [[u c] e]; rewrite /heun_step /mu /sigma /aug_f /=.
rewrite opprK.
set D := fun y args => (f y (t + h) w args).1.
set S1 := fun y args => (f y (t + h) w args).2.
have DP := vjpP (drift_affine (t + h) w) u a c.
have S1P := vjpP (diff_affine (t + h) w) u a c.
rewrite -/D -/S1 in DP S1P *.
case: (vjp D u a c) DP => dy da DP.
case: (vjp S1 u a c) S1P => sy sa S1P /=.
have -> : - (- (t + h) + h) = t by rewrite opprD opprK addrK.
set S0 := fun y args => (f y t w args).2.
have S0P := vjpP (diff_affine t w) (u - S1 u a) a (c + sy).
rewrite -/S0 in S0P *.
case: (vjp S0 _ a _) S0P => ty ta S0P /=.
case: (vjp (fun y args => (f y t w args).1) _ a _) => ? ? /=.
rewrite (drift_time x t (t + h)) (drift_time x' t (t + h)).
rewrite -/(D x a) -/(D x' a') -/(S0 x a) -/(S0 x' a').
rewrite -/(S1 (x + S0 x a) a) -/(S1 (x' + S0 x' a') a').
have e1 := transposedE x x' a a' DP.
have e2 := transposedE (x + S0 x a) (x' + S0 x' a') a a' S1P.
have e3 := transposedE x x' a a' S0P.
move: e1 e2 e3; move: (D x a) (D x' a') (S0 x a) (S0 x' a').
move=> d d' p p'.
move: (S1 _ _) (S1 _ _) => q q'.
rewrite /= in DP S1P S0P *.
have dotN z y : dot z (- y) = - dot z y.
  by rewrite -scaleN1r (sp_scaler dotP) mulN1r.
have dotB z y y' : dot z (y - y') = dot z y - dot z y'.
  by rewrite (sp_addr dotP) dotN.
have dotAN z y : dotA z (- y) = - dotA z y.
  by rewrite -scaleN1r (sp_scaler dotAP) mulN1r.
have dotAB z y y' : dotA z (y - y') = dotA z y - dotA z y'.
  by rewrite (sp_addr dotAP) dotAN.
rewrite !dotB !dotAB !(sp_addr dotP, sp_addl dotP, sp_addl dotAP,
  sp_scaler dotP, sp_scalel dotP, sp_scalel dotAP).
move: (dot c x) (dot c x') (dot c d) (dot c d') (dot c p) (dot c p') (dot c q) (dot c q').
move=> cx cx' cd cd' cp cp' cq cq'.
move: (dot dy x) (dot dy x') (dotA da a) (dotA da a') (dot sy x) (dot sy x').
move=> dx dx' aa aa' sx sx'.
move: (dotA sa a) (dotA sa a') (dot ty x) (dot ty x') (dotA ta a) (dotA ta a').
move=> sa0 sa1 tx tx' ta0 ta1.
move: (dot sy p) (dot sy p') (dotA e a) (dotA e a') => sp sp' ea ea'.
move=> -> -> e3.
have -> : cp' = cp + (tx' - tx + (ta1 - ta0)) + sp - sp'.
  by rewrite -[LHS](addrK sp') e3; ring.
by field.
Qed.

Lemma backward a b dw (y0 y0' c : V) (u u' : A) :
  a < b ->
  let y1 := sdeint1 f false y0 (a, b) dw u in
  let y1' := sdeint1 f false y0' (a, b) dw u' in
  let z := sdeint_rev f vjp false y1 (a, b) dw u c in
  dot c (y1' - y1) = dot z.1 (y0' - y0) + dotA z.2 (u' - u).
Proof.
move=> ab y1 y1' z.
have [xs [x0 xn px]] := sdeint1_solves f u false y0 dw ab.
have [ys [z0 yn py]] := sdeint1_solves f u' false y0' dw ab.
have ba : - b < - a by rewrite ltr_opp2.
have [bs [b0 bn pb]] := sdeint1_solves (aug_f f vjp) u true (y1, c, 0) dw ba.
have zE : z = ((bs (size dw)).1.2, (bs (size dw)).2).
  rewrite /z /sdeint_rev /sdeint_rev_state /=.
  by rewrite size_rev in bn; rewrite -bn; case: (bs _) => [[]].
rewrite -x0 -z0 zE /=.
have: forall k, (k <= size dw)%N ->
  dot c (ys (size dw) - xs (size dw)) =
    dot (bs k).1.2 (ys (size dw - k)%N - xs (size dw - k)%N)
      + dotA (bs k).2 (u' - u).
  elim=> [|k IH] kn.
    by rewrite subn0 b0 /= -(scale0r (0 : A)) (sp_scalel dotAP) mul0r addr0 xn yn.
  rewrite IH ?(ltnW kn) //.
  case e : dw kn => [//|w0 ws]; rewrite -e => kn.
  set n := size dw in kn *.
  set i := (n - k.+1)%N; have iE : (n - k = i.+1)%N by rewrite /i subnSK.
  have i_n : (i < n)%N by rewrite /i ltn_subrL (leq_ltn_trans _ kn).
  rewrite iE (px w0 i i_n) (py w0 i i_n).
  have kr : (k < size (rev dw))%N by rewrite size_rev.
  rewrite (pb w0 k kr) size_rev -/n nth_rev // -/n -/i.
  set h := (b - a) / n%:R.
  have -> : (- a - - b) / n%:R = h by rewrite opprK addrC.
  have -> : - b + k%:R * h = - (a + i%:R * h + h).
    have nh : b = a + n%:R * h.
      rewrite /h mulrC divfK; first by rewrite addrC subrK.
      by rewrite pnatr_eq0 -lt0n (leq_ltn_trans _ kn).
    have nE : n%:R = i%:R + k%:R + 1 :> R.
      by rewrite -natrD -(natrD _ _ 1) addn1 -addSn -iE subnK // ltnW.
    rewrite {1}nh nE; move: {nh} h (i%:R : R) (k%:R : R) => h' i' k' /=.
    clear; ring.
  by rewrite one_step subrK.
move/(_ (size dw) (leqnn _)); rewrite subnn.
have -> : y1 = xs (size dw) by rewrite xn.
have -> : y1' = ys (size dw) by rewrite yn.
by [].
Qed.

(** Strictly increasing output times. *)
Fixpoint increasing (t : R) (ts : seq R) : Prop :=
  if ts is t' :: ts' then t < t' /\ increasing t' ts' else True.

Lemma scan_rev_exact t (xs : seq (seq W * R)) (bars : seq V)
    (y0 y0' : V) (u u' : A) :
  increasing t (unzip2 xs) ->
  let ys := scan_fun f y0 t xs u in
  let ys' := scan_fun f y0' t xs u' in
  let z := scan_rev f vjp y0 t xs u bars in
  \sum_(i < size xs) dot (nth 0 bars i) (nth 0 ys' i - nth 0 ys i) =
    dot z.1 (y0' - y0) + dotA z.2 (u' - u).
Proof.
have dot0 (x : V) : dot 0 x = 0 by rewrite -(scale0r (0 : V)) (sp_scalel dotP) mul0r.
have dotA0 (x : A) : dotA 0 x = 0 by rewrite -(scale0r (0 : A)) (sp_scalel dotAP) mul0r.
elim: xs t bars y0 y0' => [|[dw tn] xs IH] t bars y0 y0' /=.
  by rewrite big_ord0 dot0 dotA0 addr0.
case=> tt inc; rewrite big_ord_recl /=.
set y1 := sdeint1 f false y0 _ _ _; set y1' := sdeint1 f false y0' _ _ _.
have := IH tn (behead bars) y1 y1' inc.
case: (scan_rev _ _ _ _ _ _ _) => c g /= e.
under eq_bigr do rewrite -nth_behead.
rewrite e.
have := backward dw y0 y0' (head 0 bars + c) u u' tt; rewrite /= -/y1 -/y1'.
case: (sdeint_rev _ _ _ _ _ _ _ _) => yb gb /=.
rewrite nth0 (sp_addl dotAP) => e2.
by rewrite addrA -(sp_addl dotP) e2 -addrA [dotA gb _ + _]addrC.
Qed.

End Backward.

(** The state the backward pass goes back to. *)
Section Recover.
Variables (R : realFieldType) (V A : lmodType R) (W : Type).
Variable f : V -> R -> W -> A -> V * V.
Variable vjp : (V -> A -> V) -> V -> A -> V -> V * A.
Variables (d : V) (s : R -> W -> V) (u : A).
Hypothesis fE : forall y t w, f y t w u = (d, s t w).

Lemma recover a b dw (y0 c : V) :
  a < b ->
  let y1 := sdeint1 f false y0 (a, b) dw u in
  (sdeint_rev_state f vjp false y1 (a, b) dw u c).1.1 = y0.
Proof.
move=> ab y1.
have [xs [x0 xn px]] := sdeint1_solves f u false y0 dw ab.
have ba : - b < - a by rewrite ltr_opp2.
have [bs [b0 bn pb]] := sdeint1_solves (aug_f f vjp) u true (y1, c, 0) dw ba.
rewrite size_rev in bn; rewrite /sdeint_rev_state /= -bn -x0.
have: forall k, (k <= size dw)%N -> (bs k).1.1 = xs (size dw - k)%N.
  elim=> [|k IH] kn; first by rewrite subn0 b0 xn.
  case e : dw kn => [//|w0 ws]; rewrite -e => kn.
  set n := size dw in kn *.
  set i := (n - k.+1)%N; have iE : (n - k = i.+1)%N by rewrite /i subnSK.
  have i_n : (i < n)%N by rewrite /i ltn_subrL (leq_ltn_trans _ kn).
  have kr : (k < size (rev dw))%N by rewrite size_rev.
  rewrite (pb w0 k kr) size_rev -/n nth_rev // -/n -/i.
  set h := (b - a) / n%:R.
  have -> : (- a - - b) / n%:R = h by rewrite opprK addrC.
  have -> : - b + k%:R * h = - (a + i%:R * h + h).
    have nh : b = a + n%:R * h.
      rewrite /h mulrC divfK; first by rewrite addrC subrK.
      by rewrite pnatr_eq0 -lt0n (leq_ltn_trans _ kn).
    have nE : n%:R = i%:R + k%:R + 1 :> R.
      by rewrite -natrD -(natrD _ _ 1) addn1 -addSn -iE subnK // ltnW.
    rewrite {1}nh nE; move: {nh} h (i%:R : R) (k%:R : R) => h' i' k' /=.
    clear; ring.
  have := px w0 i i_n; rewrite /= -iE -IH ?(ltnW kn) // -/n -/h.
  move: (a + i%:R * h) (nth w0 dw i) => t w.
  case: (bs k) => [[y g] m]; rewrite /heun_step /mu /sigma /aug_f /=.
  rewrite !fE /= => ->.
  do 2 case: (vjp _ _ _ _) => ? ? /=.
  do 2 case: (vjp _ _ _ _) => ? ? /=.
  rewrite ?fE /= !opprK ?addrK.
  have -> : - (- (t + h) + h) = t by rewrite opprD opprK addrK.
  move: (xs i) => x; rewrite scalerN -opprD scalerN [s (t + h) w + _]addrC.
  by rewrite -addrA -opprD [h *: d + _]addrC opprD addrA addrK addrK.
by move/(_ (size dw) (leqnn _)); rewrite subnn.
Qed.

End Recover.
