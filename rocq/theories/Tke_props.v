(** C80: the energy of the Fourier modes of a velocity field. *)
From Coq Require Import PeanoNat.
From mathcomp Require Import all_ssreflect all_algebra complex ring zify.
From Verif Require Import Spectrum_model Spectrum_props.
From Verif Require Import Tke_model.
Set Implicit Arguments.
Unset Strict Implicit.
Unset Printing Implicit Defensive.
Import Order.TTheory GRing.Theory Num.Theory.
Local Open Scope ring_scope.

Section DFT.
Variable R : rcfType.
Local Notation C := R[i].
Local Notation "x ^*" := (conjc x) (at level 2, format "x ^*").
Local Notation Cr := (real_complex R).
Local Notation cRe := (@complex.Re R).
Local Notation cIm := (@complex.Im R).

(** ** Specification *)
(** The mode of wave numbers [k] and [l] of samples [f], [n] in each direction *)
Definition mode (w : C) (n : nat) (f : nat -> nat -> R) (k l : int) : C :=
  \sum_(0 <= a < n) \sum_(0 <= b < n) Cr (f a b) * w ^ (k * a%:Z + l * b%:Z).
Definition nsq (z : C) : R := cRe z ^+ 2 + cIm z ^+ 2.

(** ** Complex numbers *)
Lemma nsq_ge0 z : 0 <= nsq z. Proof. by rewrite /nsq addr_ge0 ?sqr_ge0. Qed.
Lemma normc_nsq z : ComplexField.Normc.normc z ^+ 2 = nsq z.
Proof. by case: z => a b; rewrite /nsq /= sqr_sqrtr // addr_ge0 ?sqr_ge0. Qed.
Lemma nsqE z : Cr (nsq z) = z * z^*.
Proof. case: z => a b; rewrite /nsq /=; apply/eqP; rewrite eq_complex /=; apply/andP; split; apply/eqP; ring. Qed.
Lemma nsqM z y : nsq (z * y) = nsq z * nsq y.
Proof. case: z => a b; case: y => c d; rewrite /nsq /=; ring. Qed.
Lemma nsq_conj z : nsq z^* = nsq z.
Proof. by case: z => a b; rewrite /nsq /= sqrrN. Qed.
Lemma nsq0 : nsq 0 = 0. Proof. by rewrite /nsq /= expr0n addr0. Qed.
Lemma nsq_eq0 z : (nsq z == 0) = (z == 0).
Proof. by rewrite -(inj_eq (@complexI R)) nsqE mulf_eq0 conjc_eq0 orbb. Qed.

Section Root.
Variables (w : C) (n : nat).
Hypothesis wn : n.-primitive_root w.
Lemma n_gt0 : (0 < n)%N. Proof. exact: prim_order_gt0 wn. Qed.
Lemma w_neq0 : w != 0.
Proof. by apply/eqP => w0; have := prim_expr_order wn; rewrite w0 expr0n gtn_eqF ?n_gt0 // => /eqP; rewrite eq_sym oner_eq0. Qed.
Lemma unity_conj (z : C) : z ^+ n = 1 -> z^* = z^-1.
Proof.
move=> zn; have z0 : z != 0 by apply/eqP => w0; move: zn; rewrite w0 expr0n gtn_eqF ?n_gt0 // => /eqP; rewrite eq_sym oner_eq0.
have q : nsq z = 1.
  have h : nsq z ^+ n = 1.
    have : nsq (z ^+ n) = nsq z ^+ n by elim: {zn} n => [|m IH]; rewrite ?expr0 ?exprS ?nsqM ?IH // /nsq /= expr1n expr0n addr0.
    by rewrite zn => <-; rewrite /nsq /= expr1n expr0n addr0.
  by apply/eqP; move/eqP: h; rewrite -(prednK n_gt0) pexpr_eq1 ?nsq_ge0.
by apply: (mulfI z0); rewrite -nsqE q divff.
Qed.
Lemma wz_n (k : int) : (w ^ k) ^+ n = 1.
Proof. by rewrite exprnP exprzAC -exprnP (prim_expr_order wn) exp1rz. Qed.
Lemma w_conj (k : int) : (w ^ k)^* = w ^ (- k).
Proof. by rewrite unity_conj ?wz_n // invr_expz. Qed.
Lemma wz_eq1 (k : int) : (w ^ k == 1) = (n%:Z %| k)%Z.
Proof.
case: k => m; first by rewrite -exprnP -(prim_order_dvd wn) dvdzE.
by rewrite NegzE -invr_expz invr_eq1 -exprnP -(prim_order_dvd wn) dvdzE abszN.
Qed.
Lemma nsq_w (k : int) : nsq (w ^ k) = 1.
Proof.
apply: complexI; rewrite nsqE; transitivity (w ^ k * (w ^ k)^-1); last by rewrite divff // expfz_neq0 // w_neq0.
congr (_ * _); exact: unity_conj (wz_n k).
Qed.
Lemma wzM (k l : int) : w ^ (k + l) = w ^ k * w ^ l.
Proof. by rewrite expfzDr ?w_neq0. Qed.
Lemma geom (z : C) (m : nat) : ((1 - z) * (\sum_(0 <= a < m) z ^+ a) = 1 - z ^+ m)%R.
Proof.
elim: m => [|m IH]; first by rewrite big_geq // expr0 subrr mulr0.
by rewrite big_nat_recr //= mulrDr IH exprS; ring.
Qed.
Lemma ortho (k : int) : \sum_(0 <= a < n) w ^ (k * a%:Z) = (n%:Z %| k)%Z%:R * n%:R.
Proof.
under eq_bigr do rewrite -exprz_exp -exprnP.
rewrite -wz_eq1; case: eqP => [->|/eqP ne].
  by under eq_bigr do rewrite expr1n; rewrite mul1r sumr_const_nat subn0.
have := geom (w ^ k) n; rewrite wz_n subrr => /eqP; rewrite mulf_eq0 subr_eq0 eq_sym (negbTE ne) /= => /eqP->.
by rewrite mul0r.
Qed.
Lemma ortho2 (k l : int) : \sum_(0 <= a < n) \sum_(0 <= b < n) w ^ (k * a%:Z + l * b%:Z) =
  ((n%:Z %| k)%Z && (n%:Z %| l)%Z)%:R * n%:R ^+ 2.
Proof.
under eq_bigr do (under eq_bigr do rewrite wzM; rewrite -mulr_sumr).
by rewrite -mulr_suml !ortho; case: (_ %| _)%Z; case: (_ %| _)%Z; rewrite /= ?mul0r ?mulr0 ?mul1r ?expr2.
Qed.
(** Parseval for one direction *)
Lemma parseval1 (g : nat -> C) :
  \sum_(0 <= k < n) Cr (nsq (\sum_(0 <= a < n) g a * w ^ (k%:Z * a%:Z))) = n%:R * \sum_(0 <= a < n) Cr (nsq (g a)).
Proof.
transitivity (\sum_(0 <= k < n) \sum_(0 <= a < n) \sum_(0 <= b < n) g a * (g b)^* * w ^ ((a%:Z - b%:Z) * k%:Z)).
  apply: eq_bigr => k _; rewrite nsqE rmorph_sum /= mulr_suml; apply: eq_bigr => a _.
  rewrite mulr_sumr; apply: eq_bigr => b _; rewrite rmorphM /= w_conj mulrACA -wzM; congr (_ * w ^ _); ring.
rewrite exchange_big /= mulr_sumr big_nat [RHS]big_nat; apply: eq_bigr => a ha.
rewrite exchange_big /= (bigD1_seq a) ?mem_index_iota ?iota_uniq //= -mulr_sumr ortho subrr dvdz0 mul1r nsqE.
set rest := (X in _ + X = _); have -> : rest = 0; last by rewrite addr0 mulrC.
rewrite /rest big_nat_cond big1 // => b /andP[hb ba]; rewrite -mulr_sumr ortho.
case: (boolP (_ %| _)%Z); rewrite ?mul0r ?mulr0 // => dv; exfalso.
by move: dv; rewrite dvdzE => /dvdn_leq; lia.
Qed.
Lemma mode_split f k l : mode w n f k l = \sum_(0 <= a < n) (\sum_(0 <= b < n) Cr (f a b) * w ^ (l * b%:Z)) * w ^ (k * a%:Z).
Proof.
by apply: eq_bigr => a _; rewrite mulr_suml; apply: eq_bigr => b _; rewrite wzM [w ^ _ * _]mulrC mulrA.
Qed.
Lemma parseval f : \sum_(0 <= k < n) \sum_(0 <= l < n) nsq (mode w n f k%:Z l%:Z) = n%:R ^+ 2 * \sum_(0 <= a < n) \sum_(0 <= b < n) f a b ^+ 2.
Proof.
apply: complexI; rewrite rmorphM rmorph_sum rmorphX rmorph_nat /=.
under eq_bigr do rewrite rmorph_sum /=; rewrite exchange_big /=.
under eq_bigr do (under eq_bigr do rewrite mode_split; rewrite parseval1).
rewrite -mulr_sumr exchange_big /= expr2 -mulrA rmorph_sum; congr (_ * _); rewrite mulr_sumr; apply: eq_bigr => a _.
rewrite parseval1 rmorph_sum; congr (_ * _); apply: eq_bigr => b _; by rewrite /nsq /= expr0n addr0.
Qed.
Lemma mode_mod f k l k' l' : (n%:Z %| k - k')%Z -> (n%:Z %| l - l')%Z -> mode w n f k l = mode w n f k' l'.
Proof.
move=> hk hl; apply: eq_bigr => a _; apply: eq_bigr => b _; congr (_ * _).
have -> : k * a%:Z + l * b%:Z = ((k - k') * a%:Z + (l - l') * b%:Z) + (k' * a%:Z + l' * b%:Z) by ring.
rewrite wzM -[RHS]mul1r; congr (_ * _).
have one (x : int) (m : nat) : (n%:Z %| x)%Z -> w ^ (x * m%:Z) = 1.
  by rewrite -wz_eq1 => /eqP e; rewrite -exprz_exp e exp1rz.
by rewrite wzM !one // mul1r.
Qed.
Lemma mode_conj f k l : (mode w n f k l)^* = mode w n f (- k) (- l).
Proof.
rewrite rmorph_sum; apply: eq_bigr => a _; rewrite rmorph_sum; apply: eq_bigr => b _.
by rewrite rmorphM /= w_conj opprD !mulNr oppr0.
Qed.
Lemma mode_eq f g k l : (forall a b, (a < n)%N -> (b < n)%N -> f a b = g a b) -> mode w n f k l = mode w n g k l.
Proof. by move=> h; rewrite /mode big_nat [RHS]big_nat; apply: eq_bigr => a ha; rewrite big_nat [RHS]big_nat; apply: eq_bigr => b hb; rewrite h. Qed.
(** A wave *)
Lemma mode_wave (A : C) p q k l :
  mode w n (fun a b => cRe (A * w ^ (- (p * a%:Z + q * b%:Z)))) k l =
  2%:R^-1 * n%:R ^+ 2 * (((n%:Z %| k - p)%Z && (n%:Z %| l - q)%Z)%:R * A + ((n%:Z %| k + p)%Z && (n%:Z %| l + q)%Z)%:R * A^*).
Proof.
have re (z : C) : Cr (cRe z) = 2%:R^-1 * (z + z^*) by rewrite addcJ mulKf // pnatr_eq0.
transitivity (2%:R^-1 * (A * (\sum_(0 <= a < n) \sum_(0 <= b < n) w ^ ((k - p) * a%:Z + (l - q) * b%:Z)) +
   A^* * (\sum_(0 <= a < n) \sum_(0 <= b < n) w ^ ((k + p) * a%:Z + (l + q) * b%:Z)))); last first.
  have e (x y A' B h m : C) : h * (A' * (x * m) + B * (y * m)) = h * m * (x * A' + y * B) by ring.
  by rewrite !ortho2 e.
rewrite !mulr_sumr -big_split /= mulr_sumr; apply: eq_bigr => a _; rewrite !mulr_sumr -big_split /= mulr_sumr; apply: eq_bigr => b _.
rewrite re rmorphM /= w_conj -mulrA mulrDl -!mulrA -!wzM; congr (_ * (_ * w ^ _ + _ * w ^ _)); ring.
Qed.
(** Moving the samples around the period *)
Lemma cyclic (T : zmodType) (g : nat -> T) s : (forall a, g (a + n)%N = g a) -> \sum_(0 <= a < n) g (a + s)%N = \sum_(0 <= a < n) g a.
Proof.
move=> per; elim: s => [|s <-]; first by apply: eq_bigr => a _; rewrite addn0.
have e := prednK n_gt0; rewrite -{1 2}e big_nat_recr // [RHS]big_nat_recl //= addrC; congr (_ + _).
  by rewrite add0n -(per s); congr g; lia.
by apply: eq_bigr => a _; congr g; lia.
Qed.
Lemma mode_shift f s t k l : mode w n (fun a b => f ((a + s) %% n)%N ((b + t) %% n)%N) k l = w ^ (- (k * s%:Z + l * t%:Z)) * mode w n f k l.
Proof.
have e : mode w n f k l = \sum_(0 <= a < n) \sum_(0 <= b < n) Cr (f ((a + s) %% n)%N ((b + t) %% n)%N) * w ^ (k * (a + s)%:Z + l * (b + t)%:Z).
  pose G a b := Cr (f (a %% n)%N (b %% n)%N) * w ^ (k * a%:Z + l * b%:Z).
  have -> : mode w n f k l = \sum_(0 <= a < n) \sum_(0 <= b < n) G a b.
    rewrite /mode big_nat [RHS]big_nat; apply: eq_bigr => a /= ha; rewrite big_nat [RHS]big_nat; apply: eq_bigr => b /= hb.
    by rewrite /G !modn_small.
  have pz (x : int) : w ^ (x * n%:Z) = 1 by apply/eqP; rewrite wz_eq1 dvdz_mull.
  rewrite -(cyclic s (g := fun a => \sum_(0 <= b < n) G a b)); last first.
    by move=> a; apply: eq_bigr => b _; rewrite /G modnDr PoszD mulrDr addrAC wzM pz mulr1.
  apply: eq_bigr => a _; rewrite -(cyclic t (g := G (a + s)%N)) // => b.
  by rewrite /G modnDr [(b + n)%:Z]PoszD [l * (_ + _)]mulrDr addrA wzM pz mulr1.
rewrite e mulr_sumr; apply: eq_bigr => a _; rewrite mulr_sumr; apply: eq_bigr => b _.
by rewrite mulrCA -wzM; congr (_ * w ^ _); rewrite !PoszD; ring.
Qed.
End Root.
End DFT.

(** ** Theorems *)
Definition shifted (n i : nat) : nat := if (i < n./2)%N then (n - n./2 + i)%N else (i - n./2)%N.
Lemma half_le n : (n./2 <= n)%N. Proof. by rewrite -{2}(odd_double_half n) -addnn; lia. Qed.
Lemma nth_fftshift (T : Type) (d : T) (s : seq T) n i : size s = n -> (i < n)%N -> nth d (fftshift s) i = nth d s (shifted n i).
Proof.
move=> ss hi; rewrite /fftshift /rotr /rot ss nth_cat size_drop ss /shifted.
have h := half_le n; have -> : (n - (n - n./2))%N = n./2 by lia.
case: ltnP => hn; first by rewrite nth_drop.
rewrite nth_take //; move: (n./2) h hn => m h hn; lia.
Qed.
Lemma shifted_lt n i : (i < n)%N -> (shifted n i < n)%N.
Proof. move=> hi; rewrite /shifted; case: (ltnP i n./2) => hn; have h := half_le n; move: (n./2) hn h => m hn h; lia. Qed.
Lemma shifted_freq n i : (i < n)%N -> (n%:Z %| (shifted n i)%:Z - freq n i)%Z.
Proof.
move=> hi; have h := half_le n; rewrite /freq /shifted; case: ltnP => hn.
  have -> : (n - n./2 + i)%N%:Z - (i%:Z - n./2%:Z) = n%:Z by lia.
  exact: dvdzz.
have -> : (i - n./2)%N%:Z - (i%:Z - n./2%:Z) = 0 by lia.
exact: dvdz0.
Qed.
Lemma size_fftshift (T : Type) (s : seq T) : size (fftshift s) = size s. Proof. by rewrite size_rotr. Qed.

Section C80.
Variable R : rcfType.
Local Notation C := R[i].
Variable interpolate : seq R -> seq R.
Section Run.
Variables (w : C) (num_nodes : nat) (perm : seq nat) (u : seq (R * R)) (tke : seq (seq R)) (M : nat).
Let n := Nat.sqrt num_nodes.
Hypothesis wn : n.-primitive_root w.
Hypothesis size0 : size (interpolate (map fst u)) = M.
Hypothesis size1 : size (interpolate (map snd u)) = M.
Hypothesis perm_lt : all (fun p => (p < M)%N) perm.
Hypothesis run : get_tke interpolate w num_nodes perm u = Some tke.

(** Component [c] at point [(a, b)] of the uniform grid, and the entries of the result *)
Definition at_point (c : bool) (a b : nat) : R :=
  nth 0 (interpolate (map (if c then snd else fst) u)) (nth 0%N perm (a * n + b)).
Notation E i j := (nth 0 (nth [::] tke i) j).

Lemma size_perm : size perm = (n * n)%N.
Proof. by move: run; rewrite /get_tke size_map; case: eqP. Qed.
Lemma flatE (c : bool) : map (if c then snd else fst) (gather (0, 0) (zip (interpolate (map fst u)) (interpolate (map snd u))) perm) =
  [seq nth 0 (interpolate (map (if c then snd else fst) u)) p | p <- perm].
Proof.
rewrite /gather -map_comp; apply/eq_in_map => p hp /=; have hp' := allP perm_lt p hp.
set d := last _ _; rewrite (set_nth_default (0, 0)) ?size_zip ?size0 ?size1 ?minnn // nth_zip ?size0 ?size1 //.
by case: c.
Qed.
Lemma sizes_fft (x : seq (seq R)) : size (get_fft w n x) = n /\ forall i, (i < n)%N -> size (nth [::] (get_fft w n x) i) = n.
Proof.
rewrite /get_fft /fftshift2 !size_map size_fftshift size_mkseq; split=> // i hi.
rewrite -map_comp (nth_map [::]) ?size_fftshift ?size_mkseq //= size_map size_fftshift.
by rewrite (nth_fftshift _ (size_mkseq _ n) hi) nth_mkseq ?shifted_lt // size_mkseq.
Qed.
Lemma fftE (c : bool) i j : (i < n)%N -> (j < n)%N ->
  nth 0 (nth [::] (get_fft w n (reshape n (map (if c then snd else fst) (gather (0, 0) (zip (interpolate (map fst u)) (interpolate (map snd u))) perm)))) i) j ^+ 2
  = nsq (mode w n (at_point c) (freq n i) (freq n j)).
Proof.
move=> hi hj; rewrite flatE /get_fft /fftshift2 -map_comp (nth_map [::]) ?size_fftshift ?size_mkseq //=.
rewrite (nth_fftshift _ (size_mkseq _ n) hi) nth_mkseq ?shifted_lt //.
rewrite (nth_map 0) ?size_fftshift ?size_mkseq //.
rewrite (nth_fftshift _ (size_mkseq _ n) hj) nth_mkseq ?shifted_lt // normc_nsq.
rewrite -(mode_mod wn _ (shifted_freq hi) (shifted_freq hj)); congr nsq; rewrite /mode big_nat [RHS]big_nat; apply: eq_bigr => a /= ha.
rewrite big_nat [RHS]big_nat; apply: eq_bigr => b /= hb; rewrite exprnP PoszD !PoszM; congr (real_complex R _ * _).
rewrite nth_mkseq // nth_take // nth_drop (nth_map 0%N) // size_perm.
have : (a.+1 * n <= n * n)%N by rewrite leq_mul2r; lia.
by rewrite mulSn; lia.
Qed.

(** Which mode each entry holds: row [i] and column [j] have the wave numbers that
    [get_energy_spectrum] gives them (C70). *)
Theorem C80_mode i j : (i < n)%N -> (j < n)%N ->
  E i j = 2%:R^-1 * (nsq (mode w n (at_point false) (freq n i) (freq n j)) + nsq (mode w n (at_point true) (freq n i) (freq n j))).
Proof.
move=> hi hj; rewrite -!fftE //; move: run; rewrite /get_tke -/n; case: eqP => // _ [<-].
have [s0 r0] := sizes_fft (reshape n (map fst (gather (0, 0) (zip (interpolate (map fst u)) (interpolate (map snd u))) perm))).
have [s1 r1] := sizes_fft (reshape n (map snd (gather (0, 0) (zip (interpolate (map fst u)) (interpolate (map snd u))) perm))).
rewrite (nth_map ([::], [::])) ?size_zip ?s0 ?s1 ?minnn // nth_zip ?s0 ?s1 //=.
rewrite (nth_map (0, 0)) ?size_zip ?r0 ?r1 ?minnn // nth_zip ?r0 ?r1 //.
Qed.
Theorem C80_shape : size tke = n /\ all (fun r => size r == n) tke.
Proof.
move: run; rewrite /get_tke -/n; case: eqP => // _ [<-].
have [s0 r0] := sizes_fft (reshape n (map fst (gather (0, 0) (zip (interpolate (map fst u)) (interpolate (map snd u))) perm))).
have [s1 r1] := sizes_fft (reshape n (map snd (gather (0, 0) (zip (interpolate (map fst u)) (interpolate (map snd u))) perm))).
rewrite size_map size_zip s0 s1 minnn; split=> //.
apply/(all_nthP [::]) => i; rewrite size_map size_zip s0 s1 minnn => hi.
by rewrite (nth_map ([::], [::])) ?size_zip ?s0 ?s1 ?minnn // nth_zip ?s0 ?s1 //= size_map size_zip r0 ?r1 // minnn.
Qed.
Theorem C80_nonneg i j : 0 <= E i j.
Proof.
have [s r] := C80_shape; case: (ltnP i n) => hi; last by rewrite (nth_default [::]) ?s // nth_nil.
case: (ltnP j n) => hj; last by rewrite nth_default // (eqP (allP r _ _)) // mem_nth // s.
by rewrite C80_mode //; apply: mulr_ge0; rewrite ?invr_ge0 ?ler0n //; apply: addr_ge0; apply: nsq_ge0.
Qed.
(** All wave numbers from 0 to n - 1 occur once, up to multiples of [n]. *)
Lemma sum_freq (g : int -> R) : (forall x y, (n%:Z %| x - y)%Z -> g x = g y) ->
  \sum_(0 <= i < n) g (freq n i) = \sum_(0 <= k < n) g k%:Z.
Proof.
move=> per; rewrite -(cyclic wn n./2 (g := fun a => g (freq n a))).
  by apply: eq_bigr => a _; congr g; rewrite /freq PoszD addrK.
move=> a; apply: per; rewrite /freq PoszD.
have -> : a%:Z + n%:Z - n./2%:Z - (a%:Z - n./2%:Z) = n%:Z by ring.
exact: dvdzz.
Qed.
(** Parseval: all entries together are n^2 / 2 times the sum of the squares of the
    velocities on the grid. *)
Theorem C80_parseval : \sum_(0 <= i < n) \sum_(0 <= j < n) E i j =
  n%:R ^+ 2 / 2%:R * \sum_(0 <= a < n) \sum_(0 <= b < n) (at_point false a b ^+ 2 + at_point true a b ^+ 2).
Proof.
transitivity (2%:R^-1 * \sum_(c <- [:: false; true]) \sum_(0 <= i < n) \sum_(0 <= j < n) nsq (mode w n (at_point c) (freq n i) (freq n j))).
  rewrite big_cons big_seq1 -big_split mulr_sumr big_nat [RHS]big_nat; apply: eq_bigr => i /= hi.
  rewrite -big_split mulr_sumr big_nat [RHS]big_nat; apply: eq_bigr => j /= hj; exact: C80_mode.
have all c : \sum_(0 <= i < n) \sum_(0 <= j < n) nsq (mode w n (at_point c) (freq n i) (freq n j)) =
    n%:R ^+ 2 * \sum_(0 <= a < n) \sum_(0 <= b < n) at_point c a b ^+ 2.
  have dv0 (x : int) : (n%:Z %| x - x)%Z by rewrite subrr dvdz0.
  rewrite -(parseval wn) (sum_freq (g := fun x => \sum_(0 <= j < n) nsq (mode w n (at_point c) x (freq n j)))).
    apply: eq_bigr => k _; rewrite (sum_freq (g := fun y => nsq (mode w n (at_point c) k%:Z y))) // => x y h.
    by congr nsq; apply: mode_mod.
  by move=> x y h; apply: eq_bigr => j _; congr nsq; apply: mode_mod.
rewrite big_cons big_seq1 !all -mulrDr -big_split /= mulrCA mulrA [n%:R ^+ 2 / _]mulrC; congr (_ * _).
by apply: eq_bigr => a _; rewrite -big_split.
Qed.
(** The centre holds the mean flow. *)
Theorem C80_mean : E n./2 n./2 =
  2%:R^-1 * ((\sum_(0 <= a < n) \sum_(0 <= b < n) at_point false a b) ^+ 2 + (\sum_(0 <= a < n) \sum_(0 <= b < n) at_point true a b) ^+ 2).
Proof.
have n0 := n_gt0 wn; have hn : (n./2 < n)%N by have := odd_double_half n; rewrite -addnn; case: (odd n); move: (n./2) => m; lia.
rewrite C80_mode //; have -> : freq n n./2 = 0 by rewrite /freq subrr.
have m0 c : mode w n (at_point c) 0 0 = real_complex R (\sum_(0 <= a < n) \sum_(0 <= b < n) at_point c a b).
  rewrite rmorph_sum; apply: eq_bigr => a _; rewrite rmorph_sum; apply: eq_bigr => b _; by rewrite !mul0r addr0 expr0z mulr1.
by rewrite !m0 /nsq /= expr0n !addr0.
Qed.
(** Opposite wave numbers have the same energy. *)
Theorem C80_symmetric i j i' j' : (i < n)%N -> (j < n)%N -> (i' < n)%N -> (j' < n)%N ->
  (n%:Z %| freq n i + freq n i')%Z -> (n%:Z %| freq n j + freq n j')%Z -> E i j = E i' j'.
Proof.
move=> hi hj hi' hj' di dj; rewrite !C80_mode //; have eq c : nsq (mode w n (at_point c) (freq n i) (freq n j)) = nsq (mode w n (at_point c) (freq n i') (freq n j')).
  by rewrite -[RHS]nsq_conj mode_conj //; congr nsq; apply: mode_mod; rewrite ?opprK.
by rewrite !eq.
Qed.
(** A wave, of any phase and direction, with a whole number of periods in [n] points is
    seen at its wave numbers and the opposite ones, and nowhere else. *)
Theorem C80_wave (A B : C) (p q : int) :
  (forall a b, (a < n)%N -> (b < n)%N -> at_point false a b = complex.Re (A * w ^ (- (p * a%:Z + q * b%:Z)))) ->
  (forall a b, (a < n)%N -> (b < n)%N -> at_point true a b = complex.Re (B * w ^ (- (p * a%:Z + q * b%:Z)))) ->
  forall i j, (i < n)%N -> (j < n)%N ->
  let plus := (n%:Z %| freq n i - p)%Z && (n%:Z %| freq n j - q)%Z in
  let minus := (n%:Z %| freq n i + p)%Z && (n%:Z %| freq n j + q)%Z in
  (~~ plus -> ~~ minus -> E i j = 0) /\
  (plus != minus -> E i j = n%:R ^+ 4 / 8%:R * (nsq A + nsq B)).
Proof.
move=> e0 e1 i j hi hj plus minus; rewrite C80_mode //.
rewrite (mode_eq _ _ _ e0) (mode_eq _ _ _ e1) !(mode_wave wn) -/plus -/minus.
have q8 : nsq (2%:R^-1 * n%:R ^+ 2 : C) = n%:R ^+ 4 / 4%:R.
  have -> : (2%:R^-1 * n%:R ^+ 2 : C) = real_complex R (2%:R^-1 * n%:R ^+ 2) by rewrite rmorphM rmorphV ?unitfE ?pnatr_eq0 // rmorphX !rmorph_nat.
  rewrite /nsq /= expr0n addr0; by field.
have q8' (z : C) : nsq (2%:R^-1 * n%:R ^+ 2 * z) = n%:R ^+ 4 / 4%:R * nsq z by rewrite nsqM; congr (_ * _); exact: q8.
rewrite !q8'; split=> [/negbTE-> /negbTE->|]; first by rewrite !mul0r addr0 nsq0 !mulr0 addr0 mulr0.
by case: plus; case: minus => // _; rewrite /= ?mul0r ?mul1r ?addr0 ?add0r ?nsq_conj; field.
Qed.
(** Uniform flow *)
Theorem C80_uniform (x y : R) : (forall a b, (a < n)%N -> (b < n)%N -> at_point false a b = x) -> (forall a b, (a < n)%N -> (b < n)%N -> at_point true a b = y) ->
  forall i j, (i < n)%N -> (j < n)%N -> E i j = if (i == n./2) && (j == n./2) then n%:R ^+ 4 / 2%:R * (x ^+ 2 + y ^+ 2) else 0.
Proof.
move=> e0 e1 i j hi hj.
have z k : (k < n)%N -> (n%:Z %| freq n k)%Z = (k == n./2).
  move=> hk; rewrite /freq dvdzE; apply/idP/eqP => [|->]; last by rewrite subrr.
  have hd := odd_double_half n; move: hd; rewrite -muln2 => hd dv; apply/eqP; apply: contraTT dv => ne.
  by apply/negP => /dvdn_leq; move: ne hd hk; case: (odd n); move: (n./2) => m; lia.
have ee (c : bool) (v : R) : (forall a b, (a < n)%N -> (b < n)%N -> at_point c a b = v) ->
   forall a b, (a < n)%N -> (b < n)%N -> at_point c a b = complex.Re (real_complex R v * w ^ (- (0 * a%:Z + 0 * b%:Z))).
  by move=> h a b ha hb; rewrite !mul0r addr0 oppr0 expr0z mulr1 h.
rewrite C80_mode // (mode_eq _ _ _ (ee false x e0)) (mode_eq _ _ _ (ee true y e1)) !(mode_wave wn) !subr0 !z //.
case: (_ && _); last by rewrite !mul0r !addr0 !mulr0 nsq0 addr0 mulr0.
have two v : 2%:R^-1 * n%:R ^+ 2 * (1 * real_complex R v + 1 * conjc (real_complex R v)) = real_complex R (n%:R ^+ 2 * v).
  by rewrite /= oppr0 !mul1r rmorphM rmorphX rmorph_nat; field.
by rewrite !two /nsq /= expr0n !addr0; field.
Qed.
(** The spectrum exists and does not hold more than the energy of the velocities. *)
Theorem C80_energy : exists ks sp, get_energy_spectrum n tke = Some (ks, sp) /\
  (forall b, 0 <= nth 0 sp b) /\
  \sum_(x <- sp) x <= n%:R ^+ 2 / 2%:R * \sum_(0 <= a < n) \sum_(0 <= b < n) (at_point false a b ^+ 2 + at_point true a b ^+ 2).
Proof.
have [s r] := C80_shape; have [[ks sp] e] : exists r, get_energy_spectrum n tke = Some r by apply/C70_creates; rewrite (n_gt0 wn).
exists ks, sp; split=> //; split; first by apply: (C70_nonneg e) => i j; exact: C80_nonneg.
rewrite (C70_total e) -C80_parseval; apply: ler_sum => i _; rewrite big_mkcond /=; apply: ler_sum => j _.
by case: ifP => // _; exact: C80_nonneg.
Qed.
(** Finding.  The uniform grid has a point at both ends of each period (C72), [n - 1]
    intervals and [n] points.  A wave cos(2 pi p x) on the period has then [p] periods in
    [n - 1] points, and its energy is not at the wave numbers [p] and [-p]: every mode along
    this direction gets some, the mean included, except for the highest frequency of an
    even number of points. *)
Theorem C80_leak_refuted (z : C) (p : int) : (n.-1).-primitive_root z -> ~~ (n.-1%:Z %| p)%Z ->
  (forall a b, (a < n)%N -> (b < n)%N -> at_point false a b = complex.Re (z ^ (p * a%:Z))) ->
  (forall a b, (a < n)%N -> (b < n)%N -> at_point true a b = 0) ->
  forall i, (i < n)%N -> freq n i = 0 \/ ~~ (n%:Z %| 2%:R * freq n i)%Z -> 0 < E i n./2.
Proof.
move=> zp dp e0 e1 i hi hf; have n0 := n_gt0 wn.
have hn : (n./2 < n)%N by have := odd_double_half n; rewrite -addnn; case: (odd n); move: (n./2) => m; lia.
rewrite C80_mode //; have -> : freq n n./2 = 0 by rewrite /freq subrr.
apply: mulr_gt0; first by rewrite invr_gt0 ltr0n.
apply: ltr_paddr; first exact: nsq_ge0.
rewrite lt_neqAle nsq_ge0 andbT eq_sym nsq_eq0 (mode_eq _ _ _ e0).
set v := z ^ p; set h := w ^ freq n i.
have v1 : v != 1 by rewrite (wz_eq1 zp).
have v0 : v != 0 by apply: expfz_neq0; exact: w_neq0 zp.
have vn : v ^+ n = v by rewrite -[n in v ^+ n](prednK n0) exprS (wz_n zp) mulr1.
have vVn : v^-1 ^+ n = v^-1 by rewrite exprVn vn.
have hh : h ^+ n = 1 by exact: wz_n wn _.
have h0 : h != 0 by apply: expfz_neq0; exact: w_neq0 wn.
have hN : 1 + h != 0.
  apply/eqP => e; have hm : h = -1 by apply/eqP; rewrite -addr_eq0 addrC e.
  case: hf => [f0|/negP[]]; first by move: hm; rewrite /h f0 expr0z => /eqP; rewrite -addr_eq0 -(natrD _ 1 1) pnatr_eq0.
  by rewrite -(wz_eq1 wn) mulrC -exprz_exp -/h hm (_ : 2%:R = Posz 2) // -exprnP sqrrN expr1n.
have vh : v * h != 1.
  by apply: contra v1 => /eqP e; rewrite -vn -[X in X == _]mulr1 -[X in _ * X]hh -exprMn e expr1n.
have vVh : v^-1 * h != 1.
  apply: contra v1 => /eqP e; rewrite -invr_eq1 -vVn -[X in X == _]mulr1 -[X in _ * X]hh -exprMn e expr1n; exact: eqxx.
have -> : mode w n (fun a b => complex.Re (z ^ (p * a%:Z))) (freq n i) 0 =
   2%:R^-1 * n%:R * (\sum_(0 <= a < n) (v * h) ^+ a + \sum_(0 <= a < n) (v^-1 * h) ^+ a).
  rewrite -big_split /= mulr_sumr; apply: eq_bigr => a _; (under eq_bigr do rewrite mul0r addr0); rewrite sumr_const_nat subn0.
  have -> : real_complex R (complex.Re (z ^ (p * a%:Z))) = 2%:R^-1 * (z ^ (p * a%:Z) + (z ^ (p * a%:Z))^-1).
    by rewrite -[(z ^ _)^-1](unity_conj zp) ?(wz_n zp) // addcJ mulKf // pnatr_eq0.
  rewrite -!exprz_exp -/v -/h -!exprnP !exprMn exprVn -mulrDl -mulr_natl.
  have sw (k m x y : C) : m * (k * x * y) = k * m * (x * y) by ring.
  exact: sw.
have g1 := geom (v * h) n; have g2 := geom (v^-1 * h) n.
rewrite exprMn vn hh mulr1 in g1; rewrite exprMn vVn hh mulr1 in g2.
move: g1 g2; set S1 := \sum_(_ <= _ < _) _; set S2 := \sum_(_ <= _ < _) _ => g1 g2.
apply: mulf_neq0; first by rewrite mulf_neq0 ?invr_eq0 ?pnatr_eq0 // -lt0n.
apply/eqP => s0; have : (1 - v * h) * (1 - v^-1 * h) * (S1 + S2) = (1 + h) * ((1 - v) * (1 - v^-1)).
  transitivity ((1 - v^-1 * h) * ((1 - v * h) * S1) + (1 - v * h) * ((1 - v^-1 * h) * S2)); first by ring.
  rewrite g1 g2; field; exact: v0.
rewrite s0 mulr0 => /esym/eqP; rewrite !mulf_eq0 (negbTE hN) /= !subr_eq0 ![1 == _]eq_sym invr_eq1 (negbTE v1) //.
Qed.
End Run.

(** ** Two runs *)
Section Two.
Variables (w : C) (num_nodes : nat) (perm : seq nat) (M : nat).
Let n := Nat.sqrt num_nodes.
Hypothesis wn : n.-primitive_root w.
Hypothesis perm_lt : all (fun p => (p < M)%N) perm.
(** Only the positions count: [u'] is [u] moved along the grid by [s] rows and [t] columns. *)
Definition moved (s t : nat) (u u' : seq (R * R)) : Prop := forall c a b, (a < n)%N -> (b < n)%N ->
  at_point num_nodes perm u' c a b = at_point num_nodes perm u c ((a + s) %% n)%N ((b + t) %% n)%N.
Definition sized (u : seq (R * R)) : Prop := size (interpolate (map fst u)) = M /\ size (interpolate (map snd u)) = M.
Theorem C80_translation s t u u' : sized u -> sized u' -> moved s t u u' -> size perm = (n * n)%N ->
  exists tke, get_tke interpolate w num_nodes perm u = Some tke /\ get_tke interpolate w num_nodes perm u' = Some tke.
Proof.
move=> [s0 s1] [s0' s1'] mv sp.
have ex v : exists x, get_tke interpolate w num_nodes perm v = Some x by rewrite /get_tke size_map sp eqxx; eexists.
have [x e] := ex u; have [y e'] := ex u'; exists x; rewrite e e'; split=> //; congr Some.
have [sx /allP rx] := C80_shape e; have [sy /allP ry] := C80_shape e'.
apply: (@eq_from_nth _ [::]); rewrite ?sx ?sy // => i hi.
have rxi : size (nth [::] x i) = n by apply/eqP/rx/mem_nth; rewrite sx.
have ryi : size (nth [::] y i) = n by apply/eqP/ry/mem_nth; rewrite sy.
apply: (@eq_from_nth _ 0); rewrite ?rxi ?ryi // => j hj.
rewrite (C80_mode wn s0 s1 perm_lt e) // (C80_mode wn s0' s1' perm_lt e') //; congr (_ * _).
by congr (_ + _); rewrite (mode_eq _ _ _ (mv _)) (mode_shift wn) nsqM (nsq_w wn) mul1r.
Qed.
End Two.
End C80.

(** ** The error of the spectra *)
Section Err.
Variable R : rcfType.
Variables (log : R -> R) (n steps : nat).
Implicit Types (x : seq (seq R)) (xs : seq (seq (seq R))).
Definition shaped x : bool := (size x == n) && all (fun r => size r == n) x.
(** The spectrum of one step, and the mean over the steps from [steps // 2] on *)
Definition spectrum_of x : seq R := if get_energy_spectrum n x is Some (_, s) then s else [::].
Definition avg xs (b : nat) : R :=
  (\sum_(x <- drop steps./2 xs) nth 0 (spectrum_of x) b) / (size xs - steps./2)%N%:R.

Lemma shaped_row x i : shaped x -> (i < n)%N -> size (nth [::] x i) = n.
Proof. by case/andP=> /eqP s /allP r hi; apply/eqP/r/mem_nth; rewrite s. Qed.
Lemma shaped_mk x : size x = n -> (forall i, (i < n)%N -> size (nth [::] x i) = n) -> shaped x.
Proof. by move=> s r; rewrite /shaped s eqxx; apply/(all_nthP [::]) => i; rewrite s => /r ->. Qed.
Lemma add_arrP x y : shaped x -> shaped y -> shaped (add_arr x y) /\
  forall i j, (i < n)%N -> (j < n)%N -> nth 0 (nth [::] (add_arr x y) i) j = nth 0 (nth [::] x i) j + nth 0 (nth [::] y i) j.
Proof.
move=> hx hy; have sx : size x = n by case/andP: hx => /eqP. have sy : size y = n by case/andP: hy => /eqP.
have row i : (i < n)%N -> nth [::] (add_arr x y) i = [seq ab.1 + ab.2 | ab <- zip (nth [::] x i) (nth [::] y i)].
  by move=> hi; rewrite (nth_map ([::], [::])) ?size_zip ?sx ?sy ?minnn // nth_zip ?sx ?sy.
split.
  apply: shaped_mk => [|i hi]; first by rewrite size_map size_zip sx sy minnn.
  by rewrite row // size_map size_zip !shaped_row // minnn.
move=> i j hi hj; rewrite row // (nth_map (0, 0)) ?size_zip ?shaped_row ?minnn // nth_zip ?shaped_row //.
Qed.
Lemma sum_arrP xs : all shaped xs -> shaped (foldr (@add_arr R) (zero_arr R n) xs) /\
  forall i j, (i < n)%N -> (j < n)%N -> nth 0 (nth [::] (foldr (@add_arr R) (zero_arr R n) xs) i) j = \sum_(x <- xs) nth 0 (nth [::] x i) j.
Proof.
elim: xs => [|x xs IH] /=.
  move=> _; split; first by apply: shaped_mk => [|i hi]; rewrite ?size_nseq // nth_nseq hi size_nseq.
  by move=> i j hi hj; rewrite nth_nseq hi nth_nseq hj big_nil.
case/andP=> hx /IH[hs e]; have [h1 h2] := add_arrP hx hs; split=> // i j hi hj.
by rewrite h2 // e // big_cons.
Qed.
Lemma mean_arrP xs : all shaped xs -> shaped (mean_arr n xs) /\
  forall i j, (i < n)%N -> (j < n)%N -> nth 0 (nth [::] (mean_arr n xs) i) j = (\sum_(x <- xs) nth 0 (nth [::] x i) j) / (size xs)%:R.
Proof.
move=> /sum_arrP[hs e]; have ss := hs; case/andP: ss => /eqP ss _; split.
  by apply: shaped_mk => [|i hi]; rewrite ?size_map // (nth_map [::]) ?ss // size_map shaped_row.
by move=> i j hi hj; rewrite (nth_map [::]) ?ss // (nth_map 0) ?shaped_row // e.
Qed.
(** The spectrum of the mean energy is the mean of the spectra. *)
Theorem C80_average xs ks sp : all shaped xs -> get_energy_spectrum n (last_half n steps xs) = Some (ks, sp) ->
  size sp = 18%N /\ forall b, (b < 18)%N -> nth 0 sp b = avg xs b.
Proof.
move=> hx e; have [s sE] := C70_spectrum e; split=> // b hb; rewrite sE // /avg.
have hd : all shaped (drop steps./2 xs) by apply/allP => x /mem_drop; exact: (allP hx).
have n0 : (0 < n)%N by have [] := (C70_creates n (last_half n steps xs)).1 (ex_intro _ _ e).
have [_ me] := mean_arrP hd; rewrite -size_drop mulr_suml [RHS]big_seq.
rewrite [RHS](eq_bigr (fun x => \sum_(0 <= i < n) \sum_(0 <= j < n | in_bin n b.+1 i j) nth 0 (nth [::] x i) j / (size (drop steps./2 xs))%:R)); last first.
  move=> x hx'; have /andP[/eqP h1 h2] := allP hd x hx'.
  have [[kx sx] ex] : exists r, get_energy_spectrum n x = Some r by apply/C70_creates.
  rewrite /spectrum_of ex; have [_ ->] := C70_spectrum ex; rewrite // mulr_suml.
  by apply: eq_bigr => i _; rewrite mulr_suml.
rewrite -[RHS]big_seq [RHS]exchange_big /= big_nat [RHS]big_nat; apply: eq_bigr => i /= hi.
rewrite [RHS]exchange_big /= big_nat_cond [RHS]big_nat_cond; apply: eq_bigr => j /andP[/= hj _].
by rewrite me // mulr_suml.
Qed.
Theorem C80_error_runs pred target : (0 < n)%N -> (steps./2 < size pred)%N -> (steps./2 < size target)%N ->
  all shaped pred -> all shaped target ->
  exists e, tke_error log n steps pred target = Some e /\
    e = \sum_(0 <= b < 18) (log (avg pred b) - log (avg target b)) ^+ 2.
Proof.
move=> n0 sp st hp ht; rewrite /tke_error sp st /=.
have ex xs : all shaped xs -> exists r, get_energy_spectrum n (last_half n steps xs) = Some r.
  move=> hx; have hd : all shaped (drop steps./2 xs) by apply/allP => x /mem_drop; exact: (allP hx).
  by have [/andP[/eqP h1 h2] _] := mean_arrP hd; apply/C70_creates.
have [[kp p] ep] := ex _ hp; have [[kt t] et] := ex _ ht; rewrite ep et; eexists; split; first by [].
have [zp pE] := C80_average hp ep; have [zt tE] := C80_average ht et.
rewrite foldr_sum big_map (big_nth (0, 0)) size_zip zp zt minnn big_nat [RHS]big_nat; apply: eq_bigr => b /= hb.
by rewrite nth_zip ?zp ?zt //= pE // tE.
Qed.
(** The error is zero just when the logarithms of the averaged spectra agree in all bins. *)
Theorem C80_error_zero pred target e : all shaped pred -> all shaped target -> tke_error log n steps pred target = Some e ->
  0 <= e /\ (e = 0 <-> forall b, (b < 18)%N -> log (avg pred b) = log (avg target b)).
Proof.
move=> hp ht run; have [n0 sp st] : [/\ (0 < n)%N, (steps./2 < size pred)%N & (steps./2 < size target)%N].
  move: run; rewrite /tke_error; case: ifP => // /andP[-> ->].
  by case e1: (get_energy_spectrum n (last_half n steps pred)) => [r|] // _; have [] := (C70_creates n (last_half n steps pred)).1 (ex_intro _ _ e1).
have [e' []] := C80_error_runs n0 sp st hp ht; rewrite run => -[<-] ->.
have nn : 0 <= \sum_(0 <= b < 18) (log (avg pred b) - log (avg target b)) ^+ 2 by apply: sumr_ge0 => b _; exact: sqr_ge0.
split=> //; split=> [|h]; last by rewrite big_nat big1 // => b /= hb; rewrite h // subrr expr0n.
move/eqP; rewrite psumr_eq0; last by move=> b _; exact: sqr_ge0.
by move/allP=> h b hb; move: (h b); rewrite mem_index_iota => /(_ hb); rewrite /= sqrf_eq0 subr_eq0 => /eqP.
Qed.
End Err.

(** Predictions that are the right fields in the wrong places, moved by any number of rows and
    columns that may differ from step to step, have no error. *)
Theorem C80_blind (R : rcfType) (interpolate : seq R -> seq R) (w : R[i]) num_nodes perm M (log : R -> R) steps (us us' : seq (seq (R * R))) tkes tkes' (s t : nat -> nat) :
  let n := Nat.sqrt num_nodes in
  n.-primitive_root w -> all (fun p => (p < M)%N) perm -> size perm = (n * n)%N ->
  size us' = size us -> (forall k, (k < size us)%N -> sized interpolate M (nth [::] us k) /\ sized interpolate M (nth [::] us' k)) ->
  (forall k, (k < size us)%N -> moved interpolate num_nodes perm (s k) (t k) (nth [::] us k) (nth [::] us' k)) ->
  map (get_tke interpolate w num_nodes perm) us = map Some tkes -> map (get_tke interpolate w num_nodes perm) us' = map Some tkes' ->
  (steps./2 < size us)%N ->
  tke_error log n steps tkes' tkes = Some 0.
Proof.
move=> n wn pl sp ss szd mv e e' hs.
have st : size tkes = size us by rewrite -(size_map Some) -e size_map.
have st' : size tkes' = size us by rewrite -(size_map Some) -e' size_map.
have ek k : (k < size us)%N -> get_tke interpolate w num_nodes perm (nth [::] us k) = Some (nth [::] tkes k).
  by move=> hk; rewrite -(nth_map _ None) // e (nth_map [::]) // st.
have ek' k : (k < size us)%N -> get_tke interpolate w num_nodes perm (nth [::] us' k) = Some (nth [::] tkes' k).
  by move=> hk; rewrite -(nth_map _ None) ?ss // e' (nth_map [::]) // st'.
have eq : tkes' = tkes.
  apply: (@eq_from_nth _ [::]); rewrite st' ?st // => k hk; have [z1 z2] := szd k hk.
  have [x []] := C80_translation wn pl z1 z2 (mv k hk) sp; rewrite ek // ek' // => -[->] [->] //.
have shp : all (shaped n) tkes.
  apply/(all_nthP [::]) => k; rewrite st => hk; have [z1 z2] := C80_shape (ek k hk).
  by rewrite /shaped z1 eqxx.
rewrite eq; have [x [-> ->]] := C80_error_runs log (n_gt0 wn) (steps := steps) (pred := tkes) (target := tkes) ltac:(by rewrite st) ltac:(by rewrite st) shp shp.
by congr Some; rewrite big1 // => b _; rewrite subrr expr0n.
Qed.

(** ** Examples *)
Section Ex.
Variable R : rcfType.
Lemma prim2 : 2.-primitive_root (-1 : R[i]).
Proof.
apply/andP; split=> //; apply/forallP => -[[|[|k]] hk] //=; rewrite unity_rootE ?expr1 ?sqrrN ?expr1n ?eqxx //.
by rewrite -subr_eq0 -opprD oppr_eq0 -(natrD _ 1 1) pnatr_eq0.
Qed.
(** A wave of two points per period: nothing at the centre, the energy is conserved *)
Definition ex_u : seq (R * R) := [:: (1, 0); (1, 0); (-1, 0); (-1, 0)].
Example ex_wave : exists tke, [/\ get_tke id (-1) 4 [:: 0; 1; 2; 3]%N ex_u = Some tke, nth 0 (nth [::] tke 1) 1 = 0 &
  \sum_(0 <= i < 2) \sum_(0 <= j < 2) nth 0 (nth [::] tke i) j = 8%:R].
Proof.
eexists; split; first by [].
  set t := (X in nth [::] X 1).
  rewrite (@C80_mean R id (-1) 4 [:: 0; 1; 2; 3]%N ex_u t 4 prim2 erefl erefl erefl erefl) !big_mkord !big_ord_recr !big_ord0 /= !big_mkord !big_ord_recr !big_ord0 /at_point /=; ring.
set t := (X in \sum_(_ <= _ < _) \sum_(_ <= _ < _) nth 0 (nth [::] X _) _).
rewrite (@C80_parseval R id (-1) 4 [:: 0; 1; 2; 3]%N ex_u t 4 prim2 erefl erefl erefl erefl) !big_mkord !big_ord_recr !big_ord0 /= !big_mkord !big_ord_recr !big_ord0 /at_point /=.
by rewrite (_ : Nat.sqrt 4 = 2%N) //; field.
Qed.
(** Three points from one end of the period to the other *)
Definition w3 : R[i] := Complex (- 2%:R^-1) (Num.sqrt 3%:R / 2%:R).
Lemma prim3 : 3.-primitive_root w3.
Proof.
have s3 : Num.sqrt 3%:R ^+ 2 = 3%:R :> R by rewrite sqr_sqrtr ?ler0n.
have sq : w3 ^+ 2 = Complex (- 2%:R^-1) (- (Num.sqrt 3%:R / 2%:R)).
  rewrite expr2 /w3; apply/eqP; rewrite eq_complex /=; apply/andP; split; apply/eqP; last by field.
  have -> : Num.sqrt 3%:R / 2%:R * (Num.sqrt 3%:R / 2%:R) = 3%:R / 4%:R :> R by rewrite ?mulrN mulf_div -expr2 s3 -natrM.
  by field.
have h2 : (- 2%:R^-1 : R) != 1 by rewrite -subr_eq0 (_ : _ - 1 = - (3%:R / 2%:R)) ?oppr_eq0 ?mulf_neq0 ?invr_eq0 ?pnatr_eq0 //; field.
have cu : w3 ^+ 3 = 1.
  rewrite exprS sq /w3; apply/eqP; rewrite eq_complex /=; apply/andP; split; apply/eqP; last by field.
  have -> : Num.sqrt 3%:R / 2%:R * - (Num.sqrt 3%:R / 2%:R) = - (3%:R / 4%:R) :> R by rewrite ?mulrN mulf_div -expr2 s3 -natrM.
  by field.
apply/andP; split=> //; apply/forallP => -[[|[|[|k]]] hk] //=; rewrite unity_rootE.
- by rewrite expr1 eq_complex /= (negbTE h2).
- by rewrite sq eq_complex /= (negbTE h2).
by rewrite cu eqxx.
Qed.
Definition ex_leak_u : seq (R * R) := [:: (1, 0); (1, 0); (1, 0); (-1, 0); (-1, 0); (-1, 0); (1, 0); (1, 0); (1, 0)].
Example ex_leak : exists tke, get_tke id w3 9 (iota 0 9) ex_leak_u = Some tke /\ forall i, (i < 3)%N -> 0 < nth 0 (nth [::] tke i) 1.
Proof.
eexists; split; first by [].
move=> i hi; set t := (X in nth [::] X i).
apply: (@C80_leak_refuted R id w3 9 (iota 0 9) ex_leak_u t 9 prim3 erefl erefl erefl erefl (-1) 1 prim2 erefl) => //.
- by move=> [|[|[|a]]] [|[|[|b]]] // _ _; rewrite /at_point mul1r -exprnP ?expr0 ?expr1 ?sqrrN ?expr1n.
- by move=> [|[|[|a]]] [|[|[|b]]].
by case: i hi => [|[|[|i]]] // _; [right|left|right].
Qed.
End Ex.
Print Assumptions C80_mode.
Print Assumptions C80_shape.
Print Assumptions C80_nonneg.
Print Assumptions C80_parseval.
Print Assumptions C80_mean.
Print Assumptions C80_symmetric.
Print Assumptions C80_wave.
Print Assumptions C80_uniform.
Print Assumptions C80_energy.
Print Assumptions C80_leak_refuted.
Print Assumptions C80_translation.
Print Assumptions C80_average.
Print Assumptions C80_error_runs.
Print Assumptions C80_error_zero.
Print Assumptions C80_blind.
