(** C70: which modes the energy spectrum counts. *)
From mathcomp Require Import all_ssreflect all_algebra ring zify.
From Verif Require Import Spectrum_model.
Set Implicit Arguments.
Unset Strict Implicit.
Unset Printing Implicit Defensive.
Import Order.TTheory GRing.Theory Num.Theory.
Local Open Scope ring_scope.

(** ** Specification *)
(** The frequency of index [i] of the shifted transform; the squared wave number of a
    mode, and its largest value *)
Definition freq (n i : nat) : int := Posz i - Posz n./2.
Definition mode_sq (n i j : nat) : int := freq n i ^+ 2 + freq n j ^+ 2.
Definition peak (n : nat) : int := 2%:R * (Posz n./2) ^+ 2.
(** Mode [(i, j)] belongs to bin [b]: with [m] the largest wave number,
    (b - 1) m / 19 <= k < b m / 19, squared *)
Definition in_bin (n b i j : nat) : bool :=
  (Posz (b.-1 ^ 2) * peak n <= 361%:R * mode_sq n i j) && (361%:R * mode_sq n i j < Posz (b ^ 2) * peak n).

(** ** Frequencies *)
Lemma freqsE n : freqs n = [seq freq n i | i <- iota 0 n].
Proof.
rewrite /freqs /fftshift /fftfreq size_cat !size_map !size_iota.
have e : (uphalf n + n./2)%N = n by rewrite uphalf_half -addnA addnn odd_double_half.
rewrite e /rotr size_cat !size_map !size_iota e; have -> : (n - n./2)%N = uphalf n by rewrite -{1}e addnK.
rewrite /rot drop_size_cat ?size_map ?size_iota // take_size_cat ?size_map ?size_iota //.
have -> : iota 0 n = iota 0 n./2 ++ iota n./2 (uphalf n) by rewrite -[X in iota 0 X = _]e addnC iotaD.
rewrite map_cat; congr (_ ++ _).
have -> : iota n./2 (uphalf n) = [seq (n./2 + i)%N | i <- iota 0 (uphalf n)] by rewrite -iotaDl addn0.
rewrite -map_comp; apply: eq_map => i /=.
by rewrite /freq PoszD addrC addKr.
Qed.
Lemma mode_sq_ge0 n i j : 0 <= mode_sq n i j.
Proof. by rewrite /mode_sq addr_ge0 ?sqr_ge0. Qed.
Lemma mode_sq_le n i j : (i < n)%N -> (j < n)%N -> mode_sq n i j <= peak n.
Proof.
have f i' : (i' < n)%N -> freq n i' ^+ 2 <= (Posz n./2) ^+ 2.
  move=> h; rewrite /freq; have := odd_double_half n; rewrite -muln2; move: (n./2) (odd n) => m o e.
  rewrite -subr_ge0 subr_sqr; apply: mulr_ge0; case: o e => /= e; lia.
by move=> hi hj; rewrite /mode_sq /peak mulr2n mulrDl mul1r ler_add ?f.
Qed.

Lemma some_inj2 (A B : Type) (a a' : A) (b b' : B) : Some (a, b) = Some (a', b') -> a = a' /\ b = b'.
Proof. by case. Qed.

Section C70.
Variable R : rcfType.
Implicit Types (tke : seq (seq R)).

Lemma sqrt_int_le (a b : int) : 0 <= a -> 0 <= b -> (Num.sqrt (a%:~R : R) <= Num.sqrt b%:~R) = (a <= b).
Proof. by move=> a0 b0; rewrite -ler_sqr ?nnegrE ?sqrtr_ge0 // !sqr_sqrtr ?ler0z // ler_int. Qed.
Lemma wavenumbersE n : wavenumbers R n = [seq [seq Num.sqrt (mode_sq n i j)%:~R | j <- iota 0 n] | i <- iota 0 n].
Proof.
rewrite /wavenumbers freqsE -map_comp; apply: eq_map => i /=; rewrite -map_comp; apply: eq_map => j /=.
by rewrite /mode_sq addrC.
Qed.
Lemma maxl_eq (s : seq R) m : 0 <= m -> m \in s -> (forall x, x \in s -> x <= m) -> maxl s = m.
Proof.
move=> m0 ms h; apply/eqP; rewrite eq_le; apply/andP; split.
  by elim: s h {ms} => //= x s IH h; rewrite le_maxl h ?mem_head // IH // => y hy; apply: h; rewrite inE hy orbT.
by elim: s ms {h} => //= x s IH; rewrite inE le_maxr => /orP[/eqP->|/IH->]; rewrite ?lexx ?orbT.
Qed.
Lemma largest n : (0 < n)%N -> maxl (flatten (wavenumbers R n)) = Num.sqrt (peak n)%:~R.
Proof.
move=> n0; have p0 : 0 <= peak n by rewrite /peak mulr_ge0 ?sqr_ge0.
apply: maxl_eq; first exact: sqrtr_ge0.
  rewrite wavenumbersE; apply/flatten_mapP; exists 0%N; first by rewrite mem_iota.
  apply/mapP; exists 0%N; first by rewrite mem_iota.
  by rewrite /peak /mode_sq /freq sub0r sqrrN mulr2n mulrDl mul1r.
move=> x; rewrite wavenumbersE => /flatten_mapP[i]; rewrite mem_iota add0n => /andP[_ hi] /mapP[j].
rewrite mem_iota add0n => /andP[_ hj] ->; by rewrite sqrt_int_le ?mode_sq_ge0 ?mode_sq_le.
Qed.
Lemma count_prefix (p : pred nat) N i : p 0%N -> (forall j, p j.+1 -> p j) -> (0 < i)%N -> (i < N)%N ->
  (count p (iota 0 N) == i) = p i.-1 && ~~ p i.
Proof.
move=> p0 dec i0 iN; have down a b : (a <= b)%N -> p b -> p a.
  by move/subnK <-; elim: (b - a)%N => // d IH h; apply: IH; apply: dec.
have cnt m : (forall j, (j < m)%N -> p j) -> count p (iota 0 m) = m.
  by move=> h; rewrite (eq_in_count (a2 := predT)) ?count_predT ?size_iota // => j; rewrite mem_iota => /h ->.
have none a m : ~~ p a -> count p (iota a m) = 0%N.
  move=> h; rewrite (eq_in_count (a2 := pred0)) ?count_pred0 // => j; rewrite mem_iota => /andP[aj _].
  by apply/negbTE; apply: contra h; exact: down.
have split3 : count p (iota 0 N) = (count p (iota 0 i.-1) + p i.-1 + count p (iota i (N - i)))%N.
  rewrite -{1}(subnKC (ltnW iN)) iotaD count_cat add0n; congr (_ + _)%N.
  by rewrite -{1}(prednK i0) -addn1 iotaD count_cat /= addn0 add0n.
rewrite split3; case hp: (p i.-1) => /=; last first.
  have -> : count p (iota i (N - i)) = 0%N by apply: none; apply/negP => /(down i.-1 i (leq_pred i)); rewrite hp.
  by apply/negbTE; have := count_size p (iota 0 i.-1); rewrite size_iota; lia.
rewrite cnt; last by move=> j hj; apply: (down _ _ _ hp); lia.
rewrite addn1 (prednK i0); case hi: (p i) => /=; last by rewrite none ?hi // addn0 eqxx.
have -> : (N - i = (N - i).-1.+1)%N by lia.
by rewrite /= hi; lia.
Qed.
Lemma bin_edge n i j b : (b%:R * (Num.sqrt (peak n)%:~R / 19%:R) <= Num.sqrt (mode_sq n i j)%:~R :> R) =
  (Posz (b ^ 2) * peak n <= 361%:R * mode_sq n i j).
Proof.
have p0 : 0 <= peak n by rewrite /peak mulr_ge0 ?sqr_ge0.
have q0 := mode_sq_ge0 n i j; have n19 : (0 : R) < 19%:R by rewrite ltr0n.
rewrite mulrA ler_pdivr_mulr // -[LHS]ler_sqr ?nnegrE ?mulr_ge0 ?sqrtr_ge0 ?ler0n //.
rewrite !exprMn !sqr_sqrtr ?ler0z // -[RHS](ler_int R) !rmorphM /=.
have -> : (Posz (b ^ 2))%:~R = b%:R ^+ 2 :> R by rewrite -natrX.
have -> : (361%:R : int)%:~R = 19%:R ^+ 2 :> R by rewrite -natrX.
by rewrite [_ * 19%:R ^+ 2]mulrC.
Qed.
Lemma binE n i j b : (0 < b < 20)%N ->
  (digitize (linspace20 (Num.sqrt (peak n)%:~R : R)) (Num.sqrt (mode_sq n i j)%:~R) == b) = in_bin n b i j.
Proof.
case/andP=> b0 b20; rewrite /digitize /linspace20 count_map.
rewrite (eq_count (a2 := fun b => Posz (b ^ 2) * peak n <= 361%:R * mode_sq n i j)); last by move=> c /=; rewrite bin_edge.
have p0 : 0 <= peak n by rewrite /peak mulr_ge0 ?sqr_ge0.
rewrite count_prefix // /in_bin ?ltNge //; first by rewrite mul0r mulr_ge0 ?mode_sq_ge0.
move=> c; apply: le_trans; apply: ler_wpmul2r => //; rewrite lez_nat leq_exp2r //.
Qed.

Lemma foldr_sum (s : seq R) : foldr +%R 0 s = \sum_(x <- s) x.
Proof. by elim: s => [|x s IH]; rewrite ?big_nil ?big_cons //= IH. Qed.
Lemma masked_sumE n tke (mask : nat -> nat -> bool) : size tke = n -> all (fun r => size r == n) tke ->
  masked_sum tke [seq [seq mask i j | j <- iota 0 n] | i <- iota 0 n] =
  \sum_(0 <= i < n) \sum_(0 <= j < n | mask i j) nth 0 (nth [::] tke i) j.
Proof.
move=> st /allP rt; rewrite /masked_sum foldr_sum big_map (big_nth ([::], [::])) size_zip size_map size_iota st minnn.
rewrite big_nat [RHS]big_nat; apply: eq_bigr => i /= hi.
rewrite foldr_sum big_map nth_zip ?size_map ?size_iota //= (nth_map 0%N) ?size_iota // nth_iota // add0n.
have si : size (nth [::] tke i) = n by apply/eqP/rt/mem_nth; rewrite st.
rewrite (big_nth (0, false)) size_zip size_map size_iota si minnn big_nat [RHS]big_mkcond [RHS]big_nat; apply: eq_bigr => j /= hj.
by rewrite nth_zip ?size_map ?size_iota //= (nth_map 0%N) ?size_iota // nth_iota // add0n.
Qed.

(** ** Theorems *)
Section Run.
Variables (n : nat) (tke : seq (seq R)) (ks sp : seq R).
Hypothesis run : get_energy_spectrum n tke = Some (ks, sp).
Notation E i j := (nth 0 (nth [::] tke i) j).

(** Entry [b] counts exactly the modes of bin [b + 1]. *)
Theorem C70_spectrum : size sp = 18%N /\ forall b, (b < 18)%N ->
  nth 0 sp b = \sum_(0 <= i < n) \sum_(0 <= j < n | in_bin n b.+1 i j) E i j.
Proof.
move: run; rewrite /get_energy_spectrum; case: ifP => // /andP[/andP[n0 /eqP st] rt]; cbv zeta=> h1; have [_ <-] := some_inj2 h1; clear h1.
rewrite size_map size_iota; split=> // b hb.
rewrite (nth_map 0%N (0 : R)); last by rewrite size_iota.
rewrite nth_iota // add1n.
rewrite largest // wavenumbersE -!map_comp.
under eq_map do rewrite /= -!map_comp.
rewrite (masked_sumE (fun i j => digitize (linspace20 (Num.sqrt (peak n)%:~R : R)) (Num.sqrt (mode_sq n i j)%:~R) == b.+1)) //.
apply: eq_bigr => i _; apply: eq_bigl => j; rewrite binE //; lia.
Qed.
(** The abscissae are the upper ends of the bins: every mode of entry [b] has its wave
    number below abscissa [b] and not below the previous one. *)
Theorem C70_abscissae : size ks = 18%N /\ forall b, (b < 18)%N ->
  nth 0 ks b = b.+1%:R * Num.sqrt (peak n)%:~R / 19%:R /\
  forall i j, in_bin n b.+1 i j = (b%:R * Num.sqrt (peak n)%:~R / 19%:R <= Num.sqrt (mode_sq n i j)%:~R :> R) &&
                                  (Num.sqrt (mode_sq n i j)%:~R < nth 0 ks b).
Proof.
move: run; rewrite /get_energy_spectrum; case: ifP => // /andP[/andP[n0 _] _]; cbv zeta=> h1; have [<- _] := some_inj2 h1; clear h1; rewrite largest //.
have sl (m : R) : size (linspace20 m) = 20%N by rewrite size_map size_iota.
split; first by rewrite size_takel // size_drop sl.
move=> b hb; rewrite nth_take // nth_drop (nth_map 0%N) ?size_iota; last by lia.
rewrite nth_iota ?add1n; last by lia.
rewrite add0n mulrA; split=> // i j.
by rewrite /in_bin /= -!mulrA bin_edge !ltNge bin_edge.
Qed.
(** All together it counts the modes below 18/19 of the largest wave number, each once. *)
Theorem C70_total : \sum_(x <- sp) x = \sum_(0 <= i < n) \sum_(0 <= j < n | 361%:R * mode_sq n i j < 324%:R * peak n) E i j.
Proof.
have [ss sE] := C70_spectrum; rewrite (big_nth 0) ss big_nat.
under eq_bigr => b hb do rewrite sE //.
rewrite -big_nat exchange_big /=; apply: eq_bigr => i _.
under eq_bigr do rewrite big_mkcond.
rewrite exchange_big /= [RHS]big_mkcond; apply: eq_bigr => j _; rewrite -big_mkcond big_const_seq.
have -> : count (fun b => in_bin n b.+1 i j) (index_iota 0 18) = (361%:R * mode_sq n i j < 324%:R * peak n) :> nat.
  have p0 : 0 <= peak n by rewrite /peak mulr_ge0 ?sqr_ge0.
  pose p b := Posz (b ^ 2) * peak n <= 361%:R * mode_sq n i j.
  have pp b : p b.+1 -> p b by apply: le_trans; apply: ler_wpmul2r => //; rewrite lez_nat leq_exp2r.
  have pz : p 0%N by rewrite /p mul0r mulr_ge0 ?mode_sq_ge0.
  have tel m : count (fun b => in_bin n b.+1 i j) (index_iota 0 m) = ~~ p m :> nat.
    elim: m => [|m IH]; first by rewrite pz.
    rewrite /index_iota !subn0 -[m.+1]addn1 iotaD count_cat /= addn0 -[iota 0 m]/(iota 0 m) add0n addn1.
    move: IH; rewrite /index_iota subn0 => ->; rewrite /in_bin /= ltNge -/(p m) -/(p m.+1).
    by have := pp m; case: (p m); case: (p m.+1) => // /(_ isT).
  by rewrite tel /p -ltNge.
by case: (_ < _) => /=; rewrite ?addr0.
Qed.
(** The energy is not conserved: the mode with the highest frequencies is never counted. *)
Theorem C70_corner_refuted : (forall i j, (i < n)%N -> (j < n)%N -> (i, j) != (0, 0)%N -> E i j = 0) -> forall b, nth 0 sp b = 0.
Proof.
move=> h b; have [ss sE] := C70_spectrum; case: (ltnP b 18) => hb; last by rewrite nth_default ?ss.
rewrite sE // big_nat big1 // => i /= hi; rewrite big_nat_cond big1 // => j /andP[/= hj bin].
apply: h => //; apply: contraTN bin => /eqP[-> ->]; rewrite /in_bin negb_and; apply/orP; right.
have -> : mode_sq n 0 0 = peak n by rewrite /peak /mode_sq /freq sub0r sqrrN mulr2n mulrDl mul1r.
rewrite -leNgt; apply: ler_wpmul2r; first by rewrite /peak mulr_ge0 ?sqr_ge0.
rewrite (_ : 361%:R = Posz (19 ^ 2)) // lez_nat leq_exp2r //; lia.
Qed.
Theorem C70_nonneg : (forall i j, 0 <= E i j) -> forall b, 0 <= nth 0 sp b.
Proof.
move=> h b; have [ss sE] := C70_spectrum; case: (ltnP b 18) => hb; last by rewrite nth_default ?ss.
by rewrite sE // sumr_ge0 // => i _; rewrite sumr_ge0.
Qed.
End Run.
(** It does not depend on which axis is which. *)
Theorem C70_transpose n tke tke' ks sp ks' sp' : get_energy_spectrum n tke = Some (ks, sp) -> get_energy_spectrum n tke' = Some (ks', sp') ->
  (forall i j, (i < n)%N -> (j < n)%N -> nth 0 (nth [::] tke' i) j = nth 0 (nth [::] tke j) i) -> sp' = sp.
Proof.
move=> h h' t; have [s sE] := C70_spectrum h; have [s' sE'] := C70_spectrum h'.
apply: (@eq_from_nth _ 0); rewrite ?s ?s' // => b hb; rewrite sE // sE'  //.
under eq_bigr do rewrite big_mkcond.
rewrite exchange_big /= big_nat [RHS]big_nat; apply: eq_bigr => j hj; rewrite [RHS]big_mkcond big_nat [RHS]big_nat; apply: eq_bigr => i hi.
by rewrite t // /in_bin /mode_sq addrC.
Qed.
Theorem C70_creates n tke : (exists r, get_energy_spectrum n tke = Some r) <-> [/\ (0 < n)%N, size tke = n & all (fun r => size r == n) tke].
Proof.
rewrite /get_energy_spectrum; case: ifP => [/andP[/andP[-> /eqP->] ->]|h]; first by split=> // _; eexists.
by split=> [[]//|[h1 h2 h3]]; move: h; rewrite h1 h2 h3 eqxx.
Qed.
End C70.

(** ** Example: two by two modes; the mean counts in the first entry, the two modes of
    wave number 1 in entry 13, and the corner nowhere *)
Section Ex.
Variables (R : rcfType) (a b c d : R).
Example ex_freqs : (freqs 4 == [:: - 2%:Z; - 1%:Z; 0; 1]) && (freqs 5 == [:: - 2%:Z; - 1%:Z; 0; 1; 2%:Z]).
Proof. by []. Qed.
Lemma two_by_two (p : nat -> nat -> bool) (f : nat -> nat -> R) : \sum_(0 <= i < 2) \sum_(0 <= j < 2 | p i j) f i j =
  (if p 0%N 0%N then f 0%N 0%N else 0) + (if p 0%N 1%N then f 0%N 1%N else 0) + ((if p 1%N 0%N then f 1%N 0%N else 0) + (if p 1%N 1%N then f 1%N 1%N else 0)).
Proof.
have e i : \sum_(0 <= j < 2 | p i j) f i j = (if p i 0%N then f i 0%N else 0) + (if p i 1%N then f i 1%N else 0).
  by rewrite big_mkcond big_nat_recr // big_nat1.
by rewrite big_nat_recr // big_nat1 !e.
Qed.
Example ex_spectrum : exists ks sp, [/\ get_energy_spectrum 2 [:: [:: a; b]; [:: c; d]] = Some (ks, sp),
  nth 0 sp 0 = d, nth 0 sp 13 = b + c & \sum_(x <- sp) x = b + c + d].
Proof.
have [[ks sp] h] : exists r, get_energy_spectrum 2 [:: [:: a; b]; [:: c; d]] = Some r by apply/C70_creates.
have [_ sE] := C70_spectrum h; exists ks, sp; split=> //.
- rewrite sE // two_by_two (_ : in_bin 2 1 0 0 = false) // (_ : in_bin 2 1 0 1 = false) // (_ : in_bin 2 1 1 0 = false) // (_ : in_bin 2 1 1 1 = true) //.
  by rewrite !add0r.
- rewrite sE // two_by_two (_ : in_bin 2 14 0 0 = false) // (_ : in_bin 2 14 0 1 = true) // (_ : in_bin 2 14 1 0 = true) // (_ : in_bin 2 14 1 1 = false) //.
  by rewrite add0r addr0.
by rewrite (C70_total h) two_by_two /= add0r addrA.
Qed.
End Ex.

Print Assumptions C70_creates.
Print Assumptions C70_spectrum.
Print Assumptions C70_abscissae.
Print Assumptions C70_total.
Print Assumptions C70_corner_refuted.
Print Assumptions C70_nonneg.
Print Assumptions C70_transpose.
