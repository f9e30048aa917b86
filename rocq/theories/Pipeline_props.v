(** Properties C54-C56: element permutation and input pipeline. *)
From mathcomp Require Import all_ssreflect all_algebra zify.
From Verif Require Import Pipeline_model.
Set Implicit Arguments. Unset Strict Implicit. Unset Printing Implicit Defensive.

(** * C55: windows *)
Section C55.
Variable T : Type.

(** The window of length [w] starting at [i], thinned to every [step]-th
    entry: entry [k] is entry [i + k * step] of the trajectory. *)
Definition is_window (arr : seq T) (i w step : nat) (win : seq T) : Prop :=
  size win = (w + step.-1) %/ step /\
  forall x0 k, k < size win -> nth x0 win k = nth x0 arr (i + k * step).

Lemma everyE step (arr : seq T) :
  0 < step ->
  size (every step arr) = (size arr + step.-1) %/ step /\
  forall x0 k, k < size (every step arr) ->
    nth x0 (every step arr) k = nth x0 arr (k * step).
Proof.
move=> step0.
have: forall x0 n, every step (take n arr) =
   mkseq (fun k => nth x0 arr (k * step)) ((minn n (size arr) + step.-1) %/ step).
  move=> x0; elim=> [|n IH].
    by rewrite take0 min0n add0n /every /= divn_small // prednK.
  have [ns|sn] := ltnP n (size arr); last first.
    move: IH; rewrite !take_oversize ?(leq_trans sn) // => ->.
    by rewrite !(minn_idPr _) // (leq_trans sn).
  rewrite (take_nth x0) // /every -cats1 size_cat size_takel ?(ltnW ns) // addn1.
  rewrite -addn1 iotaD zip_cat ?size_takel ?size_iota ?(ltnW ns) //.
  rewrite filter_cat map_cat.
  move: IH; rewrite /every size_takel ?(ltnW ns) // => ->.
  have m1 : minn n (size arr) = n by lia.
  have m2 : minn (n + 1) (size arr) = n + 1 by lia.
  rewrite m1 m2 /= add0n; case: eqP => nd.
    have e := divn_eq n step; rewrite nd addn0 in e.
    move: (n %/ step) e => q e.
    have -> : (n + step.-1) %/ step = q.
      by rewrite e divnMDl // divn_small ?prednK // addn0.
    have -> : (n + 1 + step.-1) %/ step = q + 1.
      by rewrite e -addnA divnMDl // add1n prednK // divnn step0.
    by rewrite /mkseq iotaD map_cat /= add0n -e.
  rewrite cats0; congr (mkseq _ _).
  have r0 : 0 < n %% step by rewrite lt0n; apply/eqP.
  have rs : n %% step < step by rewrite ltn_mod.
  have e := divn_eq n step; rewrite [in LHS]e -!addnA divnMDl //.
  rewrite [in RHS]e -!addnA divnMDl //; congr (_ + _).
  have -> : n %% step + step.-1 = step + (n %% step).-1 by lia.
  have -> : n %% step + (1 + step.-1) = step + n %% step by lia.
  rewrite !divnDl // [X in _ = _ + X]divn_small //.
  by rewrite [X in _ + X]divn_small //; lia.
case: arr => [|a arr] H.
  by rewrite /every /= add0n divn_small // prednK.
have := H a (size (a :: arr)); rewrite take_size minnn => e.
split=> [|x0 k]; rewrite e size_mkseq // => kn.
rewrite nth_mkseq //; apply: set_nth_default.
move: kn; rewrite leq_divRL // mulSn; move: (size _) => n; lia.
Qed.

(** All windows that fit, in order: window [k] starts at [k * stride]. *)
Lemma windowed_loopE (arr : seq T) w step stride :
  0 < stride -> 0 < w ->
  windowed_loop arr w step (range (size arr) stride) =
    [seq every step (take w (drop (k * stride) arr))
    | k <- iota 0 (if w <= size arr then ((size arr - w) %/ stride).+1 else 0)].
Proof.
move=> s0 w0; rewrite /range.
set n := size arr; set m := n %/ stride + _.
have: forall d a, (a + d = m) ->
  windowed_loop arr w step [seq k * stride | k <- iota a d] =
    [seq every step (take w (drop (k * stride) arr))
    | k <- iota a ((if w <= n then ((n - w) %/ stride).+1 else 0) - a)].
  elim=> [|d IH] a e.
    rewrite /= (_ : _ - a = 0) //; apply/eqP; rewrite subn_eq0.
    case: ifP => // wn; have am : a = m by lia.
    have an : n <= a * stride.
      rewrite am /m; have := divn_eq n stride; have := ltn_pmod n s0.
      move: (n %/ stride) (n %% stride) => q r rs ->.
      by case: eqP => [->|_]; rewrite ?addn0 // addn1 mulSn; lia.
    by rewrite ltn_divLR //; lia.
  rewrite /= -/n; case: ltnP => fit.
    rewrite (_ : _ - a = 0) //; apply/eqP; rewrite subn_eq0.
    by case: ifP => // wn; rewrite ltn_divLR //; lia.
  have wn : w <= n by lia.
  rewrite wn (_ : _ - a = (((n - w) %/ stride).+1 - a.+1).+1); last first.
    have: a <= (n - w) %/ stride by rewrite leq_divRL //; lia.
    by lia.
  by rewrite /= IH ?wn //; lia.
by move/(_ m 0); rewrite subn0; apply.
Qed.

(** Windowing succeeds exactly when a window fits, and gives all windows that
    start at a multiple of the stride and fit into the trajectory. *)
Theorem C55_windows (arr : seq T) w stride step :
  0 < w -> 0 < stride -> 0 < step ->
  (w <= size arr -> exists2 ws, windowed w stride step arr = inr ws &
     size ws = (size arr - w) %/ stride + 1 /\
     (forall k, k * stride + w <= size arr <-> k < size ws) /\
     (forall k, k < size ws -> is_window arr (k * stride) w step (nth [::] ws k)))
  /\ (size arr < w -> windowed w stride step arr = inl PValueError).
Proof.
move=> w0 s0 t0; rewrite /windowed eqn0Ngt s0 /= windowed_loopE //.
split=> [wn|nw]; last by rewrite leqNgt nw.
rewrite wn; set m := (_ %/ _).
set ws := map _ _; have sw : size ws = m + 1 by rewrite size_map size_iota addn1.
exists ws; first by rewrite /ws /= eqn0Ngt t0.
rewrite sw; split=> //; split=> [k|k km].
  by rewrite addn1 ltnS leq_divRL //; split; lia.
have km' : k < m.+1 by move: km; rewrite addn1.
rewrite (nth_map 0) ?size_iota // nth_iota // add0n.
have fit : k * stride + w <= size arr by move: km; rewrite addn1 ltnS leq_divRL //; lia.
have [es en] := everyE (take w (drop (k * stride) arr)) t0.
have st : size (take w (drop (k * stride) arr)) = w.
  by rewrite size_takel // size_drop; lia.
split=> [|x0 j jn]; first by rewrite es st.
rewrite en // nth_take ?nth_drop //.
by move: jn; rewrite es st leq_divRL // mulSn; lia.
Qed.

End C55.

(** * C56: number of examples *)
Section C56.
Variable T : Type.

(** How many windows of length [w] at multiples of [stride] a trajectory of
    length [len] has. *)
Definition count (len w stride : nat) : nat := (len - w) %/ stride + 1.

Lemma windowed_size (arr : seq T) w stride step ws :
  0 < w -> 0 < stride -> 0 < step ->
  windowed w stride step arr = inr ws ->
  w <= size arr /\ size ws = count (size arr) w stride.
Proof.
move=> w0 s0 t0; have [ok ko] := C55_windows arr w0 s0 t0.
case: (leqP w (size arr)) => [wn|nw]; last by rewrite (ko nw).
by have [ws' -> [sw _]] := ok wn => -[<-].
Qed.

Lemma sequence_size (files : seq (seq T)) w stride step L wss :
  0 < w -> 0 < stride -> 0 < step ->
  all (fun f => size f == L) files ->
  sequence (map (windowed w stride step) files) = inr wss ->
  size wss = size files /\ size (flatten wss) = size files * count L w stride.
Proof.
move=> w0 s0 t0; elim: files wss => [|f fs IH] wss /=; first by move=> _ [<-].
move=> /andP [/eqP sf all_L].
case e : (windowed _ _ _ _) => [//|ws].
case e2 : (sequence _) => [//|r] [<-] /=.
have [_ sw] := windowed_size w0 s0 t0 e.
have [-> sr] := IH _ all_L e2.
by rewrite size_cat sr sw sf mulSn.
Qed.

Lemma num_examplesE total shards w stride debug :
  0 < stride ->
  let n := if debug then total %/ shards else total in
  w <= n ->
  get_num_examples total shards w stride debug = Posz (count n w stride).
Proof.
move=> s0 n wn; rewrite /get_num_examples -/n /count subzn // divz_nat.
by rewrite PoszD.
Qed.

(** ** One shard, or debug mode: the number of examples is right *)
Theorem C56_single (f : seq T) w stride step ws :
  0 < w -> 0 < stride -> 0 < step ->
  windowed w stride step f = inr ws ->
  get_num_examples (size f) 1 w stride false = Posz (size ws).
Proof.
move=> w0 s0 t0 e; have [wn ->] := windowed_size w0 s0 t0 e.
by rewrite num_examplesE.
Qed.

Theorem C56_debug (files : seq (seq T)) L w stride step ws :
  0 < w -> 0 < stride -> 0 < step -> 0 < size files ->
  all (fun f => size f == L) files ->
  windowed w stride step (nth [::] files 0) = inr ws ->
  get_num_examples (size files * L) (size files) w stride true = Posz (size ws).
Proof.
move=> w0 s0 t0; case: files => [//|f fs] _ /= /andP [/eqP sf _] e.
have [wn ->] := windowed_size w0 s0 t0 e.
by rewrite num_examplesE ?mulKn // -sf.
Qed.

(** ** Several shards

    The windows are cut from each shard separately, the number of examples is
    computed as if the shards were one trajectory. *)
Theorem C56_count S L w stride :
  0 < w -> 0 < stride -> 0 < S -> w <= L ->
  let windows := S * count L w stride in
  let r := (L - w) %% stride in
  get_num_examples (S * L) S w stride false =
    Posz (S * ((L - w) %/ stride) + (S * r + S.-1 * w) %/ stride + 1)
  /\ (get_num_examples (S * L) S w stride false = Posz windows
      <-> S.-1 * stride <= S * r + S.-1 * w < S * stride).
Proof.
move=> w0 s0 S0 wL windows r.
have e : get_num_examples (S * L) S w stride false =
    Posz (S * ((L - w) %/ stride) + (S * r + S.-1 * w) %/ stride + 1).
  rewrite num_examplesE //; last by rewrite (leq_trans wL) // leq_pmull.
  congr Posz; rewrite /count; congr (_ + 1).
  have -> : S * L - w = S * ((L - w) %/ stride) * stride + (S * r + S.-1 * w).
    have := divn_eq (L - w) stride; rewrite -/r.
    move: ((L - w) %/ stride) => q; case: (S) S0 => [//|S'] _ /= eL.
    have -> : L = q * stride + r + w by lia.
    by rewrite !mulSn !mulnDr !mulnDl; nia.
  by rewrite divnMDl.
split=> //; rewrite e /windows /count.
move: ((L - w) %/ stride) => q; set x := S * r + _.
have -> : (S.-1 * stride <= x < S * stride) = (x %/ stride == S.-1).
  rewrite eqn_leq leq_divRL // andbC; congr (_ && _).
  by rewrite -(ltn_divLR _ _ s0); lia.
split=> [[] h|/eqP ->]; last by congr Posz; rewrite mulnDr; lia.
by apply/eqP; move: h; rewrite mulnDr; lia.
Qed.

(** Windows that tile the shards are counted correctly. *)
Corollary C56_tiling S L w :
  0 < w -> 0 < S -> w <= L -> w %| L ->
  get_num_examples (S * L) S w w false = Posz (S * count L w w).
Proof.
move=> w0 S0 wL /dvdnP [m eL].
apply: (C56_count w0 w0 S0 wL).2.2.
have -> : (L - w) %% w = 0 by apply/eqP; rewrite -/(dvdn w (L - w)) dvdn_subl // eL dvdn_mull.
by rewrite muln0 add0n leqnn ltn_mul2r w0 /= ltn_predL.
Qed.

(** Overlapping windows over several shards are counted too often: with the
    defaults of the configuration (24 shards, windows of 11, stride 1) and
    whenever a window is at least two strides long. *)
Corollary C56_overlap_refuted S L w stride :
  0 < stride -> 1 < S -> w <= L -> 2 * stride <= w ->
  (Posz (S * count L w stride) < get_num_examples (S * L) S w stride false)%R.
Proof.
move=> s0 S1 wL sw.
have w0 : 0 < w by lia.
have S0 : 0 < S by lia.
have [-> _] := C56_count w0 s0 S0 wL; rewrite /count ltz_nat.
have: S <= (S * ((L - w) %% stride) + S.-1 * w) %/ stride.
  rewrite leq_divRL // (leq_trans _ (leq_addl _ _)) //.
  rewrite (leq_trans _ (leq_mul (leqnn _) sw)) // mulnA leq_mul2r; lia.
by rewrite mulnDr; lia.
Qed.

(** ** The slices of the processes *)
Lemma slices (A : Type) (xs : seq A) P m :
  flatten [seq slice (i * m) (i * m + m) xs | i <- iota 0 P] = take (P * m) xs.
Proof.
elim: P => [|P IH]; first by rewrite take0.
rewrite -[in LHS]addn1 iotaD map_cat flatten_cat IH /= cats0 add0n.
by rewrite /slice addKn mulSn [m + _]addnC takeD.
Qed.

(** The slices of all processes, one after the other, are the first
    [num_examples] windows: no window is given to two processes. *)
Theorem C56_slices (files : seq (seq T)) L total debug w stride step P
    (parts : nat -> seq (seq T)) :
  0 < w -> 0 < stride -> 0 < step -> 0 < P ->
  all (fun f => size f == L) files ->
  w <= (if debug then total %/ size files else total) ->
  (forall i, i < P ->
     create_split files total debug w stride step P i = inr (parts i)) ->
  exists2 windows,
    sequence (map (windowed w stride step)
                (if debug then take 1 files else files)) = inr windows &
    let n := count (if debug then total %/ size files else total) w stride in
    P %| n /\
    flatten [seq parts i | i <- iota 0 P] = take n (flatten windows) /\
    (n <= size (flatten windows) -> forall i, i < P -> size (parts i) = n %/ P) /\
    (size (flatten windows) < n -> size (parts P.-1) < n %/ P).
Proof.
move=> w0 s0 t0 P0 all_L wn ok.
have := ok 0 P0; rewrite /create_split.
case e : (sequence _) => [//|wss].
rewrite num_examplesE //; set n := count _ _ _.
case e2 : wss => [|ws wss']; first by case: (debug).
case: ifP => // /negbFE/eqP dv _.
have {dv} dv : P %| n by apply/eqP; move: dv; rewrite modz_nat => -[].
exists wss; first by rewrite -e2.
have partE i : i < P -> parts i = slice (i * (n %/ P)) (i * (n %/ P) + n %/ P) (flatten wss).
  move=> iP; have := ok i iP; rewrite /create_split e e2 num_examplesE // -/n -e2.
  by rewrite modz_nat (eqP dv) /= divz_nat absz_nat => -[<-].
have nE : n = P * (n %/ P) by rewrite mulnC divnK.
split=> //; split; last split.
- transitivity (flatten [seq slice (i * (n %/ P)) (i * (n %/ P) + n %/ P) (flatten wss) | i <- iota 0 P]).
    congr flatten; apply/eq_in_map => i; rewrite mem_iota => /andP [_ iP].
    exact: partE.
  by rewrite slices -nE.
- move=> ns i iP; rewrite partE // /slice addKn size_takel // size_drop.
  rewrite leq_subRL; last by rewrite (leq_trans _ ns) // [X in _ <= X]nE leq_mul2r ltnW ?orbT.
  by rewrite (leq_trans _ ns) // addnC -mulSn [X in _ <= X]nE leq_mul2r iP orbT.
- move=> sn; rewrite partE ?ltn_predL // /slice addKn size_take size_drop.
  have lt : size (flatten wss) - P.-1 * (n %/ P) < n %/ P.
    have n0 : 0 < n %/ P by rewrite divn_gt0 // dvdn_leq // /n /count addn1.
    have: n = P.-1 * (n %/ P) + n %/ P by rewrite addnC -mulSn prednK.
    by lia.
  by case: ifP => // h; move: (ltn_trans lt h); rewrite ltnn.
Qed.

End C56.

(** * C54: the element permutation *)

(** Sizes, patch sizes and factors that fit together: the first factor is the
    edge of the smallest patches, and each following one the edge of the
    patches built so far. *)
Fixpoint compatible (b : nat) (patch_sizes factors : seq nat) : Prop :=
  match patch_sizes, factors with
  | [::], [::] => True
  | n :: ps, f :: fs => f = b /\ 0 < n /\ compatible (b * n) ps fs
  | _, _ => False
  end.

Definition fits (size_ : nat) (ps fs : seq nat) : Prop :=
  exists b, [/\ 0 < b, size_ = b * foldr muln 1 ps & compatible b ps fs].

Lemma mem_lex n x : (x \in lex n) = (x.1 < n) && (x.2 < n).
Proof.
case: x => i j; apply/allpairsP/andP => /= [[[a b] /= [ha hb [-> ->]]]|[hi hj]].
  by move: ha hb; rewrite !mem_iota.
by exists (i, j); rewrite !mem_iota.
Qed.

Lemma uniq_lex n : uniq (lex n).
Proof. by apply: allpairs_uniq; rewrite ?iota_uniq // => [[a b] [c d]] _ _ [-> ->]. Qed.

Lemma size_lex n : size (lex n) = n ^ 2.
Proof. by rewrite size_allpairs size_iota mulnn. Qed.

Lemma shiftedE p n f :
  shifted p n f =
    [seq (x.1 + f * s.1, x.2 + f * s.2) | s <- lex n, x <- p].
Proof. by []. Qed.

Lemma digits b x s : x < b -> (x + b * s) %/ b = s /\ (x + b * s) %% b = x.
Proof.
move=> xb; have b0 : 0 < b by lia.
by rewrite addnC mulnC divnMDl // divn_small // addn0 modnMDl modn_small.
Qed.

Lemma digits_inj b x y s t :
  x < b -> y < b -> x + b * s = y + b * t -> x = y /\ s = t.
Proof.
move=> xb yb e; have [d1 m1] := digits s xb; have [d2 m2] := digits t yb.
by split; [rewrite -m1 -m2 e|rewrite -d1 -d2 e].
Qed.

Lemma perm_shifted p b n :
  0 < b -> perm_eq p (lex b) -> perm_eq (shifted p n b) (lex (b * n)).
Proof.
move=> b0 pb; rewrite shiftedE.
have bnd z : z \in p -> z.1 < b /\ z.2 < b by rewrite (perm_mem pb) mem_lex => /andP.
apply: uniq_perm; rewrite ?uniq_lex //.
  apply: allpairs_uniq; rewrite ?uniq_lex // ?(perm_uniq pb) ?uniq_lex //.
  move=> [s x] [t y] /allpairsP [[a u] /= [_ pu [-> ->]]]
    /allpairsP [[c v] /= [_ pv [-> ->]]] [e5 e6].
  have [u1 u2] := bnd _ pu; have [v1 v2] := bnd _ pv.
  have [e1 e2] := digits_inj u1 v1 e5; have [e3 e4] := digits_inj u2 v2 e6.
  by case: a c u v e1 e2 e3 e4 {pu pv e5 e6 u1 u2 v1 v2} => [? ?] [? ?] [? ?] [? ?] /= -> -> -> ->.
move=> [i j]; rewrite mem_lex /=; apply/allpairsP/andP => [[[t x] /= [tl px [-> ->]]]|[ib jb]].
  have [x1 x2] := bnd _ px; move: tl; rewrite mem_lex => /andP [t1 t2].
  have aux u v : u < b -> v < n -> u + b * v < b * n by move=> ? ?; nia.
  by split; apply: aux.
exists ((i %/ b, j %/ b), (i %% b, j %% b)) => /=; split.
- by rewrite mem_lex /= !ltn_divLR // ![n * b]mulnC ib jb.
- by rewrite (perm_mem pb) mem_lex /= !ltn_mod b0.
- by rewrite ![b * _]mulnC ![_ %% _ + _]addnC -!divn_eq.
Qed.

Lemma size_shifted p n f : size (shifted p n f) = n ^ 2 * size p.
Proof. by rewrite shiftedE size_allpairs size_lex. Qed.

Lemma pairs_perm ps fs b p :
  0 < b -> compatible b ps fs -> perm_eq p (lex b) ->
  perm_eq (foldl (fun p pf => shifted p pf.1 pf.2) p (zip ps fs))
    (lex (b * foldr muln 1 ps)).
Proof.
elim: ps fs b p => [|n ps IH] [|f fs] b p b0 //=; first by rewrite muln1.
case=> -> [n0 c] pb; rewrite mulnA; apply: IH => //; first by rewrite muln_gt0 b0.
exact: perm_shifted.
Qed.

Lemma prod_gt0 b ps fs : compatible b ps fs -> 0 < foldr muln 1 ps.
Proof.
elim: ps fs b => [//|n ps IH] [|f fs] b //= [_ [n0 /IH c]].
by rewrite muln_gt0 n0.
Qed.

Lemma multiscale_perm_eq size_ ps fs :
  fits size_ ps fs -> perm_eq (multiscale_pairs size_ ps fs) (lex size_).
Proof.
case=> b [b0 -> c]; rewrite /multiscale_pairs mulnK ?(prod_gt0 c) //.
exact: pairs_perm.
Qed.

(** [make_multiscale_perm] lists every element number once. *)
Theorem C54_permutation size_ ps fs :
  fits size_ ps fs ->
  perm_eq (make_multiscale_perm size_ ps fs) (iota 0 (size_ ^ 2)).
Proof.
move=> ok; have pe := multiscale_perm_eq ok.
apply: (perm_trans (perm_map _ pe)).
have bnd z : z \in lex size_ -> z.1 < size_ /\ z.2 < size_ by rewrite mem_lex => /andP.
apply: uniq_perm; rewrite ?iota_uniq //.
  rewrite map_inj_in_uniq ?uniq_lex // => -[i j] [k l] /bnd /= [i1 j1] /bnd /= [k1 l1].
  rewrite ![size_ * _ + _]addnC => /(digits_inj j1 l1) [-> ->] //.
move=> k; rewrite mem_iota add0n /=; apply/mapP/idP => [[[i j] /bnd /= [ib jb] ->]|ks].
  by have := leq_mul (leqnn size_) ib; rewrite mulnS -mulnn; lia.
have s0 : 0 < size_ by case: (size_) ks => [|//]; rewrite exp0n.
exists (k %/ size_, k %% size_); last by rewrite mulnC -divn_eq.
by rewrite mem_lex /= ltn_mod s0 ltn_divLR // mulnn ks.
Qed.

(** Undoing the permutation with its argsort restores any list of elements. *)
Theorem C54_restores (T : Type) (x0 : T) (xs : seq T) (p : seq nat) :
  perm_eq p (iota 0 (size xs)) ->
  gather x0 (gather x0 xs p) (argsort p) = xs.
Proof.
move=> pe; have sp : size p = size xs by rewrite (perm_size pe) size_iota.
have up : uniq p by rewrite (perm_uniq pe) iota_uniq.
have so : sort leq p = iota 0 (size xs).
  apply: (sorted_eq leq_trans anti_leq); rewrite ?sort_sorted ?iota_sorted //.
    exact: leq_total.
  by rewrite perm_sort.
rewrite /gather /argsort so -map_comp; apply: (@eq_from_nth _ x0).
  by rewrite size_map size_iota.
rewrite size_map size_iota => k kn.
rewrite (nth_map 0) ?size_iota // nth_iota // add0n /= size_map sp.
have kp : k \in p by rewrite (perm_mem pe) mem_iota.
have ik : index k p < size xs by rewrite -sp index_mem.
rewrite (minn_idPl _); last by lia.
rewrite (nth_map 0) ?sp // nth_index //.
by rewrite (minn_idPl _) //; lia.
Qed.

Corollary C54_argsort (T : Type) (x0 : T) (xs : seq T) size_ ps fs :
  fits size_ ps fs -> size xs = size_ ^ 2 ->
  let perm := make_multiscale_perm size_ ps fs in
  gather x0 (gather x0 xs perm) (argsort perm) = xs.
Proof. by move=> ok sx; apply: C54_restores; rewrite sx; exact: C54_permutation. Qed.

(** ** Patches are contiguous *)

(** [q] is cut into runs of [b ^ 2] consecutive pairs that lie in one patch of
    edge [b] each. *)
Definition runs (b : nat) (q : seq (nat * nat)) : Prop :=
  b ^ 2 %| size q /\
  forall k l, k < size q -> l < size q -> k %/ b ^ 2 = l %/ b ^ 2 ->
    (nth (0, 0) q k).1 %/ b = (nth (0, 0) q l).1 %/ b /\
    (nth (0, 0) q k).2 %/ b = (nth (0, 0) q l).2 %/ b.

Lemma nth_allpairs (S T Z : Type) (f : S -> T -> Z) s0 t0 z0 ss ts k :
  k < size ss * size ts ->
  nth z0 [seq f x y | x <- ss, y <- ts] k =
    f (nth s0 ss (k %/ size ts)) (nth t0 ts (k %% size ts)).
Proof.
elim: ss k => [//|x ss IH] k kn /=.
have t0' : 0 < size ts by case: (size ts) kn => //; rewrite muln0.
rewrite nth_cat size_map; case: ltnP => kt.
  by rewrite divn_small // modn_small // (nth_map t0).
rewrite IH; last by move: kn; rewrite /= mulSn; lia.
have e : k = 1 * size ts + (k - size ts) by lia.
by rewrite {3 4}e divnMDl // modnMDl.
Qed.

Lemma runs_lex b p : 0 < b -> perm_eq p (lex b) -> runs b p.
Proof.
move=> b0 pb; have sp : size p = b ^ 2 by rewrite (perm_size pb) size_lex.
split=> [|k l kn ln _]; first by rewrite sp.
have bnd z : z \in p -> z.1 < b /\ z.2 < b by rewrite (perm_mem pb) mem_lex => /andP.
have [k1 k2] := bnd _ (mem_nth (0, 0) kn).
have [l1 l2] := bnd _ (mem_nth (0, 0) ln).
by rewrite !divn_small.
Qed.

Lemma runs_shifted b q n f : 0 < b -> b %| f -> runs b q -> runs b (shifted q n f).
Proof.
move=> b0 /dvdnP [g ->] [dq rq]; split; first by rewrite size_shifted dvdn_mull.
rewrite size_shifted => k l kn ln e.
have q0 : 0 < size q by case: (size q) kn => //; rewrite muln0.
rewrite shiftedE !(nth_allpairs _ (0, 0) (0, 0)) ?size_lex //=.
have /dvdnP [m em] := dq.
have b2 : 0 < b ^ 2 by rewrite expn_gt0 b0.
have ekl : k %/ size q = l %/ size q by rewrite em [m * _]mulnC !(divnMA _ (b ^ 2) m) e.
have := rq (k %% size q) (l %% size q); rewrite !ltn_mod => /(_ q0 q0) [].
  have := divn_eq k (size q); have := divn_eq l (size q); rewrite -ekl.
  move: (k %/ size q) (k %% size q) (l %% size q) => d k' l' el ek.
  move: e; rewrite ek el em ![d * _]mulnA !divnMDl // => /eqP.
  by rewrite eqn_add2l => /eqP.
move=> e1 e2.
have sh x : (x + g * b * (nth (0, 0) (lex n) (k %/ size q)).1) %/ b =
     x %/ b + g * (nth (0, 0) (lex n) (k %/ size q)).1.
  by rewrite addnC -mulnA [b * _]mulnC mulnA divnMDl // addnC.
have sh2 x : (x + g * b * (nth (0, 0) (lex n) (k %/ size q)).2) %/ b =
     x %/ b + g * (nth (0, 0) (lex n) (k %/ size q)).2.
  by rewrite addnC -mulnA [b * _]mulnC mulnA divnMDl // addnC.
by rewrite -ekl !sh !sh2 e1 e2.
Qed.

Lemma runs_fold b c ps fs q :
  0 < b -> b %| c -> compatible c ps fs -> runs b q ->
  runs b (foldl (fun p pf => shifted p pf.1 pf.2) q (zip ps fs)).
Proof.
elim: ps fs c q => [|n ps IH] [|f fs] c q b0 bc //= [-> [n0 cc]] rq.
apply: (IH _ (c * n)) => //; first by rewrite dvdn_mulr.
exact: runs_shifted.
Qed.

Lemma runs_all b c ps fs p :
  0 < c -> compatible c ps fs -> b \in fs -> perm_eq p (lex c) ->
  runs b (foldl (fun p pf => shifted p pf.1 pf.2) p (zip ps fs)).
Proof.
elim: ps fs c p => [|n ps IH] [|f fs] d p d0 //=.
case=> -> [n0 dd]; rewrite inE => /orP [/eqP ->|bf] pd.
  apply: (runs_fold _ _ dd); rewrite ?dvdn_mulr //.
  by apply: runs_shifted => //; apply: runs_lex.
apply: (IH _ (d * n)) => //; first by rewrite muln_gt0 d0.
exact: perm_shifted.
Qed.

(** For every level of patches (edge [b], one of the
    factors) the elements at [b ^ 2] consecutive positions are those of one
    patch. *)
Theorem C54_contiguous size_ ps fs b k l :
  fits size_ ps fs -> b \in fs ->
  let perm := make_multiscale_perm size_ ps fs in
  k < size perm -> l < size perm -> k %/ b ^ 2 = l %/ b ^ 2 ->
  (nth 0 perm k %/ size_) %/ b = (nth 0 perm l %/ size_) %/ b /\
  (nth 0 perm k %% size_) %/ b = (nth 0 perm l %% size_) %/ b.
Proof.
move=> ok bf perm kn ln ekl.
have pe := multiscale_perm_eq ok; case: (ok) => c [c0 sE cc].
set q := multiscale_pairs size_ ps fs.
have sq : size perm = size q by rewrite size_map.
have valE i : i < size q -> nth 0 perm i %/ size_ = (nth (0, 0) q i).1 /\
    nth 0 perm i %% size_ = (nth (0, 0) q i).2.
  move=> iq; rewrite /perm /make_multiscale_perm (nth_map (0, 0)) // addnC.
  have := mem_nth (0, 0) iq; rewrite (perm_mem pe) mem_lex => /andP [_ j].
  exact: digits.
have rq : runs b q.
  rewrite /q /multiscale_pairs sE mulnK ?(prod_gt0 cc) //.
  exact: runs_all c0 cc bf (perm_refl _).
rewrite sq in kn ln; have [-> ->] := valE k kn; have [-> ->] := valE l ln.
by have [_ /(_ k l kn ln ekl)] := rq.
Qed.

(** ** Examples *)
(** The defaults of the code fit. *)
Example default_fits : fits 12 [:: 2; 3] [:: 2; 4].
Proof. by exists 2. Qed.

Example default_head :
  take 8 (make_multiscale_perm 12 [:: 2; 3] [:: 2; 4]) =
    [:: 0; 1; 12; 13; 2; 3; 14; 15].
Proof. by vm_compute. Qed.

(** Factors that do not fit give no permutation. *)
Example misfit :
  uniq (make_multiscale_perm 4 [:: 2] [:: 1]) = false.
Proof. by vm_compute. Qed.

Example windows_example :
  windowed 3 2 2 [:: 10; 11; 12; 13; 14; 15] = inr [:: [:: 10; 12]; [:: 12; 14]].
Proof. by vm_compute. Qed.

Example split_debug :
  create_split [:: [:: 1; 2; 3; 4; 5]; [:: 6; 7; 8; 9; 10]] 10 true 2 1 1 2 1
    = inr [:: [:: 3; 4]; [:: 4; 5]].
Proof. by vm_compute. Qed.

(** Two shards of 5 with overlapping windows of 3: 6 windows, but 8 examples
    are counted and the second of two processes gets 2 of its 4. *)
Example split_two_shards :
  create_split [:: [:: 1; 2; 3; 4; 5]; [:: 6; 7; 8; 9; 10]] 10 false 3 1 1 2 1
    = inr [:: [:: 7; 8; 9]; [:: 8; 9; 10]].
Proof. by vm_compute. Qed.

Example split_assertion :
  create_split [:: [:: 1; 2; 3; 4; 5]; [:: 6; 7; 8; 9; 10]] 10 false 3 1 1 3 1
    = inl PAssertionError.
Proof. by vm_compute. Qed.

Print Assumptions C54_permutation.
Print Assumptions C54_restores.
Print Assumptions C54_argsort.
Print Assumptions C54_contiguous.
Print Assumptions C55_windows.
Print Assumptions C56_single.
Print Assumptions C56_debug.
Print Assumptions C56_count.
Print Assumptions C56_tiling.
Print Assumptions C56_overlap_refuted.
Print Assumptions C56_slices.
