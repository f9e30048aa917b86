(** C83: [solve_poisson] on a bar is exact where elements meet, and everywhere if the
    solution is in the space. *)
From mathcomp Require Import all_ssreflect all_algebra polyrcf zify ring.
From Verif Require Import PyDict_model GS_model GS_props Interp_model Interp_spec Lagrange_proofs Legendre_proofs Gauss_proofs Tensor_proofs Interp_proofs Interp_proofs2 Interp_props FES_model FES_proofs FES_proofs2 FES_props FES_props2.
From Verif Require Import CG_model TimeCoef_model Stokes_model Unisolvent_proofs Poisson_model Poisson_spec Poisson_proofs Poisson_props.
From Verif Require Import Bar_proofs.
Set Implicit Arguments.
Unset Strict Implicit.
Unset Printing Implicit Defensive.
Import Order.TTheory GRing.Theory Num.Theory.
Local Open Scope ring_scope.

Section Bar.
Variables (R : rcfType) (eps : R) (inv : 'M[R]_1 -> 'M[R]_1) (K p : nat) (g : nodes1d R) (brk : nat -> R).
Hypotheses (K0 : (0 < K)%N) (hg : nodes1d_create R p.+2 GAUSS_LOBATTO_LEGENDRE = inr g) (inc : forall i, brk i < brk i.+1).
Hypothesis inv_ok : forall J : 'M[R]_1, J \in unitmx -> inv J = invmx J.
Notation n := p.+1.
Notation N := (K * n).+1.
Notation bar := (bar K p g brk).
Notation masks := (bar_masks K p).
Notation xs := (nd_values g).
Notation cell := (cell brk).
Notation half := (half brk).
Notation on := (on p g).
Implicit Types (ends : bool) (f u v : seq R) (U : nat -> {poly R}).

(** The coordinate of node [i]. *)
Definition pos (i : nat) : R := (nth 0 (m_coords bar) i) 0 0.
(** The condition: zero at both ends, or at the left one only. *)
Definition cond ends : bcs R bool_eqType := [:: (ends, (DIRICHLET, BScalar 0))].

(** The continuous problem -U'' = f, with [f] interpolated on every element: [U e] is
    the solution on element [e], between [brk e] and [brk e.+1]. *)
Definition exact ends f U : Prop :=
  [/\ forall e, (size (U e) <= n.+3)%N,
      forall e k, (e < K)%N -> (k <= n)%N -> - ((U e)^`())^`().[pos (e * n + k)] = nth 0 f (e * n + k),
      forall e, (e.+1 < K)%N -> (U e).[brk e.+1] = (U e.+1).[brk e.+1] /\ (U e)^`().[brk e.+1] = (U e.+1)^`().[brk e.+1],
      (U 0%N).[brk 0%N] = 0 &
      if ends then (U K.-1).[brk K] = 0 else (U K.-1)^`().[brk K] = 0].

Let sx : size xs = n.+1. Proof. by have [_ -> _ _] := C33_lobatto_nodes hg. Qed.
Let ux : uniq xs.
Proof. by have [srt _ _ _] := C33_lobatto_nodes hg; exact: (sorted_uniq lt_trans (@ltxx _ _) srt). Qed.
Let h0 e : half e != 0. Proof. by rewrite gt_eqF ?half_gt0. Qed.
Lemma node_lt e k : (e < K)%N -> (k <= n)%N -> (e * n + k < N)%N.
Proof. by move=> he hk; have := leq_mul he (leqnn n); rewrite mulSnr; lia. Qed.
Lemma posE e k : (e < K)%N -> (k <= n)%N -> pos (e * n + k) = (cell e).[nth 0 xs k].
Proof.
move=> he hk; rewrite -(bar_coordE brk K0 hg he hk) /element_coords /= (nth_map 0%N) ?size_iota // nth_iota // add0n.
rewrite -[_ :: _]/[seq Posz (e * n + k) | k <- iota 0 n.+1] /gather -map_comp (nth_map 0%N) ?size_iota //.
by rewrite nth_iota //= /at_ /= /pos.
Qed.
Lemma comp_deriv e (P : {poly R}) : (P \Po cell e)^`() = half e *: (P^`() \Po cell e).
Proof. by rewrite deriv_comp cell_deriv mulrC mul_polyC. Qed.
Lemma on_rhs ends f U e : exact ends f U -> (e < K)%N -> on e f = - ((U e)^`()^`() \Po cell e).
Proof.
move=> [sU eq _ _ _] he; apply: (on_unique hg) => [|k hk].
  rewrite size_opp; apply: (leq_trans (comp_size inc _ _)).
  have := size_deriv_pred (U e); have := size_deriv_pred (U e)^`(); have := sU e.
  by move: (size _) (size _) (size _) => a b c; clear; lia.
by rewrite hornerN horner_comp -posE // eq.
Qed.

(** Green's formula for the solution. *)
Lemma exact_green ends f U fs v : space_of eps inv bar fs -> exact ends f U ->
  l2 eps fs f v = \sum_(e < K) (half e)^-1 * integral ((U e \Po cell e)^`() * (on e v)^`())
    - ((U K.-1)^`().[brk K] * nth 0 v (K * n) - (U 0%N)^`().[brk 0%N] * nth 0 v 0).
Proof.
move=> sp ex; have [_ _ c1 _ _] := ex; rewrite (bar_l2 K0 hg sp).
have T k : (k < K)%N -> \sum_(0 <= e < k.+1) ((U e)^`().[brk e.+1] * nth 0 v (e.+1 * n) - (U e)^`().[brk e] * nth 0 v (e * n))
    = (U k)^`().[brk k.+1] * nth 0 v (k.+1 * n) - (U 0%N)^`().[brk 0%N] * nth 0 v 0.
  elim: k => [|k IH] hk; first by rewrite big_nat1 mul0n.
  rewrite big_nat_recr // (IH (ltnW hk)); have [_ ->] := c1 k hk.
  rewrite -[GRing.add_monoid _ _ _]/(_ + _) [LHS]addrC addrA; congr (_ - _); exact: subrK.
have := T K.-1; rewrite prednK // => <- //; rewrite big_mkord -sumrB; apply: eq_bigr => e _.
rewrite (on_rhs ex) // mulNr linearN /= comp_deriv.
set W := (U e)^`() \Po cell e.
have WE : (U e)^`()^`() \Po cell e = (half e)^-1 *: W^`() by rewrite /W comp_deriv scalerA mulVf // scale1r.
have := integral_deriv (W * on e v); rewrite derivM linearD /= !hornerM (on_left hg) (on_right hg) => G.
have W1 : W.[1] = (U e)^`().[brk e.+1] by rewrite /W horner_comp (cell_right brk).
have W2 : W.[-1] = (U e)^`().[brk e] by rewrite /W horner_comp (cell_left brk).
rewrite -W1 -W2 -G WE -!scalerAl !linearZ /= mulrN mulrA divff // mulKf // mul1r.
by move: (integral (W^`() * on e v)) (integral (W * (on e v)^`())) => a b; ring.
Qed.

(** Vanishing where the condition says so. *)
Lemma dirichletE ends i : (i < N)%N -> on_dirichlet masks (cond ends) i = (i == 0%N) || ends && (i == (K * n)%N).
Proof.
move=> hi; rewrite /on_dirichlet /= orbF; case: ends; rewrite /= ?orbF; [have := nth_mkseq false (fun i => (i == 0%N) || (i == (K * n)%N)) hi|have := nth_mkseq false (fun i => i == 0%N) hi]; exact.
Qed.

(** The solution the function finds, and that it is the only one. *)
Lemma found ends f : size f = N -> exists2 fs, space_of eps inv bar fs &
  exists u g' k, [/\ solve_poisson eps inv bar masks f (cond ends) 0 0 = inr (CGDone [:: u] g' k), (k <= N)%N,
    weak_solution eps fs masks (cond ends) f u & forall u', weak_solution eps fs masks (cond ends) f u' -> u' = u].
Proof.
move=> sf; have [fs sp ori] := bar_space eps inv K0 hg inc; exists fs => //.
have NE : num_nodes bar = N by rewrite /num_nodes size_mkseq.
have ok : all (accepted masks) (cond ends) by rewrite /= /accepted /= eqxx; case: (ends).
have sf' : size f = num_nodes bar by rewrite NE.
have [|u [g' [k [h1 _ h2 h3]]]] := C62_dirichlet (bar_ok brk K0 hg) sp ok sf' ori inv_ok 0 0.
  by move=> i hi; exists 0%N; rewrite ?NE ?dirichletE //; apply: bar_joined.
by have [w1 w2] := h3 erefl erefl; exists u, g', k; rewrite -NE.
Qed.
Lemma bar_adm ends fs v : space_of eps inv bar fs -> admissible (fs_mesh fs) masks (cond ends) v <->
  [/\ size v = N, nth 0 v 0 = 0 & ends -> nth 0 v (K * n) = 0].
Proof.
move=> sp; have [quad hq hf] := sp; have [gs [_ _ -> _ _]] := fespace_createE hf.
have NE : num_nodes bar = N by rewrite /num_nodes size_mkseq.
split=> [[]|[sv z1 z2]]; rewrite /admissible NE.
  move=> sv z; split=> //; first by apply: z; rewrite ?dirichletE.
  by move=> e1; apply: z; rewrite ?dirichletE // e1 eqxx orbT.
by split=> // i hi; rewrite dirichletE // => /orP[/eqP->//|/andP[e1 /eqP->]]; exact: z2.
Qed.
Lemma bar_weak ends fs f u v : space_of eps inv bar fs -> weak_solution eps fs masks (cond ends) f u ->
  [/\ size v = N, nth 0 v 0 = 0 & ends -> nth 0 v (K * n) = 0] ->
  \sum_(e < K) (half e)^-1 * integral ((on e u)^`() * (on e v)^`()) = l2 eps fs f v.
Proof. by move=> sp [_ h] /(bar_adm ends v sp) /h; rewrite (bar_energy K0 hg inc inv_ok sp). Qed.

(** The function made of straight lines between given values. *)
Definition lines (E : nat -> R) : seq R :=
  mkseq (fun i => E (i %/ n)%N + (1 + nth 0 xs (i %% n)) / 2%:R * (E (i %/ n)%N.+1 - E (i %/ n)%N)) N.
Lemma lines_on E e : (e < K)%N -> on e (lines E) = ((E e + E e.+1) / 2%:R)%:P + ((E e.+1 - E e) / 2%:R) *: 'X.
Proof.
move=> he; apply: (on_unique hg) => [|k hk].
  apply: (leq_trans (size_add _ _)); rewrite geq_max; apply/andP; split.
    by apply: (leq_trans (size_polyC_leq1 _)).
  by apply: (leq_trans (size_scale_leq _ _)); rewrite size_polyX.
rewrite nth_mkseq ?node_lt // hornerD hornerC hornerZ hornerX.
move: hk; rewrite leq_eqVlt => /orP[/eqP->|hk].
  rewrite -mulSnr mulnK // modnMl (bar_first hg) (bar_last hg) subrr !mul0r addr0 mulr1.
  by move: (E e) (E e.+1) => a b; field.
rewrite divnMDl // divn_small // addn0 modnMDl modn_small //.
by move: (E e) (E e.+1) (nth 0 xs k) => a b c; field.
Qed.
Lemma lines_break E e : (e <= K)%N -> nth 0 (lines E) (e * n) = E e.
Proof.
by move=> he; rewrite nth_mkseq ?ltnS ?leq_mul2r ?he ?orbT // mulnK // modnMl (bar_first hg) subrr !mul0r addr0.
Qed.

(** At the points where elements meet the solution is exact. *)
Lemma breakpoints ends f U fs u : space_of eps inv bar fs -> exact ends f U -> weak_solution eps fs masks (cond ends) f u ->
  forall e, (e < K)%N -> nth 0 u (e * n) = (U e).[brk e] /\ nth 0 u (e.+1 * n) = (U e).[brk e.+1].
Proof.
move=> sp ex wu; have [sU eq c1 b0 b1] := ex; have [/(bar_adm ends u sp)[su z0 z1] _] := wu.
pose E e := if e is e'.+1 then nth 0 u (e * n) - (U e').[brk e] else nth 0 u 0 - (U 0%N).[brk 0%N].
have EE e : (e < K)%N -> E e = nth 0 u (e * n) - (U e).[brk e].
  by case: e => [|e] he //; rewrite /E; have [-> _] := c1 e he.
have E0 : E 0%N = 0 by rewrite /E z0 b0 subrr.
have EK : E K = nth 0 u (K * n) - (U K.-1).[brk K] by rewrite /E; case: (K) K0.
have E1 e : E e.+1 = nth 0 u (e.+1 * n) - (U e).[brk e.+1] by [].
clearbody E.
have av : [/\ size (lines E) = N, nth 0 (lines E) 0 = 0 & ends -> nth 0 (lines E) (K * n) = 0].
  split; first by rewrite size_mkseq.
    by have := lines_break E (leq0n K); rewrite mul0n E0.
  by move=> e1; rewrite lines_break // EK z1 //; move: b1; rewrite e1 => ->; rewrite subrr.
have B : (U K.-1)^`().[brk K] * nth 0 (lines E) (K * n) - (U 0%N)^`().[brk 0%N] * nth 0 (lines E) 0 = 0.
  have [_ -> h] := av; rewrite mulr0 subr0; move: b1 h; case: ends {ex wu z1 av} => [_ ->|->] //; by rewrite ?mulr0 ?mul0r.
have := bar_weak sp wu av; rewrite (exact_green (lines E) sp ex) B subr0 => /eqP; rewrite -subr_eq0 -sumrB => /eqP.
have T (e : 'I_K) : (half e)^-1 * integral ((on e u)^`() * (on e (lines E))^`()) - (half e)^-1 * integral ((U e \Po cell e)^`() * (on e (lines E))^`())
   = (half e)^-1 * ((E e.+1 - E e) ^+ 2 / 2%:R).
  rewrite lines_on // derivD derivC derivZ derivX add0r alg_polyC -mulrBr; congr (_ * _).
  rewrite ![_ * _%:P]mulrC !mul_polyC !linearZ /= !integral_deriv -mulrBr (on_left hg) (on_right hg) !horner_comp (cell_left brk) (cell_right brk).
  rewrite (EE e) // E1.
  move: (nth 0 u _) (nth 0 u _) ((U e).[_]) ((U e).[_]) => a b c d'; by field.
rewrite (eq_bigr _ (fun e _ => T e)) => S0.
have nn (e : 'I_K) : true -> 0 <= (half e)^-1 * ((E e.+1 - E e) ^+ 2 / 2%:R).
  by move=> _; rewrite mulr_ge0 ?divr_ge0 ?sqr_ge0 ?ler0n // invr_ge0 ltW ?half_gt0.
have Z e : (e < K)%N -> E e.+1 = E e.
  move=> he; have /eqP := psumr_eq0P nn S0 (i := Ordinal he) isT; rewrite /= !mulf_eq0 invr_eq0 (negbTE (h0 e)) /= invr_eq0 pnatr_eq0 orbF.
  by rewrite orbb subr_eq0 => /eqP.
have Z0 e : (e <= K)%N -> E e = 0 by elim: e => // e IH he; rewrite Z // IH // ltnW.
move=> e he; have := Z0 e (ltnW he); have := Z0 e.+1 he; rewrite E1 (EE e he) => /eqP; rewrite subr_eq0 => /eqP -> /eqP.
by rewrite subr_eq0 => /eqP ->.
Qed.

Theorem C83_breakpoints ends f U : size f = N -> exact ends f U ->
  exists u g' k, [/\ solve_poisson eps inv bar masks f (cond ends) 0 0 = inr (CGDone [:: u] g' k), size u = N, (k <= N)%N &
    forall e, (e < K)%N -> nth 0 u (e * n) = (U e).[brk e] /\ nth 0 u (e.+1 * n) = (U e).[brk e.+1]].
Proof.
move=> sf ex; have [fs sp [u [g' [k [h1 h2 wu _]]]]] := found ends sf; exists u, g', k.
have [/(bar_adm ends u sp)[su _ _] _] := wu; split=> //; exact: (breakpoints sp ex wu).
Qed.

(** Continuous functions made of one polynomial per element, of the degree of the
    elements, that satisfy the condition. *)
Definition member ends (Q : nat -> {poly R}) : Prop :=
  [/\ forall e, (e < K)%N -> (size (Q e) <= n.+1)%N,
      forall e, (e.+1 < K)%N -> (Q e).[brk e.+1] = (Q e.+1).[brk e.+1],
      (Q 0%N).[brk 0%N] = 0 & ends -> (Q K.-1).[brk K] = 0].
Definition sample (Q : nat -> {poly R}) : seq R :=
  mkseq (fun i => if i == (K * n)%N then (Q K.-1).[brk K] else (Q (i %/ n)%N).[pos i]) N.
Lemma sampleE ends Q e j : member ends Q -> (e < K)%N -> (j <= n)%N -> nth 0 (sample Q) (e * n + j) = (Q e).[pos (e * n + j)].
Proof.
move=> [_ c0 _ _] he hj; rewrite nth_mkseq ?node_lt //; case: eqP => [E|nE].
  have [eE jE] : (e = K.-1)%N /\ j = n.
    have : (e.+1 = K)%N; last by move=> eK; split; [rewrite -eK|move: E; rewrite -eK mulSnr; clear; lia].
    apply/eqP; rewrite eqn_leq he -(leq_pmul2r (ltn0Sn p)) -E mulSnr; by rewrite leq_add2l.
  by rewrite eE jE posE ?prednK // (bar_last hg) cell_right prednK.
move: hj; rewrite leq_eqVlt => /orP[/eqP jE|hj]; last by rewrite divnMDl // divn_small // addn0.
have he' : (e.+1 < K)%N.
  rewrite ltn_neqAle he andbT; apply/eqP => E; by apply: nE; rewrite jE -E mulSnr.
by rewrite jE -mulSnr mulnK // -[(e.+1 * n)%N]addn0 posE // (bar_first hg) cell_left c0.
Qed.
Lemma sample_on ends Q e : member ends Q -> (e < K)%N -> on e (sample Q) = Q e \Po cell e.
Proof.
move=> mQ he; have [sQ _ _ _] := mQ; apply: (on_unique hg) => [|j hj]; first by apply: (leq_trans (comp_size inc _ _)); exact: sQ.
by rewrite horner_comp (sampleE mQ) // posE.
Qed.
Lemma sample_ends ends Q : member ends Q -> [/\ size (sample Q) = N, nth 0 (sample Q) 0 = 0 & ends -> nth 0 (sample Q) (K * n) = 0].
Proof.
move=> mQ; have [_ _ q0 q1] := mQ; split; first by rewrite size_mkseq.
  by have := sampleE mQ K0 (leq0n n); rewrite posE // (bar_first hg) cell_left q0.
by move=> e1; rewrite nth_mkseq // eqxx q1.
Qed.
(** The error is orthogonal to the space. *)
Lemma orthogonal ends f U fs u v : space_of eps inv bar fs -> exact ends f U -> weak_solution eps fs masks (cond ends) f u ->
  [/\ size v = N, nth 0 v 0 = 0 & ends -> nth 0 v (K * n) = 0] ->
  \sum_(e < K) (half e)^-1 * integral ((on e u)^`() * (on e v)^`()) =
  \sum_(e < K) (half e)^-1 * integral ((U e \Po cell e)^`() * (on e v)^`()).
Proof.
move=> sp ex wu av; rewrite (bar_weak sp wu av) (exact_green v sp ex); have [_ _ _ _ b1] := ex; have [_ -> v1] := av.
rewrite mulr0 subr0 [X in _ - X](_ : _ = 0) ?subr0 //.
by move: b1 v1; case: (ends) => [_ ->|->]; rewrite ?mulr0 ?mul0r.
Qed.

(** If the solution has the degree of the elements, all values are exact. *)
Theorem C83_polynomial ends f U : size f = N -> exact ends f U -> (forall e, (e < K)%N -> (size (U e) <= n.+1)%N) ->
  exists u g' k, [/\ solve_poisson eps inv bar masks f (cond ends) 0 0 = inr (CGDone [:: u] g' k), size u = N, (k <= N)%N &
    forall e j, (e < K)%N -> (j <= n)%N -> nth 0 u (e * n + j) = (U e).[pos (e * n + j)]].
Proof.
move=> sf ex sU; have [fs sp [u [g' [k [h1 h2 wu un]]]]] := found ends sf; exists u, g', k.
have [/(bar_adm ends u sp)[su _ _] _] := wu; split=> //.
have [_ _ c1 b0 b1] := ex.
have mU : member ends U by split=> // [e he|e1]; [have [] := c1 e he|move: b1; rewrite e1].
move=> e j he hj; rewrite -(sampleE mU) //; congr (nth _ _ _); apply/esym/un; split=> [|v /(bar_adm ends v sp)[sv v0 v1]].
  by apply/(bar_adm ends _ sp); exact: sample_ends.
rewrite (bar_energy K0 hg inc inv_ok sp) (exact_green v sp ex) v0 mulr0 subr0.
rewrite [X in _ - X](_ : _ = 0) ?subr0; last by move: b1 v1; case: (ends) => [_ ->|->]; rewrite ?mulr0 ?mul0r.
by apply: eq_bigr => i _; rewrite (sample_on mU).
Qed.

(** The integral of a polynomial from [a] to [b]. *)
Definition area (P : {poly R}) (a b : R) : R := (primitive P).[b] - (primitive P).[a].
Lemma areaE e P : area P (brk e) (brk e.+1) = half e * integral (P \Po cell e).
Proof.
have := integral_deriv (primitive P \Po cell e); rewrite comp_deriv primitive_deriv linearZ /= => ->.
by rewrite !horner_comp cell_left cell_right.
Qed.
Lemma integral_sqr (P : {poly R}) : 0 <= integral (P ^+ 2).
Proof.
have [->|nz] := eqVneq P 0; first by rewrite expr0n linear0.
by apply/ltW/integral_gt0 => [|x _]; rewrite ?expf_eq0 // horner_exp sqr_ge0.
Qed.
Definition back (e : nat) : {poly R} := (- (brk e + half e) / half e)%:P + (half e)^-1 *: 'X.
Lemma backE e x : (back e).[(cell e).[x]] = x.
Proof. by rewrite /back hornerD hornerC hornerZ hornerX cellE; move: (half e) (brk e) (h0 e) => h b hn; field. Qed.
Lemma size_back e : size (back e) = 2%N.
Proof.
rewrite /back addrC size_addl ?size_scale ?size_polyX ?invr_eq0 ?h0 //.
by rewrite ltnS size_polyC leq_b1.
Qed.
Lemma cell_back e : cell e \Po back e = 'X.
Proof.
rewrite /cell /back comp_polyD comp_polyC comp_polyZ comp_polyX scalerDr scalerA divff // scale1r addrA.
by rewrite -mul_polyC -polyCM mulrCA divff // mulr1 -polyCD subrr polyC0 add0r.
Qed.
Lemma back_cell e : back e \Po cell e = 'X.
Proof.
rewrite /cell /back comp_polyD comp_polyC comp_polyZ comp_polyX scalerDr scalerA mulVf // scale1r addrA.
by rewrite -mul_polyC -polyCM -polyCD mulNr [(half e)^-1 * _]mulrC addNr polyC0 add0r.
Qed.

(** The result is the best approximation of the solution in the space: no other
    member has a slope closer to that of [U]. *)
Theorem C83_best ends f U : size f = N -> exact ends f U ->
  exists u g' k P, [/\ solve_poisson eps inv bar masks f (cond ends) 0 0 = inr (CGDone [:: u] g' k), member ends P,
    forall e j, (e < K)%N -> (j <= n)%N -> nth 0 u (e * n + j) = (P e).[pos (e * n + j)] &
    forall Q, member ends Q -> \sum_(e < K) area ((U e - P e)^`() ^+ 2) (brk e) (brk e.+1) <=
                               \sum_(e < K) area ((U e - Q e)^`() ^+ 2) (brk e) (brk e.+1)].
Proof.
move=> sf ex; have [fs sp [u [g' [k [h1 h2 wu _]]]]] := found ends sf.
have [/(bar_adm ends u sp)[su z0 z1] _] := wu.
exists u, g', k, (fun e => on e u \Po back e).
have bk e x y : (cell e).[x] = y -> (back e).[y] = x by move=> <-; rewrite backE.
have mP : member ends (fun e => on e u \Po back e).
  split=> [e he|e he||e1]; rewrite ?horner_comp.
  - have [->|nz] := eqVneq (on e u) 0; first by rewrite comp_poly0 size_poly0.
    by rewrite size_comp_poly2 ?size_back //; exact: size_on.
  - by rewrite (bk e 1) ?cell_right // (bk e.+1 (-1)) ?cell_left // (on_left hg) (on_right hg).
  - by rewrite (bk 0%N (-1)) ?cell_left // (on_left hg).
  - by rewrite (bk K.-1 1) ?cell_right ?prednK // (on_right hg) prednK // z1.
split=> // [e j he hj|Q mQ]; first by rewrite horner_comp posE // backE on_node.
pose w := sample Q; have [sw w0 w1] := sample_ends mQ.
pose v := mkseq (fun i => nth 0 w i - nth 0 u i) N.
have av : [/\ size v = N, nth 0 v 0 = 0 & ends -> nth 0 v (K * n) = 0].
  by split=> [||e1]; rewrite ?size_mkseq // nth_mkseq // /w ?w0 ?z0 ?w1 ?z1 ?subrr.
have ov e : (e < K)%N -> on e v = on e w - on e u.
  move=> he; apply: (on_unique hg) => [|j hj].
    by apply: (leq_trans (size_add _ _)); rewrite geq_max size_opp !(size_on hg).
  by rewrite [RHS](nth_mkseq 0 (fun i => nth 0 w i - nth 0 u i) (node_lt he hj)) hornerD hornerN !on_node.
have O := orthogonal sp ex wu av.
have AE (V : {poly R}) e : area (V^`() ^+ 2) (brk e) (brk e.+1) = (half e)^-1 * integral ((V \Po cell e)^`() ^+ 2).
  by rewrite areaE comp_deriv exprZn linearZ /= -rmorphX /= mulrA expr2 mulrA mulVf // mul1r.
pose A (e : nat) := (U e \Po cell e)^`() - (on e u)^`(); pose B (e : nat) := (on e v)^`().
have dP e : ((U e - (on e u \Po back e)) \Po cell e)^`() = A e.
  by rewrite comp_polyB -comp_polyA back_cell comp_polyXr derivB.
have dQ (e : 'I_K) : ((U e - Q e) \Po cell e)^`() = A e - B e.
  by rewrite comp_polyB -(sample_on mQ) // /B ov // /A !derivB opprB addrA subrK.
have Z : \sum_(e < K) (half e)^-1 * integral (A e * B e) = 0.
  rewrite (eq_bigr (fun e : 'I_K => (half e)^-1 * integral ((U e \Po cell e)^`() * (on e v)^`()) - (half e)^-1 * integral ((on e u)^`() * (on e v)^`()))).
    by rewrite sumrB O subrr.
  by move=> e _; rewrite -mulrBr -linearB /= -mulrBl.
rewrite (eq_bigr (fun e : 'I_K => (half e)^-1 * integral (A e ^+ 2))) => [|e _]; last by rewrite AE dP.
rewrite [X in _ <= X](eq_bigr (fun e : 'I_K => (half e)^-1 * integral (A e ^+ 2) + (half e)^-1 * integral (B e ^+ 2) - ((half e)^-1 * integral (A e * B e)) *+ 2)).
  rewrite sumrB big_split /= sumrMnl Z mul0rn subr0 ler_addl; apply: sumr_ge0 => e _.
  by rewrite mulr_ge0 ?integral_sqr // invr_ge0 ltW ?half_gt0.
move=> e _; rewrite AE dQ sqrrB linearD linearB linearMn /=.
by move: (integral _) (integral _) (integral _) (half e)^-1 => a b c h; ring.
Qed.

(** The continuous problem has exactly one solution. *)
Definition fit (P G : {poly R}) (x : R) : {poly R} := G + ((P - G).[x])%:P + (P - G)^`().[x] *: ('X - x%:P).
Lemma fit_value P G x : (fit P G x).[x] = P.[x].
Proof. by rewrite /fit !hornerD hornerC hornerZ hornerXsubC subrr mulr0 addr0 hornerN addrC subrK. Qed.
Lemma fit_deriv P G x : (fit P G x)^`() = G^`() + ((P - G)^`().[x])%:P.
Proof. by rewrite /fit !derivD derivC addr0 derivZ derivXsubC alg_polyC. Qed.
Lemma fit_slope P G x : (fit P G x)^`().[x] = P^`().[x].
Proof. by rewrite fit_deriv hornerD hornerC derivB hornerD hornerN addrC subrK. Qed.
Lemma fit_second P G x : ((fit P G x)^`())^`() = G^`()^`().
Proof. by rewrite fit_deriv derivD derivC addr0. Qed.
Lemma fit_size P G x : (size (fit P G x) <= maxn (size G) 2)%N.
Proof.
rewrite /fit; apply: (leq_trans (size_add _ _)); rewrite geq_max; apply/andP; split.
  apply: (leq_trans (size_add _ _)); rewrite geq_max leq_maxl /=; apply: (leq_trans (size_polyC_leq1 _)).
  by rewrite leq_max orbT.
by apply: (leq_trans (size_scale_leq _ _)); rewrite size_XsubC leq_maxr.
Qed.
Definition twice f e : {poly R} := - primitive (primitive (on e f \Po back e)).
Lemma size_primitive_le (P : {poly R}) : (size (primitive P) <= (size P).+1)%N.
Proof. exact: size_poly. Qed.
Lemma size_twice f e : (size (twice f e) <= n.+3)%N.
Proof.
rewrite /twice size_opp; apply: (leq_trans (size_primitive_le _)); rewrite ltnS; apply: (leq_trans (size_primitive_le _)); rewrite ltnS.
have [->|nz] := eqVneq (on e f) 0; first by rewrite comp_poly0 size_poly0.
by rewrite size_comp_poly2 ?size_back //; exact: size_on.
Qed.
Lemma twice_second f e : ((twice f e)^`())^`() = - (on e f \Po back e).
Proof. by rewrite /twice !derivN !primitive_deriv. Qed.
Fixpoint shoot f (e : nat) : {poly R} := fit (if e is e'.+1 then shoot f e' else 0) (twice f e) (brk e).

Lemma brk_lt : brk 0%N < brk K.
Proof. by case: (K) K0 => // k _; elim: k => [|k IH]; [exact: inc|exact: (lt_trans IH)]. Qed.
Theorem C83_problem ends f : size f = N ->
  (exists U, exact ends f U) /\
  forall U U', exact ends f U -> exact ends f U' -> forall e, (e < K)%N -> U e = U' e.
Proof.
move=> sf; split=> [|U U' ex ex' e he].
  pose s := if ends then - (shoot f K.-1).[brk K] / (brk K - brk 0%N) else - (shoot f K.-1)^`().[brk K].
  exists (fun e => shoot f e + s *: ('X - (brk 0%N)%:P)).
  have second e : ((shoot f e)^`())^`() = - (on e f \Po back e) by case: e => [|e]; rewrite /= fit_second twice_second.
  have dl e : (shoot f e + s *: ('X - (brk 0%N)%:P))^`() = (shoot f e)^`() + s%:P by rewrite derivD derivZ derivXsubC alg_polyC.
  split=> [e|e k he hk|e he||].
  - apply: (leq_trans (size_add _ _)); rewrite geq_max; apply/andP; split; last by apply: (leq_trans (size_scale_leq _ _)); rewrite size_XsubC.
    have F P : (size (fit P (twice f e) (brk e)) <= n.+3)%N by apply: (leq_trans (fit_size _ _ _)); rewrite geq_max size_twice.
    by case: e F => [|e] F; exact: F.
  - by rewrite dl derivD derivC addr0 second hornerN opprK horner_comp posE // backE on_node.
  - have -> : shoot f e.+1 = fit (shoot f e) (twice f e.+1) (brk e.+1) by [].
    have V (P Q : {poly R}) : (P + Q).[brk e.+1] = P.[brk e.+1] + Q.[brk e.+1] by rewrite hornerD.
    have D (P Q : {poly R}) : (P + Q)^`().[brk e.+1] = P^`().[brk e.+1] + Q^`().[brk e.+1] by rewrite derivD hornerD.
    by rewrite (V (shoot f e)) (V (fit _ _ _)) (D (shoot f e)) (D (fit _ _ _)) fit_value fit_slope.
  - by rewrite (hornerD (shoot f 0)) hornerZ hornerXsubC subrr mulr0 addr0 -[shoot f 0]/(fit 0 (twice f 0) (brk 0%N)) fit_value horner0.
  move: dl {second}; rewrite /s; case: (ends) => dl; last by rewrite dl (hornerD (shoot f K.-1)^`()) hornerC subrr.
  by rewrite (hornerD (shoot f K.-1)) hornerZ hornerXsubC divfK ?subrr // subr_eq0 gt_eqF ?brk_lt.
have [fs sp [u [g' [k [_ _ wu _]]]]] := found ends sf.
have [l1 r1] := breakpoints sp ex wu he; have [l2' r2] := breakpoints sp ex' wu he.
have S : (U e)^`()^`() \Po cell e = (U' e)^`()^`() \Po cell e.
  by apply: oppr_inj; rewrite -(on_rhs ex) // -(on_rhs ex').
pose W := (U e - U' e) \Po cell e.
have W2 : W^`()^`() = 0 by rewrite /W comp_deriv derivZ comp_deriv !derivB comp_polyB S subrr !scaler0.
have WC (P : {poly R}) : P^`() = 0 -> P = (P.[0])%:P.
  move=> d0; apply/polyP => i; rewrite coefC; case: i => [|i]; first by rewrite horner_coef0.
  have := congr1 (fun q : {poly R} => q`_i) d0; rewrite coef_deriv coef0 /= => /eqP; rewrite mulrn_eq0 /= => /eqP //.
have Wa : W = (W^`().[0])%:P * 'X + (W.[0])%:P.
  apply/eqP; rewrite -subr_eq0; set D := _ - _.
  have dD : D^`() = 0 by rewrite /D derivB derivD derivC addr0 derivM derivC mul0r add0r derivX mulr1 -(WC _ W2) subrr.
  by rewrite (WC _ dD) /D hornerD hornerN hornerD hornerM hornerX !hornerC mulr0 add0r subrr.
have e1 : W.[1] = 0 by rewrite /W horner_comp cell_right hornerD hornerN -r1 -r2 subrr.
have e2 : W.[-1] = 0 by rewrite /W horner_comp cell_left hornerD hornerN -l1 -l2' subrr.
have W0 : W = 0.
  move: e1 e2; rewrite Wa hornerD hornerM hornerX !hornerC mulr1 => e1; rewrite hornerD hornerM hornerX !hornerC mulrN1 => e2.
  have [-> ->] : W^`().[0] = 0 /\ W.[0] = 0; last by rewrite !polyC0 mul0r addr0.
  move: e1 e2; move: (W^`().[0]) (W.[0]); clear=> a b /eqP; rewrite addr_eq0 => /eqP -> /eqP.
  by rewrite opprK -mulr2n mulrn_eq0 /= => /eqP ->; rewrite oppr0.
have := congr1 (fun P => P \Po back e) W0; rewrite /W comp_poly0 -comp_polyA.
rewrite cell_back.
by rewrite comp_polyXr => /eqP; rewrite subr_eq0 => /eqP.
Qed.

(** A constant load on a bar fixed at both ends: a parabola at every node, for every
    order and every division of the bar. *)
Definition parabola (e : nat) : {poly R} := - 2%:R^-1 *: (('X - (brk 0%N)%:P) * ('X - (brk K)%:P)).
Lemma size_parabola e : (size (parabola e) <= 3)%N.
Proof. by apply: (leq_trans (size_scale_leq _ _)); apply: (leq_trans (size_mul_leq _ _)); rewrite !size_XsubC. Qed.
Lemma parabola_exact : exact true (nseq N 1) parabola.
Proof.
split=> [e|e k he hk|//||].
- exact: (leq_trans (size_parabola e)).
- rewrite nth_nseq node_lt // /parabola !derivZ derivM !derivXsubC mul1r mulr1 derivD !derivXsubC hornerZ hornerD -polyC1 !hornerC.
  by rewrite mulNr opprK -[1 + 1]/(2%:R) mulVf // pnatr_eq0.
- by rewrite /parabola hornerZ hornerM hornerXsubC subrr mul0r mulr0.
- by rewrite /parabola hornerZ hornerM !hornerXsubC subrr !mulr0.
Qed.
Example ex_constant_load : exists u g' k,
  solve_poisson eps inv bar masks (nseq N 1) (cond true) 0 0 = inr (CGDone [:: u] g' k) /\
  forall e j, (e < K)%N -> (j <= n)%N -> nth 0 u (e * n + j) = (pos (e * n + j) - brk 0%N) * (brk K - pos (e * n + j)) / 2%:R.
Proof.
have pE e x : (parabola e).[x] = (x - brk 0%N) * (brk K - x) / 2%:R.
  by rewrite /parabola hornerZ hornerM !hornerXsubC; move: (brk 0%N) (brk K) => a b; field.
have sN : size (nseq N (1 : R)) = N by rewrite size_nseq.
case: (ltnP 0 p) => [p0|].
  have [|u [g' [k [h _ _ H]]]] := C83_polynomial sN parabola_exact.
    by move=> e _; apply: (leq_trans (size_parabola e)); rewrite !ltnS.
  by exists u, g', k; split=> // e j he hj; rewrite H.
rewrite leqn0 => /eqP p0.
have [u [g' [k [h _ _ H]]]] := C83_breakpoints sN parabola_exact.
exists u, g', k; split=> // e j he hj; have [l r] := H e he; rewrite -(pE e).
have : j = 0%N \/ j = n by move: hj; rewrite p0; clear; case: j => [|[|j]] //; [left|right].
case=> ->; first by rewrite posE // (bar_first hg) cell_left addn0.
by rewrite posE // (bar_last hg) cell_right -mulSnr.
Qed.
End Bar.

(** Inside the elements the values need not be exact: one element of order 2 with the
    load x^2. *)
Theorem C83_inside_refuted (R : rcfType) (eps : R) (inv : 'M[R]_1 -> 'M[R]_1) :
  (forall J : 'M[R]_1, J \in unitmx -> inv J = invmx J) ->
  exists g brk f U u g' k, [/\ nodes1d_create R 3 GAUSS_LOBATTO_LEGENDRE = inr g, forall i, brk i < brk i.+1,
    size f = 3%N /\ exact 1 1 g brk true f U,
    solve_poisson eps inv (Poisson_props.bar 1 1 g brk) (bar_masks 1 1) f (cond R true) 0 0 = inr (CGDone [:: u] g' k) &
    nth 0 u 1 <> (U 0%N).[pos 1 1 g brk 1]].
Proof.
move=> inv_ok; have [g hg] : exists g, nodes1d_create R 3 GAUSS_LOBATTO_LEGENDRE = inr g by apply/C33_creates.
pose brk (i : nat) : R := i%:R *+ 2 - 1; have inc i : brk i < brk i.+1 by rewrite /brk ltr_add2r ltr_pmuln2r ?ltr_nat.
pose xs := nd_values g; pose f := [seq x ^+ 2 | x <- xs].
pose U (e : nat) : {poly R} := 12%:R^-1 *: (1 - 'X ^+ 4).
have [srt sx _ rt] := C33_lobatto_nodes hg.
have hh : half brk 0 = 1 by rewrite /half /brk mulr1n mul0rn sub0r opprK subrK divff // pnatr_eq0.
have cX : cell brk 0 = 'X by rewrite /cell hh /brk mul0rn sub0r addNr polyC0 add0r scale1r.
have x0 : nth 0 xs 0 = -1 := bar_first hg; have x2 : nth 0 xs 2 = 1 := bar_last hg.
have x1 : nth 0 xs 1 = 0.
  have : 0 \in xs.
    apply/rt; rewrite hornerM legendreSS legendre1 legendre0 derivZ derivB !derivZ derivM derivX mul1r mulr1 -[1 : {poly R}]/(1%:P) derivC scaler0 subr0.
    by rewrite !hornerZ !hornerD !hornerX addr0 !mulr0.
  move=> /(nthP 0)[i]; rewrite sx; case: i => [|[|[|i]]] // _; rewrite -/xs ?x0 ?x2 => // /eqP; rewrite ?oppr_eq0 ?oner_eq0 //.
have b0 : brk 0%N = -1 by rewrite /brk mul0rn sub0r.
have b1 : brk 1%N = 1 by rewrite /brk mulr2n addrK.
have pE k : (k <= 2)%N -> pos 1 1 g brk k = nth 0 xs k.
  by move=> hk; have := posE brk (isT : (0 < 1)%N) hg (isT : (0 < 1)%N) hk; rewrite mul0n add0n cX hornerX.
have fE k : (k <= 2)%N -> nth 0 f k = (nth 0 xs k) ^+ 2 by move=> hk; rewrite (nth_map 0) // sx.
have sf : size f = 3%N by rewrite size_map.
have UE (x : R) : (U 0%N).[x] = (1 - x ^+ 4) / 12%:R by rewrite /U hornerZ hornerD hornerN hornerXn -polyC1 hornerC mulrC.
have s4 (P : {poly R}) c k : (size P <= k)%N -> (size (c *: P) <= k)%N by exact: (leq_trans (size_scale_leq _ _)).
pose b : {poly R} := 1 - 'X ^+ 2; have sq2 : (size b <= 3)%N.
  by apply: (leq_trans (size_add _ _)); rewrite geq_max size_opp size_polyXn size_poly1.
have ex : exact 1 1 g brk true f U.
  split=> [e|e k he hk|//||].
  - by apply: s4; apply: (leq_trans (size_add _ _)); rewrite geq_max size_opp size_polyXn size_poly1.
  - move: he; rewrite ltnS leqn0 => /eqP ->; rewrite mul0n add0n pE // fE // /U !derivZ derivB -polyC1 derivC sub0r derivN derivXn.
    rewrite derivMn derivXn hornerZ hornerN !hornerMn hornerXn /=; move: (nth 0 xs k) => x; by field.
  - by rewrite UE b0 -signr_odd /= expr0 subrr mul0r.
  - by rewrite /= UE b1 expr1n subrr mul0r.
have [fs sp [u [g' [k [h1 h2 wu _]]]]] := found eps (isT : (0 < 1)%N) hg inc inv_ok true sf.
exists g, brk, f, U, u, g', k; split=> //.
rewrite pE // x1 UE expr0n /= subr0 => u1.
have [/(bar_adm true u sp)[su z0 z1] _] := wu.
have W := @bar_weak R eps inv 1 1 g brk isT hg inc inv_ok true fs f u [:: 0; 1; 0] sp wu (And3 erefl erefl (fun=> erefl)).
move: W; rewrite (bar_l2 (isT : (0 < 1)%N) hg sp) !big_ord1 hh invr1 !mul1r.
have bE (x : R) : b.[x] = 1 - x ^+ 2 by rewrite /b hornerD hornerN hornerXn -polyC1 hornerC.
have b' : b^`() = - 'X *+ 2 by rewrite /b derivB -polyC1 derivC sub0r derivXn mulNrn.
have onv : on 1 g 0 [:: 0; 1; 0] = b.
  apply: (on_unique hg) => // -[|[|[|j]]] // _; rewrite bE -/xs ?x0 ?x1 ?x2 ?sqrrN ?expr1n ?subrr // expr0n subr0 //.
have onu : on 1 g 0 u = nth 0 u 1 *: b.
  apply: (on_unique hg) => [|[|[|[|j]]] // _]; first exact: s4.
  - by rewrite hornerZ bE -/xs x0 sqrrN expr1n subrr mulr0 z0.
  - by rewrite hornerZ bE -/xs x1 expr0n subr0 mulr1.
  - by rewrite hornerZ bE -/xs x2 expr1n subrr mulr0 z1.
have onf : on 1 g 0 f = 'X ^+ 2.
  by apply: (on_unique hg) => [|j hj]; rewrite ?size_polyXn // hornerXn fE.
rewrite onv onu onf u1 derivZ b' -scalerAl linearZ /=.
have D j (c : R) : (c *: 'X ^+ j.+1 : {poly R})^`() = (c * j.+1%:R) *: 'X ^+ j by rewrite derivZ derivXn -scaler_nat scalerA.
have -> : - 'X *+ 2 * (- 'X *+ 2) = ((4%:R / 3%:R) *: 'X ^+ 3 : {poly R})^`().
  rewrite D divfK ?pnatr_eq0 // scaler_nat.
  by rewrite !mulNrn mulrNN mulrnAl mulrnAr -mulrnA expr2.
have -> : 'X ^+ 2 * b = (3%:R^-1 *: 'X ^+ 3 - 5%:R^-1 *: 'X ^+ 5)^`().
  rewrite derivB !D !mulVf ?pnatr_eq0 // !scale1r.
  by rewrite /b mulrBr mulr1 -exprD.
rewrite !integral_deriv !hornerD !hornerN !hornerZ !hornerXn !expr1n -!(signr_odd _ 3) -!(signr_odd _ 5) /= !expr1 => E.
have : 10%:R = 12%:R :> R; last by move/eqP; rewrite eqr_nat.
have := congr1 (fun x => 45%:R * x) E; set a := (X in X = _ -> _); set c := (X in _ = X -> _).
have -> : a = 10%:R by rewrite /a; field.
by have -> : c = 12%:R by rewrite /c; field.
Qed.

Print Assumptions C83_problem.
Print Assumptions C83_breakpoints.
Print Assumptions C83_polynomial.
Print Assumptions C83_best.
Print Assumptions C83_inside_refuted.
