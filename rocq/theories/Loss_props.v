(** C69: the loss of the trainer, its metrics, and training on several devices. *)
From mathcomp Require Import all_ssreflect all_algebra ring zify.
From Verif Require Import Loss_model.
Set Implicit Arguments.
Unset Strict Implicit.
Unset Printing Implicit Defensive.
Import Order.TTheory GRing.Theory Num.Theory.
Local Open Scope ring_scope.

Section Sums.
Variables (R : realFieldType) (V : lmodType R).
Lemma sumlE (W : zmodType) (s : seq W) : suml s = \sum_(x <- s) x.
Proof. by rewrite /suml; elim: s => [|x s IH]; rewrite ?big_nil ?big_cons //= IH. Qed.
Lemma meanlE (s : seq V) : meanl s = (size s)%:R^-1 *: \sum_(x <- s) x.
Proof. by rewrite /meanl -/(suml s) sumlE. Qed.
End Sums.

(** ** Spreading a batch over devices *)
Section Spread.
Variables (T : Type).
Theorem C69_spread devices (x : seq T) : (exists xs, spread devices x = inr xs) <-> (0 < devices)%N /\ (devices %| size x)%N.
Proof.
rewrite /spread; case: ifP => [/andP[-> ->]|h]; first by split=> // _; eexists.
by split=> [[]//|[h1 h2]]; move: h; rewrite h1 h2.
Qed.
(** The devices get consecutive parts of equal size, which together are the batch. *)
Theorem C69_parts devices (x : seq T) xs : spread devices x = inr xs ->
  [/\ flatten xs = x, size xs = devices & all (fun y => size y == size x %/ devices)%N xs].
Proof.
rewrite /spread; case: ifP => // /andP[d0 dx] [<-].
have sE : sumn (nseq devices (size x %/ devices)%N) = size x by rewrite sumn_nseq divnK.
split; first by rewrite reshapeKr // sE.
  by rewrite -(size_map size) -/(shape _) reshapeKl ?sE // size_nseq.
have : shape (reshape (nseq devices (size x %/ devices)%N) x) = nseq devices (size x %/ devices)%N by rewrite reshapeKl ?sE.
move: (reshape _ _) => ys; rewrite /shape => e.
have -> : all (fun y => size y == size x %/ devices)%N ys = all (pred1 (size x %/ devices)%N) (map size ys) by rewrite all_map.
by rewrite e all_pred1_nseq.
Qed.
End Spread.

Section C69.
Variable R : realFieldType.
(** The mean over the devices of the means over their parts is the mean over the batch:
    this holds for numbers (losses) and vectors (gradients). *)
Theorem C69_pmean (V : lmodType R) (T : Type) (g : T -> V) devices (x : seq T) xs : (0 < size x)%N -> spread devices x = inr xs ->
  meanl [seq meanl [seq g e | e <- y] | y <- xs] = meanl [seq g e | e <- x].
Proof.
move=> x0 h; have [f s a] := C69_parts h; have [d0 dx] := (C69_spread devices x).1 (ex_intro _ xs h).
have q0 : (0 < size x %/ devices)%N by rewrite divn_gt0 // dvdn_leq.
have fE : \sum_(z <- [seq g e | e <- x]) z = \sum_(y <- xs) \sum_(z <- [seq g e | e <- y]) z.
  by rewrite -{1}f map_flatten big_flatten big_map.
rewrite !meanlE !size_map s fE big_map.
have -> : \sum_(y <- xs) meanl [seq g e | e <- y] = (size x %/ devices)%N%:R^-1 *: \sum_(y <- xs) \sum_(z <- [seq g e | e <- y]) z.
  rewrite scaler_sumr; elim: xs a {h f s fE} => [|y xs IH] /=; first by rewrite !big_nil.
  by case/andP=> /eqP e a; rewrite !big_cons IH // meanlE size_map e.
by rewrite scalerA -invfM -natrM mulnC divnK.
Qed.

Notation mean := (@meanl R [lmodType R of R^o]).
Lemma meanD (T : Type) (f g : T -> R) x : mean [seq f e + g e | e <- x] = mean [seq f e | e <- x] + mean [seq g e | e <- x].
Proof. by rewrite !meanlE !size_map !big_map big_split scalerDr. Qed.
Lemma meanZ (T : Type) a (f : T -> R) x : mean [seq a * f e | e <- x] = a * mean [seq f e | e <- x].
Proof. by rewrite !meanlE !size_map !big_map -mulr_sumr; exact: mulrCA. Qed.
Lemma mean_ge0 (s : seq R) : (forall x, x \in s -> 0 <= x) -> 0 <= mean s.
Proof. by move=> h; rewrite meanlE mulr_ge0 ?invr_ge0 ?ler0n // big_seq sumr_ge0. Qed.

Variables (time_order steps : nat) (pen : R).
(** The loss of one entry: half the squared distance to the data that follow the initial
    states, over all steps, plus the penalty for all KL terms *)
Definition distance (e : entry R) : R :=
  \sum_(0 <= t < steps) l2_loss (nth [::] (preds e) t) (nth [::] (window e) (time_order + t)).
Definition kl (e : entry R) : R := \sum_(q <- kls e) (q.1 + q.2).
Definition entry_loss (e : entry R) : R := distance e + pen * kl e.

Lemma foldl_acc (f : R * R -> R) s a : foldl (fun acc q => f q + acc) a s = a + \sum_(q <- s) f q.
Proof. by elim: s a => [|q s IH] a /=; rewrite ?big_nil ?addr0 // IH big_cons [f q + a]addrC addrA. Qed.
Lemma totals e : total_q0 e + total_path e = kl e.
Proof. by rewrite /total_q0 /total_path (foldl_acc fst) (foldl_acc snd) !add0r -big_split. Qed.
Lemma mseE batch : suml (mse time_order steps batch) = mean [seq distance e | e <- batch].
Proof.
rewrite sumlE /mse big_map meanlE size_map big_map /distance exchange_big /= scaler_sumr.
rewrite /index_iota subn0; apply: eq_big_seq => t; rewrite mem_iota add0n => /andP[_ ht].
rewrite meanlE size_map big_map; apply: (congr1 (fun z : R^o => (size batch)%:R^-1 *: z)); apply: eq_bigr => e _.
by rewrite /targets nth_take // nth_drop.
Qed.
(** It exists exactly if there is an entry and all windows are long enough. *)
Theorem C69_creates batch : (exists o, compute_mse_loss time_order steps pen batch = inr o) <->
  (0 < size batch)%N /\ all (fun e => time_order + steps <= size (window e))%N batch.
Proof.
rewrite /compute_mse_loss; case: (all _ _); case: batch => [|e b] /=; split; try by case.
by move=> _; eexists.
Qed.
(** The loss is the mean of the losses of the entries. *)
Theorem C69_loss batch o : compute_mse_loss time_order steps pen batch = inr o -> o_loss o = mean [seq entry_loss e | e <- batch].
Proof.
rewrite /compute_mse_loss; case: ifP => // _; case: batch => // e0 b0; move: (e0 :: b0) => batch [<-] /=.
rewrite mseE /entry_loss meanD meanZ; congr (_ + _ * _).
by rewrite -meanD; congr (mean _); apply: eq_map => e; exact: totals.
Qed.
(** Training on several devices gives the loss of the whole batch. *)
Theorem C69_parallel devices batch parts o : spread devices batch = inr parts ->
  compute_mse_loss time_order steps pen batch = inr o ->
  exists os, [/\ [seq compute_mse_loss time_order steps pen y | y <- parts] = [seq inr p | p <- os],
    mean [seq o_loss p | p <- os] = o_loss o & mean [seq o_kl p | p <- os] = o_kl o].
Proof.
move=> h ho; have [x0 aw] := (C69_creates batch).1 (ex_intro _ o ho).
have [f s a] := C69_parts h; have [d0 dx] := (C69_spread devices batch).1 (ex_intro _ parts h).
have q0 : (0 < size batch %/ devices)%N by rewrite divn_gt0 // dvdn_leq.
have [os osE] : exists os, [seq compute_mse_loss time_order steps pen y | y <- parts] = [seq inr p | p <- os].
  move: aw; rewrite -f; elim: parts a {h f s} => [|y ps IH] /=; first by exists [::].
  case/andP=> /eqP e a; rewrite all_cat => /andP[a1 a2]; have [os ->] := IH a a2.
  by have [|p ->] := (C69_creates y).2; [rewrite e | exists (p :: os)].
have mapE (get : outcome R -> R) (v : entry R -> R) :
   (forall b p, compute_mse_loss time_order steps pen b = inr p -> get p = mean [seq v e | e <- b]) ->
   [seq get p | p <- os] = [seq mean [seq v e | e <- y] | y <- parts].
  move=> hg; elim: parts os osE {h f s a} => [|y ps IH] [|p os] //= [e1 e2].
  by rewrite (hg _ _ e1) (IH _ e2).
exists os; split=> //.
  by rewrite (mapE _ entry_loss C69_loss) (@C69_pmean [lmodType R of R^o] _ entry_loss _ _ _ x0 h) -(C69_loss ho).
have klE b p : compute_mse_loss time_order steps pen b = inr p -> o_kl p = mean [seq pen * kl e | e <- b].
  rewrite /compute_mse_loss; case: ifP => // _; case: b => // e0 b0; move: (e0 :: b0) => b [<-] /=.
  by rewrite meanZ; congr (_ * _); rewrite -meanD; congr (mean _); apply: eq_map => e; exact: totals.
by rewrite (mapE _ _ klE) (@C69_pmean [lmodType R of R^o] _ (fun e => pen * kl e) _ _ _ x0 h) -(klE _ _ ho).
Qed.

(** ** Sign and zeros *)
Lemma l2_ge0 (p t : seq R) : 0 <= l2_loss p t.
Proof. by rewrite /l2_loss sumlE big_map sumr_ge0 // => ab _; rewrite mulr_ge0 ?invr_ge0 ?ler0n ?sqr_ge0. Qed.
Lemma l2_eq0 (p t : seq R) : size p = size t -> l2_loss p t = 0 <-> p = t.
Proof.
rewrite /l2_loss sumlE big_map; elim: p t => [|a p IH] [|b' t] //=; first by rewrite big_nil.
case=> e; rewrite big_cons; have g : 0 <= \sum_(ab <- zip p t) 2%:R^-1 * (ab.1 - ab.2) ^+ 2.
  by rewrite sumr_ge0 // => ab _; rewrite mulr_ge0 ?invr_ge0 ?ler0n ?sqr_ge0.
split=> [/eqP|[-> <-]]; last by rewrite subrr expr0n mulr0 add0r; apply/(IH p erefl).
have g1 : 0 <= 2%:R^-1 * (a - b') ^+ 2 by rewrite mulr_ge0 ?invr_ge0 ?ler0n ?sqr_ge0.
rewrite paddr_eq0 // mulf_eq0 invr_eq0 pnatr_eq0 /= sqrf_eq0 subr_eq0.
by case/andP=> /eqP -> /eqP/(IH t e) ->.
Qed.
Lemma distance_ge0 e : 0 <= distance e.
Proof. by apply: sumr_ge0 => t _; exact: l2_ge0. Qed.
Definition kl_nonneg (e : entry R) : bool := all (fun q => (0 <= q.1) && (0 <= q.2)) (kls e).
Lemma kl_ge0 e : kl_nonneg e -> 0 <= kl e.
Proof.
move=> /allP h; rewrite /kl big_seq sumr_ge0 // => q hq.
by have /andP[h1 h2] := h q hq; exact: addr_ge0.
Qed.
Theorem C69_nonneg batch o : 0 <= pen -> all kl_nonneg batch ->
  compute_mse_loss time_order steps pen batch = inr o -> 0 <= o_loss o.
Proof.
move=> p0; rewrite all_count => /eqP hk /C69_loss ->; apply: mean_ge0 => x.
have hb : forall e, List.In e batch -> kl_nonneg e.
  move/eqP: hk; rewrite -all_count; elim: batch => //= e b IH /andP[h1 h2] e' [<-//|]; exact: IH.
elim: batch hb {hk} => //= e b IH hb; rewrite inE => /orP[/eqP->|]; last by apply: IH => e' he; apply: hb; right.
by rewrite addr_ge0 ?distance_ge0 // mulr_ge0 // kl_ge0 //; apply: hb; left.
Qed.
(** Without penalty it is zero exactly if all predictions are the data. *)
Definition same_sizes (e : entry R) : Prop := forall t, (t < steps)%N -> size (nth [::] (preds e) t) = size (nth [::] (window e) (time_order + t)).
Theorem C69_zero batch o : pen = 0 -> (forall e, List.In e batch -> same_sizes e) ->
  compute_mse_loss time_order steps pen batch = inr o ->
  o_loss o = 0 <-> forall e, List.In e batch -> forall t, (t < steps)%N -> nth [::] (preds e) t = nth [::] (window e) (time_order + t).
Proof.
move=> p0 hs ho; have [b0 _] := (C69_creates batch).1 (ex_intro _ o ho); rewrite (C69_loss ho) meanlE size_map big_map.
have n0 : ((size batch)%:R^-1 : R) != 0 by rewrite invr_eq0 pnatr_eq0 -lt0n.
have d0 e : same_sizes e -> entry_loss e = 0 <-> forall t, (t < steps)%N -> nth [::] (preds e) t = nth [::] (window e) (time_order + t).
  move=> se; rewrite /entry_loss p0 mul0r addr0 /distance big_mkord; split=> [h t ht|h].
    have := psumr_eq0P (fun i _ => l2_ge0 _ _) h (i := Ordinal ht) isT; move=> /= /l2_eq0; apply; exact: se.
  by apply: big1 => t _; apply/l2_eq0; [apply: se; exact: ltn_ord | apply: h; exact: ltn_ord].
have eg e : 0 <= entry_loss e by rewrite /entry_loss p0 mul0r addr0 distance_ge0.
have -> : ((size batch)%:R^-1 *: (\sum_(j <- batch) entry_loss j : R^o) = 0) <-> \sum_(j <- batch) entry_loss j = 0.
  by split=> [/eqP|->]; [rewrite mulf_eq0 (negbTE n0) => /eqP | exact: mulr0].
elim: batch hs {ho b0 n0} => [|e b IH] hs; first by rewrite big_nil; split.
have {}IH := IH (fun e' he => hs e' (or_intror he)).
rewrite big_cons; have g : 0 <= \sum_(j <- b) entry_loss j by exact: sumr_ge0.
split=> [/eqP|h]; last first.
  have -> : entry_loss e = 0 by apply/(d0 e (hs e (or_introl erefl))); apply: h; left.
  by rewrite add0r; apply/IH => e' he; apply: h; right.
rewrite paddr_eq0 // => /andP[/eqP h1 /eqP/IH h2] e' [<-|he]; last exact: h2.
exact/(d0 e (hs e (or_introl erefl))).
Qed.

(** ** Metrics *)
(** The mean of the steps' errors is the loss without penalty divided by the steps. *)
Theorem C69_metric_mse batch o : pen = 0 -> compute_mse_loss time_order steps pen batch = inr o ->
  m_mse (compute_metrics o) = steps%:R^-1 * o_loss o.
Proof.
rewrite /compute_mse_loss => p0; case: ifP => // _; case: batch => // e0 b0; move: (e0 :: b0) => batch [<-] /=.
by rewrite p0 mul0r addr0 meanlE sumlE /mse size_map size_iota.
Qed.
(** 'mse@k' is the error of step k, if there are so many steps; otherwise it is silently
    the error of the last step. *)
Theorem C69_metric_at batch o i : (i < 5)%N -> (0 < steps)%N -> compute_mse_loss time_order steps pen batch = inr o ->
  let k := nth 0%N [:: 8; 16; 32; 64; 128]%N i in
  nth 0 (m_at (compute_metrics o)) i = nth 0 (o_mse o) (minn k steps).-1.
Proof.
move=> i5 s0; rewrite /compute_mse_loss; case: ifP => // _; case: batch => // e0 b0; move: (e0 :: b0) => batch [<-] /=.
rewrite /clamped (_ : size (mse time_order steps batch) = steps); last by rewrite size_map size_iota.
by case: i i5 => [|[|[|[|[|]]]]] //= _; congr nth; lia.
Qed.
Theorem C69_metric_refuted batch o : (0 < steps)%N -> (steps <= 64)%N -> compute_mse_loss time_order steps pen batch = inr o ->
  nth 0 (m_at (compute_metrics o)) 3 = nth 0 (m_at (compute_metrics o)) 4.
Proof.
move=> s0 s64 ho; rewrite (C69_metric_at (i := 3) isT s0 ho) (C69_metric_at (i := 4) isT s0 ho).
by congr nth; rewrite /=; lia.
Qed.
(** 'mse@1to8' is the mean error of the first eight steps, or of all if there are fewer. *)
Theorem C69_metric_first batch o : compute_mse_loss time_order steps pen batch = inr o ->
  m_first8 (compute_metrics o) = (minn 8 steps)%:R^-1 * \sum_(t < minn 8 steps) nth 0 (o_mse o) t.
Proof.
rewrite /compute_mse_loss; case: ifP => // _; case: batch => // e0 b0; move: (e0 :: b0) => batch [<-] /=.
have sm : size (mse time_order steps batch) = steps by rewrite size_map size_iota.
have st : size (take 8 (mse time_order steps batch)) = minn 8 steps by rewrite size_take_min sm.
rewrite meanlE st (big_nth 0) st big_mkord; congr (_ * _); apply: eq_bigr => t _.
by rewrite nth_take //; have := ltn_ord t; rewrite leq_min => /andP[].
Qed.
End C69.

(** ** Examples *)
Definition ex_batch : seq (entry [fieldType of rat]) :=
  [:: Entry [:: [:: 1; 0]; [:: 2%:R; 0]] [:: [:: 5%:R; 5%:R]; [:: 1; 0]; [:: 0; 0]] [:: (1, 0); (0, 2%:R)];
      Entry [:: [:: 1; 1]; [:: 1; 1]] [:: [:: 5%:R; 5%:R]; [:: 1; 3%:R]; [:: 1; 1]] [:: (0, 0); (0, 1)]].
(** distances 2 and 2, KL terms 3 and 1, penalty 1/2 *)
Example ex_loss : if compute_mse_loss 1 2 (1 / 2%:R) ex_batch is inr o
  then [&& o_loss o == 3%:R, o_q0 o == 1 / 2%:R, o_path o == 3%:R / 2%:R & o_mse o == [:: 1; 1]] else false.
Proof. by vm_compute. Qed.
Example ex_parts : if spread 2 ex_batch is inr [:: x; y]
  then if (compute_mse_loss 1 2 (1 / 2%:R) x, compute_mse_loss 1 2 (1 / 2%:R) y) is (inr p, inr q)
       then (o_loss p == 7%:R / 2%:R) && (o_loss q == 5%:R / 2%:R) else false
  else false.
Proof. by vm_compute. Qed.
Example ex_uneven : spread 2 [:: 1; 2; 3]%N = inl LValueError.
Proof. by []. Qed.
Example ex_short : compute_mse_loss 2 2 0 ex_batch = inl LTypeError.
Proof. by []. Qed.
(** Exact predictions *)
Example ex_zero : if compute_mse_loss 1 1 0 [:: Entry [:: [:: 1; 2%:R]] [:: [:: 0; 0]; [:: 1; 2%:R]] [:: (1, 1)] : entry [fieldType of rat]] is inr o
  then o_loss o == 0 else false.
Proof. by vm_compute. Qed.
(** Two steps: 'mse@8' to 'mse@128' are all the error of step 2. *)
Example ex_metrics : if compute_mse_loss 1 2 0 [:: nth (Entry [::] [::] [::]) ex_batch 0] is inr o
  then (m_at (compute_metrics o) == nseq 5 2%:R) && (m_first8 (compute_metrics o) == 1) else false.
Proof. by vm_compute. Qed.

Print Assumptions C69_spread.
Print Assumptions C69_parts.
Print Assumptions C69_pmean.
Print Assumptions C69_creates.
Print Assumptions C69_loss.
Print Assumptions C69_parallel.
Print Assumptions C69_nonneg.
Print Assumptions C69_zero.
Print Assumptions C69_metric_mse.
Print Assumptions C69_metric_at.
Print Assumptions C69_metric_refuted.
Print Assumptions C69_metric_first.
