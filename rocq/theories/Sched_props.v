(** C66: the learning-rate and KL schedules of the trainer. *)
From mathcomp Require Import all_ssreflect all_algebra ring zify.
From Verif Require Import Sched_model.
Set Implicit Arguments.
Unset Strict Implicit.
Unset Printing Implicit Defensive.
Import Order.TTheory GRing.Theory Num.Theory.
Local Open Scope ring_scope.

(** What the proofs use of [x |-> cos (pi x)] on [[0, 1]]. *)
Definition half_cosine (R : realFieldType) (hc : R -> R) : Prop :=
  [/\ hc 0 = 1, hc 1 = -1 & forall x y, 0 <= x -> x <= y -> y <= 1 -> hc y <= hc x].

Section Linear.
Variable R : realFieldType.
Implicit Types (a b n t : R).

Lemma linear_inside a b n t : 0 < n -> 0 <= t -> t <= n -> linear_schedule a b n t = a + (b - a) * (t / n).
Proof.
move=> n0 t0 tn; rewrite /linear_schedule leNgt n0 /= (max_idPl t0) (min_idPl tn); ring.
Qed.
Lemma linear_after a b n t : 0 < n -> n <= t -> linear_schedule a b n t = b.
Proof.
move=> n0 nt; rewrite /linear_schedule leNgt n0 /= (max_idPl (le_trans (ltW n0) nt)) (min_idPr nt) divff ?lt0r_neq0 //; ring.
Qed.
Lemma join2 (f g : schedule R) w t : join_schedules f [:: g] [:: w] t = if t < w then f t else g (t - w).
Proof. by []. Qed.
End Linear.

Section C66.
Variables (R : realFieldType) (hc : R -> R) (c : config R) (spe : nat).
Hypothesis hcok : half_cosine hc.
Notation W := (warmup_epochs c * spe%:R).
Notation N := (num_epochs c * spe%:R).

Lemma hc_range x : 0 <= x -> x <= 1 -> -1 <= hc x <= 1.
Proof. by case: hcok => h0 h1 hm x0 x1; have := hm _ _ x0 x1 (lexx 1); have := hm _ _ (lexx 0) x0 x1; rewrite h0 h1 => -> ->. Qed.

(** ** The learning rate *)
(** The schedule exists exactly if an epoch has a step. *)
Theorem C66_creates base : (exists lr, create_learning_rate_fn hc c base spe = inr lr) <-> (0 < spe)%N.
Proof.
rewrite /create_learning_rate_fn /cosine_decay_schedule; case: spe => [|n] /=.
  by rewrite mulr0 ltxx; split=> // -[].
by rewrite mulr_gt0 ?ltr0Sn ?lt_maxr ?ltr01 ?orbT //; split=> // _; eexists.
Qed.

Section LR.
Variables (base : R) (lr : schedule R).
Hypotheses (made : create_learning_rate_fn hc c base spe = inr lr) (b0 : 0 <= base) (w0 : 0 <= warmup_epochs c).
Let K := Num.max (num_epochs c - warmup_epochs c) 1 * spe%:R.
Let s0 : (0 : R) < spe%:R. Proof. by rewrite ltr0n; apply/(C66_creates base); exists lr. Qed.
Let W0 : 0 <= W. Proof. by rewrite mulr_ge0 // ltW. Qed.
Let K0 : 0 < K. Proof. by rewrite mulr_gt0 // lt_maxr ltr01 orbT. Qed.

Lemma lrE t : lr t = if t < W then linear_schedule 0 base W t else base * (2%:R^-1 * (1 + hc (Num.min (t - W) K / K))).
Proof. by move: made; rewrite /create_learning_rate_fn /cosine_decay_schedule -/K K0 => -[<-]. Qed.
Lemma min_frac x : 0 <= x -> 0 <= Num.min x K / K <= 1.
Proof.
move=> x0; rewrite divr_ge0 ?(ltW K0) ?le_minr ?x0 ?(ltW K0) //= ler_pdivr_mulr // mul1r.
by rewrite le_minl lexx orbT.
Qed.
(** During the warm-up the rate grows linearly from 0 to the base rate. *)
Theorem C66_warmup t : 0 <= t -> t <= W -> 0 < W -> lr t = base * (t / W).
Proof.
move=> t0 tW Wp; rewrite lrE; case: ltP => [h|h]; first by rewrite linear_inside // add0r subr0.
have -> : t = W by apply/eqP; rewrite eq_le tW.
rewrite subrr (min_idPl (ltW K0)) mul0r; case: hcok => -> _ _; rewrite divff ?lt0r_neq0 //.
by rewrite -mulr2n mulVf ?pnatr_eq0 // mulr1.
Qed.
Theorem C66_peak : lr W = base.
Proof.
rewrite lrE ltxx subrr (min_idPl (ltW K0)) mul0r; case: hcok => -> _ _.
by rewrite -mulr2n mulVf ?pnatr_eq0 // mulr1.
Qed.
(** Afterwards it never grows. *)
Theorem C66_decay s t : W <= s -> s <= t -> lr t <= lr s.
Proof.
move=> Ws st; rewrite !lrE !ltNge Ws (le_trans Ws st) /= ler_wpmul2l // ler_pmul2l ?invr_gt0 ?ltr0n // ler_add2l.
have sx : 0 <= s - W by rewrite subr_ge0.
have tx : 0 <= t - W by rewrite subr_ge0 (le_trans Ws).
have /andP[p1 _] := min_frac sx; have /andP[_ p2] := min_frac tx.
case: hcok => _ _; apply=> //; rewrite ler_pmul2r ?invr_gt0 //.
by rewrite le_minr !le_minl ler_add2r st /= lexx orbT.
Qed.
(** It always lies between 0 and the base rate. *)
Theorem C66_range t : 0 <= t -> 0 <= lr t <= base.
Proof.
move=> t0; rewrite lrE; case: ltP => h.
  have Wp := le_lt_trans t0 h; rewrite linear_inside ?(ltW h) // add0r subr0.
  have f0 : 0 <= t / W by rewrite divr_ge0 // ltW.
  by rewrite mulr_ge0 //= ler_pimulr // ler_pdivr_mulr // mul1r ltW.
have tx : 0 <= t - W by rewrite subr_ge0.
have /andP[p1 p2] := min_frac tx; have /andP[q1 q2] := hc_range p1 p2.
have h2 : (0 : R) < 2%:R by rewrite ltr0n.
have h3 : 0 <= 2%:R^-1 * (1 + hc (Num.min (t - W) K / K)).
  by rewrite mulr_ge0 ?invr_ge0 ?ler0n // -ler_subl_addl sub0r.
rewrite mulr_ge0 //= ler_pimulr // mulrC ler_pdivr_mulr // mul1r.
by rewrite (_ : 2%:R = 1 + 1) ?ler_add2l // -mulr2n.
Qed.
(** It is 0 from the end of the last epoch on, if at least one epoch follows the warm-up. *)
Theorem C66_end t : warmup_epochs c + 1 <= num_epochs c -> N <= t -> lr t = 0.
Proof.
move=> h Nt; have h1 : 1 <= num_epochs c - warmup_epochs c by rewrite ler_subr_addl.
have KE : K = N - W by rewrite /K (max_idPl h1) mulrBl.
have Wt : W <= t by rewrite (le_trans _ Nt) // ler_pmul2r // (le_trans _ h) // ler_addl ler01.
rewrite lrE ltNge Wt /= (min_idPr _) ?KE ?ler_add2r // -KE divff ?lt0r_neq0 //.
by case: hcok => _ -> _; rewrite subrr mulr0 mulr0.
Qed.
(** With less than one epoch after the warm-up the decay still takes one epoch, so
    the last rate of the training is that of an unfinished decay. *)
Theorem C66_short t : num_epochs c <= warmup_epochs c + 1 -> W <= t -> t <= W + spe%:R ->
  lr t = base * (2%:R^-1 * (1 + hc ((t - W) / spe%:R))).
Proof.
move=> h Wt tW; have h1 : num_epochs c - warmup_epochs c <= 1 by rewrite ler_subl_addl.
have KE : K = spe%:R by rewrite /K (max_idPr h1) mul1r.
by rewrite lrE ltNge Wt /= KE (min_idPl _) // ler_subl_addl.
Qed.
End LR.

(** ** The triangular rate (made by the trainer, but not used by it) *)
Theorem C66_updown base t : 0 < W -> 0 <= t -> t <= W ->
  create_updown_learning_rate_fn c base spe (W - t) = base * (1 - t / W) /\
  create_updown_learning_rate_fn c base spe (W + t) = base * (1 - t / W).
Proof.
move=> Wp t0 tW; rewrite /create_updown_learning_rate_fn !join2; split.
  case: ltP => h.
    rewrite linear_inside ?subr_ge0 ?(ltW h) // add0r subr0 mulrBl divff ?lt0r_neq0 //.
  have -> : t = 0 by apply/eqP; rewrite eq_le t0 andbT -(ler_add2l (W - t)) addr0 subrK.
  by rewrite subr0 subrr linear_inside ?(ltW Wp) // mul0r mulr0 addr0 subr0 mulr1.
rewrite ltNge ler_addl t0 /= addrC addKr linear_inside //.
by rewrite sub0r mulNr mulrBr mulr1.
Qed.
Theorem C66_updown_end base t : 0 < W -> W + W <= t -> create_updown_learning_rate_fn c base spe t = 0.
Proof.
move=> Wp Wt; rewrite /create_updown_learning_rate_fn join2 ltNge (le_trans _ Wt) ?ler_addl ?(ltW Wp) //=.
by rewrite linear_after // ler_subr_addr.
Qed.

(** ** The KL penalty *)
Notation Z := (kl_zero_epochs c * spe%:R).
Notation T := (kl_transition_epochs c * spe%:R).
Notation kl := (create_kl_penalty_fn c spe).
Theorem C66_kl_zero t : t < Z -> kl t = 0.
Proof. by move=> h; rewrite /create_kl_penalty_fn join2 h. Qed.
Theorem C66_kl_ramp t : 0 < T -> 0 <= t -> t <= T -> kl (Z + t) = kl_penalty c * (t / T).
Proof.
move=> T0 t0 tT; rewrite /create_kl_penalty_fn join2 ltNge ler_addl t0 /= addrC addKr linear_inside //.
by rewrite add0r subr0.
Qed.
Theorem C66_kl_full t : 0 < T -> Z + T <= t -> kl t = kl_penalty c.
Proof.
move=> T0 h; have Zt : Z <= t by rewrite (le_trans _ h) // ler_addl ltW.
by rewrite /create_kl_penalty_fn join2 ltNge Zt /= linear_after // ler_subr_addl.
Qed.
(** "After the transition the penalty is [kl_penalty]" fails for a transition of no
    epochs: the penalty is then 0 at every step. *)
Theorem C66_kl_refuted t : kl_transition_epochs c = 0 -> kl t = 0.
Proof.
move=> e; rewrite /create_kl_penalty_fn e mul0r join2 /linear_schedule lexx.
by case: ifP.
Qed.
End C66.

(** ** Example: a warm-up of one epoch, with a straight line for the cosine *)
Section Ex.
Notation Q := [realFieldType of rat].
Let hc (x : Q) : Q := 1 - x - x.
Let c : config Q := Config 1 3%:R (1 / 2%:R) 2%:R 1 1 4.
Example ex_hc : half_cosine hc.
Proof.
split; rewrite /hc; [by apply/eqP; vm_compute|by apply/eqP; vm_compute|].
by move=> x y x0 xy y1; apply: ler_sub => //; apply: ler_sub.
Qed.
Example ex_lr : if create_learning_rate_fn hc c 1 2 is inr lr
  then [&& lr 1 == 1 / 2%:R, lr 2%:R == 1, lr 4%:R == 1 / 2%:R & lr 6%:R == 0] else false.
Proof. by vm_compute. Qed.
Example ex_kl : [/\ create_kl_penalty_fn c 2 1 = 0, create_kl_penalty_fn c 2 4%:R = 1 / 4%:R & create_kl_penalty_fn c 2 6%:R = 1 / 2%:R].
Proof. by split; apply/eqP; vm_compute. Qed.
Example ex_updown : create_updown_learning_rate_fn c 1 2 3%:R = 1 / 2%:R.
Proof. by apply/eqP; vm_compute. Qed.
End Ex.

(** With the base rate of l.587 the peak grows with the batch, and is the configured rate
    for batches of 256. *)
Theorem C66_base (R : realFieldType) (hc : R -> R) (c : config R) (spe : nat) lr : half_cosine hc ->
  create_learning_rate_fn hc c (base_rate c) spe = inr lr ->
  lr (warmup_epochs c * spe%:R) *+ 256 = learning_rate c *+ batch_size c.
Proof.
move=> h /(C66_peak h) ->; rewrite /base_rate -[LHS]mulr_natr divfK ?mulr_natr //.
by rewrite pnatr_eq0.
Qed.

Print Assumptions C66_creates.
Print Assumptions C66_base.
Print Assumptions C66_warmup.
Print Assumptions C66_peak.
Print Assumptions C66_decay.
Print Assumptions C66_range.
Print Assumptions C66_end.
Print Assumptions C66_short.
Print Assumptions C66_updown.
Print Assumptions C66_updown_end.
Print Assumptions C66_kl_zero.
Print Assumptions C66_kl_ramp.
Print Assumptions C66_kl_full.
Print Assumptions C66_kl_refuted.
