(** C67: the latent SDE of the closure model and its KL term. *)
From mathcomp Require Import all_ssreflect all_algebra ring zify.
From Verif Require Import Sdeint_model Sdeint_spec Sdeint_proofs Latent_model.
Set Implicit Arguments.
Unset Strict Implicit.
Unset Printing Implicit Defensive.
Import Order.TTheory GRing.Theory Num.Theory.
Local Open Scope ring_scope.

Section Traj.
Variables (R : realFieldType) (n : nat) (C : Type).
Notation latent := 'rV[R]_n.
Notation state := (state R n).
Variable f : state -> R -> latent -> C -> state * state.

Lemma trajectoryE z0 dw ctx : (0 < size dw)%N ->
  trajectory f z0 dw ctx = Some ((sdeint1 f false ((z0, 0) : state) (0, 1) dw ctx).1, (sdeint1 f false ((z0, 0) : state) (0, 1) dw ctx).2 : R).
Proof.
move=> h; rewrite /trajectory /sdeint /= dvd1n /= -[size dw == 0%N]negbK -lt0n h /=.
by rewrite divn1 drop0 take_size.
Qed.
Lemma trajectory0 z0 ctx : trajectory f z0 [::] ctx = None.
Proof. by []. Qed.
(** The states of a solver whose drift and diffusion split into the two parts. *)
Lemma split_path (mu : latent -> R -> latent -> C -> latent) (sg : latent -> R -> latent -> latent) (rate : latent -> R -> C -> R) z0 dw ctx :
  (forall s t w, f s t w ctx = ((mu s.1 t w ctx, rate s.1 t ctx : R^o), (sg s.1 t w, 0))) -> (0 < size dw)%N ->
  exists zs, [/\ zs 0%N = z0, is_path (fun z t w => mu z t w ctx) sg 0 1 dw zs &
    trajectory f z0 dw ctx = Some (zs (size dw), \sum_(k < size dw) (size dw)%:R^-1 * rate (zs k) (k%:R / (size dw)%:R) ctx)].
Proof.
move=> fE h; have [xs [x0 xn px]] := @sdeint1_solves R state latent C f 0 1 ctx false ((z0, 0) : state) dw ltr01.
exists (fun k => (xs k).1); have st k : (k < size dw)%N -> forall w0, xs k.+1 =
    (heun_step (fun z t w => mu z t w ctx) sg ((size dw)%:R^-1) (k%:R / (size dw)%:R) (nth w0 dw k) (xs k).1,
     (xs k).2 + (size dw)%:R^-1 * rate (xs k).1 (k%:R / (size dw)%:R) ctx).
  move=> hk w0; rewrite (px w0 k hk) /heun_step /Sdeint_proofs.mu /Sdeint_proofs.sigma subr0 add0r mul1r !fE /=.
  case: (xs k) => z q /=; congr pair.
  change (q + (size dw)%:R^-1 * rate z (k%:R / (size dw)%:R) ctx + 2%:R^-1 * (0 + 0) = q + (size dw)%:R^-1 * rate z (k%:R / (size dw)%:R) ctx).
  by rewrite addr0 mulr0 addr0.
split; first by rewrite x0.
  by move=> w0 k hk; rewrite /= (st k hk w0) subr0 add0r mul1r.
have sumE m : (m <= size dw)%N -> (xs m).2 = \sum_(k < m) (size dw)%:R^-1 * rate (xs k).1 (k%:R / (size dw)%:R) ctx :> R.
  elim: m => [|m IH] hm; first by rewrite x0 big_ord0.
  by rewrite (st m hm 0) /= big_ord_recr /= IH // ltnW.
by rewrite trajectoryE // -xn; congr (Some (_, _)); exact: sumE.
Qed.
End Traj.

Section C67.
Variables (R : realFieldType) (n : nat) (C : Type) (tiny : R).
Notation latent := 'rV[R]_n.
Variables (post : latent -> R -> C -> latent) (prior : latent -> R -> latent) (diffusion : latent -> latent).
(** Half the squared distance of the drifts in units of the noise, over the
    coordinates with noise *)
Definition kl_rate (p q s : latent) : R := \sum_(i | tiny < `|s 0 i|) ((p 0 i - q 0 i) / s 0 i) ^+ 2 / 2%:R.

Lemma logqpE p q s : logqp tiny p q s = kl_rate p q s.
Proof.
rewrite /logqp /kl_rate [RHS]big_mkcond mulr_sumr; apply: eq_bigr => i _.
by rewrite /divide_no_nan subr0 ltNge; case: ifP => _ /=; rewrite ?expr0n ?mulr0 // mulrC.
Qed.
Lemma kl_rate_ge0 p q s : 0 <= kl_rate p q s.
Proof. by apply: sumr_ge0 => i _; rewrite divr_ge0 ?sqr_ge0 ?ler0n. Qed.
Lemma kl_rate_eq0 p q s : 0 <= tiny -> kl_rate p q s = 0 <-> forall i, tiny < `|s 0 i| -> p 0 i = q 0 i.
Proof.
move=> t0; split=> [e i hi|h].
  have := psumr_eq0P _ e; move=> /(_ (fun i _ => divr_ge0 (sqr_ge0 _) (ler0n _ _)) i hi) /eqP.
  rewrite mulf_eq0 invr_eq0 pnatr_eq0 orbF sqrf_eq0 mulf_eq0 invr_eq0 => /orP[/eqP/subr0_eq //|/eqP s0].
  by move: hi; rewrite s0 normr0 ltNge t0.
by apply: big1 => i hi; rewrite (h i hi) subrr mul0r expr0n mul0r.
Qed.

(** The latent part is what the solver does to the posterior SDE alone, and the KL
    part is the sum of the rates along the way. *)
Notation posterior := (fun ctx z t (_ : latent) => post z t ctx).
Notation noise := (fun z (_ : R) dw => \row_i (dw 0 i * diffusion z 0 i) : latent).
Theorem C67_trajectory z0 dw ctx : (0 < size dw)%N -> exists zs,
  [/\ zs 0%N = z0, is_path (posterior ctx) noise 0 1 dw zs &
    trajectory (dynamics tiny post prior diffusion) z0 dw ctx = Some (zs (size dw),
      \sum_(k < size dw) (size dw)%:R^-1 *
        kl_rate (post (zs k) (k%:R / (size dw)%:R) ctx) (prior (zs k) (k%:R / (size dw)%:R)) (diffusion (zs k)))].
Proof.
move=> h; have [|zs [e1 e2 e3]] := @split_path R n C (dynamics tiny post prior diffusion)
  (fun z t _ c => post z t c) noise (fun z t c => kl_rate (post z t c) (prior z t) (diffusion z)) z0 dw ctx _ h.
  by move=> s t w; rewrite -logqpE.
by exists zs.
Qed.
Theorem C67_fails z0 ctx : trajectory (dynamics tiny post prior diffusion) z0 [::] ctx = None.
Proof. exact: trajectory0. Qed.
(** The KL term is never negative ... *)
Theorem C67_nonneg z0 dw ctx z1 kl : trajectory (dynamics tiny post prior diffusion) z0 dw ctx = Some (z1, kl) -> 0 <= kl.
Proof.
case: (posnP (size dw)) => [/size0nil->//|h]; have [zs [_ _ ->]] := C67_trajectory z0 ctx h => -[_ <-].
by apply: sumr_ge0 => k _; rewrite mulr_ge0 ?invr_ge0 ?ler0n ?kl_rate_ge0.
Qed.
(** ... and zero exactly if the drifts agree, at every state of the trajectory, in the
    coordinates with noise. *)
Theorem C67_zero z0 dw ctx z1 kl zs : 0 <= tiny ->
  trajectory (dynamics tiny post prior diffusion) z0 dw ctx = Some (z1, kl) ->
  zs 0%N = z0 -> is_path (posterior ctx) noise 0 1 dw zs ->
  kl = 0 <-> forall k i, (k < size dw)%N -> tiny < `|diffusion (zs k) 0 i| ->
    post (zs k) (k%:R / (size dw)%:R) ctx 0 i = prior (zs k) (k%:R / (size dw)%:R) 0 i.
Proof.
move=> t0 h z00 pz; have h0 : (0 < size dw)%N by case: dw h {pz}.
have [ys [y0 py e]] := C67_trajectory z0 ctx h0; move: h; rewrite e => -[_ <-].
have yz k : (k <= size dw)%N -> ys k = zs k.
  case: dw h0 py pz {e} => // w0 dw _ py pz; elim: k => [|k IH] hk; first by rewrite y0 z00.
  by rewrite (py w0 k hk) (pz w0 k hk) IH // ltnW.
have n0 : ((size dw)%:R : R)^-1 != 0 by rewrite invr_eq0 pnatr_eq0 -lt0n.
pose r (zz : nat -> latent) k := kl_rate (post (zz k) (k%:R / (size dw)%:R) ctx) (prior (zz k) (k%:R / (size dw)%:R)) (diffusion (zz k)).
have rE k : (k < size dw)%N -> r ys k = r zs k by move=> hk; rewrite /r (yz k (ltnW hk)).
have r0 k : r zs k = 0 <-> forall i, tiny < `|diffusion (zs k) 0 i| ->
    post (zs k) (k%:R / (size dw)%:R) ctx 0 i = prior (zs k) (k%:R / (size dw)%:R) 0 i by exact: kl_rate_eq0.
rewrite -[\sum_(k < _) _]/(\sum_(k < size dw) (size dw)%:R^-1 * r ys k).
have rg k : 0 <= r ys k by exact: kl_rate_ge0.
clearbody r; split=> [s0 k i hk|H].
  have g (j : 'I_(size dw)) : true -> 0 <= (size dw)%:R^-1 * r ys j by rewrite mulr_ge0 ?invr_ge0 ?ler0n.
  have := psumr_eq0P g s0 (i := Ordinal hk) isT => /= /eqP; rewrite mulf_eq0 (negbTE n0) /= rE // => /eqP/r0.
  exact.
apply: big1 => k _; rewrite rE ?ltn_ord //; rewrite (_ : r zs k = 0) ?mulr0 //.
by apply/r0 => i; apply: H; exact: ltn_ord.
Qed.
(** "The KL term is positive if the drifts differ" fails where the noise is at most
    the tolerance 1e-8. *)
Theorem C67_tiny_refuted z0 dw ctx z1 kl : (forall z i, `|diffusion z 0 i| <= tiny) ->
  trajectory (dynamics tiny post prior diffusion) z0 dw ctx = Some (z1, kl) -> kl = 0.
Proof.
move=> h; case: (posnP (size dw)) => [/size0nil->//|h0]; have [zs [_ _ ->]] := C67_trajectory z0 ctx h0 => -[_ <-].
by apply: big1 => k _; rewrite /kl_rate big1 ?mulr0 // => i; rewrite ltNge h.
Qed.

(** ** The first version of the model *)
Variables (post_drift : latent -> C -> latent) (prior_drift : latent -> latent).
(** It is an ordinary differential equation, solved by Euler's method: the noise has
    no influence at all. *)
Theorem C67_no_noise z0 dw ctx : (0 < size dw)%N -> exists zs,
  [/\ zs 0%N = z0, forall k, (k < size dw)%N -> zs k.+1 = zs k + (size dw)%:R^-1 *: post_drift (zs k) ctx &
    trajectory (variational tiny diffusion post_drift prior_drift) z0 dw ctx = Some (zs (size dw),
      \sum_(k < size dw) (size dw)%:R^-1 * kl_rate (post_drift (zs k) ctx) (prior_drift (zs k)) (diffusion (zs k)))].
Proof.
move=> h; have [|zs [e1 e2 e3]] := @split_path R n C (variational tiny diffusion post_drift prior_drift)
  (fun z _ _ c => post_drift z c) (fun _ _ _ => 0) (fun z _ c => kl_rate (post_drift z c) (prior_drift z) (diffusion z)) z0 dw ctx _ h.
  by move=> s t w; rewrite -logqpE /variational scale0r.
exists zs; split=> // k hk.
by rewrite (e2 0 k hk) /heun_step subr0 mul1r addr0 scaler0 addr0.
Qed.
Theorem C67_deterministic z0 dw dw' ctx : size dw = size dw' ->
  trajectory (variational tiny diffusion post_drift prior_drift) z0 dw ctx =
  trajectory (variational tiny diffusion post_drift prior_drift) z0 dw' ctx.
Proof.
move=> e; case: (posnP (size dw)) => [h|h].
  by move: e; rewrite h => /esym/size0nil->; move/size0nil: h => ->.
have h' := h; rewrite e in h'; have [zs [z1 z2 ->]] := C67_no_noise z0 ctx h; have [ys [y1 y2 ->]] := C67_no_noise z0 ctx h'.
have yz k : (k <= size dw)%N -> ys k = zs k.
  elim: k => [|k IH] hk; first by rewrite y1 z1.
  by rewrite y2 -?e // z2 // IH // ltnW.
rewrite -e yz //; congr (Some (_, _)); apply: eq_bigr => k _; rewrite yz //.
by apply: ltnW; exact: ltn_ord.
Qed.

(** ** The initial KL term *)
Theorem C67_initial (ln : R -> R) (scale : R) (z0 : latent) : scale != 0 -> kl_q0 ln scale z0 = \sum_i (z0 0 i / scale) ^+ 2 / 2%:R.
Proof.
move=> s0; apply: eq_bigr => i _; rewrite !mxE mulr1 divff // subr0 expr1n.
by rewrite addrK [1 + _]addrC addrK mulrC.
Qed.

(** The divergence of two diagonal normal distributions is not negative; of the logarithm
    only [ln x <= x - 1] at the squares of the quotients of the scales is used *)
Theorem C67_divergence (ln : R -> R) (m1 s1 m2 s2 : latent) :
  (forall i, 0 < s1 0 i) -> (forall i, 2%:R * (ln (s1 0 i) - ln (s2 0 i)) <= (s1 0 i / s2 0 i) ^+ 2 - 1) ->
  [/\ 0 <= kl_diag ln m1 s1 m2 s2, kl_diag ln m1 s1 m1 s1 = 0 &
      kl_diag ln m1 s1 m2 s2 = 0 -> (forall i, s2 0 i != 0) -> m1 = m2].
Proof.
move=> p1 l2.
have term i : (2%:R^-1 * ((m1 0 i - m2 0 i) / s2 0 i) ^+ 2) <=
    2%:R^-1 * ((s1 0 i / s2 0 i) ^+ 2 + ((m1 0 i - m2 0 i) / s2 0 i) ^+ 2 - 1) + ln (s2 0 i) - ln (s1 0 i).
  rewrite -addrA -[ln _ - ln _]opprB addrAC mulrDr -subr_ge0 addrAC addrK subr_ge0.
  by rewrite -(ler_pmul2l (ltr0Sn R 1)) [2%:R * (2%:R^-1 * _)]mulrA divff ?pnatr_eq0 // mul1r l2.
have q0 i : 0 <= 2%:R^-1 * ((m1 0 i - m2 0 i) / s2 0 i) ^+ 2 by rewrite mulr_ge0 ?sqr_ge0 // invr_ge0 ler0n.
have t0 i := le_trans (q0 i) (term i).
split; first by apply: sumr_ge0 => i _.
  by apply: big1 => i _; rewrite divff ?gt_eqF // subrr mul0r expr1n expr0n addr0 subrr mulr0 add0r subrr.
move=> z n0; apply/rowP => i; move/eqP: z; rewrite psumr_eq0 // => /allP /(_ i (mem_index_enum i)) /= /eqP zi.
have := q0 i; rewrite le_eqVlt ltNge -{2}zi term orbF eq_sym mulf_eq0 invr_eq0 pnatr_eq0 /= sqrf_eq0 mulf_eq0 invr_eq0 (negPf (n0 i)) orbF.
by rewrite subr_eq0 => /eqP.
Qed.

(** ** Samples and initialisation *)
Theorem C67_samples (f : state R n -> R -> latent -> latent -> state R n * state R n) z0s dws s :
  size z0s = size dws -> (s < size z0s)%N ->
  nth None (sample_sde f z0s dws) s = trajectory f (nth 0 z0s s) (nth [::] dws s) (nth 0 z0s s).
Proof.
move=> e hs; rewrite /sample_sde (nth_map (0, [::])) ?nth_zip //.
by rewrite size_zip -e minnn.
Qed.
(** The KL term of a batch entry is the mean of those of its samples. *)
Theorem C67_path_mean (f : state R n -> R -> latent -> latent -> state R n * state R n) z0s dws (zs : seq latent) (kls : seq R) :
  size kls = size zs -> sample_sde f z0s dws = [seq Some zk | zk <- zip zs kls] -> (0 < size kls)%N ->
  kl_path_mean (sample_sde f z0s dws) *+ size kls = \sum_(k <- kls) k.
Proof.
move=> e -> h; rewrite /kl_path_mean size_map size_zip -e minnn -map_comp -[LHS]mulr_natr divfK ?pnatr_eq0 -?lt0n //.
elim: kls zs e {h} => [|k kls IH] [|z zs] //= e; first by rewrite big_nil.
by case: e => e; rewrite big_cons IH.
Qed.
(** While parameters are created the result has as many states as an integration. *)
Theorem C67_init_shape (W : Type) (f : state R n -> R -> W -> C -> state R n * state R n) x ts dw args ys :
  core_sdeint false f x ts dw args = inr ys ->
  exists2 zs, core_sdeint true f x ts dw args = inr zs & size zs = size ys.
Proof.
rewrite /core_sdeint /sdeint; case: ts => // t0 touts; case: ifP => // hk; case: dw hk => //= w0 dw hk [<-].
case: (f x t0 w0 args) => a b; eexists; first by [].
by rewrite size_map size_scan_fun size_zip size_segments minnn.
Qed.
End C67.

(** ** Example: drift 1 against drift 0 with unit noise, one step *)
Section Ex.
Variable R : realFieldType.
Let one := (const_mx 1 : 'rV[R]_1).
Let ex_rate : kl_rate 0 one 0 one = 1 / 2%:R.
Proof.
rewrite /kl_rate big_mkcond big_ord_recl big_ord0 !mxE normr1 ltr01 /=.
by rewrite addr0 subr0 divr1 expr1n.
Qed.
Example ex_trajectory w : trajectory (dynamics 0 (fun _ _ (_ : unit) => one) (fun _ _ => 0) (fun _ => one)) 0 [:: const_mx w] tt =
  Some (const_mx (1 + w), 1 / 2%:R).
Proof.
have [zs [z0 pz ->]] := @C67_trajectory R 1 unit 0 (fun _ _ (_ : unit) => one) (fun _ _ => 0) (fun _ => one) 0 [:: const_mx w] tt isT.
congr (Some (_, _)).
  rewrite (pz 0 0%N isT) z0 /heun_step /= subr0 divr1; apply/rowP => i; rewrite !mxE !mulr1 add0r; congr (_ + _).
  by rewrite -mulr2n -[w *+ 2]mulr_natl mulrA mulVf ?pnatr_eq0 // mul1r.
rewrite big_ord_recl big_ord0 invr1 mul1r addr0; exact: ex_rate.
Qed.
(** The same drifts in the first version: the noise does not matter. *)
Example ex_variational w : trajectory (variational 0 (fun _ => one) (fun _ (_ : unit) => one) (fun _ => 0)) 0 [:: const_mx w] tt =
  Some (const_mx 1, 1 / 2%:R).
Proof.
have [zs [z0 pz ->]] := @C67_no_noise R 1 unit 0 (fun _ => one) (fun _ (_ : unit) => one) (fun _ => 0) 0 [:: const_mx w] tt isT.
congr (Some (_, _)); first by rewrite pz // z0 add0r invr1 scale1r.
rewrite big_ord_recl big_ord0 invr1 mul1r addr0; exact: ex_rate.
Qed.
Example ex_mean w : kl_path_mean (sample_sde (dynamics 0 (fun _ _ (_ : 'rV_1) => one) (fun _ _ => 0) (fun _ => one))
  [:: 0; one] [:: [:: const_mx w]; [:: 0]]) *+ 2 = 1.
Proof.
have tr z d : exists z1, trajectory (dynamics 0 (fun _ _ (_ : 'rV_1) => one) (fun _ _ => 0) (fun _ => one)) z [:: d] z = Some (z1, 1 / 2%:R).
  have [zs [_ _ ->]] := @C67_trajectory R 1 'rV_1 0 (fun _ _ (_ : 'rV_1) => one) (fun _ _ => 0) (fun _ => one) z [:: d] z isT.
  exists (zs 1%N); congr (Some (_, _)); rewrite big_ord_recl big_ord0 invr1 mul1r addr0; exact: ex_rate.
have [a ea] := tr 0 (const_mx w); have [b eb] := tr one 0.
rewrite (@C67_path_mean R 1 _ _ _ [:: a; b] [:: 1 / 2%:R; 1 / 2%:R]) //; last by rewrite /sample_sde /= ea eb.
by rewrite !big_cons big_nil addr0 -mulrDl -mulr2n divff // pnatr_eq0.
Qed.
Example ex_initial (ln : R -> R) : kl_q0 ln 2%:R one = 1 / 8%:R.
Proof.
rewrite C67_initial ?pnatr_eq0 // big_ord_recl big_ord0 addr0 mxE expr_div_n expr1n -mulrA -invfM.
by rewrite -natrX -natrM.
Qed.
(** Standard deviations 2 and 1, with a rational lower bound of the logarithm for it *)
Example ex_divergence : let ln (x : R) := 1 - x^-1 in
  2%:R * (ln 2%:R - ln 1) <= (2%:R / 1) ^+ 2 - 1 /\ kl_diag ln one (const_mx 2%:R) 0 (const_mx 1) = 3%:R / 2%:R.
Proof.
rewrite /= divr1 invr1 subrr subr0 mulrBr mulr1 divff ?pnatr_eq0 // -natrX; split.
  by rewrite ler_add2r ler_nat.
rewrite /kl_diag big_ord_recl big_ord0 addr0 !mxE !divr1 invr1 subrr addr0 subr0 expr1n -natrX addrK.
by field.
Qed.
End Ex.

Print Assumptions C67_divergence.
Print Assumptions C67_trajectory.
Print Assumptions C67_fails.
Print Assumptions C67_nonneg.
Print Assumptions C67_zero.
Print Assumptions C67_tiny_refuted.
Print Assumptions C67_no_noise.
Print Assumptions C67_deterministic.
Print Assumptions C67_initial.
Print Assumptions C67_samples.
Print Assumptions C67_path_mean.
Print Assumptions C67_init_shape.
