(** C68: which configurations of the closure model run, and what shape they return. *)
From mathcomp Require Import all_ssreflect zify.
From Verif Require Import Shape_model.
Set Implicit Arguments.
Unset Strict Implicit.
Unset Printing Implicit Defensive.

(** ** The blocks on arrays of shape (batch, length, channels) *)
Lemma ceil_div1 a : ceil_div a 1 = a.
Proof. by rewrite /ceil_div addn0 divn1. Qed.
Lemma ceil_div_gt0 a b : 0 < a -> 0 < b -> 0 < ceil_div a b.
Proof. by move=> a0 b0; rewrite /ceil_div divn_gt0 //; lia. Qed.
Lemma ceil_div_dvd a b : 0 < b -> (b * ceil_div a b == a) = (b %| a).
Proof.
move=> b0; apply/eqP/idP => [<-|/dvdnP[q ->]]; first exact: dvdn_mulr.
rewrite /ceil_div divnMDl // divn_small ?addn0 1?mulnC //; lia.
Qed.

Lemma heads_dvd b l h f : 0 < b -> 0 < l -> (prodn [:: b; l; f] == prodn [:: b; l; h; f %/ h]) = (h %| f).
Proof.
move=> b0 l0; rewrite /prodn /= !muln1 !eqn_pmul2l // eq_sym mulnC.
by rewrite dvdn_eq.
Qed.
Lemma poolE b l f k s : 0 < k -> 0 < s -> pool [:: b; l; f] [:: 1; k] [:: 1; s] = inr [:: b; ceil_div l s; f].
Proof. by move=> k0 s0; rewrite /pool /check /= k0 s0 /= ceil_div1. Qed.
Lemma attention_poolingE b l f h k s : 0 < b -> 0 < l -> 0 < h -> 1 < k -> 0 < s ->
  attention_pooling [:: b; l; f] [:: 1; k] [:: 1; s] h = if h %| f then inr [:: b; ceil_div l s; h; f %/ h] else inl XShape.
Proof.
move=> b0 l0 h0 k1 s0; rewrite /attention_pooling /check h0 /= !mul1n !muln1.
have -> : k == 1 = false by lia.
rewrite poolE ?(ltnW k1) //= /reshape /check /initdims /=.
by rewrite -/(prodn [:: b; ceil_div l s; f]) heads_dvd ?ceil_div_gt0.
Qed.
Lemma attention_pooling1 b l f h s : 0 < b -> 0 < l -> 0 < h ->
  attention_pooling [:: b; l; f] [:: 1; 1] s h = if h %| f then inr [:: b; l; h; f %/ h] else inl XShape.
Proof.
by move=> b0 l0 h0; rewrite /attention_pooling /check h0 /= /reshape /check /initdims /= -/(prodn [:: b; l; f]) heads_dvd.
Qed.
Lemma add_shape_same x : add_shape x x = inr x.
Proof.
rewrite /add_shape; have -> : broadcast_rev (rev x) (rev x) = Some (rev x).
  by elim: (rev x) => //= a y ->; rewrite eqxx.
by rewrite revK.
Qed.
Lemma add_shape3 b l l' f : add_shape [:: b; l; f] [:: b; l'; f] =
  if (l == l') || (l' == 1) then inr [:: b; l; f] else if l == 1 then inr [:: b; l'; f] else inl XShape.
Proof.
rewrite /add_shape /rev /= !eqxx /=; case: ifP => _; first by [].
by case: ifP.
Qed.
Lemma encoder_blockE out h k kq s t b l f : 0 < b -> 0 < l -> 0 < h -> 1 < k -> 0 < s -> 0 < t ->
  kq = [:: 1; k] \/ (kq = [:: 1; 1] /\ s = 1) ->
  encoder_block out h kq [:: 1; k] [:: 1; s] [:: 1; t] [:: b; l; f] = if h %| f then inr [:: b; ceil_div l s; out] else inl XShape.
Proof.
move=> b0 l0 h0 k1 s0 t0 hq; rewrite /encoder_block /downsample /lastdim /dense /initdims /=.
have -> : attention_pooling [:: b; l; f] kq [:: 1; s] h = if h %| f then inr [:: b; ceil_div l s; h; f %/ h] else inl XShape.
  case: hq => [->|[-> ->]]; first exact: attention_poolingE.
  by rewrite attention_pooling1 // ceil_div1.
rewrite attention_poolingE //; case: ifP => // hf /=.
rewrite /attention /check /= !eqxx /= add_shape_same /= /dense_general /=.
have rE : (if (1 < prodn [:: 1; s]) then bind (attention_pooling [:: b; l; f] [seq if 1 < s0 then s0.+1 else s0 | s0 <- [:: 1; s]] [:: 1; s] h)
   (fun r => reshape_rest r (take (size r - 2) r)) else inr [:: b; l; f]) = inr [:: b; ceil_div l s; f].
  rewrite /prodn /= mul1n muln1; case: ltnP => s1.
    rewrite attention_poolingE //; try lia; rewrite hf /= /reshape_rest /check /prodn /=.
    have c0 := ceil_div_gt0 l0 s0; rewrite !muln1 muln_gt0 b0 c0 /=.
    have -> : b * (ceil_div l s * (h * (f %/ h))) = f * (b * ceil_div l s) by rewrite [h * _]mulnC divnK //; lia.
    by rewrite dvdn_mull //= mulnK // muln_gt0 b0.
  have -> : s = 1 by lia.
  by rewrite ceil_div1.
rewrite /prodn /= in rE *; rewrite rE /= add_shape_same /= /mlp_block /lastdim /dense /initdims /=.
by case: eqP => [->|_]; exact: add_shape_same.
Qed.
Lemma upsampleE h r b l f : 0 < b -> 0 < l -> 0 < r ->
  upsample h [:: r; 1] [:: r; 1] [:: b; l; f] = if (0 < h) && (h %| f) then inr [:: b; l * r; f] else inl XShape.
Proof.
move=> b0 l0 r0; rewrite /upsample /tile /lastdim /dense /initdims /= !muln1 /check /reshape_rest /check /prodn /= !muln1.
rewrite !muln_gt0 b0 l0 r0 /=; case: (posnP h) => [->|h0] //=.
rewrite !dvdn_pmul2l ?muln_gt0 ?l0 //; case: ifP => // hf /=.
by rewrite /attention /check /= !eqxx /= add_shape_same.
Qed.
Lemma upsample1 h b l f : 0 < b -> 0 < l ->
  upsample h [:: 1; 1] [::] [:: b; l; f] = if (0 < h) && (h %| f) then inr [:: b; l; f] else inl XShape.
Proof.
move=> b0 l0; rewrite /upsample /tile /lastdim /dense /initdims /= !muln1 /check /reshape_rest /check /prodn /= !muln1.
rewrite !muln_gt0 b0 l0 /=; case: (posnP h) => [->|h0] //=.
rewrite !dvdn_pmul2l //; case: ifP => // hf /=.
by rewrite /attention /check /= !eqxx /= add_shape_same.
Qed.
Lemma decoder_blockE out h p r b l f : 0 < b -> 0 < l -> 0 < r -> 0 < h -> h %| f ->
  decoder_block out h p [:: r; 1] [:: b; l; f] = inr [:: b; if p then l * r else l; out].
Proof.
move=> b0 l0 r0 h0 hf; rewrite /decoder_block; case: p => /=.
  rewrite upsampleE // h0 hf /=; have -> : (if 1 < prodn [:: r; 1] then tile [:: b; l; f] [:: r; 1] else [:: b; l; f]) = [:: b; l * r; f].
    rewrite /prodn /= !muln1; case: ltnP => r1; first by rewrite /tile /= !muln1.
    have -> : r = 1 by lia.
    by rewrite muln1.
  rewrite add_shape_same /= /mlp_block /lastdim /dense /initdims /=.
  by case: eqP => [->|_]; exact: add_shape_same.
rewrite upsample1 // h0 hf /= add_shape_same /= /mlp_block /lastdim /dense /initdims /=.
by case: eqP => [->|_]; exact: add_shape_same.
Qed.

(** ** Specification: what each layer sees *)
Section Spec.
Variables (pl : seq nat) (width s len : nat).
(** pooling layers below [i] *)
Definition pools (i : nat) : nat := count (mem pl) (iota 0 i).
(** length and channels of the input of layer [i] *)
Definition length_at (i : nat) : nat := iter (pools i) (fun l => ceil_div l s) len.
Definition channels_at (i : nat) : nat := width * 2 ^ count (mem pl) (iota 1 i).

Lemma poolsS i : pools i.+1 = pools i + (i \in pl).
Proof. by rewrite /pools -addn1 iotaD count_cat /= addn0. Qed.
Lemma pools1 i : pools i.+1 = (0 \in pl) + count (mem pl) (iota 1 i).
Proof. by []. Qed.
Lemma length_atS i : length_at i.+1 = if i \in pl then ceil_div (length_at i) s else length_at i.
Proof. by rewrite /length_at poolsS; case: (i \in pl); rewrite ?addn1 ?addn0. Qed.
Lemma length_at_gt0 i : 0 < len -> 0 < s -> 0 < length_at i.
Proof. by move=> l0 s0; elim: i => // i IH; rewrite length_atS; case: ifP => // _; exact: ceil_div_gt0. Qed.
Lemma channels_atS i : channels_at i.+1 = if i.+1 \in pl then channels_at i * 2 else channels_at i.
Proof.
rewrite /channels_at -{1}[i.+1]addn1 iotaD count_cat /= addn0 add1n.
by case: (i.+1 \in pl); rewrite ?addn0 // addn1 expnSr mulnA.
Qed.
Lemma channels_at0 : channels_at 0 = width.
Proof. by rewrite /channels_at /= muln1. Qed.
Lemma channels_div i : 0 < width -> channels_at i %/ width = 2 ^ count (mem pl) (iota 1 i).
Proof. by move=> w0; rewrite /channels_at mulKn. Qed.
End Spec.

Section C68.
Variables (c : config) (b len k s kv r : nat).
Hypotheses (b0 : 0 < b) (l0 : 0 < len) (w0 : 0 < width c) (h0 : 0 < num_initial_heads c).
Hypotheses (k1 : 1 < k) (s0 : 0 < s) (kv0 : 0 < kv) (r0 : 0 < r).
Hypotheses (kE : pooling_kernel c = [:: 1; k]) (sE : pooling_strides_q c = [:: 1; s]).
Hypotheses (kvE : initial_kv_pooling_strides c = [:: 1; kv]) (rE : qkv_tile_reps c = [:: r; 1]).
Notation pl := (pooling_layers c).
Notation L := (length_at pl s len).
Notation C := (channels_at pl (width c)).
Notation P := (pools pl).

(** The first layer doubles the heads if it pools. *)
Definition heads_ok : bool := num_initial_heads c * 2 ^ (0 \in pl) %| width c.
Definition lengths_ok : Prop :=
  if use_residuals c then forall j, j < depth c -> j \in pl -> r * L j.+1 = L j \/ r * L j.+1 = 1
  else r ^ P (depth c) * L (depth c) = len.
Definition processor_ok : Prop :=
  if num_samples c == 0 then mean_after_decoder c = false
  else [/\ (1 < num_samples c) && use_transformer c, latent_size c = C (depth c), 1 < latent_size c,
           (num_sde_layers c == 0) || ~~ odd (latent_size c) & 0 < num_gridpoints c].

Lemma heads_at i : num_initial_heads c * 2 ^ P i.+1 %| C i = heads_ok.
Proof. by rewrite pools1 expnD mulnA /channels_at dvdn_pmul2r ?expn_gt0. Qed.

(** ** The encoder *)
Lemma encoder_layersE n i kv' skips : 0 < kv' ->
  match encoder_layers c n i (num_initial_heads c * 2 ^ P i) [:: 1; kv'] [:: b; L i; C i] skips with
  | inl _ => 0 < n /\ ~~ heads_ok
  | inr (x, out) => [/\ (n == 0) || heads_ok, x = [:: b; L (i + n); C (i + n)] &
      forall j, skip_of out j = if [&& i <= j, j < i + n & j \in pl] then Some [:: b; L j; C j] else skip_of skips j]
  end.
Proof.
elim: n i kv' skips => [|n IH] i kv' skips kv0' /=.
  split; rewrite ?addn0 // => j; case: andP => // -[h1 /andP[h2 _]]; lia.
set h := if i \in pl then _ * 2 else _; set kv1 := if i \in pl then _ else [:: 1; kv'].
have hE : h = num_initial_heads c * 2 ^ P i.+1.
  by rewrite /h poolsS; case: (i \in pl); rewrite ?addn0 // addn1 expnSr mulnA.
have [t t0 kv1E] : exists2 t, 0 < t & kv1 = [:: 1; t].
  rewrite /kv1; case: (i \in pl); last by exists kv'.
  exists (if 1 < kv' then kv' %/ 2 else 1).
    by case: (ltnP 1 kv') => // h1; rewrite divn_gt0.
  by [].
have sqE : (if i \in pl then pooling_strides_q c else [seq 1 | _ <- pooling_strides_q c]) = [:: 1; if i \in pl then s else 1].
  by rewrite sE; case: (i \in pl).
rewrite sqE kE kv1E encoder_blockE ?hE //; first last.
- by rewrite sE; case: (i \in pl) => /=; [left | case: (pool_q_every_layer c) => /=; [left | right]].
- by case: (i \in pl).
- by rewrite muln_gt0 h0 expn_gt0.
- exact: length_at_gt0.
rewrite heads_at; case hok: heads_ok => //=.
have -> : [:: b; ceil_div (L i) (if i \in pl then s else 1); if i.+1 \in pl then lastdim [:: b; L i; C i] * 2 else lastdim [:: b; L i; C i]]
        = [:: b; L i.+1; C i.+1].
  by rewrite length_atS channels_atS /lastdim /=; case: (i \in pl); rewrite ?ceil_div1.
have := IH i.+1 t (if i \in pl then (i, [:: b; L i; C i]) :: skips else skips) t0.
case: (encoder_layers _ _ _ _ _ _ _) => [_|[x out]]; first by rewrite hok => -[].
rewrite addSnnS => -[_ -> sk]; split=> // j; rewrite sk.
case: (ltngtP i j) => [ij|ij|<-] /=.
- case: ifP => // _; case: (i \in pl) => //=.
  by rewrite /skip_of /= (_ : i == j = false) //; lia.
- case: (i \in pl) => //=; rewrite /skip_of /= (_ : i == j = false) //; lia.
- have -> : i < i + n.+1 by lia.
  by case: (i \in pl); rewrite /skip_of //= eqxx.
Qed.

(** ** The decoder *)
Lemma decoder_layersE n skips t : 0 < t -> (forall j, j < n -> j \in pl -> skip_of skips j = Some [:: b; L j; C j]) ->
  use_residuals c = false -> decoder_layers c n skips [:: b; t; C n] = inr [:: b; r ^ P n * t; width c].
Proof.
move=> + + res; elim: n t => [|n IH] t t0 sk; first by rewrite /= channels_at0 mul1n.
rewrite /= /check w0 rE decoder_blockE //=; last first.
- by rewrite /lastdim /= channels_div // /channels_at dvdn_mull.
- by rewrite /lastdim /= channels_div // expn_gt0.
rewrite res andbF.
have -> : (if n.+1 \in pl then lastdim [:: b; t; C n.+1] %/ 2 else lastdim [:: b; t; C n.+1]) = C n.
  by rewrite /lastdim /= channels_atS; case: (n.+1 \in pl); rewrite ?mulnK.
rewrite IH; first 1 last.
- by case: ifP => // _; rewrite muln_gt0 t0.
- by move=> j hj; apply: sk; rewrite ltnW.
rewrite poolsS; case: ifP => _; rewrite ?addn0 // addn1 expnSr.
by rewrite [t * r]mulnC mulnA.
Qed.
Lemma decoder_layers_res n skips : (forall j, j < n -> j \in pl -> skip_of skips j = Some [:: b; L j; C j]) -> use_residuals c ->
  match decoder_layers c n skips [:: b; L n; C n] with
  | inl _ => ~ (forall j, j < n -> j \in pl -> r * L j.+1 = L j \/ r * L j.+1 = 1)
  | inr y => y = [:: b; len; width c] /\ (forall j, j < n -> j \in pl -> r * L j.+1 = L j \/ r * L j.+1 = 1)
  end.
Proof.
move=> + res; elim: n => [|n IH] sk; first by rewrite /= channels_at0; split.
have Ln : 0 < L n.+1 by exact: length_at_gt0.
rewrite /= /check w0 rE decoder_blockE //=; last first.
- by rewrite /lastdim /= channels_div // /channels_at dvdn_mull.
- by rewrite /lastdim /= channels_div // expn_gt0.
have -> : (if n.+1 \in pl then lastdim [:: b; L n.+1; C n.+1] %/ 2 else lastdim [:: b; L n.+1; C n.+1]) = C n.
  by rewrite /lastdim /= channels_atS; case: (n.+1 \in pl); rewrite ?mulnK.
have {}IH := IH (fun j hj => sk j (ltnW hj)).
rewrite res andbT; case hp: (n \in pl); last first.
  rewrite length_atS hp; case: (decoder_layers _ _ _ _) IH => [e h H|y [-> h]].
    by apply: h => j hj; apply: H; rewrite ltnW.
  split=> // j; rewrite ltnS leq_eqVlt => /orP[/eqP->|]; first by rewrite hp.
  exact: h.
rewrite sk // add_shape3 [L n.+1 * r]mulnC.
have step : r * L n.+1 = L n \/ r * L n.+1 = 1 ->
  match decoder_layers c n skips [:: b; L n; C n] with
  | inl _ => ~ (forall j, j < n.+1 -> j \in pl -> r * L j.+1 = L j \/ r * L j.+1 = 1)
  | inr y => y = [:: b; len; width c] /\ (forall j, j < n.+1 -> j \in pl -> r * L j.+1 = L j \/ r * L j.+1 = 1)
  end.
  move=> hn; case: (decoder_layers _ _ _ _) IH => [e h H|y [-> h]].
    by apply: h => j hj; apply: H; rewrite ltnW.
  split=> // j; rewrite ltnS leq_eqVlt => /orP[/eqP->//|]; exact: h.
have fails : ~ (r * L n.+1 = L n \/ r * L n.+1 = 1) -> ~ (forall j, j < n.+1 -> j \in pl -> r * L j.+1 = L j \/ r * L j.+1 = 1).
  by move=> h H; apply: h; exact: H.
case: (eqVneq (r * L n.+1) (L n)) => [e|ne] /=.
  by rewrite e eqxx; apply: step; left.
case: (eqVneq (L n) 1) => [e1|ne1] /=.
  have -> : ([:: b; r * L n.+1; C n] == [:: b; L n; C n]) = false by rewrite !eqseq_cons (negbTE ne) andbF.
  by apply: fails => -[/eqP|h]; [rewrite (negbTE ne) | move: ne; rewrite h e1].
case: (eqVneq (r * L n.+1) 1) => [e1|n1] /=.
  by rewrite eqxx; apply: step; right.
by apply: fails => -[/eqP|/eqP]; rewrite ?(negbTE ne) ?(negbTE n1).
Qed.

(** ** The processor *)
Definition process (x : seq nat) : res :=
  bind (if 0 < num_samples c then
          bind (latent_sde c (if use_transformer c then x else [:: head 0 x; prodn (behead x)])) (fun y =>
          inr (if mean_after_decoder c then y else drop_axis1 y))
        else inr x) (fun y => inr (if mean_after_decoder c then drop_axis1 y else y)).
Lemma processE l : 0 < l ->
  match process [:: b; l; C (depth c)] with
  | inl _ => ~ processor_ok
  | inr y => if size y == 3 then y = [:: b; l; C (depth c)] /\ processor_ok else ~ processor_ok
  end.
Proof.
move=> l1; rewrite /process /processor_ok; case: posnP => [_|n0] /=.
  by case: (mean_after_decoder c).
rewrite /latent_sde; case ht: (use_transformer c); last first.
  set Q := [/\ _, _, _, _ & _]; have nq : ~ Q by rewrite /Q andbF; case.
  clearbody Q; rewrite /check; case: (_ == _ :> seq nat) => //; case: (num_samples c == 1) => //.
  by case: (0 < num_gridpoints c) => //=; case: (mean_after_decoder c).
have xE : ([:: b; l; C (depth c)] == [:: b; l; latent_size c]) = (C (depth c) == latent_size c) by rewrite !eqseq_cons !eqxx andbT.
rewrite [head _ _]/= [nth _ _ _]/= xE /check andbT; case: (eqVneq (C (depth c)) (latent_size c)) => [e|ne]; last first.
  by case=> _ e; rewrite e eqxx in ne.
case: (ltnP 1 (num_samples c)) => n1 /=; last first.
  by case: (dynamics_ok _ _ _) => /= -[].
case: (posnP (num_gridpoints c)) => [_|g0] /=; first by case.
have dE : dynamics_ok c (l * latent_size c).+1 (l * latent_size c) = (1 < latent_size c) && ((num_sde_layers c == 0) || ~~ odd (latent_size c)).
  rewrite /dynamics_ok eqxx andbT andbA; congr andb.
  have : 0 < latent_size c by rewrite -e muln_gt0 w0 expn_gt0.
  by rewrite -[(l * _).+1]addn1 modnMDl; case: (latent_size c) => [|[|m]] // _; rewrite modn_small.
rewrite dE; case: ltnP => z1 /=; last by case; lia.
case: ifP => o /=; last by case.
by case: (mean_after_decoder c) => /=; rewrite -?e.
Qed.

(** Encoder, processor and decoder together *)
Lemma modelE ch : 0 < depth c -> exists2 skips : seq (nat * seq nat),
  forall j, j < depth c -> j \in pl -> skip_of skips j = Some [:: b; L j; C j] &
  ((exists e, model c [:: b; len; ch] = inl e) /\ ~ (heads_ok /\ processor_ok)) \/
  [/\ heads_ok, processor_ok & model c [:: b; len; ch] =
    bind (decoder_layers c (depth c) skips [:: b; L (depth c); C (depth c)]) (fun z =>
    bind (add_shape [:: b; len; width c] z) (fun _ => inr (dense ch z)))].
Proof.
move=> d0; have dn : depth c == 0 = false by lia.
rewrite /model /check /= /initdims /lastdim /= dn /encoder /= kvE.
have := @encoder_layersE (depth c) 0 kv [::] kv0; rewrite /= channels_at0 muln1 add0n.
case: (encoder_layers _ _ _ _ _ _ _) => [e [_ nh]|[x skips] [hh -> sk]].
  exists [seq (j, [:: b; L j; C j]) | j <- iota 0 (depth c)]; last first.
    by left; split; [exists e | case=> h; rewrite h in nh].
  move=> j hj _; rewrite /skip_of; have : j \in iota 0 (depth c) by rewrite mem_iota.
  elim: (iota 0 (depth c)) => //= i js IH; rewrite inE eq_sym; case: eqP => [->|_] //=.
have hok : heads_ok by move: hh; rewrite dn.
have sk' j : j < depth c -> j \in pl -> skip_of skips j = Some [:: b; L j; C j] by move=> h1 h2; rewrite sk h1 h2.
exists skips => //; have Ld : 0 < L (depth c) by exact: length_at_gt0.
set out := (fun z : seq nat => bind (add_shape [:: b; len; width c] z) (fun _ => inr z)).
pose run (m : res) := bind (bind m (fun y => bind (decoder c skips y) out)) (fun x => inr (dense ch x)).
suff : ((exists e, run (process [:: b; L (depth c); C (depth c)]) = inl e) /\ ~ (heads_ok /\ processor_ok)) \/
  [/\ heads_ok, processor_ok & run (process [:: b; L (depth c); C (depth c)]) =
    bind (decoder_layers c (depth c) skips [:: b; L (depth c); C (depth c)]) (fun z =>
    bind (add_shape [:: b; len; width c] z) (fun _ => inr (dense ch z)))].
  by rewrite /run /process /=; case: (if 0 < num_samples c then _ else _).
have := processE Ld; case: (process _) => [e np|y] /=.
  by left; split; [exists e | case=> _ /np].
rewrite /run /= /decoder /check; case: ifP => [sy [-> pok]|sy np]; last first.
  by left; split; [exists XAssertion | case=> _ /np].
right; split=> //; case: (decoder_layers _ _ _ _) => //= z.
by rewrite /out; case: (add_shape _ z).
Qed.

(** The model returns an array of the shape of its input exactly if it has no layers or
    the heads divide the channels, the lengths are restored and the processor fits. *)
Theorem C68_accepts ch : model c [:: b; len; ch] = inr [:: b; len; ch] <->
  depth c = 0 \/ [/\ heads_ok, lengths_ok & processor_ok].
Proof.
case: (posnP (depth c)) => [d0|d0].
  by rewrite /model /check /= d0 /=; split=> [_|_]; [left|].
have dn : depth c <> 0 by lia.
have [skips sk [[[e ->] nh]|[hok pok ->]]] := modelE ch d0.
  by split=> // -[//|[h _ h']]; case: nh.
case res: (use_residuals c).
  have lE : lengths_ok = (forall j, j < depth c -> j \in pl -> r * L j.+1 = L j \/ r * L j.+1 = 1) by rewrite /lengths_ok res.
  have := decoder_layers_res sk res; case: (decoder_layers _ _ _ _) => [e h|z [-> h]] /=.
    by split=> // -[//|[_]]; rewrite lE => /h.
  by rewrite add_shape_same /=; split=> // _; right; split; rewrite ?lE.
have lE : lengths_ok = (r ^ P (depth c) * L (depth c) = len) by rewrite /lengths_ok res.
rewrite (decoder_layersE _ sk res) ?length_at_gt0 //= add_shape3 /dense /initdims /=; split.
  case: ifP => _ /=; first by case=> h; right; split; rewrite ?lE.
  by case: ifP => _ //= -[h]; right; split; rewrite ?lE.
by case=> [//|[_]]; rewrite lE => -> _; rewrite eqxx.
Qed.
(** Heads that do not divide and processors that do not fit raise; they do not return
    another shape. *)
Theorem C68_raises ch : 0 < depth c -> ~ (heads_ok /\ processor_ok) -> exists e, model c [:: b; len; ch] = inl e.
Proof. by move=> d0 n; have [skips sk [[]|[h1 h2 _]]] := modelE ch d0; last case: n. Qed.

(** If the repetitions undo the strides, the length has to be divisible by all strides
    together, with and without residual connections. *)
Theorem C68_divides : r = s -> 1 < s -> (lengths_ok <-> s ^ P (depth c) %| len).
Proof.
move=> rs s1; rewrite /lengths_ok rs.
have lens n : s ^ P n %| len -> forall j, j <= n -> s ^ P j * L j = len.
  move=> h; elim=> [|j IH] hj; first by rewrite mul1n.
  have {}IH := IH (ltnW hj); rewrite poolsS length_atS; case hp: (j \in pl); last by rewrite addn0.
  rewrite addn1 expnSr -mulnA; suff /eqP -> : s * ceil_div (L j) s == L j by [].
  rewrite ceil_div_dvd // -(@dvdn_pmul2l (s ^ P j)) ?expn_gt0 ?s0 // IH -expnSr (dvdn_trans _ h) // dvdn_exp2l //.
  rewrite (_ : (P j).+1 = P j.+1); last by rewrite poolsS hp addn1.
  by rewrite /pools -(subnKC hj) iotaD count_cat leq_addr.
case res: (use_residuals c); last first.
  by split=> [<-|h]; [exact: dvdn_mulr | exact: (lens _ h)].
split=> [H|h j hj hp].
  suff Hn n : n <= depth c -> s ^ P n * L n = len by rewrite -(Hn _ (leqnn _)) dvdn_mulr.
  elim: n => [|n IH] hn; first by rewrite mul1n.
  rewrite poolsS; case hp: (n \in pl).
    case: (H n hn hp) => e; last by move: e s1; case: (s) (L n.+1) => [|[|m]] [|l] //; lia.
    by rewrite addn1 expnSr -mulnA e IH // ltnW.
  by rewrite addn0 length_atS hp IH // ltnW.
left; have e1 := lens _ h _ hj; have e0 := lens _ h _ (ltnW hj).
apply/eqP; rewrite -(@eqn_pmul2l (s ^ P j)) ?expn_gt0 ?s0 // e0 mulnA -expnSr.
by move: e1; rewrite poolsS hp addn1 => ->.
Qed.

(** ** Settings that never work, whatever the rest of the configuration *)
Theorem C68_one_sample_refuted ch : 0 < depth c -> num_samples c = 1 -> exists e, model c [:: b; len; ch] = inl e.
Proof. by move=> d0 n1; apply: C68_raises => // -[_]; rewrite /processor_ok n1 /= => -[]. Qed.
Theorem C68_mlp_refuted ch : 0 < depth c -> 0 < num_samples c -> use_transformer c = false -> exists e, model c [:: b; len; ch] = inl e.
Proof.
move=> d0 n0 ut; apply: C68_raises => // -[_]; rewrite /processor_ok ut andbF.
by case: eqP => [e|_ []] //; move: n0; rewrite e.
Qed.
Theorem C68_mean_refuted ch : 0 < depth c -> num_samples c = 0 -> mean_after_decoder c -> exists e, model c [:: b; len; ch] = inl e.
Proof. by move=> d0 n0 ma; apply: C68_raises => // -[_]; rewrite /processor_ok n0 /= ma. Qed.
End C68.

(** ** The configuration of the trainer *)
(** niles/config/niles.py l.34-66 with other depths, widths and numbers of samples *)
Definition shipped (d w n : nat) : config :=
  Config d w 1 [:: d - 4; d - 2] [:: 1; 5] [:: 1; 4] [:: 1; 4] [:: 4; 1] true true (0 < n) n true (w * 4) (w * 4 * 9) 16 4.
Lemma count_two a a' m n : a != a' -> count (mem [:: a; a']) (iota m n) = (m <= a < m + n) + (m <= a' < m + n).
Proof.
move=> ne; have -> : count (mem [:: a; a']) (iota m n) = count_mem a (iota m n) + count_mem a' (iota m n).
  elim: (iota m n) => //= i js ->; rewrite !inE addnACA; congr (_ + _).
  by case: (eqVneq i a) => [->|_] //=; rewrite ?(negbTE ne).
by rewrite !count_uniq_mem ?iota_uniq // !mem_iota.
Qed.
(** It runs exactly if there is not exactly one sample and 16 divides the number of patches. *)
Theorem C68_shipped d w n b len ch : 4 < d -> 0 < w -> 0 < b -> 0 < len ->
  model (shipped d w n) [:: b; len; ch] = inr [:: b; len; ch] <-> n <> 1 /\ 16 %| len.
Proof.
move=> d4 w0 b0 l0; have ne : d - 4 != d - 2 by lia.
have P2 : pools [:: d - 4; d - 2] d = 2 by rewrite /pools count_two //; lia.
have C4 : channels_at [:: d - 4; d - 2] w d = w * 4.
  by rewrite /channels_at count_two // (_ : _ + _ = 2) //; lia.
rewrite (@C68_accepts (shipped d w n) b len 5 4 4 4) //=.
have lE := @C68_divides (shipped d w n) b len 5 4 4 4 b0 l0 w0 isT isT isT isT isT erefl isT; rewrite /= P2 in lE.
rewrite /processor_ok /heads_ok /= C4 (_ : odd (w * 4) = false) ?oddM ?andbF //; split.
  case=> [?|[_ /lE h p]]; first by lia.
  by split=> // n1; move: p; rewrite n1 => -[].
case=> n1 /lE h; right; split=> //.
  have z0 : (0 \in [:: d - 4; d - 2]) = false by rewrite !inE; apply/negbTE; lia.
  by rewrite z0 dvd1n.
case: posnP => [_ //|n0]; split=> //; lia.
Qed.

(** ** Examples *)
Example ex_shipped : model (shipped 6 48 4) [:: 2; 144; 12] = inr [:: 2; 144; 12].
Proof. by apply/C68_shipped. Qed.
(** The same by evaluation, with 16 patches *)
Example ex_runs : model (shipped 6 4 4) [:: 2; 16; 3] = inr [:: 2; 16; 3].
Proof. by vm_compute. Qed.
(** 20 patches: 20 -> 5 -> 2 -> 8 *)
Example ex_length : model (shipped 6 4 4) [:: 2; 20; 3] = inl XShape.
Proof. by vm_compute. Qed.
Example ex_one_sample : model (shipped 6 4 1) [:: 2; 16; 3] = inl XAssertion.
Proof. by vm_compute. Qed.
(** The processor without transformer raises even if all its sizes fit ... *)
Example ex_mlp :
  model (Config 1 4 1 [::] [:: 1; 5] [:: 1; 4] [:: 1; 4] [:: 4; 1] true true true 1 false 4 32 16 4) [:: 2; 8; 3] = inl XAssertion.
Proof. by vm_compute. Qed.
(** ... and so does the mean over samples if there are none. *)
Example ex_mean :
  model (Config 1 4 1 [::] [:: 1; 5] [:: 1; 4] [:: 1; 4] [:: 4; 1] true true true 0 true 4 32 16 4) [:: 2; 8; 3] = inl XAssertion.
Proof. by vm_compute. Qed.
(** Without residual connections a wrong length can go unnoticed. *)
Example ex_wrong_length :
  model (Config 1 4 1 [:: 0] [:: 1; 5] [:: 1; 4] [:: 1; 1] [:: 1; 1] false true false 0 true 0 0 0 0) [:: 2; 4; 3] = inr [:: 2; 1; 3].
Proof. by vm_compute. Qed.

Print Assumptions C68_accepts.
Print Assumptions C68_raises.
Print Assumptions C68_divides.
Print Assumptions C68_one_sample_refuted.
Print Assumptions C68_mlp_refuted.
Print Assumptions C68_mean_refuted.
Print Assumptions C68_shipped.
