(** C77: which configurations start a training run. *)
From Coq Require Import String QArith.
From mathcomp Require Import all_ssreflect all_algebra zify.
From Verif Require Import Shape_model Shape_props.
From Verif Require Import Config_model.
Set Implicit Arguments.
Unset Strict Implicit.
Unset Printing Implicit Defensive.
Local Open Scope string_scope.
Local Open Scope nat_scope.

(** ** Specification *)
Definition has_field (c : value) (p : seq string) : Prop := exists w, get c p = inr w.
Definition kind (v : value) : nat :=
  match v with VInt _ => 0 | VBool _ => 1 | VFloat _ => 2 | VStr _ => 3 | VTuple _ => 4 | VDict _ => 5 end.
(** [q] leads to [p]: setting [p] changes what is found at [q] *)
Definition leads_to (q p : seq string) : Prop := exists r, p = (q ++ r)%list.
(** A configuration with the keys that the code reads and the file does not set *)
Definition repaired_model (b : base) (nl nh fe : value) (pnl : seq (string * value)) : value :=
  VDict ((fix go kvs := match kvs with
     | nil => [:: ("num_layers", nl); ("num_heads", nh); ("freeze_encoder", fe)]
     | kv :: kvs' => (if String.eqb kv.1 "processor_config" then (kv.1, VDict (processor_dict b ++ pnl)) else kv) :: go kvs'
     end) (model_dict b)).
Definition repaired (b : base) (nl nh fe : value) (pnl : seq (string * value)) : value :=
  VDict (update (config_dict b) "model" (repaired_model b nl nh fe pnl)).
Definition with_depth (b : base) (d : nat) : base :=
  Base (b_num_steps b) (b_eval_num_steps b) (b_width b) d (b_num_samples b) (b_window_step b) (b_ndim b) (b_grid b)
       (b_order b) (b_time_order b).

(** ** Setting a field *)
Lemma find_update kvs k k' w v : find kvs k = Some v -> find (update kvs k w) k' = if String.eqb k' k then Some w else find kvs k'.
Proof.
elim: kvs => [|[j u] kvs IH] //=; case kj: (String.eqb k j) => /=.
  by move/String.eqb_eq: kj => ->; case: (String.eqb k' j).
move=> /IH ->; case k'j: (String.eqb k' j) => //.
move/String.eqb_eq: k'j => k'j; case kk: (String.eqb k' k) => //.
by move/String.eqb_eq: kk => kk; move: kj; rewrite -kk k'j String.eqb_refl.
Qed.

Lemma coerce_kind old new v : coerce old new = inr v -> kind v = kind old /\ kind old <> 5.
Proof. by case: old => [?|?|?|?|?|?]; case: new => [?|?|?|?|?|?] //= -[<-]. Qed.
Lemma get_leaf v p : kind v <> 5 -> p <> [::] -> get v p = inl (CAttribute (head "" p)).
Proof. by case: v => [?|?|?|?|?|?] //; case: p. Qed.

Theorem C77_override c p v c' : override c p v = inr c' ->
  [/\ (exists old new, [/\ get c p = inr old, coerce old v = inr new, get c' p = inr new & kind new = kind old]),
      (forall q, has_field c' q <-> has_field c q) &
      (forall q, ~ leads_to q p -> get c' q = get c q)].
Proof.
elim: p c c' => [|k p IH] c c' /=.
  move=> e; have [k1 k2] := coerce_kind e.
  have k3 : kind c' <> 5 by rewrite k1.
  split.
  - by exists c, c'.
  - case=> [|j q]; first by split=> _; [exists c | exists c'].
    by rewrite /has_field !get_leaf.
  - case=> [|j q]; first by case; exists [::].
    by move=> _; rewrite !get_leaf.
case: c => // kvs; case fk: (find kvs k) => [w|] //; case ow: (override w p v) => [//|w'] [<-] {c'}.
have [[old [new [h1 h2 h3 h4]]] h5 h6] := IH _ _ ow; split.
- by exists old, new; split; rewrite //= ?fk // (find_update _ _ fk) String.eqb_refl.
- case=> [|j q]; first by split=> _; [exists (VDict kvs) | exists (VDict (update kvs k w'))].
  rewrite /has_field /= (find_update _ _ fk); case jk: (String.eqb j k) => //.
  by move/String.eqb_eq: jk => ->; rewrite fk; exact: h5.
- case=> [|j q]; first by case; exists (k :: p).
  move=> nl /=; rewrite (find_update _ _ fk); case jk: (String.eqb j k) => //.
  move/String.eqb_eq: jk => jk; rewrite jk fk; apply: h6 => -[r pr]; apply: nl; exists r.
  by rewrite jk pr.
Qed.
(** Without the right to add keys: the accepted settings are those of existing
    fields that are no dictionaries, of a fitting type. *)
Theorem C77_accepts c p v : (exists c', override c p v = inr c') <->
  (exists2 old, get c p = inr old & kind old <> 5 /\ (kind v = kind old \/ kind old = 2 /\ kind v = 0)).
Proof.
elim: p c => [|k p IH] c /=.
  split=> [[c' e]|[old [<-]]].
    have [_ ne] := coerce_kind e; exists c; first by [].
    split; first by [].
    by case: c e ne => [?|?|?|?|?|?]; case: v => [?|?|?|?|?|?] //= _ _; auto.
  case: c => [?|?|?|?|?|?] /= [] //; case: v => [?|?|?|?|?|?] //= _ [] //; try (by move=> _; eexists); try (by case).
case: c => [?|?|?|?|?|kvs]; try (by split=> [[]|[]]).
case: (find kvs k) => [w|]; last by split=> [[]|[]].
rewrite -IH; case: (override w p v) => [e|w']; first by split=> [[]|[]].
by split=> _; eexists.
Qed.

(** ** Creating the model *)
Lemma read_allS v k ks : read_all v (k :: ks) =
  match get v [:: k] with
  | inl e => inl e
  | inr w => match read_all v ks with inl e => inl e | inr kvs => inr ((k, w) :: kvs) end
  end.
Proof. by []. Qed.
Lemma read_allP v ks : (exists m, read_all v ks = inr m) <-> (forall k, List.In k ks -> has_field v [:: k]).
Proof.
elim: ks => [|k ks IH]; first by split=> // _; exists [::].
rewrite read_allS; case gk: (get v [:: k]) => [e|w].
  split=> [[m0] //|h]; have [w] := h k (or_introl erefl); by rewrite gk.
case ra: (read_all v ks) => [e|m].
  split=> [[m0] //|h]; have [m] : exists m, read_all v ks = inr m by apply/IH => j jk; apply: h; right.
  by rewrite ra.
split=> [_ j [<-|jk]|_]; [by exists w | | by eexists].
by move: j jk; apply/IH; exists m.
Qed.
Lemma read_all_find v ks m : read_all v ks = inr m ->
  List.map fst m = ks /\ (forall k, List.In k ks -> exists2 w, find m k = Some w & get v [:: k] = inr w).
Proof.
elim: ks m => [|k ks IH] m; first by case=> <-.
rewrite read_allS; case gk: (get v [:: k]) => [//|w]; case ra: (read_all v ks) => [//|m'] [<-].
have [h1 h2] := IH _ ra; split; first by rewrite /= h1.
move=> j jk; rewrite [find _ _]/=; case e: (String.eqb j k).
  by move/String.eqb_eq: e => ->; exists w.
case: jk => [kj|jk]; last exact: h2.
by move: e; rewrite kj String.eqb_refl.
Qed.

(** A model is made exactly if all its fourteen settings are there, and it gets
    the values set. *)
Theorem C77_create name mc :
  ((exists m, create_model name mc = inr m) <->
   name = "multiscale_transformer" /\
   (forall k, List.In k [:: "num_layers"; "num_heads"; "freeze_encoder"; "depth"; "width"; "use_residuals";
       "mean_after_decoder"; "processor_config"; "num_initial_heads"; "pooling_layers"; "pooling_kernel";
       "pooling_strides_q"; "initial_kv_pooling_strides"; "qkv_tile_reps"] -> has_field mc [:: k])) /\
  (forall m, create_model name mc = inr m -> forall k w, find m k = Some w -> get mc [:: k] = inr w).
Proof.
split.
  rewrite /create_model; case e: (String.eqb name _); last first.
    by split=> [[m0] //|[h _]]; move: e; rewrite h.
  move/String.eqb_eq: e => e; rewrite read_allP; split=> [h|[_ h] k].
    split=> // k hk; apply: h; move: hk => /=; intuition.
  by move=> hk; apply: h; move: hk => /=; intuition.
rewrite /create_model; case: (String.eqb name _) => // m ra k w fk.
have [h1 h2] := read_all_find ra.
have kin : List.In k model_fields.
  rewrite -h1; elim: (m) fk => [|[j u] m' IH] //=; case e: (String.eqb k j); first by move/String.eqb_eq: e => ->; left.
  by move/IH; right.
by have [w'] := h2 k kin; rewrite fk => -[<-].
Qed.

(** ** The file and the command line *)
Lemma overrides_keep c sets c' : overrides c sets = inr c' ->
  (forall q, has_field c' q <-> has_field c q) /\
  (forall q v v', get c q = inr v -> get c' q = inr v' -> kind v' = kind v).
Proof.
elim: sets c => [|[p w] sets IH] c /=.
  by case=> <-; split=> // q v v' -> [->].
case ov: (override c p w) => [//|c1] /IH[h1 h2]; have [[old [new [a1 a2 a3 a4]]] b1 b2] := C77_override ov.
split=> [q|q v v' gq gq']; first by rewrite h1.
have [v1 g1] : has_field c1 q by apply/b1; exists v.
rewrite (h2 _ _ _ g1 gq').
(* the kind of [q] in [c1] *)
suff : forall p c c1 q v v1, override c p w = inr c1 -> get c q = inr v -> get c1 q = inr v1 -> kind v1 = kind v by move=> h; exact: (h p c c1 q).
move=> {IH h1 h2 a1 a2 a3 a4 b1 b2 ov gq gq' g1 v1 v v' q c1 c old new p}.
elim=> [|k p IH] c c1 q v v1 /=.
  move=> e; have [k1 k2] := coerce_kind e.
  case: q => [|j q]; first by move=> [<-] [<-].
  by rewrite get_leaf.
case: c => // kvs; case fk: (find kvs k) => [u|] //; case ou: (override u p w) => [//|u'] [<-].
case: q => [|j q] /=; first by move=> [<-] [<-].
rewrite (find_update _ _ fk); case jk: (String.eqb j k); last first.
  by case: (find kvs j) => // x -> [->].
by move/String.eqb_eq: jk => ->; rewrite fk; exact: IH ou.
Qed.

(** No setting on the command line lets the shipped configuration create a model,
    whichever numbers are written in the file: the keys cannot be added. *)
Theorem C77_default_refuted b sets c : overrides (get_config b) sets = inr c ->
  exists2 name, get c [:: "model_name"] = inr (VStr name) &
  train_model c = inl (if String.eqb name "multiscale_transformer" then CAttribute "num_layers" else CValue).
Proof.
move=> ov; have [h1 h2] := overrides_keep ov.
have [w gw] : has_field c [:: "model_name"] by apply/h1; eexists.
have kw := h2 _ _ _ (erefl : get (get_config b) [:: "model_name"] = inr (VStr "multiscale_transformer")) gw.
case: w gw kw => // name gn _; exists name => //.
have [mc gm] : has_field c [:: "model"] by apply/h1; eexists.
have nf : ~ has_field mc [:: "num_layers"].
  have split_get : get c [:: "model"; "num_layers"] = get mc [:: "num_layers"].
    by case: (c) gm => // kvs /=; case: (find kvs "model") => // x [->].
  move=> [w gw]; have /h1[w' //] : has_field c [:: "model"; "num_layers"] by exists w; rewrite split_get.
rewrite /train_model gn gm /create_model; case: ifP => // _.
rewrite [read_all _ _]/= -/(get mc [:: "num_layers"]).
case: mc nf {gm} => [?|?|?|?|?|kvs] //= nf.
case fk: (find kvs "num_layers") => [w|] //; case: nf; exists w; by rewrite /= fk.
Qed.
(** The settings of the sweep are accepted.  Each run has the configuration that the
    file gives with this depth. *)
Theorem C77_sweep b sets : List.In sets sweep ->
  exists2 d, List.In d [:: 36; 40; 48] & overrides (get_config b) sets = inr (get_config (with_depth b d)).
Proof.
case=> [<-|[<-|[<-|[]]]].
- by exists 36; [left | reflexivity].
- by exists 40; [right; left | reflexivity].
- by exists 48; [right; right; left | reflexivity].
Qed.

(** ** Running the model *)
Lemma pooling_pmap d : 4 < d ->
  pmap (fun z => if z is Posz n then Some n else None) [:: (d%:Z - 4%:Z)%R; (d%:Z - 2%:Z)%R] = [:: d - 4; d - 2].
Proof.
move=> d4; have -> : (d%:Z - 4%:Z)%R = Posz (d - 4) by lia.
by have -> : (d%:Z - 2%:Z)%R = Posz (d - 2) by lia.
Qed.
Section Run.
Variables (b : base) (nl nh fe pnl : value).
Notation rep := (repaired b nl nh fe [:: ("num_layers", pnl)]).
(** What the module reads when nothing is missing *)
Lemma start_repaired : 0 < b_depth b -> 0 < b_num_samples b ->
  start rep =
  match model (Config (b_depth b) (b_width b) 1
     (pmap (fun z => if z is Posz n then Some n else None) [:: ((b_depth b)%:Z - 4%:Z)%R; ((b_depth b)%:Z - 2%:Z)%R])
     [:: 1; 5] [:: 1; 4] [:: 1; 4] [:: 4; 1] true true (0 < b_num_samples b) (b_num_samples b) true (b_width b * 4) (b_width b * 4 * 9) 16 4)
     [:: 1; 144; (b_order b + 1) ^ 2 * b_ndim b] with inl e => inl (CModel e) | inr s => inr s end.
Proof.
case: b => ns ens w d n ws nd g p k /= d0 n0.
rewrite -(prednK d0) -(prednK n0).
reflexivity.
Qed.

(** With the missing keys the model starts, whatever their values are: the three of
    the model are not used, and that of the processor only for networks that the
    transformer does not call.  One sample is refused. *)
Theorem C77_starts : 4 < b_depth b -> 0 < b_width b -> 0 < b_num_samples b ->
  (exists s, start rep = inr s) <-> b_num_samples b <> 1.
Proof.
move=> d4 w0 n0; rewrite start_repaired //; last by lia.
rewrite pooling_pmap //.
have := @C68_shipped (b_depth b) (b_width b) (b_num_samples b) 1 144 ((b_order b + 1) ^ 2 * b_ndim b) d4 w0 isT isT.
rewrite /shipped n0; set mo := model _ _ => h; split=> [[s]|n1].
  move=> e n1; have [e'] := @C68_one_sample_refuted (shipped (b_depth b) (b_width b) (b_num_samples b)) 1 144 5 4 4 4
    isT isT w0 isT isT isT isT isT erefl erefl erefl ((b_order b + 1) ^ 2 * b_ndim b) (ltn_trans (isT : 0 < 4) d4) n1.
  by rewrite /shipped n0 -/mo => me; move: e; rewrite me.
have -> : mo = inr [:: 1; 144; (b_order b + 1) ^ 2 * b_ndim b] by apply/h; split.
by eexists.
Qed.
(** The key [num_layers] of the processor is needed as soon as there are samples. *)
Theorem C77_processor_refuted : 0 < b_depth b -> 0 < b_num_samples b ->
  start (repaired b nl nh fe [::]) = inl (CAttribute "num_layers").
Proof.
case: b => ns ens w d n ws nd g p k /= d0 n0.
rewrite -(prednK d0) -(prednK n0).
reflexivity.
Qed.
End Run.

(** ** Settings that others were computed from *)
(** The shipped file with the missing keys, and one setting on the command line.
    Its dependent settings keep their values: another width never fits, fewer than
    two samples are refused (also none, for which the file would switch the mean
    over samples off), and so are the depths 1 to 3. *)
Section Stale.
Variables (nl nh fe pnl : value).
Notation rep := (repaired shipped_base nl nh fe [:: ("num_layers", pnl)]).
Definition starts_with (p : seq string) (n : nat) : Prop :=
  exists2 c, override rep p (vnat n) = inr c & exists s, start c = inr s.
Definition cfg (d w n : nat) : config :=
  Config d w 1 [:: 2; 4] [:: 1; 5] [:: 1; 4] [:: 1; 4] [:: 4; 1] true true true n (0 < n)
    (if n is 0 then 0 else 192) (if n is 0 then 0 else 1728) (if n is 0 then 0 else 16) (if n is 0 then 0 else 4).

Lemma cfg_accepts d w n : 0 < w -> 0 < d ->
  (exists s, model (cfg d w n) [:: 1; 144; 50] = inr s) <-> 1 < n /\ 192 = w * 2 ^ ((1 < d) + (3 < d)).
Proof.
move=> w0 d0; have acc := @C68_accepts (cfg d w n) 1 144 5 4 4 4 isT isT w0 isT isT isT isT isT erefl erefl erefl erefl 50.
have rai := @C68_raises (cfg d w n) 1 144 5 4 4 4 isT isT w0 isT isT isT isT isT erefl erefl erefl 50 d0.
have len := @C68_divides (cfg d w n) 1 144 5 4 4 4 isT isT w0 isT isT isT isT isT erefl isT.
have chE : channels_at [:: 2; 4] w d = w * 2 ^ ((1 < d) + (3 < d)).
  by rewrite /channels_at count_two.
have proc : processor_ok (cfg d w n) <-> 1 < n /\ 192 = w * 2 ^ ((1 < d) + (3 < d)).
  rewrite /processor_ok /= chE; case: n {acc rai len} => [|[|n]] /=; [by split=> [|[]] | by split=> [[]|[]] |].
  by split=> [[]|[]].
rewrite -proc; split=> [[s e]|ok].
  case: (boolP (heads_ok (cfg d w n))) => [h|/negbTE h]; last first.
    have [|e' e''] := rai; first by rewrite h; case.
    by rewrite e'' in e.
  move: (n) (w) {acc len chE} w0 rai e h proc => n' w' w0' rai e h proc.
  case: (leqP n' 1) => n1.
    by have [|e' e''] := rai; [case=> _ /proc[]; lia | rewrite e'' in e].
  case: (eqVneq 192 (w' * 2 ^ ((1 < d) + (3 < d)))) => [h'|/eqP h']; first by apply/proc.
  by have [|e' e''] := rai; [case=> _ /proc[_ //] | rewrite e'' in e].
exists [:: 1; 144; 50]; apply/acc; right; split=> //; first by rewrite /heads_ok /= dvd1n.
apply/len; rewrite /pools count_two //=.
by case: (4 < 0 + d); case: (2 < 0 + d).
Qed.

Ltac setting := eexists; first reflexivity; reflexivity.
Definition wrap (r : xerror + seq nat) : cerror + seq nat := match r with inl e => inl (CModel e) | inr s => inr s end.
Lemma depth_cfg d : exists2 c, override rep [:: "model"; "depth"] (vnat d.+1) = inr c & start c = wrap (model (cfg d.+1 48 4) [:: 1; 144; 50]).
Proof. setting. Qed.
Lemma depth_cfg0 : exists2 c, override rep [:: "model"; "depth"] (vnat 0) = inr c & start c = inr [:: 1; 144; 50].
Proof. setting. Qed.
Lemma width_cfg w : exists2 c, override rep [:: "model"; "width"] (vnat w) = inr c & start c = wrap (model (cfg 6 w 4) [:: 1; 144; 50]).
Proof. setting. Qed.
Lemma samples_cfg n : exists2 c, override rep [:: "model"; "processor_config"; "num_samples"] (vnat n) = inr c &
  start c = wrap (model (cfg 6 48 n) [:: 1; 144; 50]).
Proof. case: n => [|n]; setting. Qed.
Lemma starts_wrap p n mo : (exists2 c, override rep p (vnat n) = inr c & start c = wrap mo) ->
  starts_with p n <-> exists s, mo = inr s.
Proof.
move=> [c oc sc]; split=> [[c']|[s e]].
  by rewrite oc => -[<-] [s]; rewrite sc; case: mo {sc} => // s' _; exists s'.
by exists c => //; exists s; rewrite sc e.
Qed.

Theorem C77_depth d : starts_with [:: "model"; "depth"] d <-> d = 0 \/ 3 < d.
Proof.
case: d => [|d].
  by split=> _; [left | have [c oc sc] := depth_cfg0; exists c => //; exists [:: 1; 144; 50]].
rewrite (starts_wrap (depth_cfg d)) cfg_accepts //; split=> [[_]|[//|h]].
  by move=> h; right; move: h; case: (3 < d.+1) => //; case: (1 < d.+1).
by split=> //; rewrite h (leq_trans _ h).
Qed.
Theorem C77_width w : 0 < w -> starts_with [:: "model"; "width"] w <-> w = 48.
Proof.
move=> w0; rewrite (starts_wrap (width_cfg w)) cfg_accepts //= (_ : 2 ^ (true + true) = 4) //.
by split=> [[_]|->] //; lia.
Qed.
Theorem C77_samples n : starts_with [:: "model"; "processor_config"; "num_samples"] n <-> 1 < n.
Proof. by rewrite (starts_wrap (samples_cfg n)) cfg_accepts //; split=> [[]|]. Qed.
End Stale.

(** ** The steps *)
(** The training and the evaluation step pass the keyword [train], which the model
    does not take: no model and no input gets through. *)
Theorem C77_call_refuted train m inputs : step_call train m inputs = inl CType.
Proof. by case: train. Qed.

(** ** Examples *)
Example ex_default : train_model (get_config shipped_base) = inl (CAttribute "num_layers").
Proof. by vm_compute. Qed.
Example ex_add_key : override (get_config shipped_base) [:: "model"; "num_layers"] (vnat 2) = inl (CAttribute "num_layers").
Proof. by vm_compute. Qed.
(** An accepted setting: a float field takes an integer *)
Example ex_epochs : exists2 c, override (get_config shipped_base) [:: "num_epochs"] (vnat 3) = inr c &
  get c [:: "num_epochs"] = inr (VFloat (3 # 1)) /\ get c [:: "order"] = inr (vnat 4).
Proof. by eexists; first reflexivity. Qed.
Example ex_wrong_type : override (get_config shipped_base) [:: "order"] (VStr "4") = inl CType.
Proof. by vm_compute. Qed.
(** The shipped numbers and those of the first run of the sweep, with the missing keys *)
Example ex_repaired : exists s, start (repaired shipped_base (vnat 1) (vnat 1) (VBool false) [:: ("num_layers", vnat 1)]) = inr s.
Proof. by apply/C77_starts. Qed.
Example ex_repaired_sweep :
  exists s, start (repaired (with_depth shipped_base 36) (vnat 1) (vnat 1) (VBool false) [:: ("num_layers", vnat 1)]) = inr s.
Proof. by apply/C77_starts. Qed.

Print Assumptions C77_override.
Print Assumptions C77_accepts.
Print Assumptions C77_create.
Print Assumptions C77_default_refuted.
Print Assumptions C77_sweep.
Print Assumptions C77_starts.
Print Assumptions C77_processor_refuted.
Print Assumptions C77_depth.
Print Assumptions C77_width.
Print Assumptions C77_samples.
Print Assumptions C77_call_refuted.
