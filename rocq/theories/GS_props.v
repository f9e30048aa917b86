(** Properties of gather, scatter, exchange, periodic identification, partition
    layout and local renumbering (C10-C12, C14-C17). *)
From mathcomp Require Import all_ssreflect all_algebra zify.
From Coq Require Import Relation_Operators.
From Verif Require Import GS_model GS_proofs GS_proofs2 GS_proofs3.
Set Implicit Arguments.
Unset Strict Implicit.
Unset Printing Implicit Defensive.
Import Order.TTheory GRing.Theory Num.Theory.
Local Open Scope ring_scope.

(** The exchange of an unpartitioned mesh: indices computed from the unique ids. *)
Definition serial_exchange (V : zmodType) (ids : seq int) (u : seq V) : seq V :=
  let: (gi, ui) := exchange_indices_serial ids in exchange u (Some gi) (Some ui).

(** ** C10 *)
Theorem C10_exchange_sums_copies (V : zmodType) (ids : seq int) (u : seq V) k :
  size u = size ids -> (k < size ids)%N ->
  size (serial_exchange ids u) = size u /\
  nth 0 (serial_exchange ids u) k
  = (if nth 0 ids k == SENT then nth 0 u k
     else \sum_(j < size ids | nth 0 ids j == nth 0 ids k) nth 0 u j).
Proof.
move=> hs hk; split; last exact: exchange_serial_spec.
by rewrite /serial_exchange; case: exchange_indices_serial => gi ui; rewrite size_exchange.
Qed.
Print Assumptions C10_exchange_sums_copies.

Theorem C10_exchange_only_copy (V : zmodType) (ids : seq int) (u : seq V) k :
  size u = size ids -> (k < size ids)%N -> count_mem (nth 0 ids k) ids = 1%N ->
  nth 0 (serial_exchange ids u) k = nth 0 u k.
Proof.
move=> hs hk hc; rewrite /serial_exchange exchange_serial_spec //; case: ifP => // _.
by rewrite sum_single // hc.
Qed.
Print Assumptions C10_exchange_only_copy.

(** absent or empty indices *)
Theorem C10_exchange_without_indices (V : zmodType) (u : seq V) ui :
  exchange u None ui = u /\ exchange u (Some [::]) ui = u.
Proof. by []. Qed.
Print Assumptions C10_exchange_without_indices.

Example C10_example :
  exchange_indices_serial [:: 0; 1; 2; 0; 1; -1; 0] = ([:: 0; 1; 3; 4; 6], [:: 0; 1; 0; 1; 0])
  /\ serial_exchange [:: 0; 1; 2; 0; 1; -1; 0] [:: 1; 10; 100; 2; 20; 7; 3 : int]
     = [:: 6; 30; 100; 6; 30; 7; 6].
Proof. by split; vm_compute. Qed.

(** ** C11 *)
Theorem C11_exchange_partitioned (V : zmodType) (ids gis : seq (seq int)) (us : seq (seq V)) p k :
  exchange_indices_parts ids = Some gis ->
  size us = size ids ->
  (forall q, (q < size ids)%N -> size (nth [::] us q) = size (nth [::] ids q)) ->
  (p < size ids)%N -> (k < size (nth [::] ids p))%N ->
  let x := nth 0 (nth [::] ids p) k in
  nth 0 (nth [::] (exchange_dist us gis None) p) k
  = if x == SENT then nth 0 (nth [::] us p) k
    else \sum_(q < size ids) \sum_(j < size (nth [::] ids q) | nth 0 (nth [::] ids q) j == x)
           nth 0 (nth [::] us q) j.
Proof. exact: exchange_dist_spec. Qed.
Print Assumptions C11_exchange_partitioned.

Theorem C11_exchange_shape (V : zmodType) (ids gis : seq (seq int)) (us : seq (seq V)) p :
  exchange_indices_parts ids = Some gis -> size us = size ids -> (p < size ids)%N ->
  size (exchange_dist us gis None) = size us /\
  size (nth [::] (exchange_dist us gis None) p) = size (nth [::] us p).
Proof. exact: exchange_dist_size. Qed.
Print Assumptions C11_exchange_shape.

(** Rejected exactly when some partition lists a (non-padding) id twice. *)
Theorem C11_rejects_intra_partition (ids : seq (seq int)) :
  exchange_indices_parts ids = None
  <-> exists r x, [/\ r \in ids, x != SENT & (1 < count_mem x r)%N].
Proof.
have cnt r x : x != SENT -> count_mem x [seq y <- r | y != SENT] = count_mem x r.
  by move=> hx; rewrite count_filter; apply: eq_count => y /=; case: eqP => // ->; rewrite hx.
split.
- move=> h; have : ~~ all no_dup ids.
    by apply/negP => /exchange_indices_parts_some; rewrite h.
  move=> /allPn[r hr hd].
  case/boolP: (has (fun x => (x != SENT) && (1 < count_mem x r)%N) r) => [/hasP[x _ /andP[h1 h2]]|hn].
    by exists r, x.
  case/negP: hd; apply: count_mem_uniq => x; rewrite mem_filter.
  case/boolP: (x == SENT) => [/eqP->|hx] /=.
    by rewrite count_filter; apply/eqP; rewrite -leqn0 -(count_pred0 r); apply: sub_count => y /=; case: eqP => // ->.
  rewrite cnt //; case/boolP: (x \in r) => hxr; last exact/count_memPn.
  have h0 : (0 < count_mem x r)%N by rewrite -has_count has_pred1.
  move: hn => /hasPn /(_ _ hxr); rewrite hx /= -leqNgt => h1.
  by apply/eqP; rewrite eqn_leq h0 h1.
- move=> [r [x [hr hx hc]]]; apply: exchange_indices_parts_none; apply/allPn; exists r => //.
  apply/negP => /(count_uniq_mem x); rewrite cnt // mem_filter hx /=; move: hc.
  by case: (x \in r) => /=; lia.
Qed.
Print Assumptions C11_rejects_intra_partition.

Example C11_example :
  exchange_indices_parts [:: [:: 0; 1; 2]; [:: 2; 3; -1]; [:: 0; 2; 4]]
    = Some [:: [:: 0; 2]; [:: -1; 0]; [:: 0; 1]]
  /\ exchange_dist [:: [:: 1; 2; 3 : int]; [:: 10; 20; 30]; [:: 100; 200; 300]]
       [:: [:: 0; 2]; [:: -1; 0]; [:: 0; 1]] None
     = [:: [:: 101; 2; 213]; [:: 213; 20; 30]; [:: 101; 213; 300]]
  /\ exchange_indices_parts [:: [:: 0; 1; 0]; [:: 2; 3; -1]] = None.
Proof. by split; [|split]; vm_compute. Qed.

(** ** C12 *)
Section C12.
Variable R : comRingType.

(** Partitioned: every array has [P] rows of [n] entries. *)
Definition is_array (V : Type) (P n : nat) (a : seq (seq V)) : Prop :=
  size a = P /\ forall p, (p < P)%N -> size (nth [::] a p) = n.
Definition ent (V : zmodType) (a : seq (seq V)) (p k : nat) : V := nth 0 (nth [::] a p) k.

Section Serial.
Variables (ids : seq int) (n : nat).
Hypothesis hn : size ids = n.

Let coef (k j : nat) : R :=
  if nth 0 ids k == SENT then (k == j)%:R else (nth 0 ids j == nth 0 ids k)%:R.

Lemma coef_sym k j : coef k j = coef j k.
Proof.
rewrite /coef; case: (nth 0 ids k =P SENT) => [ek|nk]; case: (nth 0 ids j =P SENT) => [ej|nj].
- by rewrite eq_sym.
- have /negbTE -> : k != j by apply: contraPneq nj => <-.
  by have /negbTE -> : nth 0 ids k != nth 0 ids j by apply/eqP; rewrite ek => e; apply: nj.
- have /negbTE -> : j != k by apply: contraPneq nk => <-.
  by have /negbTE -> : nth 0 ids j != nth 0 ids k by apply/eqP; rewrite ej => e; apply: nk.
- by rewrite eq_sym.
Qed.

Lemma exchange_coef (u : seq R) k : size u = n -> (k < n)%N ->
  nth 0 (serial_exchange ids u) k = \sum_(j < n) coef k j * nth 0 u j.
Proof.
move=> hu hk; have [||_ ->] := @C10_exchange_sums_copies R ids u k; rewrite ?hn ?hu //.
rewrite /coef; case: ifP => _.
- rewrite (bigD1 (Ordinal hk)) //= eqxx mul1r big1 ?addr0 // => j hj.
  case: eqP => [e|_]; last by rewrite mul0r.
  by case/eqP: hj; apply: val_inj.
- rewrite big_mkcond; apply: eq_bigr => j _; case: ifP; by rewrite ?mul1r ?mul0r.
Qed.
End Serial.

Theorem C12_exchange_linear (ids : seq int) (u v w : seq R) (a : R) k :
  size u = size ids -> size v = size ids -> size w = size ids -> (k < size ids)%N ->
  (forall j, (j < size ids)%N -> nth 0 w j = a * nth 0 u j + nth 0 v j) ->
  nth 0 (serial_exchange ids w) k = a * nth 0 (serial_exchange ids u) k + nth 0 (serial_exchange ids v) k.
Proof.
move=> hu hv hw hk h; rewrite !(@exchange_coef ids (size ids)) // mulr_sumr -big_split /=.
by apply: eq_bigr => j _; rewrite h // mulrDr mulrCA.
Qed.

Theorem C12_exchange_self_adjoint (ids : seq int) (u v : seq R) :
  size u = size ids -> size v = size ids ->
  \sum_(k < size ids) nth 0 (serial_exchange ids u) k * nth 0 v k
  = \sum_(k < size ids) nth 0 u k * nth 0 (serial_exchange ids v) k.
Proof.
move=> hu hv.
under eq_bigr do rewrite (@exchange_coef ids (size ids)) // mulr_suml.
under [RHS]eq_bigr do rewrite (@exchange_coef ids (size ids)) // mulr_sumr.
rewrite exchange_big; apply: eq_bigr => j _; apply: eq_bigr => k _.
by rewrite coef_sym; rewrite -mulrA mulrCA.
Qed.

Theorem C12_exchange_consistent (ids : seq int) (u : seq R) k j :
  size u = size ids -> (k < size ids)%N -> (j < size ids)%N ->
  nth 0 ids k = nth 0 ids j -> nth 0 ids k != SENT ->
  nth 0 (serial_exchange ids u) k = nth 0 (serial_exchange ids u) j.
Proof.
move=> hu hk hj e hs; rewrite /serial_exchange !exchange_serial_spec // -e.
by rewrite (negbTE hs).
Qed.

Theorem C12_exchange_multiplicity (ids : seq int) (u : seq R) k :
  size u = size ids -> (k < size ids)%N -> nth 0 ids k != SENT ->
  (forall i j, (i < size ids)%N -> (j < size ids)%N -> nth 0 ids i = nth 0 ids j ->
     nth 0 ids i != SENT -> nth 0 u i = nth 0 u j) ->
  nth 0 (serial_exchange ids u) k = nth 0 u k *+ count_mem (nth 0 ids k) ids.
Proof.
move=> hu hk hs h; rewrite /serial_exchange exchange_serial_spec // (negbTE hs).
rewrite (eq_bigr (fun _ => nth 0 u k)); last first.
  by move=> j /eqP e; apply: h; rewrite ?e.
by rewrite sumr_const count_mem_sum sum1_card.
Qed.

Section Parts.
Variables (ids gis : seq (seq int)) (P n : nat).
Hypotheses (hids : is_array P n ids) (hgis : exchange_indices_parts ids = Some gis).
Local Notation idx p k := (ent ids p k).

Let coef2 (a b : 'I_P * 'I_n) : R :=
  if idx a.1 a.2 == SENT then (a == b)%:R else (idx b.1 b.2 == idx a.1 a.2)%:R.

Lemma coef2_sym a b : coef2 a b = coef2 b a.
Proof.
rewrite /coef2; case: (idx a.1 a.2 =P SENT) => [ek|nk]; case: (idx b.1 b.2 =P SENT) => [ej|nj].
- by rewrite eq_sym.
- have /negbTE -> : a != b by apply: contraPneq nj => <-.
  by have /negbTE -> : idx a.1 a.2 != idx b.1 b.2 by apply/eqP; rewrite ek => e; apply: nj.
- have /negbTE -> : b != a by apply: contraPneq nk => <-.
  by have /negbTE -> : idx b.1 b.2 != idx a.1 a.2 by apply/eqP; rewrite ej => e; apply: nk.
- by rewrite eq_sym.
Qed.

Lemma exchange_dist_array (us : seq (seq R)) p k : is_array P n us -> (p < P)%N -> (k < n)%N ->
  ent (exchange_dist us gis None) p k
  = if idx p k == SENT then ent us p k
    else \sum_(q < P) \sum_(j < n | idx q j == idx p k) ent us q j.
Proof.
move=> [hu1 hu2] hp hk; have [hi1 hi2] := hids.
rewrite /ent (@C11_exchange_partitioned _ _ _ us _ _ hgis) ?hi1 ?hu1 ?hi2 //; last first.
  by move=> q hq; rewrite hu2 ?hi2.
case: ifP => // _; apply: eq_bigr => q _; by rewrite hi2.
Qed.

Lemma exchange_dist_coef (us : seq (seq R)) (a : 'I_P * 'I_n) : is_array P n us ->
  ent (exchange_dist us gis None) a.1 a.2 = \sum_(b : 'I_P * 'I_n) coef2 a b * ent us b.1 b.2.
Proof.
move=> hu; rewrite exchange_dist_array // /coef2; case: ifP => _.
- rewrite (bigD1 a) //= eqxx mul1r big1 ?addr0 // => j hj.
  by rewrite eq_sym (negbTE hj) mul0r.
- rewrite -(pair_big xpredT xpredT (fun (q : 'I_P) (j : 'I_n) => (idx q j == idx a.1 a.2)%:R * ent us q j)) /=.
  apply: eq_bigr => q _; rewrite big_mkcond; apply: eq_bigr => j _; case: ifP; by rewrite ?mul1r ?mul0r.
Qed.

Theorem C12_exchange_linear_partitioned (us vs ws : seq (seq R)) (c : R) p k :
  is_array P n us -> is_array P n vs -> is_array P n ws -> (p < P)%N -> (k < n)%N ->
  (forall q j, (q < P)%N -> (j < n)%N -> ent ws q j = c * ent us q j + ent vs q j) ->
  ent (exchange_dist ws gis None) p k
  = c * ent (exchange_dist us gis None) p k + ent (exchange_dist vs gis None) p k.
Proof.
move=> hu hv hw hp hk h.
rewrite !(@exchange_dist_coef _ (Ordinal hp, Ordinal hk)) // mulr_sumr -big_split /=.
by apply: eq_bigr => j _; rewrite h // mulrDr mulrCA.
Qed.

Theorem C12_exchange_self_adjoint_partitioned (us vs : seq (seq R)) :
  is_array P n us -> is_array P n vs ->
  \sum_(p < P) \sum_(k < n) ent (exchange_dist us gis None) p k * ent vs p k
  = \sum_(p < P) \sum_(k < n) ent us p k * ent (exchange_dist vs gis None) p k.
Proof.
move=> hu hv; rewrite !pair_bigA /=.
under eq_bigr do rewrite exchange_dist_coef // mulr_suml.
under [RHS]eq_bigr do rewrite exchange_dist_coef // mulr_sumr.
rewrite exchange_big; apply: eq_bigr => j _; apply: eq_bigr => k _.
by rewrite coef2_sym; rewrite -mulrA mulrCA.
Qed.

Theorem C12_exchange_consistent_partitioned (us : seq (seq R)) p k q j :
  is_array P n us -> (p < P)%N -> (k < n)%N -> (q < P)%N -> (j < n)%N ->
  idx p k = idx q j -> idx p k != SENT ->
  ent (exchange_dist us gis None) p k = ent (exchange_dist us gis None) q j.
Proof. by move=> hu hp hk hq hj e hs; rewrite !exchange_dist_array // -e (negbTE hs). Qed.

Theorem C12_exchange_multiplicity_partitioned (us : seq (seq R)) p k :
  is_array P n us -> (p < P)%N -> (k < n)%N -> idx p k != SENT ->
  (forall q j, (q < P)%N -> (j < n)%N -> idx q j = idx p k -> ent us q j = ent us p k) ->
  ent (exchange_dist us gis None) p k = ent us p k *+ count_mem (idx p k) (flatten ids).
Proof.
move=> hu hp hk hs h; have [hi1 hi2] := hids; rewrite exchange_dist_array // (negbTE hs).
rewrite count_flatten_sum hi1 -sumrMnr; apply: eq_bigr => q _.
rewrite (eq_bigr (fun _ => ent us p k)); last by move=> j /eqP e; apply: h.
rewrite sumr_const count_mem_sum hi2 //; congr (_ *+ _).
by rewrite -sum1_card; apply: eq_bigl.
Qed.
End Parts.
End C12.
Print Assumptions C12_exchange_linear.
Print Assumptions C12_exchange_self_adjoint.
Print Assumptions C12_exchange_consistent.
Print Assumptions C12_exchange_multiplicity.
Print Assumptions C12_exchange_linear_partitioned.
Print Assumptions C12_exchange_self_adjoint_partitioned.
Print Assumptions C12_exchange_consistent_partitioned.
Print Assumptions C12_exchange_multiplicity_partitioned.

Example C12_example :
  serial_exchange [:: 5; 3; 5; 3; 3] [:: 2; 7; 2; 7; 7 : int] = [:: 4; 21; 4; 21; 21].
Proof. by vm_compute. Qed.

(** ** C14 *)
(** [linked links x y]: some chain of periodic links, walked in either direction,
    leads from x to y. *)
Definition link_step (links : seq link) (x y : int) : Prop :=
  exists2 l, l \in links & exists k, [/\ (k < size l.1)%N, (k < size l.2)%N,
    x = nth 0 l.1 k & y = nth 0 l.2 k].
Definition linked (links : seq link) : int -> int -> Prop := clos_refl_sym_trans _ (link_step links).

Lemma link_step_edge links x y : link_step links x y <-> edge_rel (edges links) x y.
Proof.
rewrite /edge_rel /edges; split.
- move=> [l hl [k [h1 h2 -> ->]]]; apply/flattenP; exists (zip l.1 l.2).
    by apply/mapP; exists l.
  have hk : (k < size (zip l.1 l.2))%N by rewrite size_zip leq_min h1.
  have -> : (nth 0 l.1 k, nth 0 l.2 k) = nth (0, 0) (zip l.1 l.2) k.
    by rewrite nth_zip_cond hk.
  exact: mem_nth.
- move=> /flattenP[s /mapP[l hl ->] hs]; exists l => //.
  have hk := hs; rewrite -index_mem size_zip leq_min in hk; case/andP: hk => h1 h2.
  exists (index (x, y) (zip l.1 l.2)); split=> //.
  + have := nth_index (0, 0) hs; rewrite nth_zip_cond size_zip leq_min h1 h2 /=.
    by case.
  + have := nth_index (0, 0) hs; rewrite nth_zip_cond size_zip leq_min h1 h2 /=.
    by case.
Qed.

Lemma linked_conn links x y : linked links x y <-> conn (edges links) x y.
Proof.
by split; elim=> [a b h|a|a b _ h|a b c _ h _ h'];
  [apply/rst_step/link_step_edge|exact: rst_refl|exact: rst_sym|exact: (rst_trans _ _ _ _ _ h h')
  |apply/rst_step/link_step_edge|exact: rst_refl|exact: rst_sym|exact: (rst_trans _ _ _ _ _ h h')].
Qed.

Lemma unique_indexE ls x : unique_index (Some ls) x = replace ls x.
Proof.
by case: ls => //=; rewrite /replace.
Qed.

Theorem C14_same_index_iff_linked (links : seq link) x y :
  unique_index (Some links) x = unique_index (Some links) y <-> linked links x y.
Proof. by rewrite !unique_indexE linked_conn; split=> /replace_iff. Qed.
Print Assumptions C14_same_index_iff_linked.

Theorem C14_smallest_of_class (links : seq link) x :
  linked links x (unique_index (Some links) x) /\
  forall y, linked links x y -> unique_index (Some links) x <= y.
Proof.
rewrite unique_indexE; split; first exact/linked_conn/replace_conn.
by move=> y /linked_conn; apply: replace_le.
Qed.
Print Assumptions C14_smallest_of_class.

Theorem C14_unlinked_unchanged (links : option (seq link)) x :
  (forall ls l, links = Some ls -> l \in ls -> x \notin l.1 /\ x \notin l.2) ->
  unique_index links x = x.
Proof.
case: links => // ls h; rewrite unique_indexE; apply: replace_unlinked => -[a b].
move=> he; have : edge_rel (edges ls) a b by [].
move=> /link_step_edge[l hl [k [h1 h2 -> ->]]] /=.
have [n1 n2] := h _ _ erefl hl.
by split; [apply: contraNneq n1 | apply: contraNneq n2] => ->; apply: mem_nth.
Qed.
Print Assumptions C14_unlinked_unchanged.

(** Node ids in links are non-negative, hence padding is kept. *)
Theorem C14_sentinel_unchanged (links : option (seq link)) :
  (forall ls l x, links = Some ls -> l \in ls -> x \in l.1 ++ l.2 -> 0 <= x) ->
  unique_index links SENT = SENT.
Proof.
move=> h; apply: C14_unlinked_unchanged => ls l e hl; split; apply/negP => hin.
- by have := h _ _ SENT e hl; rewrite mem_cat hin => /(_ isT).
- by have := h _ _ SENT e hl; rewrite mem_cat hin orbT => /(_ isT).
Qed.
Print Assumptions C14_sentinel_unchanged.

Theorem C14_idempotent (links : option (seq link)) x :
  unique_index links (unique_index links x) = unique_index links x.
Proof. by case: links => // ls; rewrite !unique_indexE replace_idem. Qed.
Print Assumptions C14_idempotent.

Example C14_example :
  [seq unique_index (Some [:: ([:: 6; 7], [:: 3; 4]); ([:: 3], [:: 1])]) x | x <- [:: 0; 1; 3; 4; 6; 7; -1]]
  = [:: 0; 1; 1; 4; 1; 4; -1].
Proof. by vm_compute. Qed.

(** ** C15 *)
(** Index arrays: padding or a node id below [n]. *)
Definition element_array (n : nat) (idx : seq int) : Prop :=
  forall s, (s < size idx)%N -> nth 0 idx s = SENT \/ exists2 k, (k < n)%N & nth 0 idx s = Posz k.

Lemma element_array_valid n idx : element_array n idx -> valid_idx n idx.
Proof.
move=> h; apply/allP => i hi; have hs := hi; rewrite -index_mem in hs.
have := h _ hs; rewrite nth_index // => -[->|[k hk ->]]; rewrite ?eqxx //.
by apply/orP; right; apply/existsP; exists (Ordinal hk).
Qed.

Theorem C15_gather_scatter_adjoint (R : comRingType) (idx : seq int) (u v : seq R) n :
  element_array n idx -> size u = n -> size v = size idx ->
  \sum_(s < size idx) nth 0 (gather 0 u idx) s * nth 0 v s
  = \sum_(k < n) nth 0 u k * nth 0 (scatter v idx n) k.
Proof.
move=> /element_array_valid hv hu hs.
under [RHS]eq_bigr do rewrite nth_scatter // big_mkcond mulr_sumr.
rewrite exchange_big; apply: eq_bigr => s _; rewrite nth_gather //.
have := valid_idxP hv (mem_nth 0 (ltn_ord s)).
case/boolP: (nth 0 idx s == SENT) => [/eqP -> _|hne /(_ isT)[k [hk ->]]] /=.
- by rewrite mul0r big1 // => k _; rewrite mulr0.
- rewrite (bigD1 (Ordinal hk)) //= eqz_nat eqxx big1 ?addr0 // => j hj.
  rewrite eqz_nat; case: eqP => [e|_]; last by rewrite mulr0.
  by case/eqP: hj; apply: val_inj.
Qed.
Print Assumptions C15_gather_scatter_adjoint.

Theorem C15_scatter_gather (V : zmodType) (idx : seq int) (u : seq V) n k :
  element_array n idx -> size u = n -> (k < n)%N ->
  nth 0 (scatter (gather 0 u idx) idx n) k = nth 0 u k *+ count_mem (Posz k) idx.
Proof.
move=> /element_array_valid hv hu hk; rewrite nth_scatter ?size_gather //.
rewrite (eq_bigr (fun _ => nth 0 u k)); last by move=> s /eqP e; rewrite nth_gather // e.
by rewrite sumr_const count_mem_sum sum1_card.
Qed.
Print Assumptions C15_scatter_gather.

(** What scatter computes, entry by entry, and padding. *)
Theorem C15_scatter_entries (V : zmodType) (idx : seq int) (v : seq V) n k :
  element_array n idx -> size v = size idx -> (k < n)%N ->
  size (scatter v idx n) = n /\
  nth 0 (scatter v idx n) k = \sum_(s < size idx | nth 0 idx s == Posz k) nth 0 v s.
Proof. by move=> /element_array_valid hv hs hk; rewrite size_scatter nth_scatter. Qed.
Print Assumptions C15_scatter_entries.

Theorem C15_gather_entries (V : zmodType) (fill : V) (idx : seq int) (u : seq V) n s :
  element_array n idx -> size u = n -> (s < size idx)%N ->
  nth 0 (gather fill u idx) s
  = if nth 0 idx s == SENT then fill else nth 0 u (absz (nth 0 idx s)).
Proof.
move=> h hu hs; rewrite nth_gather //; have [->|[k hk ->]] := h _ hs; first by [].
by [].
Qed.
Print Assumptions C15_gather_entries.

Example C15_example :
  gather 0 [:: 5; 6; 7 : int] [:: 0; 2; -1; 2] = [:: 5; 7; 0; 7]
  /\ scatter [:: 1; 2; 3; 4 : int] [:: 0; 2; -1; 2] 3 = [:: 1; 0; 6].
Proof. by split; vm_compute. Qed.

(** ** C16 *)
Lemma nth_group ps p : (p <= foldr maxn 0%N ps)%N ->
  nth [::] (group_by_partitions ps) p
  = [seq Posz i | i <- iota 0 (size ps) & nth 0%N ps i == p]
    ++ nseq (foldr maxn 0%N [seq size r | r <- part_rows ps]
             - size [seq i <- iota 0 (size ps) | nth 0%N ps i == p]) SENT.
Proof.
move=> hp; rewrite group_by_partitionsE nth_pad_evenly ?size_map ?size_iota //.
by rewrite nth_part_rows // size_map.
Qed.

(** Rows: as many as partitions; row p is the increasing list of the elements of
    partition p, then padding up to the common length. *)
Theorem C16_group_by_partitions (ps : seq nat) :
  let R := group_by_partitions ps in
  size R = (foldr maxn 0%N ps).+1 /\
  exists n, forall p, (p < size R)%N -> exists (row : seq nat),
    [/\ nth [::] R p = [seq Posz i | i <- row] ++ nseq (n - size row) SENT,
        (size row <= n)%N,
        sorted ltn row &
        forall i, (i \in row) = (i < size ps)%N && (nth 0%N ps i == p)].
Proof.
have hs : size (group_by_partitions ps) = (foldr maxn 0%N ps).+1.
  by rewrite group_by_partitionsE size_pad_evenly size_map size_iota.
split=> //; exists (foldr maxn 0%N [seq size r | r <- part_rows ps]) => p; rewrite hs ltnS => hp.
exists [seq i <- iota 0 (size ps) | nth 0%N ps i == p]; split.
- exact: nth_group.
- apply: foldr_maxn_ge; apply/mapP; exists (nth [::] (part_rows ps) p).
    by apply: mem_nth; rewrite size_map size_iota.
  by rewrite nth_part_rows // size_map.
- by apply: sorted_filter; [exact: ltn_trans | exact: iota_ltn_sorted].
- by move=> i; rewrite mem_filter mem_iota andbC.
Qed.
Print Assumptions C16_group_by_partitions.

(** Every element occurs exactly once, in the row of its partition. *)
Theorem C16_each_element_once (ps : seq nat) i p :
  (i < size ps)%N -> (p < size (group_by_partitions ps))%N ->
  count_mem (Posz i) (nth [::] (group_by_partitions ps) p) = (nth 0%N ps i == p).
Proof.
move=> hi; rewrite group_by_partitionsE size_pad_evenly size_map size_iota ltnS => hp.
rewrite -group_by_partitionsE nth_group // count_cat count_nseq /= addn0.
rewrite count_map (eq_count (a2 := pred1 i)); last by move=> j /=; rewrite eqz_nat.
rewrite count_uniq_mem ?filter_uniq ?iota_uniq // mem_filter mem_iota leq0n add0n hi andbT. by rewrite andbT.
Qed.
Print Assumptions C16_each_element_once.

Example C16_example :
  group_by_partitions [:: 2; 0; 2; 2; 0]%N = [:: [:: 1; 4; -1]; [:: -1; -1; -1]; [:: 0; 2; 3]].
Proof. by vm_compute. Qed.

(** ** C17 *)
Theorem C17_local_nodes (elements : seq (seq (seq int))) :
  let nodes := (get_local_elements elements).1 in
  size nodes = size elements /\
  exists n, forall p, (p < size elements)%N -> exists ids : seq int,
    [/\ nth [::] nodes p = ids ++ nseq (n - size ids) SENT,
        (size ids <= n)%N,
        sorted <%R ids &
        forall x, (x \in ids) = (x != SENT) && (x \in flatten (nth [::] elements p))].
Proof.
rewrite /= /local_nodes size_pad_evenly size_map; split=> //.
set rows := [seq np_unique (flatten es) | es <- elements].
exists (foldr maxn 0%N [seq size r | r <- rows]) => p hp; exists (np_unique (flatten (nth [::] elements p))).
have e : nth [::] rows p = np_unique (flatten (nth [::] elements p)) by rewrite (nth_map [::]).
split.
- by rewrite nth_pad_evenly ?size_map // e.
- by rewrite -e; apply: foldr_maxn_ge; apply/map_f/mem_nth; rewrite size_map.
- exact: np_unique_sorted.
- by move=> x; rewrite mem_np_unique.
Qed.
Print Assumptions C17_local_nodes.

(** Same shape; every local index is padding where the input is padding, and
    otherwise points at the original global id. *)
Theorem C17_local_elements (elements : seq (seq (seq int))) p e a :
  let: (nodes, local) := get_local_elements elements in
  (p < size elements)%N -> (e < size (nth [::] elements p))%N ->
  (a < size (nth [::] (nth [::] elements p) e))%N ->
  let g := nth 0 (nth [::] (nth [::] elements p) e) a in
  let l := nth 0 (nth [::] (nth [::] local p) e) a in
  [/\ size local = size elements, size (nth [::] local p) = size (nth [::] elements p)
    & size (nth [::] (nth [::] local p) e) = size (nth [::] (nth [::] elements p) e)] /\
  (if g == SENT then l = SENT
   else exists2 k, l = Posz k & (k < size (nth [::] nodes p))%N /\ nth 0 (nth [::] nodes p) k = g).
Proof.
rewrite /get_local_elements => hp he ha.
have hz : size (zip elements (local_nodes elements)) = size elements.
  by rewrite size_zip /local_nodes size_pad_evenly size_map minnn.
set g := nth 0 _ a; rewrite (nth_map ([::], [::])) ?hz // nth_zip; last first.
  by rewrite /local_nodes size_pad_evenly size_map.
rewrite (nth_map [::]) // (nth_map 0) // !size_map hz /=; split=> //.
have hn : nth [::] (local_nodes elements) p = np_unique (flatten (nth [::] elements p)) ++
   nseq (foldr maxn 0%N [seq size r | r <- [seq np_unique (flatten es) | es <- elements]]
     - size (np_unique (flatten (nth [::] elements p)))) SENT.
  by rewrite /local_nodes nth_pad_evenly ?size_map // (nth_map [::]).
rewrite hn local_mapping_pad ?np_unique_uniq ?mem_np_unique ?eqxx // -/g.
case/boolP: (g == SENT) => //= hg.
have hin : g \in flatten (nth [::] elements p).
  by apply/flattenP; exists (nth [::] (nth [::] elements p) e); apply: mem_nth.
rewrite hin; exists (index g (np_unique (flatten (nth [::] elements p)))) => //.
have hg' : g \in np_unique (flatten (nth [::] elements p)) by rewrite mem_np_unique hg.
split; first by rewrite size_cat ltn_addr // index_mem.
by rewrite nth_cat index_mem hg' nth_index.
Qed.
Print Assumptions C17_local_elements.

Example C17_example :
  get_local_elements [:: [:: [:: 2; 3]; [:: 3; 4]; [:: -1; -1]]; [:: [:: 4; 5]; [:: 5; 2]; [:: 2; 7]]]
  = ([:: [:: 2; 3; 4; -1]; [:: 2; 4; 5; 7]],
     [:: [:: [:: 0; 1]; [:: 1; 2]; [:: -1; -1]]; [:: [:: 1; 2]; [:: 2; 0]; [:: 0; 3]]]).
Proof. by vm_compute. Qed.
