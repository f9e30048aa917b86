(** Lemmas about gather, scatter and exchange (values). *)
From mathcomp Require Import all_ssreflect all_algebra zify.
From Verif Require Import GS_model.
Set Implicit Arguments.
Unset Strict Implicit.
Unset Printing Implicit Defensive.
Import GRing.Theory.
Local Open Scope ring_scope.

Arguments num_unique : simpl never.

Lemma zip_iotaE (T : Type) (x0 : T) (s : seq T) m :
  zip (iota m (size s)) s = [seq (k, nth x0 s (k - m)) | k <- iota m (size s)].
Proof.
elim: s m => //= x s IH m.
rewrite subnn /= IH; congr (_ :: _); apply/eq_in_map => k.
rewrite mem_iota => /andP[h _]; have -> : (k - m)%N = (k - m.+1).+1 by lia.
by [].
Qed.

Lemma zip_iota0E (T : Type) (x0 : T) (s : seq T) :
  zip (iota 0 (size s)) s = [seq (k, nth x0 s k) | k <- iota 0 (size s)].
Proof. by rewrite (zip_iotaE x0); apply: eq_map => k; rewrite subn0. Qed.

Lemma zip_map2 (A B C : Type) (f : A -> B) (g : A -> C) (s : seq A) :
  zip [seq f x | x <- s] [seq g x | x <- s] = [seq (f x, g x) | x <- s].
Proof. by elim: s => //= x s ->. Qed.

Section Values.
Variable V : zmodType.
Implicit Types (u v : seq V) (idx : seq int).

Lemma size_add_at (a : seq V) k (x : V) : size (add_at a k x) = size a.
Proof. by rewrite size_mkseq. Qed.

Lemma size_at_add_aux (a : seq V) (l : seq (int * V)) :
  size (foldl (fun a iv => add_at a (py_index (size a) iv.1) iv.2) a l) = size a.
Proof. by elim: l a => //= p l IH a; rewrite IH size_add_at. Qed.

Lemma size_at_add (a : seq V) idx vals : size (at_add a idx vals) = size a.
Proof. exact: size_at_add_aux. Qed.

Lemma nth_at_add (a : seq V) idx vals k : (k < size a)%N ->
  nth 0 (at_add a idx vals) k
  = nth 0 a k + \sum_(p <- zip idx vals | py_index (size a) p.1 == k) p.2.
Proof.
rewrite /at_add; elim: (zip idx vals) a => [|p l IH] a hk /=; first by rewrite big_nil addr0.
rewrite IH ?size_add_at // nth_mkseq // big_cons eq_sym.
by case: eqP => _; rewrite ?addr0 -?addrA.
Qed.

Definition valid_idx (n : nat) (idx : seq int) : bool :=
  all (fun i => (i == SENT) || [exists k : 'I_n, i == Posz k]) idx.

Lemma valid_idxP n idx i : valid_idx n idx -> i \in idx -> i != SENT ->
  exists k, (k < n)%N /\ i = Posz k.
Proof.
move=> /allP h hi hs; have := h _ hi; rewrite (negbTE hs) /= => /existsP[k /eqP ->].
by exists k.
Qed.

Lemma py_index_posz n k : py_index n (Posz k) = k. Proof. by []. Qed.

(** Sums over zipped arrays as sums over positions. *)
Lemma big_zip_pos (A B : Type) (a0 : A) (b0 : B) (W : zmodType) (s : seq A) (t : seq B) (P : A -> bool) (F : A -> B -> W) :
  size s = size t ->
  \sum_(p <- zip s t | P p.1) F p.1 p.2
  = \sum_(j < size s | P (nth a0 s j)) F (nth a0 s j) (nth b0 t j).
Proof.
move=> hst; rewrite (big_nth (a0, b0)) size_zip -hst minnn big_mkord.
by apply: eq_big => j; rewrite nth_zip.
Qed.

Lemma nth_scatter v idx n k : valid_idx n idx -> size v = size idx -> (k < n)%N ->
  nth 0 (scatter v idx n) k = \sum_(j < size idx | nth 0 idx j == Posz k) nth 0 v j.
Proof.
move=> hv hs hk; rewrite nth_at_add ?size_nseq // nth_nseq hk add0r.
have hm : size idx = size (masked idx v) by rewrite size_map size_zip hs minnn.
rewrite (big_zip_pos 0 0 (fun i => py_index n i == k) (fun _ x => x)) //.
rewrite big_mkcond [RHS]big_mkcond; apply: eq_bigr => j _ /=.
have hj : (j < size idx)%N by [].
rewrite (nth_map (0, 0)) ?size_zip ?hs ?minnn // nth_zip //=.
have := valid_idxP hv (mem_nth 0 hj).
case/boolP: (nth 0 idx j == SENT) => [/eqP-> _|_ /(_ isT) [i [hi ->]]] /=.
- by rewrite if_same.
- by rewrite eqz_nat.
Qed.

Lemma size_scatter v idx n : size (scatter v idx n) = n.
Proof. by rewrite size_at_add size_nseq. Qed.

Lemma size_gather fill u idx : size (gather fill u idx) = size idx.
Proof. by rewrite size_map. Qed.

Lemma nth_gather fill u idx s : (s < size idx)%N ->
  nth 0 (gather fill u idx) s
  = if nth 0 idx s != SENT then nth 0 u (py_index (size u) (nth 0 idx s)) else fill.
Proof. by move=> h; rewrite (nth_map 0). Qed.

(** ** Serial exchange *)
Definition shared_pos (ids : seq int) : seq nat :=
  [seq k <- iota 0 (size ids) | nth 0 ids k \in to_exchange ids].

Lemma exchange_indices_serialE ids :
  exchange_indices_serial ids
  = ([seq Posz k | k <- shared_pos ids],
     [seq Posz (index (nth 0 ids k) (to_exchange ids)) | k <- shared_pos ids]).
Proof.
rewrite /exchange_indices_serial (zip_iota0E 0) filter_map -!map_comp.
by congr (_, _).
Qed.

Lemma mem_to_exchange ids x :
  (x \in to_exchange ids) = (x != SENT) && (1 < count_mem x ids)%N.
Proof.
rewrite /to_exchange mem_sort mem_undup mem_filter.
case: (boolP (x \in ids)) => [_|/count_memPn ->]; first by rewrite andbT.
by rewrite !andbF.
Qed.

Lemma shared_pos_uniq ids : uniq (shared_pos ids).
Proof. by rewrite filter_uniq // iota_uniq. Qed.

Lemma mem_shared_pos ids k :
  (k \in shared_pos ids) = (k < size ids)%N && (nth 0 ids k \in to_exchange ids).
Proof. by rewrite mem_filter mem_iota andbC. Qed.

Lemma foldr_maxn_ge (s : seq nat) x : x \in s -> (x <= foldr maxn 0%N s)%N.
Proof.
elim: s => //= y s IH; rewrite in_cons => /orP[/eqP->|/IH h]; first exact: leq_maxl.
exact: (leq_trans h (leq_maxr _ _)).
Qed.

Lemma num_unique_ge ui r : Posz r \in ui -> (r < num_unique ui)%N.
Proof.
move=> h; rewrite ltnS; apply: foldr_maxn_ge.
by apply/mapP; exists (Posz r).
Qed.

Lemma write_back_pos u (f : nat -> V) (ks : seq nat) (k : nat) :
  uniq ks -> (k < size u)%N ->
  nth 0 (write_back u [seq Posz j | j <- ks] [seq f j | j <- ks] [seq nth 0 u j | j <- ks]) k
  = if k \in ks then f k else nth 0 u k.
Proof.
move=> hu hk; rewrite nth_at_add // /masked zip_map2 -map_comp zip_map2 -map_comp zip_map2 big_map /=.
case: ifP => hin.
- by rewrite -big_filter (filter_pred1_uniq hu hin) big_seq1 addrCA subrr addr0.
- rewrite big_seq_cond big1 ?addr0 // => j /andP[hj /eqP hjk]; by rewrite -hjk hj in hin.
Qed.

Lemma exchange_serial_pos ids u k : size u = size ids -> (k < size ids)%N ->
  nth 0 (let: (gi, ui) := exchange_indices_serial ids in exchange u (Some gi) (Some ui)) k
  = if nth 0 ids k \in to_exchange ids
    then \sum_(j <- shared_pos ids | nth 0 ids j == nth 0 ids k) nth 0 u j
    else nth 0 u k.
Proof.
move=> hs hk; rewrite exchange_indices_serialE /exchange; cbv beta iota zeta.
set ks := shared_pos ids; set S := to_exchange ids.
rewrite size_map; case: eqP => [/size0nil h0|_].
- have : k \notin ks by rewrite h0.
  by rewrite mem_shared_pos hk /= => /negbTE ->.
have -> : initial_values [seq Posz j | j <- ks] u = [seq nth 0 u j | j <- ks].
  by rewrite /initial_values /gather -map_comp.
set c := consolidate _ _.
rewrite /expand -[X in write_back _ _ X _]map_comp.
rewrite (write_back_pos (fun j => at_ c (Posz (index (nth 0 ids j) S)))) ?shared_pos_uniq ?hs //.
rewrite mem_shared_pos hk /= -/S; case: ifP => // hin.
have hkk : k \in ks by rewrite mem_shared_pos hk.
rewrite /at_ py_index_posz /c /consolidate nth_at_add size_nseq; last first.
  by apply: num_unique_ge; apply/mapP; exists k.
rewrite nth_nseq if_same add0r zip_map2 big_map /=.
rewrite big_seq_cond [RHS]big_seq_cond; apply: eq_bigl => j.
rewrite mem_shared_pos -/S; case/boolP: ((j < size ids)%N && _) => //= /andP[hj hjS].
apply/eqP/eqP => [h|-> //].
by rewrite -(nth_index 0 hjS) -(nth_index 0 hin) h.
Qed.

Lemma size_exchange u gi ui : size (exchange u gi ui) = size u.
Proof. by case: gi => //= gi; case: ifP => // _; rewrite size_at_add. Qed.

(** an id that occurs once is alone *)
Lemma count_mem_sum (ids : seq int) x :
  count_mem x ids = (\sum_(j < size ids | nth 0%R ids j == x) 1)%N.
Proof. by rewrite -sum1_count (big_nth 0) big_mkord. Qed.

Lemma sum_single (ids : seq int) u k : (k < size ids)%N -> ~~ (1 < count_mem (nth 0%R ids k) ids)%N ->
  \sum_(j < size ids | nth 0 ids j == nth 0 ids k) nth 0 u j = nth 0 u k :> V.
Proof.
move=> hk hc; rewrite (bigD1 (Ordinal hk)) //= big1 ?addr0 // => j /andP[hj hne].
case/negP: hc; rewrite count_mem_sum (bigD1 (Ordinal hk)) //= (bigD1 j) ?hj //=.
Qed.

Lemma exchange_serial_spec ids u k : size u = size ids -> (k < size ids)%N ->
  nth 0 (let: (gi, ui) := exchange_indices_serial ids in exchange u (Some gi) (Some ui)) k
  = if nth 0 ids k == SENT then nth 0 u k
    else \sum_(j < size ids | nth 0 ids j == nth 0 ids k) nth 0 u j.
Proof.
move=> hs hk; rewrite exchange_serial_pos // mem_to_exchange.
case: eqP => //= hne; case: ifPn => h; last by rewrite sum_single.
rewrite /shared_pos.
have <- : index_iota 0 (size ids) = iota 0 (size ids) by rewrite /index_iota subn0.
rewrite big_filter_cond big_mkord.
apply: eq_bigl => j; case/boolP: (_ == nth 0 ids k) => [/eqP->|_]; rewrite ?andbF // andbT.
by rewrite mem_to_exchange h andbT; apply/eqP.
Qed.
End Values.
