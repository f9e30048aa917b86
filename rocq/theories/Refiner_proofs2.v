(** Runs of the refiner: the rows written for each facet type and the invariant
    of the deduplication state. *)
From mathcomp Require Import all_ssreflect all_algebra zify.
From Verif Require Import PyDict_model PyDict_proofs Facet_model Facet_spec Facet_proofs Facet_proofs2
  GS_model Premesh_model Refiner_model Refiner_spec Refiner_proofs.
Set Implicit Arguments.
Unset Strict Implicit.
Unset Printing Implicit Defensive.
Import GRing.Theory.
Local Open Scope ring_scope.

Arguments refine_type : simpl never.
Section Runs.
Variables (R : comRingType) (V : lmodType R).
Variables (n m : nat).
Hypothesis m2 : (2 <= m)%N.
Notation rst := (rstate V).

(** ** Separating the rows from the writes *)
Definition type_rows (facets : seq (seq int)) (tcs : seq (option (seq V))) (s : rst) (ft : seq fdt)
  : rerror + (rst * seq (seq int)) :=
  let curr := [seq facet f ft | f <- facets] in
  let k := facet_dim ft in
  if k == 0%N then inr (s, curr)
  else
    let fcs := [seq omap (fun tc => nd_take 0 m tc (slice_positions m true ft)) oc | oc <- tcs] in
    if (k == n) && all isSome fcs then
      let (s', ids) := add_nodes s (flatten (pmap id fcs)) in
      inr (s', reshape (nseq (size facets) ((m - 2) ^ k)%N) ids)
    else refine_each n m s k curr fcs.

Lemma refine_typeE facets tcs s T ft : refine_type n m facets tcs (s, T) ft =
  match type_rows facets tcs s ft with inl e => inl e | inr (s', rows) => inr (s', add_facets m ft rows T) end.
Proof.
rewrite /refine_type /type_rows; case: ifP => // _; case: ifP => // _.
Qed.

Fixpoint all_rows (facets : seq (seq int)) (tcs : seq (option (seq V))) (s : rst) (fts : seq (seq fdt))
  : rerror + (rst * seq (seq (seq int))) :=
  if fts is ft :: fts' then
    match type_rows facets tcs s ft with
    | inl e => inl e
    | inr (s', rows) =>
        match all_rows facets tcs s' fts' with
        | inl e => inl e
        | inr (s'', log) => inr (s'', rows :: log)
        end
    end
  else inr (s, [::]).

Lemma refine_typesE facets tcs s T fts : refine_types n m facets tcs (s, T) fts =
  match all_rows facets tcs s fts with
  | inl e => inl e
  | inr (s', log) => inr (s', foldl (fun T fr => add_facets m fr.1 fr.2 T) T (zip fts log))
  end.
Proof.
elim: fts s T => [|ft fts IH] s T //=.
rewrite refine_typeE; case: type_rows => [e|[s' rows]] //; rewrite IH.
by case: all_rows => [e|[s'' log]].
Qed.

(** The slots of one element after all writes. *)
Definition final_slots (t : seq int) (fr : seq (seq fdt * seq int)) : seq int :=
  foldl (fun t x => write_slots m t (slice_positions m true x.1) x.2) t fr.

Lemma foldl_add_facets fts log T j :
  size log = size fts -> all (fun rows => size rows == size T) log -> (j < size T)%N ->
  size (foldl (fun T fr => add_facets m fr.1 fr.2 T) T (zip fts log)) = size T /\
  nth [::] (foldl (fun T fr => add_facets m fr.1 fr.2 T) T (zip fts log)) j =
  final_slots (nth [::] T j) (zip fts [seq nth [::] rows j | rows <- log]).
Proof.
elim: fts log T => [|ft fts IH] [|rows log] T //= [sl] /andP[/eqP sr al] jT.
have sT : size (add_facets m ft rows T) = size T by rewrite size_map size_zip sr minnn.
have al' : all (fun r => size r == size (add_facets m ft rows T)) log by rewrite sT.
have jT' : (j < size (add_facets m ft rows T))%N by rewrite sT.
have [h1 h2] := IH _ _ sl al' jT'.
rewrite h1 h2 sT; split=> //; congr final_slots.
by rewrite (nth_map ([::], [::])) ?size_zip ?sr ?minnn // nth_zip.
Qed.

Lemma final_slots_spec d t fts rows :
  size t = (m ^ d)%N -> size rows = size fts -> uniq fts -> all (fun ft => size ft == d) fts ->
  (forall a, (a < size fts)%N -> size (nth [::] rows a) = size (slice_positions m true (nth [::] fts a))) ->
  [/\ size (final_slots t (zip fts rows)) = (m ^ d)%N,
      (forall a, (a < size fts)%N ->
         nd_take SENT m (final_slots t (zip fts rows)) (slice_positions m true (nth [::] fts a)) = nth [::] rows a) &
      forall p, p \in grid m d -> type_of m p \notin fts ->
         nth SENT (final_slots t (zip fts rows)) (flat m p) = nth SENT t (flat m p)].
Proof.
elim: fts rows t => [|ft fts IH] [|row rows] t //= st [sr] /andP[nft ufts] /andP[/eqP sft sfts] hs.
have hs0 := hs 0%N isT; rewrite /= in hs0.
have sub : {subset slice_positions m true ft <= grid m d} by rewrite -sft; apply: slice_sub_grid.
have [w1 w2 w3] := write_slots_spec st sub (slice_uniq _ _ _) hs0.
have [|h1 h2 h3] := IH rows _ w1 sr ufts sfts; first by move=> a aa; apply: (hs a.+1).
have keep p : p \in grid m d -> type_of m p \notin fts ->
    nth SENT (final_slots t ((ft, row) :: zip fts rows)) (flat m p) =
    nth SENT (write_slots m t (slice_positions m true ft) row) (flat m p).
  by move=> pg np; rewrite /final_slots /= -/(final_slots _ _) h3.
split=> //.
- case=> [|a] aa; last exact: h2.
  rewrite -[RHS]w2; apply/eq_in_map => p ps; rewrite keep ?sub //.
  have := ps; by rewrite (mem_slice _ m2 (sub _ ps)) => /eqP->.
move=> p pg; rewrite inE negb_or => /andP[n1 n2].
by rewrite keep // w3 // (mem_slice _ m2 pg).
Qed.

(** ** Small facts about the state *)
Lemma at_cat (c cs : seq V) (x : nat) : (x < size c)%N -> at_ (c ++ cs) (Posz x) = at_ c (Posz x).
Proof. by move=> h; rewrite /at_ /= nth_cat h. Qed.

Lemma sort_perm_eq (F F' : seq int) : (sort <=%R F == sort <=%R F') = perm_eq F F'.
Proof.
apply/eqP/idP => [e|/perm_sortP]; last by apply; [apply: Order.TotalTheory.le_total | apply: Order.POrderTheory.le_trans | apply: Order.POrderTheory.le_anti].
by rewrite -(perm_sort <=%R) e perm_sort.
Qed.

(** Positions of [orient] within [F] given by a symmetry table. *)
Lemma index_table k (F orient : seq int) g : uniq F -> size F = (2 ^ k)%N -> perm_eq F orient -> sym_ok k g ->
  ([seq index x F | x <- orient] = sym_table 2 k g) <-> (orient = [seq nth SENT F p | p <- sym_table 2 k g]).
Proof.
move=> uF sF pF ok; split=> [<-|->].
  rewrite -map_comp -[LHS]map_id; apply/eq_in_map => x xo /=.
  by rewrite nth_index // (perm_mem pF).
rewrite -map_comp -[RHS]map_id; apply/eq_in_map => p pt /=.
by rewrite index_uniq // sF; move: pt; rewrite (perm_mem (perm_sym_table 2 ok)) mem_iota.
Qed.

Definition sym_id (k : nat) : sym := (iota 0 k, nseq k false).
Lemma sym_id_ok k : sym_ok k (sym_id k).
Proof. by rewrite /sym_ok /= perm_refl size_nseq eqxx. Qed.
Lemma act_id q k i : i \in grid q k -> act q (sym_id k) i = i.
Proof.
move=> ig; apply: (@eq_grid q k) => //; first by apply: act_grid => //; apply: sym_id_ok.
by move=> b bk; rewrite (nth_act _ _ (sym_id_ok k)) //= nth_iota // nth_nseq if_same.
Qed.
Lemma sym_table_id q k : sym_table q k (sym_id k) = iota 0 (q ^ k).
Proof. by rewrite -map_flat_grid; apply/eq_in_map => i ig; rewrite act_id. Qed.

Lemma take_table (A : Type) (x0 : A) q k (l : seq A) : size l = (q ^ k)%N ->
  [seq nth x0 l p | p <- sym_table q k (sym_id k)] = l.
Proof. by move=> sl; rewrite sym_table_id -sl map_nth_iota0 ?take_size. Qed.
End Runs.
