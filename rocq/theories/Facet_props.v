(** Properties C21, C22. *)
From mathcomp Require Import all_ssreflect zify.
From Verif Require Import PyDict_model PyDict_proofs Facet_model Facet_spec Facet_proofs Facet_proofs2.
Set Implicit Arguments.
Unset Strict Implicit.
Unset Printing Implicit Defensive.

(** C21: for every element array [e] with [m >= 2] points per axis, reading off
    the interiors of all facets yields every entry of [e] exactly once. *)
Theorem C21_facet_interiors_tile (A : eqType) (x0 : A) (m n : nat) (e : seq A) :
  2 <= m -> size e = m ^ n ->
  perm_eq (flatten [seq nd_take x0 m e (slice_positions m true ft) | ft <- get_facet_types n None]) e.
Proof.
move=> m2 se; rewrite -[X in perm_eq _ X](nd_take_grid x0 se) /nd_take.
have -> : flatten [seq [seq nth x0 e (flat m p) | p <- slice_positions m true ft] | ft <- get_facet_types n None]
  = [seq nth x0 e (flat m p) | p <- flatten [seq slice_positions m true ft | ft <- all_facet_types n]].
  by rewrite map_flatten -map_comp.
apply: perm_map; exact: slices_tile.
Qed.
Print Assumptions C21_facet_interiors_tile.

(** No position belongs to the interiors of two facets, and every position
    belongs to one. *)
Theorem C21_facet_interiors_disjoint_cover (m n : nat) : 2 <= m ->
  (forall ft ft' i, ft \in get_facet_types n None -> ft' \in get_facet_types n None ->
     i \in slice_positions m true ft -> i \in slice_positions m true ft' -> ft = ft') /\
  (forall i, size i = n -> all (fun x => x < m) i ->
     exists2 ft, ft \in get_facet_types n None & i \in slice_positions m true ft).
Proof.
move=> m2; split=> [ft ft' i|i si ai].
  rewrite !mem_facet_types => /eqP s /eqP s'; exact: (slices_disjoint m2 s s').
have ig : i \in grid m n by rewrite mem_grid si eqxx.
exists (type_of m i); first by rewrite mem_facet_types size_map si.
by rewrite (mem_slice _ m2 ig).
Qed.
Print Assumptions C21_facet_interiors_disjoint_cover.

(** Number of facets of each dimension and of interior nodes per facet; the
    listed types are distinct. *)
Theorem C21_facet_counts (m n k : nat) :
  [/\ size (get_facet_types n (Some k)) = 'C(n, k) * 2 ^ (n - k),
      size (get_facet_types n None) = 3 ^ n,
      uniq (get_facet_types n (Some k)) &
      forall ft, ft \in get_facet_types n (Some k) ->
        [/\ size ft = n, count_mem INNER ft = k & size (slice_positions m true ft) = (m - 2) ^ k]].
Proof.
split; first by rewrite /= size_filter count_facet_types.
- exact: size_facet_types.
- by rewrite filter_uniq // facet_types_uniq.
move=> ft; rewrite mem_filter mem_facet_types => /andP[/eqP fk /eqP s]; split=> //.
by rewrite size_slice fk.
Qed.
Print Assumptions C21_facet_counts.

Example C21_example :
  2 <= 4 /\ size (iota 0 64) = 4 ^ 3 /\ size (get_facet_types 3 (Some 1)) = 12 /\
  slice_positions 4 true [:: LAST; INNER; FIRST] = [:: [:: 3; 1; 0]; [:: 3; 2; 0]].
Proof. by []. Qed.

(** C22: the mapping has [2^d d!] different keys, one for each symmetry of the
    cube; the key lists where the corners go and the value where the [m^d] nodes
    go under that same symmetry, a permutation of them. *)
Theorem C22_orderings_mapping (d m : nat) :
  let o := get_orderings_mapping d m in
  [/\ uniq (dkeys o), size o = 2 ^ d * d`!,
      (forall g, sym_ok d g -> dget o (sym_table 2 d g) = Some (sym_table m d g)) &
      (forall k v, dget o k = Some v ->
         exists g, [/\ sym_ok d g, k = sym_table 2 d g, v = sym_table m d g & perm_eq v (iota 0 (m ^ d))])].
Proof.
split; [exact: orderings_keys_uniq | exact: size_orderings | move=> g; exact: orderings_get |].
move=> k v /orderings_get_inv[g [ok -> ->]]; exists g; split=> //; exact: perm_sym_table.
Qed.
Print Assumptions C22_orderings_mapping.

(** The tables read entry by entry: at multi-index [i] both hold the offset of
    the multi-index whose axis [b] is axis [s_b] of [i], reversed if [f_b]. *)
Theorem C22_tables (d m : nat) (s : seq nat) (f : seq bool) (i : seq nat) :
  sym_ok d (s, f) -> size i = d -> all (fun x => x < m) i ->
  nth 0 (sym_table m d (s, f)) (flat m i) =
  flat m [seq (if nth false f b then m.-1 - nth 0 i (nth 0 s b) else nth 0 i (nth 0 s b)) | b <- iota 0 d].
Proof.
move=> ok si ai; have ig : i \in grid m d by rewrite mem_grid si eqxx.
rewrite nth_map_grid //; congr flat.
apply: (@eq_from_nth _ 0); rewrite (size_act _ _ ok) ?size_map ?size_iota // => b bd.
by rewrite (nth_act _ _ ok) // nth_map_iota.
Qed.
Print Assumptions C22_tables.

Example C22_example : sym_ok 2 ([:: 1; 0], [:: false; true]) /\
  sym_table 2 2 ([:: 1; 0], [:: false; true]) = [:: 1; 3; 0; 2] /\
  sym_table 3 2 ([:: 1; 0], [:: false; true]) = [:: 2; 5; 8; 1; 4; 7; 0; 3; 6].
Proof. by []. Qed.
