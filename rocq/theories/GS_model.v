(** Model of core/gather_scatter.py.  Index arrays hold integers with the
    sentinel -1 (l.118); multi-dimensional index arrays are lists of lists or
    are flattened where the code treats them elementwise.  Values live in an
    arbitrary commutative group (exact arithmetic, no NaN/inf). *)
From mathcomp Require Import all_ssreflect all_algebra.
Set Implicit Arguments.
Unset Strict Implicit.
Unset Printing Implicit Defensive.
Import GRing.Theory.
Local Open Scope ring_scope.

(** l.118 *)
Definition SENT : int := -1.

(** Python / jax indexing into an axis of length [n]: negative indices count
    from the end.  Out-of-range indices never occur in the theorems. *)
Definition py_index (n : nat) (i : int) : nat :=
  match i with Posz k => k | Negz k => (n - k.+1)%N end.

Section Values.
Variable V : zmodType.
Implicit Types (u v : seq V) (idx : seq int).

Definition at_ u (i : int) : V := nth 0 u (py_index (size u) i).

(** [a.at[k].add(v)] and [a.at[idx].add(vals)] (duplicates accumulate). *)
Definition add_at (a : seq V) (k : nat) (v : V) : seq V :=
  mkseq (fun j => nth 0 a j + (if j == k then v else 0)) (size a).
Definition at_add (a : seq V) idx (vals : seq V) : seq V :=
  foldl (fun a iv => add_at a (py_index (size a) iv.1) iv.2) a (zip idx vals).

(** [gather], l.121-127 *)
Definition gather (fill : V) u idx : seq V :=
  [seq if i != SENT then at_ u i else fill | i <- idx].

(** [mask * v] *)
Definition masked idx v : seq V := [seq if iv.1 != SENT then iv.2 else 0 | iv <- zip idx v].

(** [scatter], l.130-133 *)
Definition scatter v idx (num_nodes : nat) : seq V := at_add (nseq num_nodes 0) idx (masked idx v).

(** ** exchange, l.189-261 *)
(** l.230-232 *)
Definition initial_values (gi : seq int) u : seq V := gather 0 u gi.
(** l.236-244: [num_unique_nodes = 1 + unique_indices.max()] *)
Definition num_unique (ui : seq int) : nat := (foldr maxn 0%N [seq absz i | i <- ui]).+1.
Definition consolidate (ui : option (seq int)) (iv : seq V) : seq V :=
  if ui is Some ui then at_add (nseq (num_unique ui) 0) ui iv else iv.
(** l.251-252 *)
Definition expand (ui : option (seq int)) (upd : seq V) : seq V :=
  if ui is Some ui then [seq at_ upd i | i <- ui] else upd.
(** l.261 *)
Definition write_back u (gi : seq int) (upd iv : seq V) : seq V :=
  at_add u gi (masked gi [seq x.1 - x.2 | x <- zip upd iv]).

(** axis_name is None. *)
Definition exchange u (gi : option (seq int)) (ui : option (seq int)) : seq V :=
  if gi is Some gi then
    if size gi == 0%N then u
    else let iv := initial_values gi u in
         write_back u gi (expand ui (consolidate ui iv)) iv
  else u.

(** Elementwise sum of equally long arrays: [lax.psum]. *)
Definition vadd (x y : seq V) : seq V := [seq p.1 + p.2 | p <- zip x y].
Definition psum (xs : seq (seq V)) : seq V :=
  if xs is x :: xs' then foldl vadd x xs' else [::].

(** All devices of the axis; [gather_indices] has one row per device, all of the
    same length, [unique_indices] is static and common. *)
Definition exchange_dist (us : seq (seq V)) (gis : seq (seq int)) (ui : option (seq int)) : seq (seq V) :=
  if size (head [::] gis) == 0%N then us
  else
    let ivs := [seq initial_values p.1 p.2 | p <- zip gis us] in
    let total := psum [seq consolidate ui iv | iv <- ivs] in
    [seq write_back p.1.1 p.1.2 (expand ui total) p.2 | p <- zip (zip us gis) ivs].
End Values.

(** ** Periodic identification, l.136-160, 264-281 *)
(** Each pair of periodic facets is given by its two lists of node ids; an edge
    joins the nodes at equal positions (l.271). *)
Definition link := (seq int * seq int)%type.
Definition edges (links : seq link) : seq (int * int) := flatten [seq zip l.1 l.2 | l <- links].

(** networkx [connected_components] of the graph with these edges: components
    are merged edge by edge.  The order of components and nodes is immaterial. *)
Definition touches (e : int * int) (c : seq int) : bool := (e.1 \in c) || (e.2 \in c).
Definition merge_edge (comps : seq (seq int)) (e : int * int) : seq (seq int) :=
  undup (e.1 :: e.2 :: flatten [seq c <- comps | touches e c])
    :: [seq c <- comps | ~~ touches e c].
Definition connected_components (es : seq (int * int)) : seq (seq int) := foldl merge_edge [::] es.

(** [min(component)], l.278 *)
Definition imin (c : seq int) : int := foldr Num.min (head 0 c) c.

(** dicts: the first binding found is the last one written *)
Fixpoint dict_get (d : seq (int * int)) (k : int) : option int :=
  if d is kv :: d' then (if kv.1 == k then Some kv.2 else dict_get d' k) else None.

(** [_get_periodic_mapping], l.264-281 *)
Definition periodic_mapping (links : seq link) : seq (int * int) :=
  foldl (fun d c => foldl (fun d n => (n, imin c) :: d) d c) [::]
        (connected_components (edges links)).

(** [_replace], l.157-158 *)
Definition replace (links : seq link) (idx : int) : int :=
  if dict_get (periodic_mapping links) idx is Some r then r else idx.

(** [get_unique_node_indices], l.136-160, elementwise on arrays of any shape *)
Definition unique_index (links : option (seq link)) (idx : int) : int :=
  if links is Some ls then (if size ls == 0%N then idx else replace ls idx) else idx.

(** ** Exchange indices, l.284-358 *)
(** sorted(indices_to_exchange): the ids with frequency > 1 *)
Definition to_exchange (ids : seq int) : seq int :=
  sort <=%R (undup [seq x <- ids | (x != SENT) && (1 < count_mem x ids)%N]).

(** [_get_exchange_indices_unpartitioned], l.284-315 *)
Definition exchange_indices_serial (ids : seq int) : seq int * seq int :=
  let S := to_exchange ids in
  let sel := [seq p <- zip (iota 0 (size ids)) ids | p.2 \in S] in
  ([seq Posz p.1 | p <- sel], [seq Posz (index p.2 S) | p <- sel]).

(** Row of one partition, l.342-355; [None] is the NotImplementedError. *)
Fixpoint part_row (S : seq int) (row seen : seq int) (l : seq (nat * int)) : option (seq int) :=
  match l with
  | [::] => Some row
  | (pos, x) :: l' =>
      if (x == SENT) || (x \notin S) then part_row S row seen l'
      else if x \in seen then None
      else part_row S (set_nth SENT row (index x S) (Posz pos)) (x :: seen) l'
  end.

Fixpoint omap_seq (A B : Type) (f : A -> option B) (l : seq A) : option (seq B) :=
  if l is x :: l' then
    if f x is Some y then (if omap_seq f l' is Some ys then Some (y :: ys) else None) else None
  else Some [::].

(** [_get_exchange_indices_partitioned], l.318-358 *)
Definition exchange_indices_parts (ids : seq (seq int)) : option (seq (seq int)) :=
  let S := to_exchange (flatten ids) in
  omap_seq (fun r => part_row S (nseq (size S) SENT) [::] (zip (iota 0 (size r)) r)) ids.

(** ** Partitioning, l.361-445 *)
(** [_pad_evenly], l.361-366 *)
Definition pad_evenly (rows : seq (seq int)) : seq (seq int) :=
  let n := foldr maxn 0%N [seq size r | r <- rows] in
  [seq r ++ nseq (n - size r) SENT | r <- rows].

(** [group_by_partitions], l.369-396 *)
Definition group_by_partitions (ps : seq nat) : seq (seq int) :=
  pad_evenly
    (foldl (fun rows ip => set_nth [::] rows ip.2 (rcons (nth [::] rows ip.2) (Posz ip.1)))
           (nseq (foldr maxn 0%N ps).+1 [::]) (zip (iota 0 (size ps)) ps)).

(** [get_local_elements], l.399-445: one entry of [elements] per partition, each
    a list of elements. *)
(** np.unique(indices[indices != SENTINEL]), l.431 *)
Definition np_unique (l : seq int) : seq int := sort <=%R (undup [seq x <- l | x != SENT]).
Definition local_nodes (elements : seq (seq (seq int))) : seq (seq int) :=
  pad_evenly [seq np_unique (flatten es) | es <- elements].
(** local_mapping.get(i, SENTINEL), l.435-442 (later positions would overwrite
    earlier ones, but ids are distinct) *)
Definition local_mapping (indices : seq int) : seq (int * int) :=
  foldl (fun d pi => if pi.2 != SENT then (pi.2, Posz pi.1) :: d else d) [::]
        (zip (iota 0 (size indices)) indices).
Definition dict_get_default (d : seq (int * int)) (k : int) : int :=
  if dict_get d k is Some v then v else SENT.
Definition get_local_elements (elements : seq (seq (seq int))) : seq (seq int) * seq (seq (seq int)) :=
  let nodes := local_nodes elements in
  (nodes, [seq [seq [seq dict_get_default (local_mapping p.2) i | i <- e] | e <- p.1] | p <- zip elements nodes]).
