(** The element pass as a whole, and its consequences. *)
From mathcomp Require Import all_ssreflect all_algebra zify.
From Verif Require Import PyDict_model PyDict_proofs Facet_model Facet_spec Facet_proofs Facet_proofs2
  GS_model Premesh_model Refiner_model Refiner_spec Refiner_proofs Refiner_proofs2 Refiner_proofs3.
Set Implicit Arguments.
Unset Strict Implicit.
Unset Printing Implicit Defensive.
Import GRing.Theory.
Local Open Scope ring_scope.
Arguments refine_type : simpl never.

Section ElementPass.
Variables (R : comRingType) (V : lmodType R).
Variables (n m : nat) (M1 : nat -> nat -> R).
Hypothesis m2 : (2 <= m)%N.
Notation rst := (rstate V).
Variables (c0 : seq V) (els : seq (seq int)).
Hypothesis els_ok : mesh_ok n (size c0) els.
Notation N0 := (size c0).
Notation Inv := (@Inv R V n m M1 c0 els).

Definition etcs : seq (option (seq V)) := [seq Some (element_coords n m M1 c0 e) | e <- els].
Definition log_visits (fts : seq (seq fdt)) (log : seq (seq (seq int))) : seq visit :=
  flatten [seq (if facet_dim x.1 == 0%N then [::] else visits_of x.1 els 0 x.2) | x <- zip fts log].

Lemma pmap_some (A : Type) (l : seq A) : pmap id [seq Some x | x <- l] = l.
Proof. by elim: l => //= x l ->. Qed.

Lemma type_rows_inv ft s ow vs s' rows :
  Inv s ow vs -> size ft = n -> type_rows n m els etcs s ft = inr (s', rows) ->
  exists ow', [/\ Inv s' ow' ((if facet_dim ft == 0%N then [::] else visits_of ft els 0 rows) ++ vs),
    ext s s', size rows = size els & facet_dim ft = 0%N -> rows = [seq facet e ft | e <- els]].
Proof.
move=> I sft; rewrite /type_rows.
have fE : [seq omap (fun tc => nd_take 0 m tc (slice_positions m true ft)) oc | oc <- etcs] = [seq Some c | c <- ecs n m M1 c0 els ft].
  by rewrite /etcs /ecs -!map_comp.
rewrite fE; case: eqP => [k0 [<- <-]|k0].
  by exists ow; split=> //; rewrite size_map.
have -> : all isSome [seq Some c | c <- ecs n m M1 c0 els ft] by rewrite all_map; apply/allP.
rewrite andbT pmap_some; case: eqP => [kn [<- <-]|kn].
  have n0 : (0 < n)%N by move: k0; rewrite kn; case: (n).
  have [ow' I'] := interior_inv m2 sft n0 kn 0 I (fun x h => h).
  exists ow'; split=> //; last by rewrite size_reshape size_nseq.
  by rewrite kn; case: (n) n0 I' => // n' _.
move=> E; have kn' : (0 < facet_dim ft < n)%N.
  apply/andP; split; first by rewrite lt0n; apply/eqP.
  by rewrite ltn_neqAle -{2}sft dim_le andbT; apply/eqP.
have [ow' [I' x sz]] := refine_each_inv m2 els_ok 0 I (fun x h => h) sft kn' E.
by exists ow'; split.
Qed.

Lemma all_rows_inv fts s ow vs s' log :
  Inv s ow vs -> all (fun ft => size ft == n) fts -> all_rows n m els etcs s fts = inr (s', log) ->
  exists ow', [/\ Inv s' ow' (log_visits fts log ++ vs), ext s s', size log = size fts,
    all (fun rows => size rows == size els) log &
    forall a, (a < size fts)%N -> facet_dim (nth [::] fts a) = 0%N ->
      nth [::] log a = [seq facet e (nth [::] fts a) | e <- els]].
Proof.
elim: fts s ow vs s' log => [|ft fts IH] s ow vs s' log I /=.
  by move=> _ [<- <-]; exists ow; split=> //; apply: ext_refl.
case/andP=> /eqP sft sfts; case E1 : (type_rows _ _ _ _ _ _) => [//|[s1 rows]].
case E2 : (all_rows _ _ _ _ _ _) => [//|[s2 log']] [<- <-].
have [ow1 [I1 x1 sz1 z1]] := type_rows_inv I sft E1.
have [ow2 [I2 x2 sz2 al2 z2]] := IH _ _ _ _ _ I1 sfts E2.
exists ow2; split.
- rewrite /log_visits /=; apply: Inv_perm I2; by rewrite -!catA perm_catCA.
- exact: ext_trans x1 x2.
- by rewrite /= sz2.
- by rewrite /= sz1 eqxx.
by case=> [|a] /=; [move=> _; apply: z1 | apply: z2].
Qed.

Lemma init_inv : Inv (RState c0 [::]) [::] [::].
Proof. by split=> //=; rewrite ?addn0 ?take_size. Qed.

Definition row_of (T : seq (seq int)) (j : nat) (ft : seq fdt) : seq int :=
  nd_take SENT m (nth [::] T j) (slice_positions m true ft).
Definition elem (j : nat) : seq int := nth [::] els j.

Lemma mem_visits_of ft rows v : size rows = size els -> v \in visits_of ft els 0 rows ->
  exists2 j, (j < size els)%N & v = (elem j, ft, j, nth [::] rows j).
Proof.
move=> sz /(nthP ([::], [::], 0%N, [::]))[j].
have sz2 : size (zip els (iota 0 (size els))) = size els by rewrite size_zip size_iota minnn.
rewrite size_map size_zip sz2 sz minnn => jl <-; exists j => //.
rewrite (nth_map ([::], 0%N, [::])); last by rewrite size_zip sz2 sz minnn.
by rewrite nth_zip ?sz2 // nth_zip ?size_iota //= nth_iota.
Qed.

Lemma visits_of_mem ft rows j : size rows = size els -> (j < size els)%N ->
  (elem j, ft, j, nth [::] rows j) \in visits_of ft els 0 rows.
Proof.
move=> sz jl; apply/mapP; exists (elem j, j, nth [::] rows j) => //.
have sz2 : size (zip els (iota 0 (size els))) = size els by rewrite size_zip size_iota minnn.
apply/(nthP ([::], 0%N, [::])); exists j; first by rewrite size_zip sz2 sz minnn.
by rewrite nth_zip ?sz2 // nth_zip ?size_iota //= nth_iota.
Qed.

Lemma element_pass s' T :
  refine_facets n m (RState c0 [::]) els n etcs = inr (s', T) ->
  exists ow vs, [/\ Inv s' ow vs, size T = size els,
    (forall j, (j < size els)%N -> size (nth [::] T j) = (m ^ n)%N),
    (forall j ft, (j < size els)%N -> size ft = n ->
       if facet_dim ft == 0%N then row_of T j ft = facet (elem j) ft
       else (elem j, ft, j, row_of T j ft) \in vs) &
    (forall v, v \in vs -> exists j ft, [/\ (j < size els)%N, size ft = n, (0 < facet_dim ft)%N & v = (elem j, ft, j, row_of T j ft)])].
Proof.
rewrite /refine_facets refine_typesE.
case E : (all_rows _ _ _ _ _ _) => [//|[s1 log]] [<- <-] {s' T}.
set fts := all_facet_types n in E *; set T0 := nseq _ _.
have sfts : all (fun ft => size ft == n) fts by apply/allP => ft; rewrite mem_facet_types.
have [ow [I x sz al z]] := all_rows_inv init_inv sfts E; rewrite cats0 in I.
have sT0 : size T0 = size els by rewrite size_nseq.
have al0 : all (fun rows => size rows == size T0) log by rewrite sT0.
set T := foldl _ _ _.
exists ow, (log_visits fts log).
have sT : size T = size els.
  case: (posnP (size els)) => [e0|e0]; last first.
    have j0 : (0 < size T0)%N by rewrite sT0.
    by have [-> _] := foldl_add_facets m sz al0 j0.
  rewrite e0; rewrite /T; have : size T0 = 0%N by rewrite sT0.
  move: (T0) => T1; elim: (zip fts log) T1 => [|fr l IH] T1 //= s0; apply: IH.
  by rewrite size_map size_zip s0 min0n.
have rowsz a j : (a < size fts)%N -> (j < size els)%N ->
    size (nth [::] (nth [::] log a) j) = size (slice_positions m true (nth [::] fts a)).
  move=> al1 jl; rewrite size_slice.
  have ftn : nth [::] fts a \in fts by rewrite mem_nth.
  have sft : size (nth [::] fts a) = n by apply/eqP; apply: (allP sfts).
  case: (posnP (facet_dim (nth [::] fts a))) => k0.
    by rewrite z // (nth_map [::]) // size_facet k0.
  have vin : (elem j, nth [::] fts a, j, nth [::] (nth [::] log a) j) \in log_visits fts log.
    apply/flatten_mapP; exists (nth [::] fts a, nth [::] log a).
      by apply/(nthP ([::], [::])); exists a; rewrite ?size_zip ?sz ?minnn ?nth_zip.
    rewrite /= gtn_eqF //; apply: visits_of_mem => //.
    by apply/eqP; apply: (allP al); rewrite mem_nth // sz.
  by have [[_ _ _ h _] _] := inv_visits I vin.
have main j : (j < size els)%N -> size (nth [::] T j) = (m ^ n)%N /\
    forall a, (a < size fts)%N -> row_of T j (nth [::] fts a) = nth [::] (nth [::] log a) j.
  move=> jl; have jT : (j < size T0)%N by rewrite sT0.
  have [_ Tj] := foldl_add_facets m sz al0 jT.
  rewrite /row_of -/T in Tj *; rewrite Tj.
  have st : size (nth [::] T0 j) = (m ^ n)%N by rewrite nth_nseq jl size_nseq.
  have sr : size [seq nth [::] rows j | rows <- log] = size fts by rewrite size_map sz.
  have [|f1 f2 _] := @final_slots_spec m m2 n _ fts _ st sr (facet_types_uniq n) sfts.
    by move=> a al1; rewrite (nth_map [::]) ?sz // rowsz.
  by split=> // a al1; rewrite f2 // (nth_map [::]) ?sz.
have idx ft : size ft = n -> exists2 a, (a < size fts)%N & nth [::] fts a = ft.
  move=> sft; apply/(nthP [::]); by rewrite mem_facet_types sft.
split=> //.
- by move=> j /main[].
- move=> j ft jl /idx[a al1 aE]; have [_ h] := main _ jl; rewrite -aE h //.
  case: eqP => k0; first by rewrite z // (nth_map [::]).
  apply/flatten_mapP; exists (nth [::] fts a, nth [::] log a).
    by apply/(nthP ([::], [::])); exists a; rewrite ?size_zip ?sz ?minnn ?nth_zip.
  rewrite /=; move/eqP/negbTE: k0 => ->; apply: visits_of_mem => //.
  by apply/eqP; apply: (allP al); rewrite mem_nth // sz.
- move=> v /flatten_mapP[[ft rows] /(nthP ([::], [::]))[a]].
  rewrite size_zip sz minnn => al1; rewrite nth_zip ?sz // => -[aE rE] /=.
  case: eqP => // k0 /mem_visits_of[|j jl ->].
    by apply/eqP; apply: (allP al); rewrite -rE mem_nth // sz.
  exists j, ft; split=> //; last by rewrite -aE -rE (main _ jl).2.
    by apply/eqP; rewrite -aE; apply: (allP sfts); rewrite mem_nth.
  by rewrite lt0n; apply/eqP.
Qed.
End ElementPass.
