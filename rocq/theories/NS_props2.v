(** C76: the way of the closure term from the network to the nodes
    (niles/train.py l.232-264), modelled by [closure_term] in [NS_model]. *)
From mathcomp Require Import all_ssreflect all_algebra polyrcf zify ring.
From Verif Require Import PyDict_model PyDict_proofs GS_model GS_proofs GS_props Interp_model Interp_spec.
From Verif Require Import Interp_props FES_model FES_proofs FES_proofs2 FES_props FES_props2 Premesh_model.
From Verif Require Import Refiner_model Refiner_spec UnitCube_model UnitCube_spec UnitCube_proofs UnitCube_proofs2 UnitCube_proofs3 UnitCube_props UnitCube_refine UnitCube_links.
From Verif Require Import CG_model CG_proofs CG_props TimeCoef_model Stokes_model Stokes_spec Stokes_proofs Stokes_proofs2 Stokes_proofs3.
From Verif Require Import Stokes_create Stokes_create2 Stokes_create3 Stokes_proofs4 Stokes_create4 Stokes_props Stokes_props2 Stokes_family Stokes_instance Stokes_cube Stokes_props3 Stokes_props5 Flow_props.
From Verif Require Import Pipeline_model Pipeline_props.
From Verif Require Import NS_model.
Set Implicit Arguments.
Unset Strict Implicit.
Unset Printing Implicit Defensive.
Import Order.TTheory GRing.Theory Num.Theory.
Local Open Scope ring_scope.

Lemma nth_flatten_rows (T : Type) (x0 : T) (r : seq (seq T)) w e j : (forall i, (i < size r)%N -> size (nth [::] r i) = w) ->
  (e < size r)%N -> (j < w)%N -> nth x0 (flatten r) (e * w + j) = nth x0 (nth [::] r e) j.
Proof.
elim: r e => [|a r IH] e hr //=; have sa : size a = w by exact: (hr 0%N).
case: e => [|e] he hj; rewrite nth_cat sa; first by rewrite mul0n add0n hj.
have -> : (e.+1 * w + j < w)%N = false by rewrite mulSn -addnA ltnNge leq_addr.
rewrite mulSn -addnA addKn IH // => i hi; exact: (hr i.+1).
Qed.

Section Family.
Variables (R : rcfType) (d : nat) (eps : R) (inv : 'M[R]_d -> 'M[R]_d) (L : eqType) (BCV : Type).
Notation rmesh := (Premesh_model.mesh [zmodType of 'rV[R]_d] L).
Variables (refined : nodes1d R -> ierror + rmesh) (K : nat) (F : nat -> 'I_d -> tpoly R).
Hypothesis fam : mesh_family refined K F.
Variables (o order overint : nat) (bcs : seq (L * (bctype * BCV))) (s : sem R d).
Hypothesis hs : sem_create eps inv refined o order bcs overint = inr s.
Notation vel := (s_velocity s).
Notation nv := (nv s).
Notation M := (order.+1 ^ d)%N.
Implicit Types (u f : seq (seq R)).
Variables (cfg : config R) (perm : seq nat).
(** The configuration describes the mesh. *)
Hypothesis fits_elements : cfg_elements cfg = K.
Hypothesis fits_channels : cfg_channels cfg = (M * d)%N.
Hypothesis fits_permutation : permute_elements cfg -> perm_eq perm (iota 0 K).

(** Rows of the right sizes; the rows that belong to the velocity [u], the
    elements in the order [ord]. *)
Definition table (r : seq (seq R)) : Prop := size r = K /\ forall e, (e < K)%N -> size (nth [::] r e) = (M * d)%N.
Definition table_of u (ord : nat -> nat) (r : seq (seq R)) : Prop := table r /\
  forall j k c, (j < K)%N -> (k < M)%N -> (c < d)%N -> nth 0 (nth [::] r j) (k * d + c) = ent u c (node_of (vm s) (ord j) k).
(** Row number of element [e] in the permuted table, and element of row [j]. *)
Definition place (e : nat) : nat := if permute_elements cfg then index e perm else e.
Definition element (j : nat) : nat := if permute_elements cfg then nth 0%N perm j else j.

Let mesh_sizes : num_elements (v_mesh vel) = K /\ m_per_element (v_mesh vel) = M.
Proof.
have [gp [gv [rp [rv [quad cf]]]]] := created fam hs.
have [_ _ eN _] := feE (ltn0Sn _) (cf_gv cf) (cf_vm cf); split=> //.
exact: (fe_num (ltn0Sn _) (cf_gv cf) (cf_rv cf) (cf_vm cf)).
Qed.
Let eK := mesh_sizes.1.
Let eN := mesh_sizes.2.
Lemma table_nth r : table r <-> size r = K /\ forall row, row \in r -> size row = (M * d)%N.
Proof.
split=> -[sr h]; split=> //; first by move=> row /(nthP [::])[e he <-]; apply: h; rewrite -sr.
by move=> e he; apply: h; apply: mem_nth; rewrite sr.
Qed.
Lemma rows_table u : table_of u id (rows d (v_gather vel u)).
Proof.
have [gp [gv [rp [rv [quad cf]]]]] := created fam hs.
have re e : (e < K)%N -> nth [::] (rows d (v_gather vel u)) e = [seq la_data (v_gather vel u) e n c | n <- iota 0 M, c <- iota 0 d].
  by move=> he; rewrite /rows -[la_elements _]/(num_elements (v_mesh vel)) eK (nth_map 0%N) ?size_iota // nth_iota // add0n -eN.
split; first split.
- by rewrite size_map size_iota -[la_elements _]/(num_elements (v_mesh vel)) eK.
- by move=> e he; rewrite re // size_allpairs !size_iota.
move=> e k c he hk hc; rewrite re //.
rewrite (@nth_rows R (fun n c => la_data (v_gather vel u) e n c) d 0 M k c hk hc) add0n.
by have [_ _ H] := node_facts cf he hk; rewrite -[LHS]/(gather_comp (vm s) (nth [::] u c) e k) H.
Qed.
Lemma take_table r p : table r -> perm_eq p (iota 0 K) -> table (take_rows r p) /\
  forall j, (j < K)%N -> nth [::] (take_rows r p) j = nth [::] r (nth 0%N p j) /\ (nth 0%N p j < K)%N.
Proof.
move=> [sr hr] pe; have sp : size p = K by rewrite (perm_size pe) size_iota.
have lt j : (j < K)%N -> (nth 0%N p j < K)%N.
  move=> hj; have : nth 0%N p j \in p by apply: mem_nth; rewrite sp.
  by rewrite (perm_mem pe) mem_iota.
have e j : (j < K)%N -> nth [::] (take_rows r p) j = nth [::] r (nth 0%N p j).
  move=> hj; rewrite (nth_map 0%N) ?sp // sr; congr (nth _ _ _); have := lt j hj; lia.
split; last by move=> j hj; rewrite e // lt.
by split=> [|j hj]; [rewrite size_map|rewrite e // hr // lt].
Qed.
Lemma argsort_perm p : perm_eq p (iota 0 K) -> perm_eq (argsort p) (iota 0 K) /\ forall e, (e < K)%N -> nth 0%N (argsort p) e = index e p.
Proof.
move=> pe; have sp : size p = K by rewrite (perm_size pe) size_iota.
have up : uniq p by rewrite (perm_uniq pe) iota_uniq.
have so : sort leq p = iota 0 K.
  apply: (sorted_eq leq_trans anti_leq); rewrite ?sort_sorted ?iota_sorted //; first exact: leq_total.
  by rewrite perm_sort.
have e1 e : (e < K)%N -> nth 0%N (argsort p) e = index e p.
  by move=> he; rewrite /argsort so (nth_map 0%N) ?size_iota // nth_iota.
split=> //; apply: uniq_perm; rewrite ?iota_uniq //.
  rewrite /argsort so map_inj_in_uniq ?iota_uniq // => i j.
  rewrite -!(perm_mem pe) => hi hj /(congr1 (nth 0%N p)); by rewrite !nth_index.
move=> i; rewrite /argsort so mem_iota add0n leq0n /=; apply/mapP/idP => [[e he ->]|hi].
  by rewrite -sp index_mem (perm_mem pe).
exists (nth 0%N p i); last by rewrite index_uniq // sp.
by rewrite -(perm_mem pe) mem_nth // sp.
Qed.

(** The network gets the table of the velocity, the elements in the order of the
    permutation.  What it returns for an element is added to the nodes of that
    element. *)
Theorem C76_places (net : seq (seq R) -> seq (seq R)) u : (forall r, table r -> table (net r)) ->
  exists r f, [/\ table_of u element r, closure_term cfg s perm net u = inr f, vgood s f &
    forall c i, (c < d)%N -> (i < nv)%N ->
      ent f c i = \sum_(e < K) \sum_(k < M) (node_of (vm s) e k == i)%:R * nth 0 (nth [::] (net r) (place e)) (k * d + c)].
Proof.
move=> hnet; have [gp [gv [rp [rv [quad cf]]]]] := created fam hs; have ok := facts_ok cf.
pose inp := if permute_elements cfg then take_rows (rows d (v_gather vel u)) perm else rows d (v_gather vel u).
have tr := rows_table u.
have ti : table_of u element inp.
  rewrite /inp /element; case: ifP => h; last exact: tr.
  have [t1 e1] := take_table tr.1 (fits_permutation h); split=> // j k c hj hk hc.
  by have [-> lt] := e1 j hj; rewrite tr.2.
pose out := if permute_elements cfg then take_rows (net inp) (argsort perm) else net inp.
have [to eo] : table out /\ forall e, (e < K)%N -> nth [::] out e = nth [::] (net inp) (place e).
  rewrite /out /place; case: ifP => h; last by split=> //; apply: hnet; exact: ti.1.
  have [pa ea] := argsort_perm (fits_permutation h).
  have [t1 e1] := take_table (hnet _ ti.1) pa; split=> // e he.
  by have [-> _] := e1 e he; rewrite ea.
have so : size (flatten out) = (K * M * d)%N.
  have [sz /table_nth[_ hr]] := (to.1, to); rewrite size_flatten /shape -mulnA -sz.
  elim: (out) hr => [|row r IH] hr //=.
  by rewrite hr ?inE ?eqxx // IH ?mulSn // => w wr; apply: hr; rewrite inE wr orbT.
pose b := LArray K M [:: d] (fun e n c => nth 0 (flatten out) ((e * M + n) * d + c)).
exists inp, (v_scatter vel b); split=> //; last 1 first.
- move=> c i hc hi; rewrite /ent (nth_map 0%N) ?size_iota // nth_iota // add0n scatter_sum ?eK ?eN //; last exact: (ok_v ok).
  apply: eq_bigr => e _; apply: eq_bigr => k _; rewrite mulrC; have [_ -> _] := node_facts cf (ltn_ord e) (ltn_ord k).
  congr (_ * _); rewrite /= mulnDl -mulnA -addnA -eo //.
  apply: nth_flatten_rows; rewrite ?(to.1) //; first exact: to.2.
  have := ltn_ord k; nia.
- rewrite /closure_term -/inp -/out ti.1.1 fits_elements fits_channels eN !eqxx; cbv beta iota delta [andb].
  by rewrite /unrows eK so eqxx.
exact: good_vscatter.
Qed.
(** The permutation makes no difference for networks that treat the elements
    alike: permuting the rows of the input permutes those of the output. *)
Theorem C76_equivariant (net : seq (seq R) -> seq (seq R)) u cfg' : (forall r, table r -> table (net r)) ->
  (forall r p, table r -> perm_eq p (iota 0 K) -> net [seq nth [::] r i | i <- p] = [seq nth [::] (net r) i | i <- p]) ->
  permute_elements cfg' = false -> cfg_elements cfg' = cfg_elements cfg -> cfg_channels cfg' = cfg_channels cfg ->
  closure_term cfg s perm net u = closure_term cfg' s perm net u.
Proof.
move=> hnet eq p' e' c'; have tr := (rows_table u).1; have tn := hnet _ tr.
rewrite /closure_term p' e' c'; case h : (permute_elements cfg) => //.
have pe := fits_permutation h; have [t1 _] := take_table tr pe; rewrite t1.1 (tr.1).
have tE r : table r -> take_rows r perm = [seq nth [::] r i | i <- perm].
  move=> [sr _]; apply/eq_in_map => i; rewrite (perm_mem pe) mem_iota add0n => /andP[_ hi].
  by congr (nth _ _ _); rewrite sr; lia.
have -> : take_rows (net (take_rows (rows d (v_gather vel u)) perm)) (argsort perm) = net (rows d (v_gather vel u)).
  by rewrite tE // eq // -tE //; apply: (@C54_restores _ [::]); rewrite tn.1.
by [].
Qed.
(** Row [place e] is that of element [e]. *)
Lemma element_place e : (e < K)%N -> element (place e) = e /\ (place e < K)%N.
Proof.
move=> he; rewrite /element /place; case h : (permute_elements cfg); last by split.
have pe := fits_permutation h.
have m : e \in perm by rewrite (perm_mem pe) mem_iota.
by rewrite nth_index //; split=> //; rewrite -[K](size_iota 0) -(perm_size pe) index_mem.
Qed.
(** The identity network does not give the velocity back: a node gets the value as
    often as it occurs in the elements. *)
Theorem C76_identity u : exists2 f, closure_term cfg s perm id u = inr f &
  forall c i, (c < d)%N -> (i < nv)%N -> ent f c i = copies K order s i * ent u c i.
Proof.
have [r [f [[_ er] h _ ef]]] := @C76_places id u (fun _ h => h); exists f => // c i hc hi.
rewrite ef // /copies mulr_suml; apply: eq_bigr => e _; rewrite mulr_suml; apply: eq_bigr => k _.
have [ep lp] := element_place (ltn_ord e); rewrite er // ep.
by case: eqP => [->|_]; rewrite ?mul1r ?mul0r.
Qed.
End Family.

(** On cubes with two elements along an axis the nodes between them are counted
    twice at least: 'ungather', as the comment at l.254 calls the scatter, is not
    the inverse of the gather. *)
Section Cube.
Variables (R : rcfType) (d : nat) (eps : R) (inv : 'M[R]_d -> 'M[R]_d) (L : eqType) (BCV : Type).
Variables (lbl : L) (n : nat) (a b : R) (pd : seq nat) (pm : premesh [lmodType R of 'rV[R]_d] L).
Hypotheses (d0 : (0 < d)%N) (n1 : (1 < n)%N) (ab : a < b).
Hypothesis gen : unit_cube_mesh d lbl n a b pd None = inr pm.
Variables (pg : nodes1d R) (tp : node_type).
Hypotheses (hpg : nodes1d_create R 2 tp = inr pg) (cpg : is_continuous pg).
Variables (order overint : nat) (bcs : seq (L * (bctype * BCV))) (s : sem R d).
Hypothesis hs : sem_create eps inv (refined_mesh pg pm) 1 order bcs overint = inr s.
Variables (cfg : config R) (perm : seq nat).
Hypothesis fits_elements : cfg_elements cfg = (n ^ d)%N.
Hypothesis fits_channels : cfg_channels cfg = (order.+1 ^ d * d)%N.
Hypothesis fits_permutation : permute_elements cfg -> perm_eq perm (iota 0 (n ^ d)).
Theorem C76_ungather_refuted : let one := nseq d (nseq (nv s) (1 : R)) in
  exists2 f, closure_term cfg s perm id one = inr f &
  exists2 i, (i < nv s)%N & 2%:R <= ent f 0 i.
Proof.
move=> one; have n0 : (0 < n)%N by lia.
have fam := (C61_family d0 n0 ab gen hpg cpg).1.
have [f h ef] := C76_identity fam hs fits_elements fits_channels fits_permutation one.
exists f => //; pose z := nseq d.-1 0%N.
have zall N : (0 < N)%N -> all (fun x => (x < N)%N) z by move=> N0; apply/allP => x /nseqP[->].
have sz (x : nat) : size (x :: z) = d by rewrite /= size_nseq prednK.
have gr N x : (x < N)%N -> x :: z \in grid N d.
  by move=> xN; rewrite mem_grid sz eqxx /= xN zall //; lia.
have c1 := gr n 0%N n0; have c2 := gr n 1%N n1; have p1 := gr order.+1 order (ltnSn _); have p2 := gr order.+1 0%N (ltn0Sn _).
have [hi [_ same] _] := C64_nodes d0 n0 ab gen hpg cpg hs c1 p1 c2 p2.
have nE : nd n order s (0%N :: z) (order :: z) = nd n order s (1%N :: z) (0%N :: z).
  by apply: same; rewrite /global /= mul0n add0n mul1n addn0.
exists (nd n order s (0%N :: z) (order :: z)) => //; rewrite ef //.
have -> : ent one 0 (nd n order s (0%N :: z) (order :: z)) = 1 by rewrite /ent !nth_nseq d0 nth_nseq hi.
rewrite mulr1 /copies; pose e1 := Ordinal (flat_lt c1); pose e2 := Ordinal (flat_lt c2).
have ne : e1 != e2.
  apply/eqP => /(congr1 val)/= e; by have := flat_inj c1 c2 e.
rewrite (bigD1 e1) //= (bigD1 e2) ?(eq_sym e2) //= addrA -[2%:R]addr0.
apply: ler_add; last by apply: sumr_ge0 => e _; apply: sumr_ge0 => k _; exact: ler0n.
rewrite -[2%:R]/(1 + 1); apply: ler_add.
  rewrite (bigD1 (Ordinal (flat_lt p1))) //= -/(nd n order s _ _) eqxx ler_addl; apply: sumr_ge0 => k _; exact: ler0n.
rewrite (bigD1 (Ordinal (flat_lt p2))) //= -/(nd n order s _ _) -nE eqxx ler_addl; apply: sumr_ge0 => k _; exact: ler0n.
Qed.
End Cube.

(** ** Examples *)
(** Scaling every entry treats the elements alike. *)
Example ex_scaling (R : rcfType) (w : R) (r : seq (seq R)) (p : seq nat) : perm_eq p (iota 0 (size r)) ->
  let net := map (map ( *%R w)) in net [seq nth [::] r i | i <- p] = [seq nth [::] (net r) i | i <- p].
Proof.
move=> pe net; rewrite /net -map_comp; apply/eq_in_map => i; rewrite (perm_mem pe) mem_iota add0n => /andP[_ hi] /=.
by rewrite (nth_map [::]).
Qed.
(** A channel of 3 x 3 elements. *)
Example ex_channel (R : rcfType) (eps : R) : exists pm : premesh [lmodType R of 'rV[R]_2] bool, exists s : sem R 2,
  [/\ unit_cube_mesh 2 true 3 (0 : R) 1 [:: 0%N] None = inr pm,
      sem_create eps invmx (refined_mesh (ex_pg R) pm) 1 3 [:: (true, (DIRICHLET, tt))] 2 = inr s &
  exists2 f, closure_term (Config (0 : R) 1 1 0 2 false 9 32) s [::] id (nseq 2 (nseq (nv s) 1)) = inr f &
  exists2 i, (i < nv s)%N & 2%:R <= ent f 0 i].
Proof.
have [pm [s [gen _ _ _ hs]]] := ex_square eps; exists pm, s; split=> //.
exact: (@C76_ungather_refuted R 2 eps invmx bool_eqType unit true 3 0 1 [:: 0%N] pm isT isT ltr01 gen (ex_pg R) _ (ex_pg_created R) (ex_pg_continuous R)
  3 2 [:: (true, (DIRICHLET, tt))] s hs (Config 0 1 1 0 2 false 9 32) [::] erefl erefl (fun h => ltac:(by []))).
Qed.
(** The hypotheses on the configuration for the default permutation. *)
Example ex_permuted : perm_eq default_perm (iota 0 (12 ^ 2)).
Proof. exact: (C54_permutation default_fits). Qed.

Print Assumptions C76_places.
Print Assumptions C76_equivariant.
Print Assumptions C76_identity.
Print Assumptions C76_ungather_refuted.
