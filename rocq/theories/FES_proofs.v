(** Proofs about the finite element space model: linearity, Jacobians, affine
    elements, weights. *)
From mathcomp Require Import all_ssreflect all_algebra polyrcf zify ring.
From Verif Require Import PyDict_model PyDict_proofs GS_model Interp_model Interp_spec Lagrange_proofs Interp_proofs.
From Verif Require Import Legendre_proofs Gauss_proofs Gauss_proofs2 Interp_proofs2 Tensor_proofs Interp_props FES_model.
Set Implicit Arguments.
Unset Strict Implicit.
Unset Printing Implicit Defensive.
Import Order.TTheory GRing.Theory Num.Theory.
Local Open Scope ring_scope.

Lemma sumlE (R : zmodType) n (f : nat -> R) : suml n f = \sum_(i < n) f i.
Proof.
rewrite /suml -(big_mkord xpredT f) /index_iota subn0.
by elim: (iota 0 n) => [|i l IH] /=; rewrite ?big_nil // big_cons IH.
Qed.

Lemma big_iota (R : zmodType) n (f : nat -> R) : \sum_(i <- iota 0 n) f i = \sum_(i < n) f i.
Proof. by rewrite -(big_mkord xpredT f) /index_iota subn0. Qed.

Lemma eq_suml (R : zmodType) n (f g : nat -> R) : (forall i, (i < n)%N -> f i = g i) -> suml n f = suml n g.
Proof. by move=> H; rewrite !sumlE; apply: eq_bigr => i _; apply: H. Qed.

Section Lin.
Variable R : comRingType.

(** [dot] with a list of values given by a function, whatever the row length *)
Lemma dot_fun (row : seq R) (u : nat -> R) N :
  dot row [seq u n | n <- iota 0 N] = \sum_(n < N) nth 0 row n * u n.
Proof.
rewrite -(big_mkord xpredT (fun n => nth 0 row n * u n)) /index_iota subn0.
suff H k : dot row [seq u n | n <- iota k N] = \sum_(n <- iota k N) nth 0 row (n - k) * u n.
  by rewrite H; apply: eq_bigr => n _; rewrite subn0.
elim: N k row => [|N IH] k row; first by rewrite big_nil /dot; case: row.
case: row => [|x row] /=.
  by rewrite /dot /= big1 // => n _; rewrite nth_nil mul0r.
rewrite big_cons subnn /=; have := IH k.+1 row; rewrite /dot /= => ->; congr (_ + _).
rewrite !big_seq; apply: eq_bigr => n; rewrite mem_iota => /andP[h _].
by rewrite -(subnSK h).
Qed.
End Lin.

Section FES.
Variables (R : rcfType) (d : nat) (eps : R) (inv : 'M[R]_d -> 'M[R]_d).
Notation mesh := (mesh R d).
Notation fespace := (fespace R d).
Implicit Types (m : mesh) (fs : fespace) (u v : nat -> R).

Lemma node_list_ext m u v : (forall n, (n < m_per_element m)%N -> u n = v n) -> node_list m u = node_list m v.
Proof. by move=> H; apply/eq_in_map => n; rewrite mem_iota add0n => /andP[_ /H]. Qed.
Lemma size_node_list m u : size (node_list m u) = m_per_element m.
Proof. by rewrite size_map size_iota. Qed.

(** Interpolation is linear in the nodal values, also when it raises. *)
Lemma at_quad_linear m ev a u v q :
  at_quad eps m ev (fun n => a * u n + v n) q = a * at_quad eps m ev u q + at_quad eps m ev v q.
Proof.
rewrite /at_quad /interpolate !size_node_list.
case: ifP => _; first by rewrite /= !nth_nil mulr0 addr0.
case: ifP => _ /=.
  case: (ltnP q (m_per_element m)) => h.
    by rewrite !(nth_map 0%N) ?size_iota.
  by rewrite !nth_default ?size_map ?size_iota // mulr0 addr0.
case: (interpolation_matrix _ _ _) => [e|M] /=; first by rewrite !nth_nil mulr0 addr0.
case: (ltnP q (size M)) => h; last by rewrite !nth_default ?size_map // mulr0 addr0.
rewrite !(nth_map [::]) // /node_list !dot_fun mulr_sumr -big_split /=.
by apply: eq_bigr => n _; rewrite mulrDr mulrCA.
Qed.
Lemma ref_grad_linear m ev a u v q i :
  ref_grad m ev (fun n => a * u n + v n) q i = a * ref_grad m ev u q i + ref_grad m ev v q i.
Proof.
rewrite /ref_grad /interpolate_grad !size_node_list.
case: ifP => _; first by rewrite /= !nth_nil mulr0 addr0.
case: (interpolation_matrix_grad _ _ _) => [e|Ms] /=; first by rewrite !nth_nil mulr0 addr0.
case: (ltnP i (size Ms)) => hi; last by rewrite ![nth [::] _ i]nth_default ?size_map // !nth_nil mulr0 addr0.
have mE w : nth [::] [seq matvec M w | M <- Ms] i = matvec (nth [::] Ms i) w by rewrite (nth_map [::]).
rewrite !mE; set M := nth _ Ms i.
case: (ltnP q (size M)) => h; last by rewrite !nth_default ?size_map // mulr0 addr0.
rewrite !(nth_map [::]) // /node_list !dot_fun mulr_sumr -big_split /=.
by apply: eq_bigr => n _; rewrite mulrDr mulrCA.
Qed.
Lemma at_quad_ext m ev u v q : (forall n, (n < m_per_element m)%N -> u n = v n) -> at_quad eps m ev u q = at_quad eps m ev v q.
Proof. by move=> H; rewrite /at_quad (node_list_ext H). Qed.
Lemma ref_grad_ext m ev u v q i : (forall n, (n < m_per_element m)%N -> u n = v n) -> ref_grad m ev u q i = ref_grad m ev v q i.
Proof. by move=> H; rewrite /ref_grad (node_list_ext H). Qed.

Lemma nth_phys_grad fs e u q (j : 'I_d) :
  nth 0 (phys_grad fs e u q) j = \sum_(i < d) ref_grad (fs_mesh fs) (evalpoints fs) u q i * fs_invjacs fs e q j i.
Proof.
rewrite (nth_map j) ?size_enum_ord // nth_ord_enum sumlE; apply: eq_bigr => i _.
by rewrite valK.
Qed.
Lemma size_phys_grad fs e u q : size (phys_grad fs e u q) = d.
Proof. by rewrite size_map size_enum_ord. Qed.
Lemma phys_grad_ext fs e u v q : (forall n, (n < m_per_element (fs_mesh fs))%N -> u n = v n) ->
  phys_grad fs e u q = phys_grad fs e v q.
Proof. by move=> H; apply: eq_map => j; apply: eq_suml => i _; rewrite (ref_grad_ext _ _ _ H). Qed.
Lemma phys_grad_linear fs e a u v q j :
  nth 0 (phys_grad fs e (fun n => a * u n + v n) q) j =
  a * nth 0 (phys_grad fs e u q) j + nth 0 (phys_grad fs e v q) j.
Proof.
case: (ltnP j d) => h; last by rewrite !nth_default ?size_phys_grad // mulr0 addr0.
rewrite -[j]/(nat_of_ord (Ordinal h)) !nth_phys_grad mulr_sumr -big_split /=; apply: eq_bigr => i _.
by rewrite ref_grad_linear mulrDl mulrA.
Qed.

(** Matrix entries against reference gradients. *)
Lemma ref_gradE m ev gs u q i : m_per_element m = (nd_num_points (m_grid m) ^ d)%N ->
  interpolation_matrix_grad d (m_grid m) ev = inr gs ->
  ref_grad m ev u q i = \sum_(n < m_per_element m) u n * nth 0 (nth [::] (nth [::] gs i) q) n.
Proof.
move=> e H; rewrite /ref_grad /interpolate_grad size_node_list -e eqxx /= H.
case: (ltnP i (size gs)) => hi; last first.
  rewrite [nth [::] _ i]nth_default ?size_map // nth_nil big1 // => n _.
  by rewrite [nth [::] gs i]nth_default // !nth_nil mulr0.
rewrite (nth_map [::]) //; set M := nth _ gs i.
case: (ltnP q (size M)) => h; last first.
  by rewrite nth_default ?size_map // big1 // => n _; rewrite [nth [::] M q]nth_default // nth_nil mulr0.
by rewrite (nth_map [::]) // dot_fun; apply: eq_bigr => n _; rewrite mulrC.
Qed.

(** What [create] stores. *)
Lemma fespace_createE m quad fs : fespace_create eps inv m quad = inr fs ->
  exists gs, [/\ interpolation_matrix_grad d (m_grid m) (qd_nodes quad) = inr gs,
    m_per_element m = (nd_num_points (m_grid m) ^ d)%N, fs_mesh fs = m, fs_quad fs = quad &
    (forall e q, fs_invjacs fs e q = inv (jacobian m gs e q)) /\
    (forall e q, fs_jacdets fs e q = \det (jacobian m gs e q)) /\
    (forall e q, fs_quad_coords fs e q = \row_j at_quad eps m (qd_nodes quad) (fun n => element_coords m e n 0 j) q)].
Proof.
rewrite /fespace_create.
case E1 : (interpolate _ _ _ _ _) => [|x] //; case E2 : (interpolation_matrix_grad _ _ _) => [|gs] // [<-].
exists gs; split=> //; move: E1; rewrite /interpolate size_node_list.
by case: eqP.
Qed.

Lemma jacobianE m ev gs e q i j : m_per_element m = (nd_num_points (m_grid m) ^ d)%N ->
  interpolation_matrix_grad d (m_grid m) ev = inr gs ->
  jacobian m gs e q i j = ref_grad m ev (fun n => element_coords m e n 0 j) q i.
Proof. by move=> h H; rewrite mxE sumlE (ref_gradE _ _ _ h H). Qed.

(** The chain rule. *)
Lemma chain_rule m quad fs e q u (i : 'I_d) : (forall J, J \in unitmx -> inv J = invmx J) ->
  fespace_create eps inv m quad = inr fs -> fs_jacdets fs e q != 0 ->
  \sum_(j < d) ref_grad m (qd_nodes quad) (fun n => element_coords m e n 0 j) q i * nth 0 (phys_grad fs e u q) j =
  ref_grad m (qd_nodes quad) u q i.
Proof.
move=> hinv /fespace_createE[gs [H N fm fq [fi [fd _]]]]; rewrite fd => d0.
have U : jacobian m gs e q \in unitmx by rewrite unitmxE unitfE.
pose r : 'cV[R]_d := \col_k ref_grad m (qd_nodes quad) u q k.
have gE (j : 'I_d) : nth 0 (phys_grad fs e u q) j = (invmx (jacobian m gs e q) *m r) j 0.
  rewrite nth_phys_grad !mxE; apply: eq_bigr => k _.
  by rewrite fi hinv // !mxE mulrC fm /evalpoints fq.
have <- : r i 0 = ref_grad m (qd_nodes quad) u q i by rewrite mxE.
rewrite -[r]mul1mx -(mulmxV U) -mulmxA mxE; apply: eq_bigr => j _.
by rewrite gE -(jacobianE e q i j N H).
Qed.

Lemma phys_grad_coord m quad fs e q (j : 'I_d) : (forall J, J \in unitmx -> inv J = invmx J) ->
  fespace_create eps inv m quad = inr fs -> fs_jacdets fs e q != 0 ->
  phys_grad fs e (fun n => element_coords m e n 0 j) q = [seq (k == j)%:R | k <- enum 'I_d].
Proof.
move=> hinv /fespace_createE[gs [H N fm fq [fi [fd _]]]]; rewrite fd => d0.
have U : jacobian m gs e q \in unitmx by rewrite unitmxE unitfE.
apply: (@eq_from_nth _ 0) => [|k]; rewrite size_phys_grad; first by rewrite size_map size_enum_ord.
move=> hk.
rewrite -[k]/(nat_of_ord (Ordinal hk)) nth_phys_grad (nth_map j) ?size_enum_ord // nth_ord_enum.
have <- : (invmx (jacobian m gs e q) *m jacobian m gs e q) (Ordinal hk) j = (Ordinal hk == j)%:R.
  by rewrite mulVmx // mxE.
rewrite mxE; apply: eq_bigr => i _.
by rewrite fi hinv // mulrC fm /evalpoints fq -(jacobianE e q i j N H).
Qed.
End FES.

(** ** Affine functions as sums of products *)
Section Affine.
Variables (R : rcfType) (d : nat).
Definition mono (i : nat) : seq {poly R} := [seq if k == i then 'X else 1 | k <- iota 0 d].
Definition aff (c : R) (a : nat -> R) : tpoly R := (c, nseq d 1) :: [seq (a i, mono i) | i <- iota 0 d].

Lemma prod_zip (ps : seq {poly R}) (x : seq R) : size ps = size x ->
  \prod_(px <- zip ps x) px.1.[px.2] = \prod_(k < size x) (nth 0 ps k).[nth 0 x k].
Proof.
move=> e; rewrite (big_nth (0, 0)) size_zip e minnn big_mkord.
by apply: eq_bigr => k _; rewrite nth_zip.
Qed.

Lemma mono_eval i (x : seq R) : size x = d -> (i < d)%N -> \prod_(px <- zip (mono i) x) px.1.[px.2] = nth 0 x i.
Proof.
move=> sx hi; rewrite prod_zip ?size_map ?size_iota // sx (bigD1 (Ordinal hi)) //= big1 ?mulr1 => [|k ki].
  by rewrite (nth_map 0%N) ?size_iota // nth_iota // add0n eqxx hornerX.
by rewrite (nth_map 0%N) ?size_iota // nth_iota // add0n (negbTE (ki : (k : nat) != i)) hornerE.
Qed.
Lemma const_eval (x : seq R) : size x = d -> \prod_(px <- zip (nseq d (1 : {poly R})) x) px.1.[px.2] = 1.
Proof.
move=> sx; rewrite prod_zip ?size_nseq // sx big1 // => k _.
by rewrite nth_nseq ltn_ord hornerE.
Qed.

Lemma aff_eval c a (x : seq R) : size x = d -> teval (aff c a) x = c + \sum_(i < d) a i * nth 0 x i.
Proof.
move=> sx; rewrite /teval big_cons /= const_eval // mulr1; congr (_ + _).
rewrite big_map -(big_mkord xpredT (fun i => a i * nth 0 x i)) /index_iota subn0 !big_seq.
by apply: eq_bigr => i; rewrite mem_iota add0n => /andP[_ hi] /=; rewrite mono_eval.
Qed.

Lemma aff_deriv k c a (x : seq R) : size x = d -> (k < d)%N -> teval (tderiv k (aff c a)) x = a k.
Proof.
move=> sx hk; rewrite /teval /tderiv big_map big_cons /= size_nseq.
have P0 (ps : seq {poly R}) (j : nat) : size ps = d -> (j < d)%N -> nth 0 ps j = 0 ->
    \prod_(px <- zip ps x) px.1.[px.2] = 0.
  move=> sp hj e; rewrite prod_zip ?sp // sx (bigD1 (Ordinal hj)) //= e horner0 mul0r //.
rewrite (P0 _ k) ?size_map ?size_iota // ?mulr0 ?add0r; last first.
  by rewrite (nth_map 0%N) ?size_iota // nth_iota // add0n eqxx nth_nseq hk -polyC1 derivC.
rewrite big_map big_iota (bigD1 (Ordinal hk)) //=.
rewrite [X in _ + X]big1 ?addr0 => [|i ik]; last first.
  rewrite (P0 _ k) ?mulr0 ?size_map ?size_iota // (nth_map 0%N) ?size_map ?size_iota // nth_iota ?size_map ?size_iota // add0n eqxx.
  rewrite (nth_map 0%N) ?size_iota // nth_iota // add0n.
  by rewrite (_ : (k == i) = false) ?(derivC 1) // eq_sym; apply/negbTE.
rewrite prod_zip ?size_map ?size_iota // sx big1 ?mulr1 // => j _.
rewrite (nth_map 0%N) ?size_map ?size_iota // nth_iota // add0n (nth_map 0%N) ?size_iota // nth_iota // add0n.
by case: eqP => _; rewrite ?derivX hornerE.
Qed.

Lemma aff_deg n c a : (1 < n)%N -> tdeg d n (aff c a).
Proof.
move=> n1; rewrite /tdeg /= size_nseq eqxx all_nseq size_poly1 (ltnW n1) orbT /=.
apply/allP => t /mapP[i _ ->] /=; rewrite size_map size_iota eqxx /=.
by apply/allP => p /mapP[k _ ->]; case: ifP; rewrite ?size_polyX ?size_poly1 // ltnW.
Qed.
End Affine.
