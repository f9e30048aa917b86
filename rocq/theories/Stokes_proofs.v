(** Proofs about the Stokes model: linearity, adjointness, exchange. *)
From mathcomp Require Import all_ssreflect all_algebra zify ring.
From Verif Require Import PyDict_model GS_model GS_proofs GS_props Premesh_model Interp_model FES_model FES_proofs.
From Verif Require Import FES_proofs2 FES_props FES_props2 CG_model CG_proofs CG_props TimeCoef_model Stokes_model.
Set Implicit Arguments.
Unset Strict Implicit.
Unset Printing Implicit Defensive.
Import Order.TTheory GRing.Theory Num.Theory.
Local Open Scope ring_scope.

Section Entries.
Variable R : rcfType.
Implicit Types (a b : seq R).

(** Entry [i] of component [c]. *)
Definition ent (u : seq (seq R)) (c i : nat) : R := nth 0 (nth [::] u c) i.

Lemma size_map2 (f : R -> R -> R) a b : size a = size b -> size (map2 f a b) = size b.
Proof. by move=> e; rewrite size_map size_zip e minnn. Qed.
Lemma nth_map2d (f : R -> R -> R) a b i : f 0 0 = 0 -> size a = size b ->
  nth 0 (map2 f a b) i = f (nth 0 a i) (nth 0 b i).
Proof.
move=> f0 e; case: (ltnP i (size a)) => h; first by rewrite nth_map2.
by rewrite !nth_default ?size_map2 // -?e.
Qed.
Lemma nth_vmul a b i : size a = size b -> nth 0 (vmul a b) i = nth 0 a i * nth 0 b i.
Proof. by move=> e; rewrite nth_map2d ?mul0r. Qed.
Lemma size_vmul a b : size a = size b -> size (vmul a b) = size b.
Proof. exact: size_map2. Qed.
Lemma nth_scale (c : R) a i : nth 0 [seq c * x | x <- a] i = c * nth 0 a i.
Proof.
case: (ltnP i (size a)) => h; first by rewrite (nth_map 0).
by rewrite !nth_default ?size_map ?mulr0.
Qed.

Section Shape.
Variables (d N : nat).
Notation sh := (nseq d N).
Implicit Types (u v w : seq (seq R)).
Lemma good_size u : good sh u -> size u = d.
Proof. by move=> g; rewrite -(size_map size u) -/(shape u) g size_nseq. Qed.
Lemma good_comp u c : good sh u -> (c < d)%N -> size (nth [::] u c) = N.
Proof. by move=> g hc; have := nth_shape u c; rewrite g nth_nseq hc. Qed.
Lemma goodP u : size u = d -> (forall c, (c < d)%N -> size (nth [::] u c) = N) -> good sh u.
Proof.
move=> su H; apply: (@eq_from_nth _ 0%N); first by rewrite size_map size_nseq.
move=> i; rewrite size_map su => hi; by rewrite nth_shape nth_nseq hi H.
Qed.
Lemma good_eq u v : good sh u -> good sh v ->
  (forall c i, (c < d)%N -> (i < N)%N -> ent u c i = ent v c i) -> u = v.
Proof.
move=> gu gv H; apply: (@eq_from_nth _ [::]); rewrite (good_size gu) ?(good_size gv) // => c hc.
by apply: (@eq_from_nth _ 0); rewrite (good_comp gu) ?(good_comp gv) // => i; apply: H.
Qed.
Lemma ent_map (f : seq R -> seq R) u c : good sh u -> (c < d)%N -> nth [::] (map f u) c = f (nth [::] u c).
Proof. by move=> g hc; rewrite (nth_map [::]) ?(good_size g). Qed.
Lemma nth_map2c (f : seq R -> seq R -> seq R) u v c : good sh u -> good sh v -> (c < d)%N ->
  nth [::] (map2 f u v) c = f (nth [::] u c) (nth [::] v c).
Proof.
move=> gu gv hc; rewrite (nth_map ([::], [::])) ?nth_zip ?(good_size gu) ?(good_size gv) //.
by rewrite size_zip (good_size gu) (good_size gv) minnn.
Qed.
Lemma ent_add u v c i : good sh u -> good sh v -> ent (tree_add u v) c i = ent u c i + ent v c i.
Proof.
move=> gu gv; rewrite /ent; case: (ltnP c d) => hc.
  by rewrite nth_map2c // nth_map2d ?addr0 // !(good_comp _ hc).
by rewrite !(nth_default [::]) ?size_map ?size_zip ?(good_size gu) ?(good_size gv) ?minnn // !nth_nil addr0.
Qed.
Lemma ent_sub u v c i : good sh u -> good sh v -> ent (tree_sub u v) c i = ent u c i - ent v c i.
Proof.
move=> gu gv; rewrite /ent; case: (ltnP c d) => hc.
  by rewrite nth_map2c // nth_map2d ?subr0 // !(good_comp _ hc).
by rewrite !(nth_default [::]) ?size_map ?size_zip ?(good_size gu) ?(good_size gv) ?minnn // !nth_nil subr0.
Qed.
Lemma ent_scale (a : R) u c i : ent (tree_scale a u) c i = a * ent u c i.
Proof.
rewrite /ent /tree_scale; case: (ltnP c (size u)) => hc; first by rewrite (nth_map [::]) // nth_scale.
by rewrite !(nth_default [::]) ?size_map // !nth_nil mulr0.
Qed.
Lemma good_add u v : good sh u -> good sh v -> good sh (tree_add u v).
Proof. by move=> gu gv; have [] := vecD gu gv. Qed.
Lemma good_sub u v : good sh u -> good sh v -> good sh (tree_sub u v).
Proof. by move=> gu gv; have [] := vecB gu gv. Qed.
Lemma good_scale (a : R) u : good sh u -> good sh (tree_scale a u).
Proof. by move=> gu; have [] := vecZ a gu. Qed.
Lemma good_zeros u : good sh u -> good sh (zeros_like u).
Proof. by move=> gu; rewrite (zeros_likeE gu) /good /shape -map_comp -[RHS]map_id; apply/eq_map => n /=; rewrite size_nseq. Qed.
Lemma ent_zeros u c i : ent (zeros_like u) c i = 0.
Proof.
rewrite /ent /zeros_like; case: (ltnP c (size u)) => hc; last by rewrite (nth_default [::]) ?size_map ?nth_nil.
rewrite (nth_map [::]) //; case: (ltnP i (size (nth [::] u c))) => hi; first by rewrite (nth_map 0).
by rewrite nth_default ?size_map.
Qed.
Lemma good_mapc (f : seq R -> seq R) u : good sh u -> (forall c, size c = N -> size (f c) = N) -> good sh (map f u).
Proof.
move=> gu H; apply: goodP; first by rewrite size_map (good_size gu).
by move=> c hc; rewrite (ent_map _ gu) // H // (good_comp gu).
Qed.
Lemma good_map2c (f : seq R -> seq R -> seq R) u v : good sh u -> good sh v ->
  (forall c c', size c = N -> size c' = N -> size (f c c') = N) -> good sh (map2 f u v).
Proof.
move=> gu gv H; apply: goodP; first by rewrite size_map size_zip (good_size gu) (good_size gv) minnn.
by move=> c hc; rewrite nth_map2c // H // (good_comp _ hc).
Qed.
End Shape.
End Entries.

Section Ops.
Variables (R : rcfType) (d : nat) (eps : R).
Notation fespace := (fespace R d).
Notation larray := (larray R).
Notation mesh := (FES_model.mesh R d).
Notation form := (form R d).
Notation covector := (@covector R d eps).
Implicit Types (m : mesh) (fs : fespace) (fm : form) (p q : seq R) (u v w : seq (seq R)).

Definition nn m : nat := size (FES_model.m_coords m).

(** ** Scatter and gather *)
Lemma assembly m b p : proper m -> size p = nn m ->
  \sum_(i < nn m) nth 0 p i * nth 0 (scatter_comp m b) i =
  \sum_(e < num_elements m) \sum_(n < m_per_element m) b e n * gather_comp m p e n.
Proof.
move=> pr sp.
pose q0 : quadrature1d R := Quadrature1D 0 SINGLE (Nodes1D 0 SINGLE [::]) [::].
pose fs := FES m q0 (fun _ _ => 0) (fun _ _ => 0) (fun _ _ => 0).
have := @C40_assembly R d fs (LArray 0 0 [::] (fun e n _ => b e n)) p pr sp.
rewrite /pairing /= => ->; apply: eq_bigr => e _; apply: eq_bigr => n _; by rewrite big_ord1.
Qed.
Lemma size_scatter_comp m b : size (scatter_comp m b) = nn m.
Proof. by rewrite size_scatter. Qed.

Definition unitv (N k : nat) : seq R := mkseq (fun i => (i == k)%:R) N.
Lemma sum_unitv N k p : (k < N)%N -> \sum_(i < N) nth 0 (unitv N k) i * nth 0 p i = nth 0 p k.
Proof.
move=> hk; rewrite (bigD1 (Ordinal hk)) //= nth_mkseq // eqxx mul1r big1 ?addr0 // => i ik.
by rewrite nth_mkseq // (negbTE (ik : (i : nat) != k)) mul0r.
Qed.
Lemma nth_scatter_comp m b k : proper m -> (k < nn m)%N ->
  nth 0 (scatter_comp m b) k =
  \sum_(e < num_elements m) \sum_(n < m_per_element m) b e n * gather_comp m (unitv (nn m) k) e n.
Proof. by move=> pr hk; rewrite -assembly ?size_mkseq // sum_unitv. Qed.
Lemma scatter_lin m a b b' k : proper m ->
  nth 0 (scatter_comp m (fun e n => a * b e n + b' e n)) k =
  a * nth 0 (scatter_comp m b) k + nth 0 (scatter_comp m b') k.
Proof.
move=> pr; case: (ltnP k (nn m)) => h; last by rewrite !nth_default ?size_scatter_comp // mulr0 addr0.
rewrite !nth_scatter_comp // mulr_sumr -big_split /=; apply: eq_bigr => e _.
rewrite mulr_sumr -big_split /=; apply: eq_bigr => n _; by rewrite mulrDl mulrA.
Qed.
Lemma scatter_ext m b b' : (forall e n, (e < num_elements m)%N -> (n < m_per_element m)%N -> b e n = b' e n) ->
  scatter_comp m b = scatter_comp m b'.
Proof.
move=> H; rewrite /scatter_comp; congr scatter; apply/eq_in_allpairs => e n.
by rewrite !mem_iota !add0n => /andP[_ he] /andP[_ hn]; apply: H.
Qed.
Lemma gather_lin m a p q r e n : size p = size r -> size q = size r ->
  (forall i, nth 0 r i = a * nth 0 p i + nth 0 q i) ->
  gather_comp m r e n = a * gather_comp m p e n + gather_comp m q e n.
Proof.
move=> s1 s2 H; rewrite /gather_comp /gather.
case: (ltnP n (size (nth [::] (FES_model.m_elements m) e))) => h; last by rewrite !(nth_default 0) ?size_map // mulr0 addr0.
by rewrite !(nth_map 0) //; case: ifP => _; rewrite ?mulr0 ?addr0 // /at_ s1 s2 H.
Qed.

(** ** Covectors as functions of their arguments *)
Lemma evaluate_ext fs k (a b : larray) e (q : nat) : (forall e n c, la_data a e n c = la_data b e n c) ->
  evaluate_nodal eps fs k a e q = evaluate_nodal eps fs k b e q.
Proof.
move=> H.
have V C : value_list eps fs a C e q = value_list eps fs b C e q.
  by apply: eq_map => c; apply: at_quad_ext => n _; apply: H.
have G C : grad_list fs a C e q = grad_list fs b C e q.
  congr flatten; apply: eq_map => j; apply: eq_map => c; congr nth; apply: phys_grad_ext => n _; exact: H.
by case: k; rewrite /evaluate_nodal ?V ?G.
Qed.
Lemma form_integral_lin fs fm l1 l2 fs' k a (x y z : larray) : linear_slot fm (size l1) ->
  (forall e n c, la_data z e n c = a * la_data x e n c + la_data y e n c) ->
  form_integral eps fs fm (l1 ++ fun_of fs' k (Some z) :: l2) =
  a * form_integral eps fs fm (l1 ++ fun_of fs' k (Some x) :: l2) +
  form_integral eps fs fm (l1 ++ fun_of fs' k (Some y) :: l2).
Proof.
move=> lin H; rewrite /form_integral -C38_linear; apply: eq_suml => e _; apply: eq_suml => q _.
rewrite !map_cat /=; set L1 := map _ l1; set L2 := map _ l2.
have M X s : fm X (L1 ++ s :: L2) = fm X (set_nth [::] (L1 ++ [::] :: L2) (size l1) s).
  by rewrite -(size_map (fun f => evaluate_fun eps fs f e q) l1) set_nth_mid.
rewrite 3!M.
by rewrite (evaluate_ext fs' k e q (b := lcomb a x y)) // evaluate_comb lin // (size_evaluate _ _ _ _ y).
Qed.

(** The entries of a covector with one given argument before or after the
    placeholder are linear in that argument. *)
Lemma covector_lin1 fs fm fs1 fs2 k1 k2 a (x y z : larray) e n c : linear_slot fm 0 ->
  (forall e n c, la_data z e n c = a * la_data x e n c + la_data y e n c) ->
  la_data (covector fs fm [:: fun_of fs1 k1 (Some z); fun_of fs2 k2 None]) e n c =
  a * la_data (covector fs fm [:: fun_of fs1 k1 (Some x); fun_of fs2 k2 None]) e n c +
  la_data (covector fs fm [:: fun_of fs1 k1 (Some y); fun_of fs2 k2 None]) e n c.
Proof.
move=> lin H; rewrite /covector /local_covector /=.
case: ifP => _; last first.
  by case: ifP => _ /=; [rewrite mulr0 addr0|exact: (@form_integral_lin fs fm [::])].
by rewrite /= mulr0 addr0.
Qed.
Lemma covector_lin2 fs fm fs1 fs2 k1 k2 a (x y z : larray) e n c : linear_slot fm 1 ->
  (forall e n c, la_data z e n c = a * la_data x e n c + la_data y e n c) ->
  la_data (covector fs fm [:: fun_of fs1 k1 None; fun_of fs2 k2 (Some z)]) e n c =
  a * la_data (covector fs fm [:: fun_of fs1 k1 None; fun_of fs2 k2 (Some x)]) e n c +
  la_data (covector fs fm [:: fun_of fs1 k1 None; fun_of fs2 k2 (Some y)]) e n c.
Proof.
move=> lin H; rewrite /covector /local_covector /=.
case: ifP => _; last first.
  case: ifP => _ /=; first by rewrite mulr0 addr0.
  by apply: (@form_integral_lin fs fm [:: _]).
by rewrite /= mulr0 addr0.
Qed.

(** ** The forms are linear in each argument. *)
Arguments vval : simpl never.
Arguments vgrad : simpl never.
Lemma vval_comb (a : R) s t c : size s = size t -> vval (comb a s t) c = a * vval s c + vval t c.
Proof. exact: nth_comb. Qed.
Lemma vgrad_comb (a : R) s t j c : size s = size t -> vgrad d (comb a s t) j c = a * vgrad d s j c + vgrad d t j c.
Proof. exact: nth_comb. Qed.
Lemma arg_set (vs : seq (seq R)) i s j : arg (set_nth [::] vs i s) j = if j == i then s else arg vs j.
Proof. by rewrite /arg nth_set_nth. Qed.
Lemma suml_lin n a (f g h : nat -> R) : (forall i, f i = a * g i + h i) -> suml n f = a * suml n g + suml n h.
Proof. by move=> H; rewrite !sumlE mulr_sumr -big_split; apply: eq_bigr => i _; apply: H. Qed.
Lemma pmass_lin i : (i < 2)%N -> linear_slot (@pmass R d) i.
Proof.
by case: i => [|[|]] // _ x vs a s t st; rewrite /pmass !arg_set /= !vval_comb //; ring.
Qed.
Lemma vmass_lin i : (i < 2)%N -> linear_slot (@vmass R d) i.
Proof.
by case: i => [|[|]] // _ x vs a s t st; apply: suml_lin => c; rewrite !arg_set /= !vval_comb //; ring.
Qed.
Lemma vstiff_lin i : (i < 2)%N -> linear_slot (@vstiff R d) i.
Proof.
case: i => [|[|]] // _ x vs a s t st; apply: suml_lin => j; apply: suml_lin => c;
by rewrite !arg_set /= !vgrad_comb //; ring.
Qed.
Lemma divq_lin i : (i < 2)%N -> linear_slot (@divq R d) i.
Proof.
case: i => [|[|]] // _ x vs a s t st; rewrite /divq !arg_set /=.
  rewrite (@suml_lin d a _ (fun j => vgrad d s j j) (fun j => vgrad d t j j)) => [|j]; last exact: vgrad_comb.
  by ring.
by rewrite vval_comb //; ring.
Qed.
Lemma vconv_lin : linear_slot (@vconv R d) 2.
Proof.
move=> x vs a s t st; apply: suml_lin => j; apply: suml_lin => c;
by rewrite !arg_set /= !vval_comb //; ring.
Qed.

(** ** Vector fields *)
Definition vsh m : seq nat := nseq d (nn m).
Lemma gather_vector_lin m a u v w : good (vsh m) u -> good (vsh m) v -> good (vsh m) w ->
  (forall c i, ent w c i = a * ent u c i + ent v c i) -> forall e n c,
  la_data (gather_vector m w) e n c = a * la_data (gather_vector m u) e n c + la_data (gather_vector m v) e n c.
Proof.
move=> gu gv gw H e n c /=; apply: gather_lin => [||i]; last exact: H.
- case: (ltnP c d) => h; first by rewrite (good_comp gu h) (good_comp gw h).
  by rewrite !(nth_default [::]) ?(good_size gu) ?(good_size gw).
- case: (ltnP c d) => h; first by rewrite (good_comp gv h) (good_comp gw h).
  by rewrite !(nth_default [::]) ?(good_size gv) ?(good_size gw).
Qed.
Lemma good_scatter_vector m b : good (vsh m) (scatter_vector m b).
Proof.
apply: goodP; first by rewrite size_map size_iota.
by move=> c hc; rewrite (nth_map 0%N) ?size_iota // size_scatter_comp.
Qed.
Lemma ent_scatter_vector m b c i : (c < d)%N ->
  ent (scatter_vector m b) c i = nth 0 (scatter_comp m (fun e n => la_data b e n c)) i.
Proof. by move=> hc; rewrite /ent (nth_map 0%N) ?size_iota // nth_iota. Qed.
Lemma scatter_vector_lin m a (x y z : larray) c i : proper m -> (c < d)%N ->
  (forall e n c, la_data z e n c = a * la_data x e n c + la_data y e n c) ->
  ent (scatter_vector m z) c i = a * ent (scatter_vector m x) c i + ent (scatter_vector m y) c i.
Proof.
move=> pr hc H; rewrite !ent_scatter_vector // -scatter_lin //.
by congr nth; apply: scatter_ext => e n _ _; apply: H.
Qed.

(** Sums over all entries. *)
Definition vinner (N : nat) u v : R := \sum_(c < d) \sum_(i < N) ent u c i * ent v c i.
Definition pinner (N : nat) p q : R := \sum_(i < N) nth 0 p i * nth 0 q i.
Lemma vinnerC N u v : vinner N u v = vinner N v u.
Proof. by apply: eq_bigr => c _; apply: eq_bigr => i _; rewrite mulrC. Qed.
Lemma pinnerC N p q : pinner N p q = pinner N q p.
Proof. by apply: eq_bigr => i _; rewrite mulrC. Qed.
Lemma assembly_vector m b u : proper m -> good (vsh m) u ->
  vinner (nn m) u (scatter_vector m b) =
  \sum_(e < num_elements m) \sum_(n < m_per_element m) \sum_(c < d) la_data b e n c * la_data (gather_vector m u) e n c.
Proof.
move=> pr gu; rewrite /vinner.
transitivity (\sum_(c < d) \sum_(e < num_elements m) \sum_(n < m_per_element m)
   la_data b e n c * gather_comp m (nth [::] u c) e n).
  apply: eq_bigr => c _.
  rewrite -(assembly (fun e n => la_data b e n c)) ?(good_comp gu) //.
  by apply: eq_bigr => i _; rewrite ent_scatter_vector.
rewrite exchange_big /=; apply: eq_bigr => e _; by rewrite exchange_big.
Qed.
End Ops.
