(** C40: local covectors represent linear forms. *)
From mathcomp Require Import all_ssreflect all_algebra polyrcf zify ring.
From Verif Require Import PyDict_model PyDict_proofs GS_model GS_props Interp_model Interp_spec Lagrange_proofs Interp_proofs.
From Verif Require Import Interp_proofs2 Tensor_proofs Interp_props FES_model FES_proofs FES_proofs2 FES_props.
Set Implicit Arguments.
Unset Strict Implicit.
Unset Printing Implicit Defensive.
Import Order.TTheory GRing.Theory Num.Theory.
Local Open Scope ring_scope.

Section Covector.
Variables (R : rcfType) (d : nat) (eps : R) (inv : 'M[R]_d -> 'M[R]_d).
Notation mesh := (mesh R d).
Notation fespace := (fespace R d).
Notation form := (form R d).
Notation qfun := (qfun R d).
Notation evaluate_nodal := (@evaluate_nodal R d eps).
Notation form_integral := (@form_integral R d eps).
Notation local_covector := (@local_covector R d eps).
Implicit Types (m : mesh) (fs : fespace) (fm : form) (funs : seq qfun).

(** [a * s + t] entry by entry *)
Definition comb (a : R) (s t : seq R) : seq R := [seq a * xy.1 + xy.2 | xy <- zip s t].
(** The form is linear in argument [p], at every point, whatever the other
    arguments are. *)
Definition linear_slot fm (p : nat) : Prop := forall x vs a s t, size s = size t ->
  fm x (set_nth [::] vs p (comb a s t)) = a * fm x (set_nth [::] vs p s) + fm x (set_nth [::] vs p t).
(** Sum of the products of all entries of two local arrays with [C] components. *)
Definition pairing fs (C : nat) (b v : larray R) : R :=
  \sum_(e < num_elements (fs_mesh fs)) \sum_(n < m_per_element (fs_mesh fs)) \sum_(c < C) la_data b e n c * la_data v e n c.

Definition lcomb (a : R) (u v : larray R) : larray R :=
  LArray (la_elements v) (la_nodes v) (la_value_shape v) (fun e n c => a * la_data u e n c + la_data v e n c).

Lemma size_comb a s t : size s = size t -> size (comb a s t) = size t.
Proof. by move=> e; rewrite size_map size_zip e minnn. Qed.
Lemma comb_map (T : Type) a (f g : T -> R) l : comb a (map f l) (map g l) = [seq a * f x + g x | x <- l].
Proof. by rewrite /comb; elim: l => //= x l ->. Qed.
Lemma comb_cat a s s' t t' : size s = size t -> comb a (s ++ s') (t ++ t') = comb a s t ++ comb a s' t'.
Proof. by move=> e; rewrite /comb zip_cat // map_cat. Qed.
Lemma comb_flatten a (l : seq nat) (f g : nat -> seq R) : (forall j, size (f j) = size (g j)) ->
  comb a (flatten (map f l)) (flatten (map g l)) = flatten [seq comb a (f j) (g j) | j <- l].
Proof. by move=> e; elim: l => //= j l IH; rewrite comb_cat ?IH. Qed.

Lemma value_list_comb fs a u v k e q :
  value_list eps fs (lcomb a u v) k e q = comb a (value_list eps fs u k e q) (value_list eps fs v k e q).
Proof. by rewrite comb_map; apply: eq_map => c; rewrite -at_quad_linear. Qed.
Lemma grad_list_comb fs a u v k e q :
  grad_list fs (lcomb a u v) k e q = comb a (grad_list fs u k e q) (grad_list fs v k e q).
Proof.
rewrite /grad_list comb_flatten => [|j]; last by rewrite !size_map.
congr flatten; apply: eq_map => j; rewrite comb_map; apply: eq_map => c.
by rewrite -phys_grad_linear.
Qed.
Lemma size_value_list fs a k e q : size (value_list eps fs a k e q) = k.
Proof. by rewrite size_map size_iota. Qed.
Lemma size_grad_list fs a k e q : size (grad_list fs a k e q) = (d * k)%N.
Proof.
rewrite size_flatten /shape -map_comp (eq_map (f2 := fun=> k)) => [|j]; last by rewrite /= size_map size_iota.
by rewrite sumnE big_map big_const_seq count_predT size_iota iter_addn_0 mulnC.
Qed.
Lemma size_evaluate fs k a b e q : size (evaluate_nodal fs k a e q) = size (evaluate_nodal fs k b e q).
Proof. by case: k; rewrite /evaluate_nodal ?size_cat ?size_value_list ?size_grad_list. Qed.
Lemma evaluate_comb fs k a u v e q :
  evaluate_nodal fs k (lcomb a u v) e q = comb a (evaluate_nodal fs k u e q) (evaluate_nodal fs k v e q).
Proof.
by case: k; rewrite /evaluate_nodal ?grad_list_comb ?value_list_comb // comb_cat // !size_value_list.
Qed.

(** Only the entries inside the array matter. *)
Definition same_data fs C (u v : larray R) : Prop := forall e n c,
  (e < num_elements (fs_mesh fs))%N -> (n < m_per_element (fs_mesh fs))%N -> (c < C)%N -> la_data u e n c = la_data v e n c.
Lemma evaluate_same fs k u v e q : same_data fs (components d k) u v -> (e < num_elements (fs_mesh fs))%N ->
  evaluate_nodal fs k u e q = evaluate_nodal fs k v e q.
Proof.
move=> H he.
have V : value_list eps fs u (components d k) e q = value_list eps fs v (components d k) e q.
  apply/eq_in_map => c; rewrite mem_iota add0n => /andP[_ hc].
  by apply: at_quad_ext => n hn; apply: H.
have G : grad_list fs u (components d k) e q = grad_list fs v (components d k) e q.
  congr flatten; apply: eq_map => j; apply/eq_in_map => c; rewrite mem_iota add0n => /andP[_ hc].
  by congr nth; apply: phys_grad_ext => n hn; apply: H.
by case: k V G {H} => V G; rewrite /evaluate_nodal ?V ?G.
Qed.

(** One placeholder. *)
Lemma one_input fs funs : count (@is_input R d) funs = 1%N ->
  exists fs' k l1 l2, [/\ funs = l1 ++ QNodal (Nodal fs' k None) :: l2, ~~ has (@is_input R d) l1, ~~ has (@is_input R d) l2,
    find (@is_input R d) funs = size l1 & input_kind funs = k /\ input_space fs funs = fs'].
Proof.
elim: funs => [|f funs IH] //=.
case: f => [[fs1 k [a|]]|g] /=; rewrite ?add0n.
- by move/IH => [fs' [k' [l1 [l2 [-> h1 h2 -> kE]]]]]; exists fs', k', (QNodal (Nodal fs1 k (Some a)) :: l1), l2; split.
- rewrite add1n => -[h]; exists fs1, k, [::], funs; split=> //; by rewrite has_count h.
- by move/IH => [fs' [k' [l1 [l2 [-> h1 h2 -> kE]]]]]; exists fs', k', (QCoord g :: l1), l2; split.
Qed.
Lemma replace_none v (l : seq qfun) : ~~ has (@is_input R d) l -> map (replace_dual v) l = l.
Proof. by elim: l => //= -[[fs' k [a|]]|g] l IH //= /IH ->. Qed.

Lemma set_nth_mid (T : Type) (x0 : T) l1 x y l2 : set_nth x0 (l1 ++ x :: l2) (size l1) y = l1 ++ y :: l2.
Proof. by elim: l1 => //= z l1 ->. Qed.

Section Fixed.
Variables (fs : fespace) (fm : form) (funs : seq qfun).
Hypothesis one : count (@is_input R d) funs = 1%N.
Hypothesis lin : linear_slot fm (find (@is_input R d) funs).
Let fs' := input_space fs funs.
Hypothesis E' : num_elements (fs_mesh fs') = num_elements (fs_mesh fs).
Hypothesis N' : m_per_element (fs_mesh fs') = m_per_element (fs_mesh fs).
Let k := input_kind funs.
Let E := num_elements (fs_mesh fs).
Let N := m_per_element (fs_mesh fs).
Let C := components d k.
Let Phi (v : larray R) : R := form_integral fs fm [seq replace_dual v f | f <- funs].

Lemma integrate_ext (w w' : nat -> nat -> R) : (forall e q, (e < E)%N -> w e q = w' e q) -> integrate fs w = integrate fs w'.
Proof. by move=> H; apply: eq_suml => e he; apply: eq_suml => q _; rewrite H. Qed.

Lemma Phi_evals v e q : [seq evaluate_fun eps fs f e q | f <- [seq replace_dual v f | f <- funs]] =
  set_nth [::] [seq evaluate_fun eps fs f e q | f <- funs] (find (@is_input R d) funs) (evaluate_nodal fs' k v e q).
Proof.
have [fs1 [k' [l1 [l2 [fE h1 h2 -> [kE sE]]]]]] := one_input fs one.
rewrite /k kE /fs' sE fE !map_cat /= !replace_none // -(size_map (fun f => evaluate_fun eps fs f e q) l1).
by rewrite set_nth_mid.
Qed.
Lemma Phi_lin a u v : Phi (lcomb a u v) = a * Phi u + Phi v.
Proof.
rewrite /Phi /form_integral -C38_linear; apply: integrate_ext => e q _.
by rewrite !Phi_evals evaluate_comb lin // (size_evaluate _ _ _ v).
Qed.
Lemma Phi_same u v : same_data fs C u v -> Phi u = Phi v.
Proof.
move=> H; apply: integrate_ext => e q he; rewrite !Phi_evals.
rewrite (@evaluate_same fs' k u v e q) // ?E' // => e' n c; rewrite E' N'; exact: H.
Qed.

Definition zero_local : larray R := LArray 0 0 [::] (fun _ _ _ => 0).
Lemma Phi_zero : Phi zero_local = 0.
Proof.
have e : Phi (lcomb (-1) zero_local zero_local) = Phi zero_local.
  by apply: Phi_same => e n c _ _ _ /=; rewrite mulr0 addr0.
by rewrite -e Phi_lin mulN1r addNr.
Qed.

(** All positions of the local array. *)
Definition positions : seq (nat * nat * nat) :=
  [seq (en.1, en.2, c) | en <- [seq (e, n) | e <- iota 0 E, n <- iota 0 N], c <- iota 0 C].
Definition built (v : larray R) (l : seq (nat * nat * nat)) : larray R :=
  foldr (fun p acc => lcomb (la_data v p.1.1 p.1.2 p.2) (unit_local R E N (value_shape d k) p.1.1 p.1.2 p.2) acc) zero_local l.

Lemma built_data v l e n c : uniq l -> la_data (built v l) e n c = if (e, n, c) \in l then la_data v e n c else 0.
Proof.
elim: l => [|[[e' n'] c'] l IH] //= /andP[nin u]; rewrite IH // inE.
case: ((e, n, c) =P (e', n', c')) => [[-> -> ->]|ne] /=; first by rewrite (negbTE nin) !eqxx mulr1 addr0.
have -> : (e == e') && (n == n') && (c == c') = false.
  by apply/negP => /andP[/andP[/eqP e1 /eqP e2] /eqP e3]; apply: ne; rewrite e1 e2 e3.
by rewrite mulr0 add0r.
Qed.

Lemma sum_positions (f : nat -> nat -> nat -> R) :
  \sum_(p <- positions) f p.1.1 p.1.2 p.2 = \sum_(e < E) \sum_(n < N) \sum_(c < C) f e n c.
Proof.
rewrite big_allpairs_dep /= big_allpairs_dep /= big_iota; apply: eq_bigr => e _.
rewrite big_iota; apply: eq_bigr => n _; by rewrite big_iota.
Qed.

Lemma Phi_sum v : Phi v = \sum_(e < E) \sum_(n < N) \sum_(c < C)
  Phi (unit_local R E N (value_shape d k) e n c) * la_data v e n c.
Proof.
rewrite -(sum_positions (fun e n c => Phi (unit_local R E N (value_shape d k) e n c) * la_data v e n c)).
have -> : Phi v = Phi (built v positions).
  apply: Phi_same => e n c he hn hc; rewrite built_data.
    rewrite ifT //; apply/allpairsP; exists ((e, n), c); rewrite mem_iota add0n hc; split=> //.
    by apply/allpairsP; exists (e, n); rewrite !mem_iota !add0n he hn.
  apply: allpairs_uniq; rewrite ?iota_uniq //; last by move=> [[? ?] ?] [[? ?] ?] _ _ /= [-> -> ->].
  by apply: allpairs_uniq; rewrite ?iota_uniq // => -[? ?] [? ?] _ _ /= [-> ->].
elim: positions => [|p l IH] /=; first by rewrite big_nil Phi_zero.
by rewrite Phi_lin IH big_cons mulrC.
Qed.
End Fixed.

(** The covector represents the form: for every test function [v]. *)
Theorem C40_represents fs fm funs b v : local_covector fs fm funs = inr b ->
  linear_slot fm (find (@is_input R d) funs) ->
  pairing fs (components d (input_kind funs)) b v =
  form_integral fs fm [seq replace_dual v f | f <- funs].
Proof.
rewrite /local_covector; case: eqP => // one; case: eqP => // eE; case: eqP => // eN.
case: ifP => // _ [<-] lin.
by rewrite (Phi_sum one lin eE eN v).
Qed.

Theorem C40_placeholder fs fm funs :
  (count (@is_input R d) funs = 1%N -> num_elements (fs_mesh (input_space fs funs)) = num_elements (fs_mesh fs) ->
     m_per_element (fs_mesh (input_space fs funs)) = m_per_element (fs_mesh fs) -> all (compatible fs) funs ->
     exists b, local_covector fs fm funs = inr b /\
     la_elements b = num_elements (fs_mesh fs) /\ la_nodes b = m_per_element (fs_mesh fs) /\
     la_value_shape b = value_shape d (input_kind funs)) /\
  (count (@is_input R d) funs <> 1%N -> local_covector fs fm funs = inl IValueError).
Proof.
by rewrite /local_covector; split=> [-> -> -> ->|/eqP ->] //=; rewrite !eqxx /=; eexists.
Qed.

(** The operator [u -> local_covector(form, (u, placeholder))]. *)
Definition applied (fm : form) fs k (u : larray R) : ierror + larray R :=
  local_covector fs fm [:: QNodal (Nodal fs k (Some u)); QNodal (Nodal fs k None)].

Theorem C40_symmetric fs fm k u v bu bv : linear_slot fm 1 ->
  (forall x s t, fm x [:: s; t] = fm x [:: t; s]) ->
  applied fm fs k u = inr bu -> applied fm fs k v = inr bv ->
  pairing fs (components d k) bu v = pairing fs (components d k) bv u.
Proof.
move=> lin sym hu hv.
rewrite (C40_represents _ hu) // (C40_represents _ hv) //.
by apply: eq_suml => e _; apply: eq_suml => q _ /=; rewrite sym.
Qed.

Theorem C40_positive m quad fs nq tq fm k u bu : fespace_create eps inv m quad = inr fs ->
  (0 < nq)%N -> quadrature_create R nq tq = inr quad ->
  (forall e q, (e < num_elements m)%N -> (q < nq ^ d)%N -> 0 <= fs_jacdets fs e q) ->
  linear_slot fm 1 -> (forall x s, 0 <= fm x [:: s; s]) ->
  applied fm fs k u = inr bu -> 0 <= pairing fs (components d k) bu u.
Proof.
move=> hf nq0 hq J lin pos hu; have [gs [_ _ fmE fq _]] := fespace_createE hf.
have [qn _ _] := quad_facts nq0 hq.
rewrite (C40_represents _ hu) // /form_integral /integrate sumlE; apply: sumr_ge0 => e _.
rewrite sumlE; apply: sumr_ge0 => q _; rewrite !mulr_ge0 //; first exact: pos.
  by apply: J; [rewrite -fmE|rewrite -qn -fq ltn_ord].
case wE : (weights_nd _ _) => [|w] /=; first by rewrite nth_nil.
move: wE; rewrite fq => /(weights_nd_pos nq0 hq)/allP hw.
case: (ltnP q (size w)) => h; last by rewrite nth_default.
by apply: ltW; apply: hw; rewrite mem_nth.
Qed.

(** ** The assembled operator on global vectors, for scalar functions:
    [scatter(local_covector(form, (gather(u), placeholder)))]. *)
Definition gathered m (u : seq R) : larray R :=
  LArray (num_elements m) (m_per_element m) [::] (fun e n _ => nth 0 (gather 0 u (nth [::] (m_elements m) e)) n).
Definition scattered m (b : larray R) : seq R :=
  scatter [seq la_data b e n 0 | e <- iota 0 (num_elements m), n <- iota 0 (m_per_element m)]
    (flatten (m_elements m)) (size (m_coords m)).
(** The elements of a mesh. *)
Definition proper m : Prop :=
  all (fun el => size el == m_per_element m) (m_elements m) /\
  element_array (size (m_coords m)) (flatten (m_elements m)).

Lemma sum_flatten (els : seq (seq int)) N (u : seq R) (f : nat -> nat -> R) (o : nat) : all (fun el => size el == N) els ->
  \sum_(s < size (flatten els)) nth 0 (gather 0 u (flatten els)) s *
     nth 0 [seq f e n | e <- iota o (size els), n <- iota 0 N] s =
  \sum_(e < size els) \sum_(n < N) nth 0 (gather 0 u (nth [::] els e)) n * f (o + e)%N n.
Proof.
elim: els o => [|el els IH] o /=; first by rewrite !big_ord0.
move=> /andP[/eqP sz al]; rewrite size_cat big_split_ord big_ord_recl /= addn0; congr (_ + _).
  rewrite -sz; apply: eq_bigr => n _; have hn : (n < N)%N by rewrite -sz.
  by rewrite /gather map_cat !nth_cat !size_map size_iota ltn_ord (nth_map 0%N) ?size_iota // nth_iota.
transitivity (\sum_(i < size (flatten els)) nth 0 (gather 0 u (flatten els)) i *
  nth 0 [seq f e n | e <- iota o.+1 (size els), n <- iota 0 N] i).
  apply: eq_bigr => i _; rewrite /gather map_cat !nth_cat !size_map size_iota sz.
  by rewrite ltnNge leq_addr /= addKn.
by rewrite IH //; apply: eq_bigr => e _; apply: eq_bigr => n _; rewrite addSnnS.
Qed.

(** The inner product of a global vector with an assembled covector is the
    pairing of the local arrays. *)
Theorem C40_assembly fs b (v : seq R) : proper (fs_mesh fs) -> size v = size (m_coords (fs_mesh fs)) ->
  \sum_(i < size (m_coords (fs_mesh fs))) nth 0 v i * nth 0 (scattered (fs_mesh fs) b) i =
  pairing fs 1 b (gathered (fs_mesh fs) v).
Proof.
move=> [al ea] sv; rewrite -C15_gather_scatter_adjoint //; last first.
  rewrite size_allpairs !size_iota /num_elements size_flatten /shape.
  rewrite (eq_in_map _ (fun=> m_per_element (fs_mesh fs)) _).1 ?sumnE ?big_map ?big_const_seq ?count_predT ?iter_addn_0 1?mulnC //.
  by move=> el /(allP al)/eqP.
rewrite sum_flatten //; apply: eq_bigr => e _; apply: eq_bigr => n _.
by rewrite big_ord1 add0n mulrC.
Qed.

Definition global_apply fm fs (u : seq R) : ierror + seq R :=
  match applied fm fs KScalar (gathered (fs_mesh fs) u) with
  | inl e => inl e
  | inr b => inr (scattered (fs_mesh fs) b)
  end.

Theorem C40_global_symmetric fs fm (u v au av : seq R) : proper (fs_mesh fs) ->
  size u = size (m_coords (fs_mesh fs)) -> size v = size (m_coords (fs_mesh fs)) ->
  linear_slot fm 1 -> (forall x s t, fm x [:: s; t] = fm x [:: t; s]) ->
  global_apply fm fs u = inr au -> global_apply fm fs v = inr av ->
  \sum_(i < size (m_coords (fs_mesh fs))) nth 0 v i * nth 0 au i =
  \sum_(i < size (m_coords (fs_mesh fs))) nth 0 u i * nth 0 av i.
Proof.
move=> pr su sv lin sym; rewrite /global_apply.
case hu : (applied _ _ _ _) => [|b] // [<-]; case hv : (applied _ _ _ _) => [|b'] // [<-].
by rewrite !C40_assembly //; apply: C40_symmetric hu hv.
Qed.

Theorem C40_global_positive m quad fs nq tq fm (u au : seq R) : fespace_create eps inv m quad = inr fs ->
  (0 < nq)%N -> quadrature_create R nq tq = inr quad -> proper m -> size u = size (m_coords m) ->
  (forall e q, (e < num_elements m)%N -> (q < nq ^ d)%N -> 0 <= fs_jacdets fs e q) ->
  linear_slot fm 1 -> (forall x s, 0 <= fm x [:: s; s]) ->
  global_apply fm fs u = inr au -> 0 <= \sum_(i < size (m_coords m)) nth 0 u i * nth 0 au i.
Proof.
move=> hf nq0 hq pr su J lin pos; have [gs [_ _ fmE fq _]] := fespace_createE hf.
rewrite /global_apply; case hu : (applied _ _ _ _) => [|b] // [<-].
rewrite -fmE C40_assembly ?fmE //; rewrite fmE in hu; exact: (C40_positive hf nq0 hq J lin pos hu).
Qed.

(** Two forms used in the code (examples/poisson.py, navier_stokes.py):
    [u * v] and [grad(u) . grad(v)]; a scalar argument is listed as its value
    followed by its gradient. *)
Definition mass_form : form := fun _ vs => nth 0 (nth [::] vs 0) 0 * nth 0 (nth [::] vs 1) 0.
Definition stiffness_form : form := fun _ vs => \sum_(j < d) nth 0 (nth [::] vs 0) j.+1 * nth 0 (nth [::] vs 1) j.+1.

Lemma nth_comb a s t i : size s = size t -> nth 0 (comb a s t) i = a * nth 0 s i + nth 0 t i.
Proof.
move=> st; case: (ltnP i (size t)) => h.
  by rewrite (nth_map (0, 0)) ?size_zip ?st ?minnn // nth_zip.
by rewrite !nth_default ?size_comb ?st // mulr0 addr0.
Qed.

Lemma mass_linear : linear_slot mass_form 1.
Proof. by move=> x vs a s t st; rewrite /mass_form !nth_set_nth /= nth_comb // mulrDr mulrCA. Qed.
Lemma stiffness_linear : linear_slot stiffness_form 1.
Proof.
move=> x vs a s t st; rewrite /stiffness_form mulr_sumr -big_split /=; apply: eq_bigr => j _.
by rewrite !nth_set_nth /= nth_comb // mulrDr mulrCA.
Qed.

(** The mass and stiffness operators are symmetric and positive semidefinite, and
    constants are in the kernel of the stiffness operator. *)
Theorem C40_mass_stiffness m quad fs nq tq (u v bu bv : larray R) fm : standard eps inv m quad fs nq tq ->
  fm = mass_form \/ fm = stiffness_form ->
  applied fm fs KScalar u = inr bu -> applied fm fs KScalar v = inr bv ->
  pairing fs 1 bu v = pairing fs 1 bv u /\
  ((forall e q, (e < num_elements m)%N -> (q < nq ^ d)%N -> 0 <= fs_jacdets fs e q) -> 0 <= pairing fs 1 bu u).
Proof.
move=> [hf d0 nq0 hq _] hfm hu hv.
have lin : linear_slot fm 1 by case: hfm => ->; [exact: mass_linear|exact: stiffness_linear].
split=> [|J].
  apply: (C40_symmetric lin _ hu hv) => x s t; case: hfm => ->; rewrite /mass_form /stiffness_form /= 1?mulrC //.
  by apply: eq_bigr => j _; rewrite mulrC.
apply: (C40_positive hf nq0 hq J lin _ hu) => x s; case: hfm => ->; rewrite /mass_form /stiffness_form /= -?expr2 ?sqr_ge0 //.
by apply: sumr_ge0 => j _; rewrite -expr2 sqr_ge0.
Qed.

Theorem C40_stiffness_constants m quad fs nq tq (b v : larray R) c : standard eps inv m quad fs nq tq ->
  applied stiffness_form fs KScalar (LArray (num_elements m) (m_per_element m) [::] (fun _ _ _ => c)) = inr b ->
  pairing fs 1 b v = 0.
Proof.
move=> st hb; have [hf d0 nq0 hq _] := st; have [gs [_ _ fmE fq _]] := fespace_createE hf.
have [qn _ _] := quad_facts nq0 hq.
rewrite (C40_represents _ hb); last exact: stiffness_linear.
rewrite /form_integral /integrate sumlE big1 // => e _; rewrite sumlE big1 // => q _.
rewrite /stiffness_form big1 ?mul0r // => j _ /=.
have hq' : (q < nq ^ d)%N by rewrite -qn -fq ltn_ord.
suff -> : nth 0 (grad_list fs (LArray (num_elements m) (m_per_element m) [::] (fun _ _ _ => c)) 1 e q) j = 0 by rewrite mul0r.
have -> : grad_list fs (LArray (num_elements m) (m_per_element m) [::] (fun _ _ _ => c)) 1 e q =
          [seq nth 0 (phys_grad fs e (fun=> c) q) j | j <- iota 0 d].
  by rewrite /grad_list /comp /=; elim: (iota 0 d) => //= i l ->.
by rewrite (nth_map 0%N) ?size_iota // (C39_constant _ c st hq') nth_nseq if_same.
Qed.
End Covector.

(** ** Examples *)
Section Example.
Variables (R : rcfType) (d n : nat) (t : node_type) (g : nodes1d R).
Hypotheses (d0 : (0 < d)%N) (n1 : (1 < n)%N) (hg : nodes1d_create R n t = inr g).
(** A mesh with any given list of parallelepipeds as elements. *)
Variable ps : seq ('rV[R]_d * 'M[R]_d).
Definition ex_point (i : nat) : 'rV[R]_d :=
  let p := nth (0, 0) ps (i %/ n ^ d) in
  p.1 + \sum_i' ((1 + ref_point d g (i %% n ^ d) 0 i') / 2%:R) *: row i' p.2.
Definition ex_mesh : mesh R d :=
  Mesh (mkseq ex_point (size ps * n ^ d)) [seq [seq Posz (e * n ^ d + k)%N | k <- iota 0 (n ^ d)] | e <- iota 0 (size ps)]
    (n ^ d) g.

Example ex_parallelepiped e : (e < num_elements ex_mesh)%N ->
  parallelepiped ex_mesh e (nth (0, 0) ps e).1 (nth (0, 0) ps e).2.
Proof.
rewrite /num_elements size_map size_iota => he k; rewrite /ex_mesh /= => hk.
rewrite /element_coords /= (nth_map 0%N) ?size_iota // nth_iota // add0n.
rewrite /gather -map_comp (nth_map 0%N) ?size_iota // nth_iota //= add0n /at_ /=.
rewrite nth_mkseq /ex_point ?divnMDl ?(leq_ltn_trans _ hk) // ?(divn_small hk) ?addn0 ?modnMDl ?(modn_small hk) //.
apply: leq_trans (_ : (e.+1 * n ^ d <= _)%N); last by rewrite leq_mul2r he orbT.
by rewrite mulSn addnC ltn_add2r.
Qed.
Example ex_proper : proper ex_mesh.
Proof.
split; first by apply/allP => el /mapP[e _ ->]; rewrite size_map size_iota.
move=> s hs; right; have := mem_nth 0 hs; move: (nth 0 _ s) => z /flattenP[el /mapP[e + ->] /mapP[k + ->]].
rewrite !mem_iota !add0n /= => he hk; exists (e * n ^ d + k)%N => //; rewrite size_mkseq.
apply: leq_trans (_ : (e.+1 * n ^ d <= _)%N); last by rewrite leq_mul2r he orbT.
by rewrite mulSn addnC ltn_add2r.
Qed.
(** The setting of the theorems exists: four Gauss-Legendre points. *)
Example ex_standard (eps : R) (inv : 'M[R]_d -> 'M[R]_d) :
  exists quad fs, standard eps inv ex_mesh quad fs 4 GAUSS_LEGENDRE.
Proof.
have [quad hq] : exists q, quadrature_create R 4 GAUSS_LEGENDRE = inr q by eexists; reflexivity.
have [fs hf] : exists fs, fespace_create eps inv ex_mesh quad = inr fs.
  by apply/(@C38_creates R d eps inv ex_mesh 4 GAUSS_LEGENDRE quad n t d0 (ltnW n1) isT hg hq).
by exists quad, fs; split=> //; exists n, t.
Qed.
End Example.
(** The placeholder may be in any position, next to other functions. *)
Example ex_slots (R : rcfType) (fs fs' : fespace R 2) (a : larray R) :
  count (@is_input R 2) [:: QNodal (Nodal fs KVector None); QNodal (Nodal fs' KScalarGrad (Some a))] = 1%N /\
  find (@is_input R 2) [:: QNodal (Nodal fs KVector (Some a)); QCoord (fun x => [:: x 0 0]); QNodal (Nodal fs' KVectorGrad None)] = 2%N.
Proof. by []. Qed.

Print Assumptions C38_linear.
Print Assumptions C38_creates.
Print Assumptions C38_volume.
Print Assumptions C38_polynomials.
Print Assumptions C38_quad_coords.
Print Assumptions C38_element_order.
Print Assumptions C38_padding.
Print Assumptions C39_linear.
Print Assumptions C39_coordinates.
Print Assumptions C39_chain_rule.
Print Assumptions C39_constant.
Print Assumptions C39_affine.
Print Assumptions C39_vector_identity.
Print Assumptions C40_represents.
Print Assumptions C40_placeholder.
Print Assumptions C40_symmetric.
Print Assumptions C40_positive.
Print Assumptions C40_assembly.
Print Assumptions C40_global_symmetric.
Print Assumptions C40_global_positive.
Print Assumptions C40_mass_stiffness.
Print Assumptions C40_stiffness_constants.
