(** The symmetric forms, and the projection onto zero-mean pressures. *)
From mathcomp Require Import all_ssreflect all_algebra polyrcf zify ring.
From Verif Require Import PyDict_model PyDict_proofs GS_model GS_proofs GS_props Interp_model Interp_spec.
From Verif Require Import Gauss_proofs2 Interp_proofs2 Tensor_proofs Interp_props FES_model FES_proofs FES_proofs2 FES_props FES_props2 Premesh_model.
From Verif Require Import CG_model CG_proofs CG_props TimeCoef_model Stokes_model Stokes_spec Stokes_proofs Stokes_proofs2 Stokes_proofs3.
Set Implicit Arguments.
Unset Strict Implicit.
Unset Printing Implicit Defensive.
Import Order.TTheory GRing.Theory Num.Theory.
Local Open Scope ring_scope.

Section Forms.
Variables (R : rcfType) (d : nat) (eps : R) (fs : fespace R d).
Implicit Types (fm : form R d) (f g : qfun R d).
Lemma form_swap fm f g : (forall x a b, fm x [:: a; b] = fm x [:: b; a]) ->
  form_integral eps fs fm [:: f; g] = form_integral eps fs fm [:: g; f].
Proof.
move=> H; apply: eq_suml => e _; apply: eq_suml => k _; congr (_ * _ * _).
exact: (H _ (evaluate_fun eps fs f e k) (evaluate_fun eps fs g e k)).
Qed.
Lemma form_square fm f : (forall e k, (e < num_elements (fs_mesh fs))%N -> (k < num_quad fs)%N ->
    0 <= fs_jacdets fs e k * nth 0 (getr (weights_nd (fs_quad fs) d)) k) ->
  (forall x a, 0 <= fm x [:: a; a]) -> 0 <= form_integral eps fs fm [:: f; f].
Proof.
move=> wg H; rewrite /form_integral /integrate sumlE; apply: sumr_ge0 => e _; rewrite sumlE.
apply: sumr_ge0 => k _; rewrite -mulrA mulr_ge0 //; last exact: wg.
exact: (H _ (evaluate_fun eps fs f e k)).
Qed.
End Forms.

Section Sem.
Variables (R : rcfType) (d : nat) (eps : R).
Notation sem := (sem R d).
Notation D := (@D R d eps).
Notation Dt := (@Dt R d eps).
Notation A := (@A R d eps).
Notation E := (@E R d eps).
Notation p_B := (@p_B R d eps).
Notation project_out := (@project_out R d eps).
Implicit Types (u v w : seq (seq R)) (p q r : seq R).
Variables (s : sem) (ok : sem_ok s).
Notation vel := (s_velocity s).
Notation pr := (s_pressure s).

Lemma pmass_form p q : size p = np s -> size q = np s ->
  pinner (np s) (p_B pr p) q =
  form_integral eps (p_space pr) (@pmass R d)
    [:: fun_of (p_space pr) KScalar (Some (p_gather pr p)); fun_of (p_space pr) KScalar (Some (p_gather pr q))].
Proof.
move=> sp sq; rewrite pinnerC /pinner [LHS]assembly //; last exact: (ok_p ok).
set fp := p_space _.
pose funs := [:: fun_of fp KScalar (Some (p_gather pr p)); fun_of fp KScalar None].
have [b hb] : exists b, local_covector eps fp (@pmass R d) funs = inr b.
  have [+ _] := @C40_placeholder R d eps fp (@pmass R d) funs; case=> //=; first by rewrite !eqxx.
  by move=> b [-> _]; exists b.
have := C40_represents (p_gather pr q) hb (@pmass_lin R d 1 isT).
rewrite /= => <-; rewrite /pairing; apply: eq_bigr => e _; apply: eq_bigr => n _.
by rewrite big_ord1 /covector hb.
Qed.
Lemma pB_sym p q : size p = np s -> size q = np s -> pinner (np s) (p_B pr p) q = pinner (np s) (p_B pr q) p.
Proof.
move=> sp sq; apply: (etrans (pmass_form sp sq)); apply: (etrans _ (esym (pmass_form sq sp))); apply: form_swap => x a b; exact: mulrC.
Qed.

Lemma stiffness_form u v : vgood s u -> vgood s v ->
  vinner d (nv s) (v_scatter vel (A_local eps vel (v_gather vel u))) v =
  form_integral eps (v_space vel) (@vstiff R d)
    [:: fun_of (v_space vel) KVector (Some (v_gather vel u)); fun_of (v_space vel) KVector (Some (v_gather vel v))].
Proof.
move=> gu gv; rewrite vinnerC [LHS]assembly_vector //; last exact: (ok_v ok).
set fv := v_space _.
pose funs := [:: fun_of fv KVector (Some (v_gather vel u)); fun_of fv KVector None].
have [b hb] : exists b, local_covector eps fv (@vstiff R d) funs = inr b.
  have [+ _] := @C40_placeholder R d eps fv (@vstiff R d) funs; case=> //=; first by rewrite !eqxx.
  by move=> b [-> _]; exists b.
have := C40_represents (v_gather vel v) hb (@vstiff_lin R d 1 isT).
rewrite /= => <-; rewrite /pairing; apply: eq_bigr => e _; apply: eq_bigr => n _.
by apply: eq_bigr => c _; rewrite /A_local /covector hb.
Qed.
Lemma stiffness_sym u v : vgood s u -> vgood s v ->
  vinner d (nv s) (v_scatter vel (A_local eps vel (v_gather vel u))) v =
  vinner d (nv s) (v_scatter vel (A_local eps vel (v_gather vel v))) u.
Proof.
move=> gu gv; apply: (etrans (stiffness_form gu gv)); apply: (etrans _ (esym (stiffness_form gv gu))); apply: form_swap => x a b.
apply: eq_suml => i _; apply: eq_suml => j _; exact: mulrC.
Qed.
(** The quadrature weights are not negative. *)
Definition weights_ge0 : Prop := forall e k, (e < num_elements (vm s))%N -> (k < num_quad (v_space vel))%N ->
  0 <= fs_jacdets (v_space vel) e k * nth 0 (getr (weights_nd (fs_quad (v_space vel)) d)) k.
Lemma stiffness_ge0 u : weights_ge0 -> vgood s u ->
  0 <= vinner d (nv s) (v_scatter vel (A_local eps vel (v_gather vel u))) u.
Proof.
move=> wg gu; rewrite (stiffness_form gu gu); apply: form_square => // x a; rewrite /vstiff sumlE.
apply: sumr_ge0 => i _; rewrite sumlE; apply: sumr_ge0 => j _; exact: sqr_ge0.
Qed.
Lemma A_sym u v : mask_binary s -> vgood s u -> vgood s v -> vanishes s u -> vanishes s v ->
  vinner d (nv s) (A s u) v = vinner d (nv s) (A s v) u.
Proof.
move=> mb gu gv vu vv.
have H a b : vgood s b -> vanishes s b -> vinner d (nv s) (A s a) b =
    vinner d (nv s) (v_scatter vel (A_local eps vel (v_gather vel a))) b.
  by move=> gb vb; rewrite vinnerC (masked_inner ok mb gb (good_vscatter _ _) vb) vinnerC.
by apply: (etrans (H _ _ gv vv)); apply: (etrans _ (esym (H _ _ gu vu))); apply: stiffness_sym.
Qed.
Lemma A_ge0 u : weights_ge0 -> mask_binary s -> vgood s u -> vanishes s u -> 0 <= vinner d (nv s) (A s u) u.
Proof.
move=> wg mb gu vu; rewrite vinnerC (masked_inner ok mb gu (good_vscatter _ _) vu).
by rewrite vinnerC; apply: stiffness_ge0.
Qed.

(** ** The projection *)
Definition ones : seq R := nseq (np s) 1.
(** The mean (times the volume) of a pressure. *)
Definition mean p : R := pinner (np s) (p_B pr p) ones.
Lemma size_ones : size ones = np s. Proof. exact: size_nseq. Qed.
Lemma nth_ones i : (i < np s)%N -> nth 0 ones i = 1.
Proof. by move=> hi; rewrite nth_nseq hi. Qed.
Lemma onesE p : size p = np s -> [seq (1 : R) | _ <- p] = ones.
Proof. by move=> sp; rewrite /ones -sp; elim: p {sp} => //= x p ->. Qed.
Lemma vdot_ones p : size p = np s -> jnp_vdot ones p = \sum_(i < np s) nth 0 p i.
Proof.
move=> sp; rewrite jnp_vdotE size_ones sp minnn; apply: eq_bigr => i _; by rewrite nth_ones // mul1r.
Qed.
Lemma meanE p : mean p = \sum_(i < np s) nth 0 (p_B pr p) i.
Proof. by apply: eq_bigr => i _; rewrite nth_ones // mulr1. Qed.
Definition sub_const p (c : R) : seq R := [seq x - c | x <- p].
Lemma projectE p : size p = np s -> (forall q, size q = np s -> p_exchange pr q = q) ->
  project_out s p = sub_const p (mean p / mean ones).
Proof.
move=> sp ex; rewrite /project_out ex // onesE //.
have M q : jnp_vdot ones (p_B pr q) = mean q by rewrite vdot_ones ?size_pB // meanE.
rewrite (M p) (M ones).
apply: (@eq_from_nth _ 0); first by rewrite size_map2 !size_map ?size_ones.
move=> i; rewrite size_map2 !size_map size_ones // => hi.
by rewrite nth_map2d ?subr0 ?size_map ?size_ones // nth_scale nth_ones // mulr1 (nth_map 0) ?sp.
Qed.
Lemma mean_lin a p q r : size p = np s -> size q = np s -> size r = np s ->
  (forall i, nth 0 r i = a * nth 0 p i + nth 0 q i) -> mean r = a * mean p + mean q.
Proof.
move=> sp sq sr H; rewrite !meanE mulr_sumr -big_split; apply: eq_bigr => i _.
by apply: pB_lin => //; rewrite ?sp ?sq ?sr.
Qed.
Lemma mean_sub p c : size p = np s -> mean (sub_const p c) = mean p - c * mean ones.
Proof.
move=> sp; have sr : size (sub_const p c) = np s by rewrite size_map.
have H i : nth 0 (sub_const p c) i = - c * nth 0 ones i + nth 0 p i.
  case: (ltnP i (np s)) => hi; first by rewrite nth_ones // (nth_map 0) ?sp // mulr1 addrC.
  by rewrite !nth_default ?size_ones ?sp ?sr // mulr0 addr0.
by rewrite (mean_lin size_ones sp sr H) addrC mulNr.
Qed.
End Sem.
