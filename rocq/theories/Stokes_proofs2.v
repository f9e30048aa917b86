(** Proofs about the Stokes model: the operators of [StokesSEM]. *)
From mathcomp Require Import all_ssreflect all_algebra zify ring.
From Verif Require Import PyDict_model GS_model GS_proofs GS_props Premesh_model Interp_model FES_model FES_proofs.
From Verif Require Import FES_proofs2 FES_props FES_props2 CG_model CG_proofs CG_props TimeCoef_model Stokes_model Stokes_proofs.
Set Implicit Arguments.
Unset Strict Implicit.
Unset Printing Implicit Defensive.
Import Order.TTheory GRing.Theory Num.Theory.
Local Open Scope ring_scope.

Section Sem.
Variables (R : rcfType) (d : nat) (eps : R).
Notation sem := (sem R d).
Notation D := (@D R d eps).
Notation Dt := (@Dt R d eps).
Notation A := (@A R d eps).
Notation E := (@E R d eps).
Notation p_B := (@p_B R d eps).
Implicit Types (s : sem) (u v w : seq (seq R)) (p q r : seq R).

Definition vm s := v_mesh (s_velocity s).
Definition pm s := p_mesh (s_pressure s).
Definition nv s : nat := nn (vm s).
Definition np s : nat := nn (pm s).
(** Velocity fields of the right shape. *)
Definition vgood s u : Prop := good (nseq d (nv s)) u.

(** The exchange of the mesh adds up the copies of every node; [ids] names the
    class of each node. *)
Definition exchanges (N : nat) (gi ui : option (seq int)) (ids : seq int) : Prop :=
  size ids = N /\ forall c : seq R, size c = N -> exchange c gi ui = serial_exchange ids c.

(** A well-formed instance: arrays of the right shapes, element arrays with valid
    node numbers. *)
Record sem_ok s : Prop := SemOk {
  ok_v : proper (vm s);
  ok_p : proper (pm s);
  ok_mask : size (v_mask (s_velocity s)) = nv s;
  ok_mass : vgood s (s_mass s);
  ok_vex : exists ids, exchanges (nv s) (v_gi (s_velocity s)) (v_ui (s_velocity s)) ids;
  ok_pex : exists ids, exchanges (np s) (p_gi (s_pressure s)) (p_ui (s_pressure s)) ids }.

Section Fixed.
Variables (s : sem) (ok : sem_ok s).
Notation vel := (s_velocity s).
Notation pr := (s_pressure s).

Lemma good_masked u : vgood s u -> vgood s (v_masked vel u).
Proof. by move=> gu; apply: good_mapc => // c sc; rewrite size_vmul ?sc // (ok_mask ok). Qed.
Lemma ent_masked u c i : vgood s u -> (c < d)%N -> ent (v_masked vel u) c i = nth 0 (v_mask vel) i * ent u c i.
Proof.
move=> gu hc; rewrite /ent (ent_map _ gu) // nth_vmul // (good_comp gu) //; exact: (ok_mask ok).
Qed.

Lemma good_vscatter b : vgood s (v_scatter vel b).
Proof. exact: good_scatter_vector. Qed.
Lemma ent_vscatter_lin a (x y z : larray R) c i : (c < d)%N ->
  (forall e n c, la_data z e n c = a * la_data x e n c + la_data y e n c) ->
  ent (v_scatter vel z) c i = a * ent (v_scatter vel x) c i + ent (v_scatter vel y) c i.
Proof. move=> hc H; exact: (scatter_vector_lin _ (ok_v ok) hc H). Qed.
Lemma ent_out u c i : vgood s u -> (d <= c)%N -> ent u c i = 0.
Proof. by move=> gu hc; rewrite /ent (nth_default [::]) ?nth_nil // (good_size gu). Qed.
Lemma masked_scatter_lin a (x y z : larray R) c i :
  (forall e n c, la_data z e n c = a * la_data x e n c + la_data y e n c) ->
  ent (v_masked vel (v_scatter vel z)) c i =
  a * ent (v_masked vel (v_scatter vel x)) c i + ent (v_masked vel (v_scatter vel y)) c i.
Proof.
move=> H; case: (ltnP c d) => hc; last by rewrite !ent_out ?mulr0 ?addr0 //; apply: good_masked; apply: good_vscatter.
rewrite (ent_masked _ (good_vscatter z) hc) (ent_masked _ (good_vscatter x) hc) (ent_masked _ (good_vscatter y) hc).
by rewrite (ent_vscatter_lin _ hc H) mulrDr mulrCA.
Qed.

Lemma size_D u : size (D s u) = np s.
Proof. exact: size_scatter_comp. Qed.
Lemma good_Dt p : vgood s (Dt s p).
Proof. apply: good_masked; exact: good_vscatter. Qed.
Lemma good_A u : vgood s (A s u).
Proof. apply: good_masked; exact: good_vscatter. Qed.
Lemma good_B u : vgood s u -> vgood s (B s u).
Proof.
move=> gu; apply: good_map2c => //; first exact: good_masked (ok_mass ok).
by move=> c c' e e'; rewrite size_vmul ?e ?e'.
Qed.
Lemma ent_B u c i : vgood s u -> (c < d)%N -> ent (B s u) c i = nth 0 (v_mask vel) i * ent (s_mass s) c i * ent u c i.
Proof.
move=> gu hc; have gm := good_masked (ok_mass ok).
rewrite {1}/ent (nth_map2c _ gm gu hc) nth_vmul ?(good_comp gm) ?(good_comp gu) //.
by congr (_ * _); exact: ent_masked (ok_mass ok) hc.
Qed.
Lemma size_pB p : size (p_B pr p) = np s.
Proof. exact: size_scatter_comp. Qed.

Lemma D_lin a u v w i : vgood s u -> vgood s v -> vgood s w -> (forall c i, ent w c i = a * ent u c i + ent v c i) ->
  nth 0 (D s w) i = a * nth 0 (D s u) i + nth 0 (D s v) i.
Proof.
move=> gu gv gw H; rewrite -scatter_lin; last exact: (ok_p ok).
congr nth; apply: scatter_ext => e n _ _; apply: covector_lin1; first exact: divq_lin.
exact: gather_vector_lin.
Qed.
Lemma gather_scalar_lin m a p q r : size p = size r -> size q = size r -> (forall i, nth 0 r i = a * nth 0 p i + nth 0 q i) ->
  forall e n c, la_data (gather_scalar (m : FES_model.mesh R d) r) e n c =
    a * la_data (gather_scalar m p) e n c + la_data (gather_scalar m q) e n c.
Proof. by move=> s1 s2 H e n c; apply: gather_lin. Qed.
Lemma pB_lin a p q r i : size p = size r -> size q = size r -> (forall i, nth 0 r i = a * nth 0 p i + nth 0 q i) ->
  nth 0 (p_B pr r) i = a * nth 0 (p_B pr p) i + nth 0 (p_B pr q) i.
Proof.
move=> s1 s2 H; rewrite -scatter_lin; last exact: (ok_p ok).
congr nth; apply: scatter_ext => e n _ _; apply: covector_lin1; first exact: pmass_lin.
exact: gather_scalar_lin.
Qed.
Lemma Dt_lin a p q r c i : size p = size r -> size q = size r -> (forall i, nth 0 r i = a * nth 0 p i + nth 0 q i) ->
  ent (Dt s r) c i = a * ent (Dt s p) c i + ent (Dt s q) c i.
Proof.
move=> s1 s2 H; apply: masked_scatter_lin.
move=> e n c'; apply: covector_lin2; first exact: divq_lin.
exact: gather_scalar_lin.
Qed.
Lemma A_lin a u v w c i : vgood s u -> vgood s v -> vgood s w -> (forall c i, ent w c i = a * ent u c i + ent v c i) ->
  ent (A s w) c i = a * ent (A s u) c i + ent (A s v) c i.
Proof.
move=> gu gv gw H; apply: masked_scatter_lin.
move=> e n c'; apply: covector_lin1; first exact: vstiff_lin.
exact: gather_vector_lin.
Qed.
Lemma B_lin a u v w c i : vgood s u -> vgood s v -> vgood s w -> (forall c i, ent w c i = a * ent u c i + ent v c i) ->
  ent (B s w) c i = a * ent (B s u) c i + ent (B s v) c i.
Proof.
move=> gu gv gw H; case: (ltnP c d) => hc; last by rewrite !ent_out ?mulr0 ?addr0 //; apply: good_B.
by rewrite !ent_B ?H // mulrDr mulrCA.
Qed.

(** ** Exchange and the inverse mass operator *)
Lemma good_exch u : vgood s u -> vgood s (v_exchange vel u).
Proof. by move=> gu; apply: good_mapc => // c sc; rewrite size_exchange. Qed.
Lemma ent_exch u c i ids : exchanges (nv s) (v_gi vel) (v_ui vel) ids -> vgood s u -> (c < d)%N ->
  ent (v_exchange vel u) c i = nth 0 (serial_exchange ids (nth [::] u c)) i.
Proof. by move=> [_ H] gu hc; rewrite /ent (ent_map _ gu) // H // (good_comp gu). Qed.
Lemma size_vinv (x : seq R) : size (vinv x) = size x.
Proof. exact: size_map. Qed.
Lemma nth_vinv (x : seq R) i : (i < size x)%N -> nth 0 (vinv x) i = (nth 0 x i)^-1.
Proof. by move=> h; rewrite (nth_map 0) // mul1r. Qed.
Lemma good_Bi u : vgood s u -> vgood s (Bi s u).
Proof.
move=> gu; apply: good_map2c; last by move=> c c' e e'; rewrite size_vmul ?e ?e'.
- by apply: good_mapc; [exact: good_exch (ok_mass ok)|move=> c; rewrite size_vinv].
- exact: good_exch.
Qed.
Lemma ent_Bi u c i : vgood s u -> (c < d)%N -> (i < nv s)%N ->
  ent (Bi s u) c i = (ent (v_exchange vel (s_mass s)) c i)^-1 * ent (v_exchange vel u) c i.
Proof.
move=> gu hc hi; have gm := good_exch (ok_mass ok); have ge := good_exch gu.
have gi : vgood s [seq vinv x | x <- v_exchange vel (s_mass s)] by apply: good_mapc => // x; rewrite size_vinv.
rewrite {1}/ent (nth_map2c _ gi ge hc) nth_vmul ?(good_comp gi) ?(good_comp ge) //.
by rewrite (ent_map _ gm) // nth_vinv ?(good_comp gm).
Qed.
End Fixed.

(** ** Adjointness *)
(** Both spaces describe the same elements with the same quadrature: equal
    Jacobian determinants at all quadrature points. *)
Definition same_geometry s : Prop :=
  let fv := v_space (s_velocity s) in let fp := p_space (s_pressure s) in
  [/\ num_elements (vm s) = num_elements (pm s), fs_quad fv = fs_quad fp &
      forall e (q : nat), (e < num_elements (pm s))%N -> (q < num_quad fp)%N -> fs_jacdets fv e q = fs_jacdets fp e q].

Lemma divergence_form s u p : sem_ok s -> same_geometry s -> vgood s u -> size p = np s ->
  pinner (np s) (D s u) p =
  form_integral eps (p_space (s_pressure s)) (@divq R d)
    [:: fun_of (v_space (s_velocity s)) KVector (Some (v_gather (s_velocity s) u));
        fun_of (p_space (s_pressure s)) KScalar (Some (p_gather (s_pressure s) p))].
Proof.
move=> ok [eE eQ _] gu sp; rewrite pinnerC /pinner [LHS]assembly //; last exact: (ok_p ok).
set fp := p_space _; set fv := v_space _.
pose funs := [:: fun_of fv KVector (Some (v_gather (s_velocity s) u)); fun_of fp KScalar None].
have [b hb] : exists b, local_covector eps fp (@divq R d) funs = inr b.
  have [+ _] := @C40_placeholder R d eps fp (@divq R d) funs; case=> //=.
    by rewrite -[fs_mesh fv]/(vm s) eE /num_quad eQ !eqxx.
  by move=> b [-> _]; exists b.
have := C40_represents (p_gather (s_pressure s) p) hb (@divq_lin R d 1 isT).
rewrite /= => <-; rewrite /pairing; apply: eq_bigr => e _; apply: eq_bigr => n _.
by rewrite big_ord1 /D_local /covector hb.
Qed.
Lemma gradient_form s u p : sem_ok s -> same_geometry s -> vgood s u -> size p = np s ->
  vinner d (nv s) u (v_scatter (s_velocity s) (Dt_local eps s (p_gather (s_pressure s) p))) =
  form_integral eps (v_space (s_velocity s)) (@divq R d)
    [:: fun_of (v_space (s_velocity s)) KVector (Some (v_gather (s_velocity s) u));
        fun_of (p_space (s_pressure s)) KScalar (Some (p_gather (s_pressure s) p))].
Proof.
move=> ok [eE eQ _] gu sp; rewrite [LHS]assembly_vector //; last exact: (ok_v ok).
set fp := p_space _; set fv := v_space _.
pose funs := [:: fun_of fv KVector None; fun_of fp KScalar (Some (p_gather (s_pressure s) p))].
have [b hb] : exists b, local_covector eps fv (@divq R d) funs = inr b.
  have [+ _] := @C40_placeholder R d eps fv (@divq R d) funs; case=> //=.
    by rewrite -[fs_mesh fv]/(vm s) -[fs_mesh fp]/(pm s) eE /num_quad eQ !eqxx.
  by move=> b [-> _]; exists b.
have := C40_represents (v_gather (s_velocity s) u) hb (@divq_lin R d 0 isT).
rewrite /= => <-; rewrite /pairing; apply: eq_bigr => e _; apply: eq_bigr => n _.
by apply: eq_bigr => c _; rewrite /Dt_local /covector hb.
Qed.
Lemma forms_agree s (fm : form R d) funs : same_geometry s -> (forall x x' vs, fm x vs = fm x' vs) ->
  all (fun f => if f is QCoord _ then false else true) funs ->
  form_integral eps (p_space (s_pressure s)) fm funs = form_integral eps (v_space (s_velocity s)) fm funs.
Proof.
move=> [eE eQ eJ] hfm al; rewrite /form_integral /integrate -[fs_mesh (v_space _)]/(vm s) eE /num_quad eQ.
apply: eq_suml => e he; apply: eq_suml => q hq; rewrite eJ //; congr (_ * _ * _).
rewrite [LHS](hfm _ (fs_quad_coords (v_space (s_velocity s)) e q)); congr (fm _ _).
by elim: funs al => //= f funs IH /andP[hf /IH ->]; case: f hf.
Qed.

Lemma adjoint s u p : sem_ok s -> same_geometry s -> vgood s u -> size p = np s ->
  pinner (np s) (D s u) p = vinner d (nv s) u (v_scatter (s_velocity s) (Dt_local eps s (p_gather (s_pressure s) p))).
Proof. by move=> ok sg gu sp; rewrite divergence_form // gradient_form // forms_agree. Qed.
End Sem.
