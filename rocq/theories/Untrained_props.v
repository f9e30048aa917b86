(** C84: the rollout of niles/train.py with the network of niles/transformer.py before
    training. *)
From Coq Require List.
From mathcomp Require Import all_ssreflect all_algebra polyrcf zify ring.
From Verif Require Import Attn_model Attn_props Net_model Net_props.
From Verif Require Import PyDict_model PyDict_proofs GS_model GS_proofs GS_props Interp_model Interp_spec.
From Verif Require Import Interp_props FES_model FES_proofs FES_proofs2 FES_props FES_props2 Premesh_model.
From Verif Require Import Refiner_model Refiner_spec UnitCube_model UnitCube_spec UnitCube_props UnitCube_refine UnitCube_links.
From Verif Require Import CG_model CG_proofs CG_props CG_props2 CG_props3 TimeCoef_model TimeCoef_props Stokes_model Stokes_spec Stokes_proofs Stokes_proofs2 Stokes_proofs3.
From Verif Require Import Stokes_create Stokes_create2 Stokes_create3 Stokes_proofs4 Stokes_create4 Stokes_momentum Stokes_props Stokes_props2 Stokes_family Stokes_instance Stokes_cube Stokes_props3 Stokes_props4 Stokes_props5 Stokes_props6 Flow_props Steady_props Patch_props.
From Verif Require Import Pipeline_model Pipeline_props.
From Verif Require Import NS_model NS_props.
From Verif Require Import Datagen_model Datagen_props.
Set Implicit Arguments.
Unset Strict Implicit.
Unset Printing Implicit Defensive.
Import Order.TTheory GRing.Theory Num.Theory.
Local Open Scope ring_scope.

Section Untrained.
Variables (R : rcfType) (d : nat) (eps : R) (inv : 'M[R]_d -> 'M[R]_d) (L : eqType) (BCV : Type).
Notation rmesh := (Premesh_model.mesh [zmodType of 'rV[R]_d] L).
Variables (refined : nodes1d R -> ierror + rmesh) (K : nat) (F : nat -> 'I_d -> tpoly R).
Hypothesis fam : mesh_family refined K F.
Variables (o order overint : nat) (bcs : seq (L * (bctype * BCV))) (s : sem R d).
Hypothesis hs : sem_create eps inv refined o order bcs overint = inr s.
Notation vel := (s_velocity s).
Notation E := (num_elements (v_mesh vel)).
Notation N := (m_per_element (v_mesh vel)).
Notation vfield := (seq (seq R)).
Variables (sine : R -> R) (pi : R).
Variable solve : (tree R -> tree R) -> tree R -> option (tree R -> tree R) -> option (tree R).
Let ok : sem_ok s. Proof. by have [gp [gv [rp [rv [quad cf]]]]] := created fam hs; exact: (facts_ok cf). Qed.

(** The program without a network: the step with the force [f] again and again *)
Fixpoint forced (cfg : config R) (f : vfield) (n : nat) (us : seq vfield) (ps : seq (seq R)) (cus : seq vfield) : nerror + seq (vfield * seq R) :=
  if n is n'.+1 then
    if us is [::] then inl NIndex else
    match solve_one_step eps sine pi solve cfg s us ps cus f with
    | inl e => inl e
    | inr (u, p, cu) =>
      match forced cfg f n' (rcons (behead us) u) (rcons (behead ps) p) (rcons (behead cus) cu) with
      | inl e => inl e
      | inr preds => inr ((u, p) :: preds)
      end
    end
  else inr [::].

(** The configuration describes the mesh; the permutation is for 12 x 12 elements. *)
Variable cfg : config R.
Hypothesis fits_elements : cfg_elements cfg = E.
Hypothesis fits_channels : cfg_channels cfg = (N * d)%N.
Hypothesis fits_permutation : permute_elements cfg -> E = 144%N.
(** A network for this mesh: the strides of its pooling layers divide the number of
    elements.  The samples of its processor depend on the step. *)
Variables (ex : R -> R) (w : nat) (c : params) (embed : seq R -> 'rV[R]_w) (pos : nat -> 'rV[R]_w).
Variables (bs : seq (block R w)) (enc_norm dec_norm : 'rV[R]_w -> 'rV[R]_w) (pr : nat -> processor R w) (ls : seq (dec R w)).
Variables (kernel : 'M[R]_(w, N * d)) (bias : 'rV[R]_(N * d)) (coarse : nat).
Hypotheses (s0 : (0 < pooling_stride c)%N) (k1 : pooling_kernel c != 1%N \/ pooling_stride c = 1%N).
Hypotheses (r1 : tile_reps c = pooling_stride c) (same_depth : size ls = size bs).
Hypothesis strides : E = (coarse * pooling_stride c ^ Net_props.pools c 0 (size bs))%N.
Hypothesis samples : forall i, keeps_length (pr i) coarse.
Definition net i : vfield -> vfield := network ex c embed pos bs enc_norm (pr i) ls dec_norm kernel bias.

(** The network has the shape that the theorems about the rollout ask for ([C75]) *)
Theorem C84_shaped i r : shaped s r -> shaped s (net i r).
Proof.
move=> [sr _]; have [|e1 e2] := C84_lengths ex s0 k1 r1 embed pos enc_norm dec_norm kernel bias same_depth (inputs := r) (m := coarse) _ (samples i).
  by rewrite sr strides.
by split; [rewrite e1|].
Qed.

(** The force that has the entries of the bias in each element *)
Definition bias_row : seq R := [seq bias 0 j | j <- enum 'I_(N * d)].
Definition bias_force : vfield := v_scatter vel (LArray E N [:: d] (fun e n k => nth 0 bias_row (n * d + k))).
Lemma take_nseq r p n : (0 < n)%N -> take_rows (nseq n r) p = nseq (size p) r :> vfield.
Proof.
move=> n0; elim: p => //= i p IH; rewrite /take_rows /= -/(take_rows _ _) IH; congr (_ :: _).
by rewrite nth_nseq size_nseq; case: ltnP => //; lia.
Qed.
Lemma nth_repeat e n k : (e < E)%N -> (n < N)%N -> (k < d)%N ->
  nth 0 (flatten (nseq E bias_row)) ((e * N + n) * d + k) = nth 0 bias_row (n * d + k).
Proof.
move=> he hn hk; have sb : size bias_row = (N * d)%N by rewrite size_map size_enum_ord.
have nk : (n * d + k < N * d)%N by clear -hn hk; nia.
rewrite -[flatten _]/(Attn_model.tile E bias_row) nth_tile sb; last by clear -he nk; nia.
by rewrite mulnDl -mulnA -addnA modnMDl modn_small.
Qed.
(** Before training the closure term is that force in each step and for each flow *)
Theorem C84_closure i u : kernel = 0 -> closure_term cfg s default_perm (net i) u = inr bias_force.
Proof.
move=> k0; rewrite /closure_term.
have sr : size (rows d (v_gather vel u)) = E by rewrite size_map size_iota.
set inp := if permute_elements cfg then _ else _.
have pE : permute_elements cfg -> size default_perm = E.
  by move=> h; rewrite (fits_permutation h) (perm_size default_perm_eq) size_iota.
have si : size inp = E by rewrite /inp; case: ifP => h; rewrite // size_map pE.
rewrite si fits_elements fits_channels !eqxx; cbn [andb].
have -> : net i inp = nseq E bias_row.
  have := C84_untrained ex s0 k1 r1 embed pos enc_norm dec_norm bias same_depth k0 (inputs := inp) (m := coarse) _ (samples i).
  by rewrite si => /(_ strides).
set out := if permute_elements cfg then _ else _.
have -> : out = nseq E bias_row.
  rewrite /out; case: ifP => h //; have e := fits_permutation h; rewrite take_nseq; last by rewrite e.
  by rewrite size_map size_sort pE.
have sb : size bias_row = (N * d)%N by rewrite size_map size_enum_ord.
rewrite /unrows size_flatten /shape map_nseq sb sumn_nseq mulnC mulnA eqxx.
congr inr; rewrite /bias_force /v_scatter /scatter_vector; apply/eq_in_map => k; rewrite mem_iota => /andP[_ hk].
by apply: scatter_ext => e n he hn; rewrite /= nth_repeat.
Qed.
(** It is no force when the bias is zero too *)
Lemma bias0 : bias = 0 -> bias_force = zeros_like (s_mass s).
Proof.
move=> b0; have gm : vgood s (s_mass s) := ok_mass ok.
apply: (good_eq (good_scatter_vector _ _) (good_zeros gm)) => k i hk hi.
rewrite ent_zeros ent_scatter_vector // nth_scatter_comp //; last exact: (ok_v ok).
rewrite big1 // => e _; rewrite big1 // => n _ /=.
have -> : nth 0 bias_row (n * d + k) = 0; last by rewrite mul0r.
have [h|h] := ltnP (n * d + k) (size bias_row); last by rewrite nth_default.
by rewrite size_map in h; rewrite (nth_map (Ordinal (ltac:(by move: h; rewrite size_enum_ord => h; exact h)))) // b0 mxE.
Qed.
(** Before training, and with bias zero, the rollout is that of the plain solver *)
Theorem C84_rollout m i us ps cus : kernel = 0 -> ns_rollout eps sine pi solve cfg s net m i us ps cus = forced cfg bias_force m us ps cus.
Proof.
move=> k0; elim: m i us ps cus => [//|m IH] i [//|u0 us] ps cus.
cbn [ns_rollout forced]; rewrite C84_closure //.
by case: (solve_one_step _ _ _ _ _ _ _ _ _ _) => [//|[[u p] cu]]; rewrite IH.
Qed.
Theorem C84_plain m bu bp : kernel = 0 -> bias = 0 -> (time_order cfg <= size bu)%N -> (time_order cfg <= size bp)%N ->
  predict eps sine pi solve cfg s net m bu bp =
  let us := take (time_order cfg) bu in
  forced cfg (zeros_like (s_mass s)) m us (take (time_order cfg) bp) [seq v_C eps vel u | u <- us].
Proof. by move=> k0 b0 h1 h2; rewrite /predict h1 h2 /= C84_rollout // bias0. Qed.
(** So where the data are a trajectory of the solver, as those of the data generator are
    ([C82_run]), the predictions are the data *)
Theorem C84_follows (u : nat -> vfield) (p : nat -> seq R) m j : kernel = 0 -> bias = 0 -> (0 < time_order cfg)%N ->
  let h (T : Type) (x : nat -> T) k := Datagen_props.history (time_order cfg) x k in
  (forall k, solve_one_step eps sine pi solve cfg s (h _ u k) (h _ p k) [seq v_C eps vel v | v <- h _ u k] (zeros_like (s_mass s)) =
    inr (u (k + time_order cfg)%N, p (k + time_order cfg)%N, v_C eps vel (u (k + time_order cfg)%N))) ->
  predict eps sine pi solve cfg s net m (h _ u j) (h _ p j) = inr [seq (u (j + time_order cfg + i)%N, p (j + time_order cfg + i)%N) | i <- iota 0 m].
Proof.
move=> k0 b0 K0 h st; have sh T (x : nat -> T) k : size (h _ x k) = time_order cfg by rewrite size_map size_iota.
rewrite C84_plain ?sh // !take_oversize ?sh //; cbv zeta.
elim: m j => [//|m IH] j; cbn [forced]; rewrite st.
have ne : h _ u j <> [::] by move=> e; move: (sh _ u j); rewrite e /= => e0; rewrite -e0 in K0.
case E1 : (h _ u j) ne => [//|v0 vs] _; rewrite -E1.
have pu T (x : nat -> T) : rcons (behead (h _ x j)) (x (j + time_order cfg)%N) = h _ x j.+1 := push_history K0 x j.
have -> : rcons (behead [seq v_C eps vel v | v <- h _ u j]) (v_C eps vel (u (j + time_order cfg)%N)) = [seq v_C eps vel v | v <- h _ u j.+1].
  by rewrite -pu map_rcons; case: (h _ u j).
rewrite !pu IH; congr inr; rewrite [iota 0 m.+1]/= [map _ (_ :: _)]/= addn0; congr (_ :: _).
by rewrite (iotaDl 1 0) -map_comp; apply: eq_map => i /=; rewrite !addSn !addnS.
Qed.
End Untrained.

(** ** Example *)
(** The periodic square of 12 x 12 elements of order 3 with the permutation of the
    elements, and any network of five layers with window 5 and stride 4 in the third and
    the last: 144 = 9 * 4 ^ 2. *)
Example ex_untrained (R : rcfType) (eps pi : R) (sine ex : R -> R) solve (w : nat) (embed : seq R -> 'rV[R]_w) (pos : nat -> 'rV[R]_w)
    (en dn : 'rV[R]_w -> 'rV[R]_w) (bs : seq (block R w)) (ls : seq (dec R w)) : size bs = 5%N -> size ls = 5%N ->
  exists pm : premesh [lmodType R of 'rV[R]_2] bool, exists s : sem R 2,
  [/\ unit_cube_mesh 2 true 12 (0 : R) 1 [:: 0; 1]%N None = inr pm,
      sem_create eps invmx (refined_mesh (ex_pg R) pm) 1 3 ([::] : seq (bool * (bctype * unit))) 2 = inr s &
  let N := m_per_element (v_mesh (s_velocity s)) in
  let cfg := Config (10%:R^-1 : R) 100%:R 10%:R^-1 20%:R^-1 2 true 144 (N * 2) in
  let c := Params [:: 2; 4]%N 5 4 8 4 true true in
  let z := nseq (nv s) (0 : R) in let o := nseq (nv s) (1 : R) in
  forall m, predict eps sine pi solve cfg s (net (s := s) ex c embed pos bs en dn (fun _ => NoProcessor) ls 0 0) m [:: [:: z; z]; [:: o; z]] [:: nseq (np s) 0; nseq (np s) 0] =
    forced eps s sine pi solve cfg (zeros_like (s_mass s)) m [:: [:: z; z]; [:: o; z]] [:: nseq (np s) 0; nseq (np s) 0]
      [seq v_C eps (s_velocity s) u | u <- [:: [:: z; z]; [:: o; z]]]].
Proof.
move=> sb sl; have [pm gen] : exists pm : premesh [lmodType R of 'rV[R]_2] bool, unit_cube_mesh 2 true 12 (0 : R) 1 [:: 0; 1]%N None = inr pm by eexists.
have [_ H] := C61_creates eps invmx (isT : (0 < 2)%N) (isT : (0 < 12)%N) gen (ex_pg_created R) (ex_pg_continuous R) (order := 3) 2
  ([::] : seq (bool * (bctype * unit))) isT (fun h => ltac:(by case: h)).
have [g0 v //|s hs] := H; exists pm, s; split=> // N cfg c z o m.
have fam := (C61_family (isT : (0 < 2)%N) (isT : (0 < 12)%N) ltr01 gen (ex_pg_created R) (ex_pg_continuous R)).1.
have eE : num_elements (v_mesh (s_velocity s)) = 144%N.
  have [gp [gv [rp [rv [quad cf]]]]] := created fam hs.
  by have := fe_num (ltn0Sn _) (cf_gv cf) (cf_rv cf) (cf_vm cf).
have := @C84_plain R 2 eps invmx bool_eqType unit _ _ _ fam 1 3 2 [::] s hs sine pi solve cfg (esym eE) erefl (fun _ => eE) ex w c embed pos bs en dn
  (fun _ => NoProcessor) ls 0 0 9 isT (or_introl isT) erefl (etrans sl (esym sb)) _ (fun _ => I) m [:: [:: z; z]; [:: o; z]] [:: nseq (np s) 0; nseq (np s) 0].
by rewrite sb eE => /(_ erefl erefl erefl isT isT).
Qed.
Print Assumptions C84_shaped.
Print Assumptions C84_closure.
Print Assumptions C84_rollout.
Print Assumptions C84_plain.
Print Assumptions C84_follows.
