(** C84: the data generator (niles/datagen/datagen.py) and the rollout of niles/train.py
    with the network before training. *)
From Coq Require List.
From mathcomp Require Import all_ssreflect all_algebra polyrcf zify ring.
From Verif Require Import Loss_model.
From Verif Require Import Attn_model Net_model Net_props.
From Verif Require Import PyDict_model GS_model Interp_model Interp_spec FES_model FES_proofs FES_proofs2 Premesh_model Refiner_model UnitCube_model.
From Verif Require Import CG_model Stokes_model Stokes_spec Stokes_proofs Stokes_proofs2 Stokes_create Stokes_create2 Stokes_create3 Stokes_create4 Stokes_props Stokes_props2 Stokes_family Stokes_instance Stokes_cube Stokes_props3 Stokes_props4 Stokes_props5.
From Verif Require Import NS_model NS_props Datagen_model Datagen_props Gen_model Gen_props Untrained_props.
Set Implicit Arguments.
Unset Strict Implicit.
Unset Printing Implicit Defensive.
Import Order.TTheory GRing.Theory Num.Theory.
Local Open Scope ring_scope.

Section Generator.
Variables (R : rcfType) (eps : R) (sine cosine ex : R -> R) (pi : R).
Hypothesis sine_period : forall z, sine (z + 2%:R * pi) = sine z.
Hypothesis cosine_period : forall z, cosine (z + 2%:R * pi) = cosine z.
(** The mesh of the generator: the periodic unit square with [n] x [n] elements *)
Variables (n order : nat) (pm : premesh [lmodType R of 'rV[R]_2] bool) (s : sem R 2) (g : constants R).
Hypotheses (n0 : (0 < n)%N) (o2 : (2 < order)%N).
Hypothesis gen : unit_cube_mesh 2 true n (0 : R) 1 [:: 0; 1]%N None = inr pm.
Hypothesis hs : sem_create eps invmx (refined_mesh (ex_pg R) pm) 1 order ([::] : seq (bool * (bctype * unit))) 2 = inr s.
Hypotheses (k1 : (1 < TIME_ORDER g)%N) (dt0 : 0 < DT g) (re0 : 0 < REYNOLDS_NUMBER g).
Notation E := (num_elements (v_mesh (s_velocity s))).
Notation N := (m_per_element (v_mesh (s_velocity s))).
(** The training configuration for this mesh with the constants of the generator *)
Definition gen_config (permute : bool) : config R :=
  Config (DRAG_COEFF g) (REYNOLDS_NUMBER g) (DT g) (20%:R^-1) (TIME_ORDER g) permute E (N * 2).
Variables (w : nat) (c : params) (embed : seq R -> 'rV[R]_w) (pos : nat -> 'rV[R]_w).
Variables (bs : seq (block R w)) (enc_norm dec_norm : 'rV[R]_w -> 'rV[R]_w) (pr : nat -> processor R w) (ls : seq (dec R w)) (coarse : nat).
Hypotheses (s0 : (0 < pooling_stride c)%N) (kk : pooling_kernel c != 1%N \/ pooling_stride c = 1%N).
Hypotheses (r1 : tile_reps c = pooling_stride c) (same_depth : size ls = size bs).
Hypothesis strides : (n * n = coarse * pooling_stride c ^ Net_props.pools c 0 (size bs))%N.
Hypothesis samples : forall i, keeps_length (pr i) coarse.

Lemma elements : E = (n * n)%N.
Proof.
have fam := (C61_family (isT : (0 < 2)%N) n0 ltr01 gen (ex_pg_created R) (ex_pg_continuous R)).1.
have [gp [gv [rp [rv [quad cf]]]]] := created fam hs.
by have := fe_num (ltn0Sn _) (cf_gv cf) (cf_rv cf) (cf_vm cf); rewrite mulnn.
Qed.
(** From any states of a simulation the rollout predicts the states that follow in it *)
Theorem C84_generator (permute : bool) tol atol : (permute -> n = 12%N) -> exists u p,
  simulate eps sine cosine pi g (cg_solver tol atol) (@intended_solve _ _ _ _) s =
    (files g u p, inr (Datagen_props.history (TIME_ORDER g) u (NUM_CYCLES g * NUM_STEPS_PER_CYCLE g),
                       Datagen_props.history (TIME_ORDER g) p (NUM_CYCLES g * NUM_STEPS_PER_CYCLE g))) /\
  forall m j, predict eps sine pi (cg_solver tol atol) (gen_config permute) s
      (net (s := s) ex c embed pos bs enc_norm dec_norm pr ls 0 0) m (Datagen_props.history (TIME_ORDER g) u j) (Datagen_props.history (TIME_ORDER g) p j) =
    inr [seq (u (j + TIME_ORDER g + i)%N, p (j + TIME_ORDER g + i)%N) | i <- iota 0 m].
Proof.
move=> h12; have per axis : (axis < 2)%N -> axis \in [:: 0; 1]%N by case: axis => [|[]].
have side : 1 = 0 + 1 :> R by rewrite add0r.
have [u [p [_ _ st _ e]]] := C82_run (fun _ _ => erefl) (isT : (0 < 2)%N) n0 ltr01 gen (ex_pg_created R) (ex_pg_continuous R) hs o2 erefl
  sine_period cosine_period side per (x0 := 0) (y0 := 1) erefl erefl k1 dt0 re0 tol atol.
exists u, p; split=> // m j.
have fam := (C61_family (isT : (0 < 2)%N) n0 ltr01 gen (ex_pg_created R) (ex_pg_continuous R)).1.
apply: (C84_follows fam hs (cfg := gen_config permute) erefl erefl _ _ _ _ _ _ s0 kk r1 same_depth _ samples) => //.
- by move=> h; rewrite elements h12.
- by rewrite elements.
- exact: ltnW k1.
Qed.
(** ... so a batch of windows of the simulation, starting at the steps [js], has mean
    squared errors zero and the loss is the KL penalty alone *)
Lemma l2_same (x : seq R) : l2_loss x x = 0.
Proof. by rewrite /l2_loss; elim: x => //= a x ->; rewrite subrr expr0n mulr0 addr0. Qed.
Theorem C84_loss (permute : bool) tol atol : (permute -> n = 12%N) -> exists u p,
  (simulate eps sine cosine pi g (cg_solver tol atol) (@intended_solve _ _ _ _) s).1 = files g u p /\
  forall pen steps (js : seq nat) (kls : nat -> seq (R * R)), js != [::] ->
  let K := TIME_ORDER g in
  let predicted j := if predict eps sine pi (cg_solver tol atol) (gen_config permute) s
      (net (s := s) ex c embed pos bs enc_norm dec_norm pr ls 0 0) steps (Datagen_props.history K u j) (Datagen_props.history K p j) is inr preds
    then [seq flatten q.1 | q <- preds] else [::] in
  let windows j := [seq flatten (u (j + i)%N) | i <- iota 0 (K + steps)] in
  (forall j, predicted j = drop K (windows j)) /\
  exists2 o, compute_mse_loss K steps pen [seq Entry (predicted j) (windows j) (kls j) | j <- js] = inr o &
    o_mse o = nseq steps 0 /\ o_loss o = o_kl o.
Proof.
move=> h12; have [u [p [e H]]] := C84_generator tol atol h12; exists u, p; split; first by rewrite e.
move=> pen steps js kls j0 K predicted windows.
have pE j : predicted j = drop K (windows j).
  rewrite /predicted H -map_comp; apply: (@eq_from_nth _ [::]).
    by rewrite size_drop !size_map !size_iota addKn.
  move=> t; rewrite size_map size_iota => ht.
  rewrite nth_drop (nth_map 0%N) ?size_iota // nth_iota // (nth_map 0%N) ?size_iota ?ltn_add2l // nth_iota ?ltn_add2l //.
  by rewrite /= !add0n addnA.
split=> //; set batch := [seq _ | j <- js]; have b0 : (0 < size batch)%N by rewrite size_map lt0n size_eq0.
have aw : all (fun x : entry _ => (K + steps <= size (window x))%N) batch.
  by rewrite /batch; elim: (js) => //= j js' ->; rewrite size_map size_iota leqnn.
have mE : mse K steps batch = nseq steps 0.
  apply: (@eq_from_nth _ 0); rewrite size_map size_iota ?size_nseq // => t ht.
  rewrite (nth_map 0%N) ?size_iota // nth_iota // add0n nth_nseq ht /meanl.
  set q := foldr _ _ _; suff -> : q = 0 by rewrite scaler0.
  by rewrite /q /batch -map_comp; elim: (js) => //= j js' ->; rewrite addr0 pE /targets nth_take // l2_same.
rewrite /compute_mse_loss aw /=; case E0 : batch b0 => [//|x b] _; rewrite -E0; eexists; first reflexivity.
rewrite /= mE; split=> //.
by rewrite (_ : Loss_model.suml (nseq steps 0) = 0) ?add0r // /Loss_model.suml; elim: (steps) => //= k ->; rewrite addr0.
Qed.
End Generator.

(** ** Example *)
(** 12 x 12 elements of order 3, the constants of the program, any network of five layers
    with window 5 and stride 4 in the third and the last, permuted elements *)
Example ex_generator (R : rcfType) (eps pi : R) (sine cosine ex : R -> R) (w : nat) (embed : seq R -> 'rV[R]_w) (pos : nat -> 'rV[R]_w)
    (en dn : 'rV[R]_w -> 'rV[R]_w) (bs : seq (block R w)) (ls : seq (dec R w)) :
  (forall z, sine (z + 2%:R * pi) = sine z) -> (forall z, cosine (z + 2%:R * pi) = cosine z) -> size bs = 5%N -> size ls = 5%N ->
  exists s : sem R 2, exists u p, let g := datagen_constants R in
    size (simulate eps sine cosine pi g (cg_solver 0 0) (@intended_solve _ _ _ _) s).1 = 500%N /\
    forall m j, predict eps sine pi (cg_solver 0 0) (gen_config s g true) s
      (net (s := s) ex (Params [:: 2; 4]%N 5 4 8 4 true true) embed pos bs en dn (fun _ => NoProcessor) ls 0 0) m
      (Datagen_props.history (TIME_ORDER g) u j) (Datagen_props.history (TIME_ORDER g) p j) =
    inr [seq (u (j + TIME_ORDER g + i)%N, p (j + TIME_ORDER g + i)%N) | i <- iota 0 m].
Proof.
move=> ps pc sb sl; have [pm gen] : exists pm : premesh [lmodType R of 'rV[R]_2] bool, unit_cube_mesh 2 true 12 (0 : R) 1 [:: 0; 1]%N None = inr pm by eexists.
have [_ H] := C61_creates eps invmx (isT : (0 < 2)%N) (isT : (0 < 12)%N) gen (ex_pg_created R) (ex_pg_continuous R) (order := 3) 2
  ([::] : seq (bool * (bctype * unit))) isT (fun h => ltac:(by case: h)).
have [g0 v //|s hs] := H; exists s.
have dt0 : 0 < DT (datagen_constants R) by rewrite invr_gt0 ltr0n.
have re0 : 0 < REYNOLDS_NUMBER (datagen_constants R) by rewrite ltr0n.
have [|u [p [e h]]] := @C84_generator R eps sine cosine ex pi ps pc 12 3 pm s (datagen_constants R) isT isT gen hs isT dt0 re0 w (Params [:: 2; 4]%N 5 4 8 4 true true)
  embed pos bs en dn (fun _ => NoProcessor) ls 9 isT (or_introl isT) erefl (etrans sl (esym sb)) _ (fun _ => I) true 0 0 (fun _ => erefl).
  by rewrite sb.
exists u, p; split; last exact: h.
by rewrite e size_map size_iota.
Qed.
(** In the same case a batch of the windows from steps 0, 3 and 100 of any length has loss zero *)
Example ex_loss (R : rcfType) (eps pi : R) (sine cosine ex : R -> R) (w : nat) (embed : seq R -> 'rV[R]_w) (pos : nat -> 'rV[R]_w)
    (en dn : 'rV[R]_w -> 'rV[R]_w) (bs : seq (block R w)) (ls : seq (dec R w)) pen steps :
  (forall z, sine (z + 2%:R * pi) = sine z) -> (forall z, cosine (z + 2%:R * pi) = cosine z) -> size bs = 5%N -> size ls = 5%N ->
  exists (s : sem R 2) (u p : nat -> _), let g := datagen_constants R in
    let predicted j := if predict eps sine pi (cg_solver 0 0) (gen_config s g true) s
        (net (s := s) ex (Params [:: 2; 4]%N 5 4 8 4 true true) embed pos bs en dn (fun _ => NoProcessor) ls 0 0) steps
        (Datagen_props.history (TIME_ORDER g) u j) (Datagen_props.history (TIME_ORDER g) p j) is inr preds
      then [seq flatten q.1 | q <- preds] else [::] in
    let windows j := [seq flatten (u (j + i)%N) | i <- iota 0 (TIME_ORDER g + steps)] in
    exists2 o, compute_mse_loss (TIME_ORDER g) steps pen [seq Entry (predicted j) (windows j) [::] | j <- [:: 0; 3; 100]%N] = inr o & o_loss o = 0.
Proof.
move=> ps pc sb sl; have [pm gen] : exists pm : premesh [lmodType R of 'rV[R]_2] bool, unit_cube_mesh 2 true 12 (0 : R) 1 [:: 0; 1]%N None = inr pm by eexists.
have [_ H] := C61_creates eps invmx (isT : (0 < 2)%N) (isT : (0 < 12)%N) gen (ex_pg_created R) (ex_pg_continuous R) (order := 3) 2
  ([::] : seq (bool * (bctype * unit))) isT (fun h => ltac:(by case: h)).
have [g0 v //|s hs] := H; exists s.
have dt0 : 0 < DT (datagen_constants R) by rewrite invr_gt0 ltr0n.
have re0 : 0 < REYNOLDS_NUMBER (datagen_constants R) by rewrite ltr0n.
have [|u [p [_ h]]] := @C84_loss R eps sine cosine ex pi ps pc 12 3 pm s (datagen_constants R) isT isT gen hs isT dt0 re0 w (Params [:: 2; 4]%N 5 4 8 4 true true)
  embed pos bs en dn (fun _ => NoProcessor) ls 9 isT (or_introl isT) erefl (etrans sl (esym sb)) _ (fun _ => I) true 0 0 (fun _ => erefl).
  by rewrite sb.
exists u, p; have [_ [o e [_ l]]] := h pen steps [:: 0; 3; 100]%N (fun _ => [::]) isT; exists o; first exact: e.
rewrite l; move: e; rewrite /compute_mse_loss; case: ifP => // _ [<-].
by rewrite /= /meanl /= !addr0 scaler0 addr0 mulr0.
Qed.
Print Assumptions C84_generator.
Print Assumptions C84_loss.
