(** C78, second part: the settings and the mesh of the closure term. *)
From Coq Require Import String.
From mathcomp Require Import all_ssreflect all_algebra polyrcf zify ring.
From Verif Require Import PyDict_model PyDict_proofs GS_model GS_proofs GS_props Interp_model Interp_spec.
From Verif Require Import Interp_props FES_model FES_proofs FES_proofs2 FES_props FES_props2 Premesh_model.
From Verif Require Import Refiner_model Refiner_spec UnitCube_model UnitCube_spec UnitCube_proofs UnitCube_proofs2 UnitCube_proofs3 UnitCube_props UnitCube_refine UnitCube_links.
From Verif Require Import CG_model CG_proofs CG_props TimeCoef_model Stokes_model Stokes_spec Stokes_proofs Stokes_proofs2 Stokes_proofs3.
From Verif Require Import Stokes_create Stokes_create2 Stokes_create3 Stokes_proofs4 Stokes_create4 Stokes_props Stokes_props2 Stokes_family Stokes_instance Stokes_cube Stokes_props3 Stokes_props5 Flow_props.
From Verif Require Import Pipeline_model Pipeline_props.
From Verif Require Import NS_model.
From Verif Require Config_model Config_props.
Set Implicit Arguments.
Unset Strict Implicit.
Unset Printing Implicit Defensive.
Import Order.TTheory GRing.Theory Num.Theory.
Local Open Scope string_scope.
Local Open Scope ring_scope.

Lemma size_flatten_rows (T : eqType) (r : seq (seq T)) w : (forall row, row \in r -> size row = w) -> size (flatten r) = (size r * w)%N.
Proof.
elim: r => //= a r IH h; rewrite size_cat IH ?h ?inE ?eqxx ?mulSn // => row hr.
by apply: h; rewrite inE hr orbT.
Qed.
Lemma size_take_rows (R : rcfType) (r : seq (seq R)) p : size (take_rows r p) = size p.
Proof. exact: size_map. Qed.
Lemma mem_take_rows (R : rcfType) (r : seq (seq R)) p row : (0 < size r)%N -> row \in take_rows r p -> row \in r.
Proof. by move=> r0 /mapP[i _ ->]; apply: mem_nth; rewrite -(prednK r0) ltnS geq_minr. Qed.

(** What [body_fn] reads from the configuration [c] *)
Definition reads (R : Type) (c : Config_model.value) (cfg : config R) : Prop :=
  [/\ Config_model.get_bool c "permute_elements" = inr (permute_elements cfg),
      Config_model.get_nat c "num_elements" = inr (cfg_elements cfg) &
      Config_model.get_nat c "num_channels" = inr (cfg_channels cfg)].

Section Family.
Variables (R : rcfType) (d : nat) (eps : R) (inv : 'M[R]_d -> 'M[R]_d) (L : eqType) (BCV : Type).
Notation rmesh := (Premesh_model.mesh [zmodType of 'rV[R]_d] L).
Variables (refined : nodes1d R -> ierror + rmesh) (K : nat) (F : nat -> 'I_d -> tpoly R).
Hypothesis fam : mesh_family refined K F.
Variables (o order overint : nat) (bcs : seq (L * (bctype * BCV))) (s : sem R d).
Hypothesis hs : sem_create eps inv refined o order bcs overint = inr s.
Notation vel := (s_velocity s).
Notation M := (order.+1 ^ d)%N.
Hypotheses (d0 : (0 < d)%N) (K0 : (0 < K)%N).
(** The network keeps the numbers of rows and of channels. *)
Variable net : seq (seq R) -> seq (seq R).
Hypothesis net_shape : forall r w, (forall row, row \in r -> size row = w) ->
  size (net r) = size r /\ (forall row, row \in net r -> size row = w).
Implicit Types (cfg : config R) (u : seq (seq R)).

Let mesh_sizes : num_elements (v_mesh vel) = K /\ m_per_element (v_mesh vel) = M.
Proof.
have [gp [gv [rp [rv [quad cf]]]]] := created fam hs.
have [_ _ eN _] := feE (ltn0Sn _) (cf_gv cf) (cf_vm cf); split=> //.
exact: (fe_num (ltn0Sn _) (cf_gv cf) (cf_rv cf) (cf_vm cf)).
Qed.
Let eK := mesh_sizes.1.
Let eN := mesh_sizes.2.

(** The closure term exists exactly if the settings describe the mesh, and the mesh
    has 144 elements if they are permuted. *)
Lemma closure_iff cfg perm u : (permute_elements cfg -> (0 < size perm)%N) ->
  (exists f, closure_term cfg s perm net u = inr f) <->
  [/\ cfg_elements cfg = K, cfg_channels cfg = (M * d)%N & (permute_elements cfg -> size perm = K)].
Proof.
move=> p0; rewrite /closure_term eK eN.
have sr : size (rows d (v_gather vel u)) = K by rewrite size_map size_iota -[la_elements _]/(num_elements (v_mesh vel)) eK.
have hr row : row \in rows d (v_gather vel u) -> size row = (M * d)%N.
  by move=> /mapP[e _ ->]; rewrite size_allpairs !size_iota -[la_nodes _]/(m_per_element (v_mesh vel)) eN.
set inp := if permute_elements cfg then take_rows _ perm else _.
have si : size inp = if permute_elements cfg then size perm else K.
  by rewrite /inp; case: (permute_elements cfg); rewrite ?size_take_rows.
have hi row : row \in inp -> size row = (M * d)%N.
  rewrite /inp; case: (permute_elements cfg) => [|]; last exact: hr.
  by move=> h; apply: hr; apply: (mem_take_rows _ h); rewrite sr.
have [sn hn] := net_shape hi.
set out := if permute_elements cfg then take_rows _ (argsort _) else _.
have so : size out = size inp.
  by rewrite /out si; case: (permute_elements cfg) si => si; rewrite ?size_take_rows ?sn ?si // size_map size_sort.
have ho row : row \in out -> size row = (M * d)%N.
  rewrite /out; case pe: (permute_elements cfg) => [|]; last exact: hn.
  by move=> h; apply: hn; apply: (mem_take_rows _ h); rewrite sn si pe p0.
have M0 : (0 < M * d)%N by rewrite muln_gt0 expn_gt0 d0.
have fo : size (flatten out) == (K * M * d)%N = (size inp == K).
  by rewrite (size_flatten_rows ho) so -mulnA eqn_pmul2r.
rewrite /unrows fo; case: andP => [[/eqP e1 /eqP e2]|ne]; last first.
  split=> [[] //|[e1 e2 e3]]; case: ne; rewrite e2 eqxx si e1; split=> //.
  by case: (permute_elements cfg) e3 => // ->.
case: eqP => e3; last first.
  split=> [[] //|[e4 _ e5]]; case: e3; rewrite si; move: e5; case: (permute_elements cfg) => // e5; exact: e5.
split=> [_|_]; last by eexists.
split=> //; first by rewrite -e1.
by move=> pe; rewrite -e3 si pe.
Qed.

(** A mesh of [g * g] elements of the order in the file, the settings of the file: it
    works for [g = 12] only. *)
Theorem C78_grid_refuted b cfg u : reads (Config_model.get_config b) cfg -> Config_model.b_ndim b = d -> d = 2%N ->
  K = (Config_model.b_grid b ^ 2)%N -> order = Config_model.b_order b ->
  (exists f, closure_term cfg s default_perm net u = inr f) <-> Config_model.b_grid b = 12%N.
Proof.
move=> [[pe] [ne] [nc]] nd d2 Kg oE.
have sp : size default_perm = 144%N by rewrite (perm_size (C54_permutation default_fits)) size_iota.
rewrite closure_iff; last by rewrite sp.
have ME : M = (order.+1 ^ 2)%N by rewrite d2.
rewrite -ne -nc nd -oE sp addn1 ME Kg; split=> [[h _ _]|->]; last by [].
by apply/eqP; rewrite -(eqn_exp2r _ _ (isT : (0 < 2)%N)) -h.
Qed.
(** The same with other orders on the command line: the number of channels stays. *)
Theorem C78_order_refuted b p c cfg u : Config_model.overrides (Config_model.get_config b) [:: ([:: "order"], Config_model.vnat p)] = inr c ->
  reads c cfg -> Config_model.b_ndim b = d -> d = 2%N -> K = 144%N -> order = p ->
  (exists f, closure_term cfg s default_perm net u = inr f) <-> p = Config_model.b_order b.
Proof.
move=> [<-] [[pe] [ne] [nc]] nd d2 K144 oE.
have sp : size default_perm = 144%N by rewrite (perm_size (C54_permutation default_fits)) size_iota.
rewrite closure_iff; last by rewrite sp.
have ME : M = (order.+1 ^ 2)%N by rewrite d2.
rewrite -ne -nc nd sp addn1 ME K144 oE; split=> [[_ h _]|->]; last by [].
by move/eqP: h; rewrite eqn_pmul2r // eqn_exp2r // => /eqP[->].
Qed.
End Family.

(** ** Example *)
(** Three by three elements of order 3: the file edited to this mesh still has 144
    elements, so the closure term raises; with the right number it exists. *)
Example ex_small (R : rcfType) (eps : R) : exists pm : premesh [lmodType R of 'rV[R]_2] bool, exists s : sem R 2,
  [/\ unit_cube_mesh 2 true 3 (0 : R) 1 [:: 0%N] None = inr pm,
      sem_create eps invmx (refined_mesh (ex_pg R) pm) 1 3 [:: (true, (DIRICHLET, tt))] 2 = inr s,
      (forall u, ~ exists f, closure_term (Config (0 : R) 1 1 0 3 true 144 32) s default_perm id u = inr f) &
      (forall u, exists f, closure_term (Config (0 : R) 1 1 0 3 false 9 32) s [::] id u = inr f)].
Proof.
have [pm [s [gen _ fam ori hs]]] := ex_square eps; exists pm, s; split=> // u.
  have h := @C78_grid_refuted R 2 eps invmx bool_eqType unit _ _ _ fam 1 3 2 [:: (true, (DIRICHLET, tt))] s hs isT isT id
    (fun r w hr => conj erefl hr) (Config_model.Base 8 125 48 6 4 1 2 3 3 3) (Config 0 1 1 0 3 true 144 32) u.
  have rd : reads (Config_model.get_config (Config_model.Base 8 125 48 6 4 1 2 3 3 3)) (Config (0 : R) 1 1 0 3 true 144 32) by split.
  by move/(h rd erefl erefl erefl erefl).
apply/(@closure_iff R 2 eps invmx bool_eqType unit _ _ _ fam 1 3 2 [:: (true, (DIRICHLET, tt))] s hs isT isT id
    (fun r w hr => conj erefl hr) (Config 0 1 1 0 3 false 9 32) [::] u) => //.
Qed.

Print Assumptions C78_grid_refuted.
Print Assumptions C78_order_refuted.
Print Assumptions ex_small.
