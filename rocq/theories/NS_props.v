(** C75: the Navier-Stokes step of the learned closure (niles/train.py l.130-173),
    modelled in [NS_model]. *)
From Coq Require List.
From mathcomp Require Import all_ssreflect all_algebra polyrcf zify ring.
From Verif Require Import PyDict_model PyDict_proofs GS_model GS_proofs GS_props Interp_model Interp_spec.
From Verif Require Import Interp_props FES_model FES_proofs FES_proofs2 FES_props FES_props2 Premesh_model.
From Verif Require Import Refiner_model Refiner_spec UnitCube_model UnitCube_spec UnitCube_props UnitCube_refine UnitCube_links.
From Verif Require Import CG_model CG_proofs CG_props CG_props2 CG_props3 TimeCoef_model TimeCoef_props Stokes_model Stokes_spec Stokes_proofs Stokes_proofs2 Stokes_proofs3.
From Verif Require Import Stokes_create Stokes_create2 Stokes_create3 Stokes_proofs4 Stokes_create4 Stokes_momentum Stokes_props Stokes_props2 Stokes_family Stokes_instance Stokes_cube Stokes_props3 Stokes_props4 Stokes_props5 Stokes_props6 Flow_props Steady_props Patch_props.
From Verif Require Import Pipeline_model Pipeline_props.
From Verif Require Import NS_model.
Set Implicit Arguments.
Unset Strict Implicit.
Unset Printing Implicit Defensive.
Import Order.TTheory GRing.Theory Num.Theory.
Local Open Scope ring_scope.

Section Errors.
Variables (R : rcfType) (d : nat) (eps : R) (sine : R -> R) (pi : R).
Variable solve : (tree R -> tree R) -> tree R -> option (tree R -> tree R) -> option (tree R).
(** The first-order scheme: extrapolation by a constant is a division by zero. *)
Theorem C75_first_order_refuted (cfg : config R) (s : sem R d) us ps cus f : (time_order cfg <= 1)%N ->
  solve_one_step eps sine pi solve cfg s us ps cus f = inl (NCoefficients IZeroDivision).
Proof.
move=> t1; rewrite /solve_one_step; have -> : (time_order cfg - 1 = 0)%N by lia.
by have [-> _] := C43_zero R.
Qed.
(** Only two dimensions. *)
Theorem C75_plane_only (cfg : config R) (s : sem R d) us ps cus f r : solve_one_step eps sine pi solve cfg s us ps cus f = inr r -> d = 2%N.
Proof.
rewrite /solve_one_step; case: (extk_coeffs _ _) => // ext; case: (cu_extrapolated _ _ _) => // cu; case: us => // u0 us.
by rewrite /add_kolmogorov; case: eqP.
Qed.
End Errors.

(** A repeated advection term is extrapolated by itself. *)
Lemma binomial_one (R : rcfType) (m : nat) : (0 < m)%N -> \sum_(j < m) (-1) ^+ (m.-1 - j) * 'C(m, j)%:R = 1 :> R.
Proof.
move=> m0; have E := @exprDn R (-1) 1 m; rewrite addNr expr0n gtn_eqF // big_ord_recr /= binn mulr1n subnn expr0 expr1n mul1r in E.
have -> : \sum_(j < m) (-1) ^+ (m.-1 - j) * 'C(m, j)%:R = - \sum_(j < m) ((-1) ^+ (m - j) * 1 ^+ j) *+ 'C(m, j) :> R.
  rewrite -sumrN; apply: eq_bigr => j _; have hj := ltn_ord j; have -> : (m - j = (m.-1 - j).+1)%N by lia.
  by rewrite exprS expr1n mulr1 mulN1r mulNrn opprK mulr_natr.
by apply/eqP; rewrite -subr_eq0 -opprD oppr_eq0 -E.
Qed.

Section Family.
Variables (R : rcfType) (d : nat) (eps : R) (inv : 'M[R]_d -> 'M[R]_d) (L : eqType) (BCV : Type).
Notation rmesh := (Premesh_model.mesh [zmodType of 'rV[R]_d] L).
Variables (refined : nodes1d R -> ierror + rmesh) (K : nat) (F : nat -> 'I_d -> tpoly R).
Hypothesis fam : mesh_family refined K F.
Variables (o order overint : nat) (bcs : seq (L * (bctype * BCV))) (s : sem R d).
Hypothesis hs : sem_create eps inv refined o order bcs overint = inr s.
Notation vel := (s_velocity s).
Notation np := (np s).
Notation nv := (nv s).
Notation vfield := (seq (seq R)).
Implicit Types (u v w U f g : vfield) (P : seq R) (us cus : seq vfield).
Variables (sine : R -> R) (pi : R) (y : 'I_d).
Hypotheses (d2 : d = 2%N) (y1 : y = 1%N :> nat).
Let ok : sem_ok s. Proof. by have [gp [gv [rp [rv [quad cf]]]]] := created fam hs; exact: (facts_ok cf). Qed.

(** The force on the flow [u] at node [i]: that of the closure, the Kolmogorov force
    sin(8 pi y) in the first direction and the drag. *)
Definition body_force (drag : R) f u (c i : nat) : R :=
  ent f c i + (if c == 0%N then sine (2%:R * pi * 4%:R * node_at s i 0 y) else 0) - drag * ent u c i.
(** What the step passes on: the body force integrated (mass matrix), minus the
    advection terms extrapolated with the binomial coefficients. *)
Definition net_force (drag : R) (k : nat) f u cus g : Prop := vgood s g /\
  forall c i, (c < d)%N -> (i < nv)%N -> ent g c i =
    nth 0 (v_mask vel) i * ent (s_mass s) c i * body_force drag f u c i -
    \sum_(j < k) (-1) ^+ (k.-1 - j) * 'C(k, j)%:R * ent (nth [::] cus j) c i.

Variable solve : (tree R -> tree R) -> tree R -> option (tree R -> tree R) -> option (tree R).
Variables (cfg : config R) (us cus : seq vfield) (ps : seq (seq R)) (f : vfield).
Notation k := (time_order cfg).
Hypotheses (k1 : (1 < k)%N) (us_size : size us = k) (cus_size : size cus = k).
Hypothesis us_good : forall j, (j < size us)%N -> vgood s (nth [::] us j).
Hypothesis cus_good : forall j, (j < size cus)%N -> vgood s (nth [::] cus j).

Lemma foldl_add (ext : seq R) (l : seq nat) (acc : vfield) : vgood s acc ->
  (forall i, i \in l -> (0 < i <= k)%N) ->
  let r := foldl (fun acc i => tree_add acc (tree_scale (nth 0 ext (size ext - i)) (nth [::] cus (size cus - i)))) acc l in
  vgood s r /\ forall c i, ent r c i = ent acc c i + \sum_(j <- l) nth 0 ext (size ext - j) * ent (nth [::] cus (size cus - j)) c i.
Proof.
elim: l acc => [|a l IH] acc ga hl /=; first by split=> // c i; rewrite big_nil addr0.
have ha : (0 < a <= k)%N by apply: hl; rewrite inE eqxx.
have gc : vgood s (tree_scale (nth 0 ext (size ext - a)) (nth [::] cus (size cus - a))).
  by apply: good_scale; apply: cus_good; rewrite cus_size; lia.
have [|g e] := IH _ (good_add ga gc); first by move=> i hi; apply: hl; rewrite inE hi orbT.
by split=> // c i; rewrite e (ent_add _ _ ga gc) ent_scale big_cons addrA.
Qed.
Lemma stepE : exists g, net_force (drag_coeff cfg) k f (last [::] us) cus g /\
  solve_one_step eps sine pi solve cfg s us ps cus f =
  match stokes_one_step eps solve s us ps g (1 / reynolds_number cfg) (time_step cfg) k (filter_strength cfg) None None true with
  | inl e => inl (NStokes e) | inr (u, p) => inr (u, p, v_C eps vel u) end.
Proof.
rewrite /solve_one_step; have [ext hext [sE _]] := @C43_exact R (k - 1) (ltac:(lia)); rewrite hext /cu_extrapolated.
have {}sE : size ext = k by rewrite sE; lia.
rewrite sE cus_size ltnn; set l := iota 1 k.
have gz : vgood s (zeros_like (s_mass s)) := good_zeros (ok_mass ok).
have [|gcu ecu] := @foldl_add ext l _ gz; first by move=> i; rewrite mem_iota; lia.
move: gcu ecu; rewrite sE cus_size; set cu := foldl _ _ _ => gcu ecu.
have sus : last [::] us = if us is u0 :: us' then last u0 us' else [::] by case: (us).
have gl : vgood s (last [::] us) by rewrite -nth_last; apply: us_good; rewrite us_size; lia.
move: (us_size) sus gl; case E : us => [|u0 us'] //; first by move=> /= h; move: k1; rewrite -h.
move=> _ _ gl; rewrite /add_kolmogorov -[last [::] _]/(last u0 us') in gl *.
have -> : size (last u0 us') = 2%N by rewrite (good_size gl).
rewrite [(d == 2)%N && _](_ : _ = true) /=; last by rewrite d2.
set coords := FES_model.m_coords _; set f1 := [seq _ | c <- iota 0 d].
have szc : size coords = nv by [].
have gf1 : vgood s f1.
  by apply: goodP; [rewrite size_map size_iota|move=> c hc; rewrite (nth_map 0%N) ?size_iota // size_map size_iota].
have ef1 c i : (c < d)%N -> (i < nv)%N -> ent f1 c i = body_force (drag_coeff cfg) f (last u0 us') c i.
  move=> hc hi; rewrite /ent (nth_map 0%N) ?size_iota // nth_iota // (nth_map 0%N) ?size_iota // nth_iota // !add0n.
  have s1 (x : 'rV[R]_d) : size (coord_row x) = 2%N by rewrite size_map size_enum_ord; exact: d2.
  have s2 : size (node_row (last u0 us') i) = 2%N by rewrite size_map (good_size gl); exact: d2.
  rewrite /kolmogorov_forcing s1 s2 /= /body_force -addrA; congr (_ + _).
  have xE : nth 0 (coord_row (nth 0 coords i)) 1 = node_at s i 0 y.
    have ny : nth y (enum 'I_d) 1 = y by apply: val_inj; rewrite /= nth_enum_ord ?y1 // d2.
    by rewrite (nth_map y) ?size_enum_ord ?ny // d2.
  have uE e : (e < d)%N -> nth 0 (node_row (last u0 us') i) e = ent (last u0 us') e i.
    by move=> he; rewrite (nth_map [::]) ?(good_size gl).
  have c2 : (c < 2)%N by rewrite -d2.
  rewrite xE !uE ?d2 //; case: c c2 {hc} => [|[|c]] //= _; by rewrite ?sub0r ?add0r.
eexists; split; last by reflexivity.
have gB := good_B ok gf1; have gn : vgood s (tree_scale (-1) cu) := good_scale _ gcu.
split; first exact: good_add.
move=> c i hc hi; rewrite (ent_add _ _ gn gB) ent_scale mulN1r ent_B // ef1 // addrC; congr (_ - _).
rewrite ecu ent_zeros add0r /l -[1%N]/(1 + 0)%N iotaDl big_map.
have -> : iota 0 k = index_iota 0 k by rewrite /index_iota subn0.
rewrite big_mkord (reindex_inj rev_ord_inj) /=; apply: eq_bigr => j _; have hj := ltn_ord j.
have -> : (k - (1 + (k - j.+1)) = j)%N by lia.
rewrite (@C43_values R (k - 1) _ ext j hext) ?subn1 ?prednK //; lia.
Qed.

Hypothesis cusE : cus = [seq v_C eps vel u | u <- us].
(** The force is zero where the velocity is given. *)
Lemma net_zero g c i : net_force (drag_coeff cfg) k f (last [::] us) cus g -> (c < d)%N -> (i < nv)%N -> dirichlet_node s i -> ent g c i = 0.
Proof.
move=> [_ e] hc hi dn; have [_ _ _ hC] := C47_rows fam hs hc hi dn; rewrite e // dn !mul0r big1 ?subr0 // => j _.
by rewrite cusE (nth_map [::]) ?us_size // hC mulr0.
Qed.
(** Advection terms that are polynomials in time of degree below the order are
    extrapolated exactly. *)
Theorem C75_extrapolation g (Q : nat -> nat -> {poly R}) t0 h : net_force (drag_coeff cfg) k f (last [::] us) cus g ->
  (forall c i, (size (Q c i) <= k)%N) -> (forall j c i, (j < k)%N -> (c < d)%N -> (i < nv)%N -> ent (nth [::] cus j) c i = (Q c i).[t0 + j%:R * h]) ->
  forall c i, (c < d)%N -> (i < nv)%N ->
    ent g c i = nth 0 (v_mask vel) i * ent (s_mass s) c i * body_force (drag_coeff cfg) f (last [::] us) c i - (Q c i).[t0 + k%:R * h].
Proof.
move=> [_ e] sQ eQ c i hc hi; rewrite e //; congr (_ - _).
have [ext hext [sE ex]] := @C43_exact R (k - 1) (ltac:(lia)).
have kE : (k - 1).+1 = k by lia.
rewrite kE in ex sE; rewrite -(ex (Q c i) t0 h (sQ c i)) /samples dot_fun; apply: eq_bigr => j _; have hj := ltn_ord j.
by rewrite eQ // (@C43_values R (k - 1) _ ext j hext) ?subn1 ?prednK //; lia.
Qed.
End Family.

(** ** On generated squares *)
Section Cube.
Variables (R : rcfType) (d : nat) (eps : R) (inv : 'M[R]_d -> 'M[R]_d) (L : eqType) (BCV : Type).
Variables (lbl : L) (n : nat) (a b : R) (pd : seq nat) (pm : premesh [lmodType R of 'rV[R]_d] L).
Hypotheses (n0 : (0 < n)%N) (ab : a < b).
Hypothesis gen : unit_cube_mesh d lbl n a b pd None = inr pm.
Variables (pg : nodes1d R) (tp : node_type).
Hypotheses (hpg : nodes1d_create R 2 tp = inr pg) (cpg : is_continuous pg).
Variables (order overint : nat) (bcs : seq (L * (bctype * BCV))) (s : sem R d).
Hypothesis hs : sem_create eps inv (refined_mesh pg pm) 1 order bcs overint = inr s.
Hypothesis inv_ok : forall J : 'M[R]_d, J \in unitmx -> inv J = invmx J.
Hypothesis o2 : (2 < order)%N.
Notation vel := (s_velocity s).
Notation np := (np s).
Notation nv := (nv s).
Notation closed := (closed_cube d lbl pd bcs).
Variables (sine : R -> R) (pi : R) (y : 'I_d).
Hypotheses (d2 : d = 2%N) (y1 : y = 1%N :> nat).
Let d0 : (0 < d)%N. Proof. by rewrite d2. Qed.
Let fam := (C61_family d0 n0 ab gen hpg cpg).1.
Let ori := (C61_family d0 n0 ab gen hpg cpg).2.
Let ok : sem_ok s. Proof. by have [gp [gv [rp [rv [quad cf]]]]] := created fam hs; exact: (facts_ok cf). Qed.
Variables (cfg : config R).
Notation k := (time_order cfg).
Hypotheses (k1 : (1 < k)%N) (dt0 : 0 < time_step cfg) (re0 : 0 < reynolds_number cfg).
Hypothesis cl : closed.
Notation net_force := (net_force s sine pi y (drag_coeff cfg) k).

Lemma good_C u : vgood s (v_C eps vel u).
Proof. by apply: (good_masked ok); exact: good_vscatter. Qed.
Let re1 : 0 <= 1 / reynolds_number cfg. Proof. by apply: divr_ge0; [exact: ler01|exact: ltW]. Qed.

(** Data of the right sizes. *)
Record history (us : seq (seq (seq R))) (ps : seq (seq R)) : Prop := History {
  h_us : size us = k /\ forall j, (j < size us)%N -> vgood s (nth [::] us j);
  h_ps : size ps = k /\ forall j, (j < size ps)%N -> size (nth [::] ps j) = np }.
(** A step with any tolerances ends. *)
Theorem C75_ends tol atol us ps f : history us ps -> vgood s f -> exists u p,
  [/\ solve_one_step eps sine pi (cg_solver tol atol) cfg s us ps [seq v_C eps vel u | u <- us] f = inr (u, p, v_C eps vel u),
      vgood s u & size p = np].
Proof.
move=> [[su gus] [sp gps]] gf; set cus := [seq _ | u <- us].
have sc : size cus = k by rewrite size_map.
have ps2 : (1 < size ps)%N by rewrite sp.
have gc j : (j < size cus)%N -> vgood s (nth [::] cus j) by rewrite size_map => hj; rewrite (nth_map [::]) //; exact: good_C.
have [g [nf ->]] := stepE fam hs sine pi d2 y1 (cg_solver tol atol) ps f k1 su sc gus gc.
have [gg _] := nf; have gz c i := @net_zero R d eps inv L BCV _ _ _ fam _ _ _ _ _ hs sine pi y cfg us cus f su erefl g c i nf.
have [u [p h]] := C64_ends d0 n0 ab gen hpg cpg hs inv_ok (project := true) (filter_strength cfg) o2 dt0 re1 (ltnW k1) gus ps2 gg gz (fun=> cl) tol atol.
have shv bdf hb := (cg_shapes fam hs tol atol (1 / reynolds_number cfg) (time_step cfg) (k := k) (given := None) true I (bdf := bdf) hb).1.
have shp bdf hb := (cg_shapes fam hs tol atol (1 / reynolds_number cfg) (time_step cfg) (k := k) (given := None) true I (bdf := bdf) hb).2.
have [bdf [p_ext [u0 [u1 [u2 [dp [_ [_ _ _ _ _ _ [gu _] [sz _] _ _]]]]]]]] := stepP fam hs (lift := None) shv shp gus gps gg I (ltnW k1) h.
by rewrite h; exists u, p.
Qed.
(** With exact solves the new velocity has no divergence, is continuous with the
    boundary values, and solves the momentum equation with the force above. *)
Theorem C75_exact us ps f : history us ps -> vgood s f -> exists u p g,
  [/\ solve_one_step eps sine pi (cg_solver 0 0) cfg s us ps [seq v_C eps vel u | u <- us] f = inr (u, p, v_C eps vel u),
      D eps s u = nseq np 0, conforming s u, net_force f (last [::] us) [seq v_C eps vel u | u <- us] g &
      exists bdf p_ext u1, [/\ vgood s u1, corrected eps s ps (time_step cfg) k (filter_strength cfg) bdf p_ext u1 u p &
        momentum_of eps s us g (1 / reynolds_number cfg) (time_step cfg) k bdf p_ext u1 (v_exchange vel)]].
Proof.
move=> [[su gus] [sp gps]] gf; set cus := [seq _ | u <- us].
have sc : size cus = k by rewrite size_map.
have ps2 : (1 < size ps)%N by rewrite sp.
have gc j : (j < size cus)%N -> vgood s (nth [::] cus j) by rewrite size_map => hj; rewrite (nth_map [::]) //; exact: good_C.
have [g [nf ->]] := stepE fam hs sine pi d2 y1 (cg_solver 0 0) ps f k1 su sc gus gc.
have [gg _] := nf; have gz c i := @net_zero R d eps inv L BCV _ _ _ fam _ _ _ _ _ hs sine pi y cfg us cus f su erefl g c i nf.
have [u [p [h hD hc hm]]] := C64_exact d0 n0 ab gen hpg cpg hs inv_ok (project := true) (filter_strength cfg) o2 dt0 re1 (ltnW k1) gus gps ps2 gg gz (fun=> cl) su.
by rewrite h; exists u, p, g; split.
Qed.

(** Stationary solutions of the Navier-Stokes equations with the closure term [f]. *)
Definition steady_flow f U P : Prop := exists2 g, vgood s g /\
  (forall c i, (c < d)%N -> (i < nv)%N -> ent g c i =
     nth 0 (v_mask vel) i * ent (s_mass s) c i * body_force s sine pi y (drag_coeff cfg) f U c i - ent (v_C eps vel U) c i) &
  stationary eps s g (1 / reynolds_number cfg) None U P.
Theorem C75_steady f U P : vgood s f -> steady_flow f U P -> filter eps s (filter_strength cfg) U = inr U ->
  solve_one_step eps sine pi (cg_solver 0 0) cfg s (nseq k U) (nseq k P) (nseq k (v_C eps vel U)) f = inr (U, P, v_C eps vel U).
Proof.
move=> gf [g0 [gg0 eg0] st] fU; have [[gU sP] _ _ _] := st.
have gus j : (j < size (nseq k U))%N -> vgood s (nth [::] (nseq k U) j) by rewrite size_nseq nth_nseq => ->.
have gps j : (j < size (nseq k P))%N -> size (nth [::] (nseq k P) j) = np by rewrite size_nseq nth_nseq => ->.
have gc j : (j < size (nseq k (v_C eps vel U)))%N -> vgood s (nth [::] (nseq k (v_C eps vel U)) j).
  by rewrite size_nseq nth_nseq => ->; exact: good_C.
have [g [nf ->]] := stepE fam hs sine pi d2 y1 (cg_solver 0 0) (nseq k P) f k1 (size_nseq _ _) (size_nseq _ _) gus gc.
have [gg eg] := nf.
have gE : g = g0.
  apply: (good_eq gg gg0) => c i hc hi; rewrite eg // eg0 //.
  have -> : last [::] (nseq k U) = U by rewrite -nth_last size_nseq nth_nseq ltn_predL (ltnW k1).
  congr (_ - _); have -> : ent (v_C eps vel U) c i = (\sum_(j < k) (-1) ^+ (k.-1 - j) * 'C(k, j)%:R) * ent (v_C eps vel U) c i.
    by rewrite (binomial_one R (ltnW k1)) mul1r.
  rewrite mulr_suml; apply: eq_bigr => j _.
  by rewrite nth_nseq ltn_ord.
have gz c i : (c < d)%N -> (i < nv)%N -> dirichlet_node s i -> ent g c i = 0.
  move=> hc hi dn; rewrite gE eg0 // dn !mul0r sub0r.
  by have [_ _ _ ->] := C47_rows fam hs hc hi dn; rewrite oppr0.
rewrite gE in gg gz *.
have ps2 : (1 < size (nseq k P))%N by rewrite size_nseq.
rewrite (C74_steady fam hs (lift := None) true o2 ori dt0 re1 (ltnW k1) gus (size_nseq _ _) gps ps2 gg gz I erefl erefl st fU) //.
Qed.

(** ** The rollout *)
Notation E := (num_elements (v_mesh vel)).
Notation N := (m_per_element (v_mesh vel)).
(** The configuration describes the mesh; the permutation is for 12 x 12 elements. *)
Hypothesis fits_elements : cfg_elements cfg = E.
Hypothesis fits_channels : cfg_channels cfg = (N * d)%N.
Hypothesis fits_permutation : permute_elements cfg -> E = 144%N.
(** One row for each element, with an entry for each node and component. *)
Definition shaped (r : seq (seq R)) : Prop := size r = E /\ forall row, row \in r -> size row = (N * d)%N.
Variable net : nat -> seq (seq R) -> seq (seq R).
Hypothesis net_shape : forall i r, shaped r -> shaped (net i r).

Lemma default_perm_eq : perm_eq default_perm (iota 0 144).
Proof. exact: (C54_permutation default_fits). Qed.
Lemma rows_shaped u : shaped (rows d (v_gather vel u)).
Proof.
split=> [|row]; first by rewrite size_map size_iota.
by move=> /mapP[e _ ->]; rewrite size_allpairs !size_iota.
Qed.
Lemma take_shaped r p : shaped r -> size p = E -> (0 < E)%N -> shaped (take_rows r p).
Proof.
move=> [sr hr] sp e0; split=> [|row]; first by rewrite size_map.
by move=> /mapP[i _ ->]; apply: hr; apply: mem_nth; rewrite sr; lia.
Qed.
Lemma size_shaped r : shaped r -> size (flatten r) = (E * N * d)%N.
Proof.
move=> [sr hr]; rewrite size_flatten /shape -mulnA -sr {sr}; elim: r hr => [|row r IH] hr //=.
by rewrite hr ?inE ?eqxx // IH ?mulSn // => w wr; apply: hr; rewrite inE wr orbT.
Qed.
Lemma closure_shape perm i u : (permute_elements cfg -> size perm = E /\ (0 < E)%N) ->
  exists2 f, closure_term cfg s perm (net i) u = inr f & vgood s f.
Proof.
move=> hp; have sa : size (argsort perm) = size perm by rewrite size_map size_sort.
rewrite /closure_term; set inp := if permute_elements cfg then take_rows _ perm else _.
have si : shaped inp.
  rewrite /inp; case: ifP => h; last exact: rows_shaped.
  by have [e1 e2] := hp h; apply: take_shaped => //; exact: rows_shaped.
rewrite si.1 fits_elements fits_channels !eqxx; cbv beta iota delta [andb]; set out := if permute_elements cfg then take_rows _ (argsort _) else _.
have so : shaped out.
  rewrite /out; case: ifP => h; last exact: net_shape.
  by have [e1 e2] := hp h; apply: take_shaped; rewrite ?sa //; exact: net_shape.
rewrite /unrows size_shaped // eqxx; eexists; first reflexivity; exact: good_vscatter.
Qed.
Lemma closure_good i u : exists2 f, closure_term cfg s default_perm (net i) u = inr f & vgood s f.
Proof.
apply: closure_shape => h; rewrite (fits_permutation h) (perm_size default_perm_eq); split; last by [].
exact: size_iota.
Qed.
Lemma history_push us ps u p : history us ps -> vgood s u -> size p = np -> history (rcons (behead us) u) (rcons (behead ps) p).
Proof.
move=> [[su gus] [sp gps]] gu szp; have kp : k.-1.+1 = k by lia.
have s1 : size (behead us) = k.-1 by rewrite size_behead su.
have s2 : size (behead ps) = k.-1 by rewrite size_behead sp.
split; (split; first by rewrite size_rcons ?s1 ?s2 kp) => j; rewrite size_rcons nth_rcons ?s1 ?s2 => hj; case: ltnP => h.
- by rewrite nth_behead; apply: gus; rewrite su; lia.
- by have -> : j == k.-1 by apply/eqP; lia.
- by rewrite nth_behead; apply: gps; rewrite sp; lia.
by have -> : j == k.-1 by apply/eqP; lia.
Qed.
(** Whatever the network returns, the rollout ends with a state for every step ... *)
Theorem C75_rollout tol atol m i us ps : history us ps -> exists preds,
  [/\ ns_rollout eps sine pi (cg_solver tol atol) cfg s net m i us ps [seq v_C eps vel u | u <- us] = inr preds, size preds = m &
      forall j, (j < m)%N -> vgood s (nth ([::], [::]) preds j).1 /\ size (nth ([::], [::]) preds j).2 = np].
Proof.
elim: m i us ps => [|m IH] i us ps h; first by exists [::].
have [[su _] _] := h; rewrite /=; case E0 : us => [|u0 us']; first by move: k1; rewrite -su E0.
have [f -> gf] := closure_good i (last u0 us'); rewrite -E0.
have [u [p [-> gu sp]]] := C75_ends tol atol h gf.
have [preds [e sz g]] := IH i.+1 _ _ (history_push h gu sp).
rewrite map_rcons -behead_map in e; rewrite e; exists ((u, p) :: preds); split=> //=; first by rewrite sz.
by case=> [|j] //= hj; exact: g.
Qed.
(** ... and with exact solves every predicted velocity is continuous, has the
    boundary values and no divergence. *)
Theorem C75_incompressible m i us ps preds : history us ps ->
  ns_rollout eps sine pi (cg_solver 0 0) cfg s net m i us ps [seq v_C eps vel u | u <- us] = inr preds ->
  forall j, (j < m)%N -> conforming s (nth ([::], [::]) preds j).1 /\ D eps s (nth ([::], [::]) preds j).1 = nseq np 0.
Proof.
elim: m i us ps preds => [|m IH] i us ps preds h //.
have [[su _] _] := h; rewrite /=; case E0 : us => [|u0 us']; first by move: k1; rewrite -su E0.
have [f -> gf] := closure_good i (last u0 us'); rewrite -E0.
have [u [p [g [e hD cu _ _]]]] := C75_exact h gf.
have [u2 [p2 [e2 gu sp]]] := C75_ends 0 0 h gf; have [uE pE] : u = u2 /\ p = p2.
  have := congr1 (fun x : nerror + (seq (seq R) * seq R * seq (seq R)) => if x is inr w then w.1 else ([::], [::])) (etrans (esym e) e2).
  by case=> E1 E2; split.
have h2 : history (rcons (behead us) u) (rcons (behead ps) p) by apply: history_push => //; [rewrite uE|rewrite pE].
have [pr [er _ _]] := C75_rollout 0 0 m i.+1 h2; have H := IH i.+1 _ _ _ h2 er.
rewrite map_rcons -behead_map in er; rewrite e er => -[<-] [|j] hj; first by split.
exact: H.
Qed.
(** A steady flow is predicted for ever. *)
Theorem C75_forever U P m i : (forall i, exists2 f, closure_term cfg s default_perm (net i) U = inr f & steady_flow f U P) ->
  filter eps s (filter_strength cfg) U = inr U ->
  ns_rollout eps sine pi (cg_solver 0 0) cfg s net m i (nseq k U) (nseq k P) (nseq k (v_C eps vel U)) = inr (nseq m (U, P)).
Proof.
move=> st fU; elim: m i => [|m IH] i //=; have kp : k = k.-1.+1 by lia.
have rot (T : Type) (x : T) : rcons (behead (nseq k x)) x = nseq k x.
  by rewrite kp /=; elim: (k.-1) => [|j Hj] //=; rewrite Hj.
have [f e hf] := st i; have gf : vgood s f by have [f' ] := closure_good i U; rewrite e => -[<-].
have -> : forall (A : Type) (x : A) (h : seq (seq R) -> seq (seq (seq R)) -> A),
  (if nseq k U is u0 :: us' then h u0 us' else x) = h U (nseq k.-1 U) by move=> A x h; rewrite {1}kp.
have -> : last U (nseq k.-1 U) = U by elim: (k.-1).
by rewrite e (C75_steady gf hf fU) !rot IH.
Qed.
(** The same from the data of the training examples. *)
Theorem C75_predict bu bp m : (k <= size bu)%N -> (k <= size bp)%N ->
  (forall j, (j < k)%N -> vgood s (nth [::] bu j)) -> (forall j, (j < k)%N -> size (nth [::] bp j) = np) ->
  exists preds, [/\ predict eps sine pi (cg_solver 0 0) cfg s net m bu bp = inr preds, size preds = m &
    forall j, (j < m)%N -> conforming s (nth ([::], [::]) preds j).1 /\ D eps s (nth ([::], [::]) preds j).1 = nseq np 0].
Proof.
move=> ku kp gu gp; rewrite /predict ku kp /=; have h : history (take k bu) (take k bp).
  have su : size (take k bu) = k by rewrite size_takel.
  have sp : size (take k bp) = k by rewrite size_takel.
  by split; split=> // j; rewrite ?su ?sp => hj; rewrite nth_take //; [exact: gu|exact: gp].
have [preds [e sz _]] := C75_rollout 0 0 m 0 h.
by exists preds; split=> //; exact: (C75_incompressible h e).
Qed.
(** Uniform flow on the periodic square, kept by the closure term that balances the
    drag and the Kolmogorov force. *)
Theorem C75_uniform (v : nat -> R) f x : (forall axis, (axis < d)%N -> axis \in pd) -> vgood s f ->
  (forall c i, (c < d)%N -> (i < nv)%N -> ent f c i = drag_coeff cfg * v c - (if c == 0%N then sine (2%:R * pi * 4%:R * node_at s i 0 y) else 0)) ->
  let U := [seq nseq nv (v c) | c <- iota 0 d] in let P := nseq np x in
  solve_one_step eps sine pi (cg_solver 0 0) cfg s (nseq k U) (nseq k P) (nseq k (v_C eps vel U)) f = inr (U, P, v_C eps vel U).
Proof.
move=> per gf ef U P; have CU : v_C eps vel U = nseq d (nseq nv 0) := C73_uniform inv_ok fam ori hs v.
have eU c i : (c < d)%N -> (i < nv)%N -> ent U c i = v c.
  by move=> hc hi; rewrite /ent (nth_map 0%N) ?size_iota // nth_iota // add0n nth_nseq hi.
have gU : vgood s U.
  by apply: goodP; [rewrite size_map size_iota|move=> c hc; rewrite (nth_map 0%N) ?size_iota // size_nseq].
have g0 : vgood s (nseq d (nseq nv 0)) by apply: goodP => [|c hc]; rewrite ?nth_nseq ?hc size_nseq.
have e0 c i : ent (nseq d (nseq nv 0)) c i = 0 :> R by rewrite /ent nth_nseq; case: ifP => _; rewrite ?nth_nil // nth_nseq if_same.
apply: (C75_steady gf); last exact: (C49_constants fam hs).
exists (nseq d (nseq nv 0)).
  split=> // c i hc hi; rewrite e0 CU e0 subr0 /body_force ef // eU //.
  by set z := if _ then _ else _; rewrite subrK subrr mulr0.
have gus j : (j < size (nseq k U))%N -> vgood s (nth [::] (nseq k U) j) by rewrite size_nseq nth_nseq => ->.
have gps j : (j < size (nseq k P))%N -> size (nth [::] (nseq k P) j) = np by rewrite size_nseq nth_nseq => ->; rewrite size_nseq.
have ps2 : (1 < size (nseq k P))%N by rewrite size_nseq.
have step := @C74_uniform R d eps inv L BCV lbl n a b pd pm d0 n0 ab gen pg tp hpg cpg order overint bcs s hs inv_ok o2 v x k k
  (1 / reynolds_number cfg) (time_step cfg) 0 false per dt0 re1 (ltnW k1) k1.
have noproj : false -> enclosed eps s by [].
exact: (@C74_only R d eps inv L BCV _ _ _ fam 1 order overint bcs s hs (nseq k U) (nseq k P) (nseq d (nseq nv 0)) (1 / reynolds_number cfg) (time_step cfg) k 0 None false
  o2 ori dt0 re1 (ltnW k1) gus (size_nseq _ _) gps ps2 g0 (fun c i _ _ _ => e0 c i) I U P k erefl erefl noproj erefl erefl step).
Qed.
End Cube.

(** ** Examples *)
(** A closure that is the velocity itself, in a channel of 3 x 3 elements of order 3,
    second-order scheme: any number of states is predicted from two. *)
Example ex_channel (R : rcfType) (eps pi : R) (sine : R -> R) : exists pm : premesh [lmodType R of 'rV[R]_2] bool, exists s : sem R 2,
  [/\ unit_cube_mesh 2 true 3 (0 : R) 1 [:: 0%N] None = inr pm,
      sem_create eps invmx (refined_mesh (ex_pg R) pm) 1 3 [:: (true, (DIRICHLET, tt))] 2 = inr s &
  forall m, exists preds, let z := nseq (nv s) (0 : R) in let o := nseq (nv s) (1 : R) in
  let cfg := Config (10%:R^-1 : R) 100%:R 10%:R^-1 20%:R^-1 2 false (num_elements (v_mesh (s_velocity s))) (m_per_element (v_mesh (s_velocity s)) * 2) in
  [/\ predict eps sine pi (cg_solver 0 0) cfg s (fun _ r => r) m [:: [:: z; z]; [:: o; z]] [:: nseq (np s) 0; nseq (np s) 0] = inr preds,
      size preds = m & forall j, (j < m)%N -> conforming s (nth ([::], [::]) preds j).1 /\ D eps s (nth ([::], [::]) preds j).1 = nseq (np s) 0]].
Proof.
have [pm [s [gen _ fam ori hs]]] := ex_square eps; exists pm, s; split=> // m; set z := nseq _ _; set o := nseq _ _; set cfg := Config _ _ _ _ _ _ _ _.
have gz : vgood s [:: z; z] by apply: goodP => // -[|[|c]] // _; rewrite /= size_nseq.
have go : vgood s [:: o; z] by apply: goodP => // -[|[|c]] // _; rewrite /= size_nseq.
have cl : closed_cube 2 true [:: 0%N] [:: (true, (DIRICHLET, tt))] by left; exists tt; left.
have dt0 : 0 < time_step cfg by rewrite /= invr_gt0 ltr0n.
have re0 : 0 < reynolds_number cfg by rewrite /= ltr0n.
have [|||preds h] := @C75_predict R 2 eps invmx bool_eqType unit true 3 0 1 [:: 0%N] pm isT ltr01 gen (ex_pg R) _ (ex_pg_created R) (ex_pg_continuous R)
  3 2 [:: (true, (DIRICHLET, tt))] s hs (fun _ _ => erefl) isT sine pi 1 erefl erefl cfg isT dt0 re0 cl erefl erefl _ (fun _ r => r)
  (fun _ _ h => h) [:: [:: z; z]; [:: o; z]] [:: nseq (np s) 0; nseq (np s) 0] m isT isT.
- by [].
- by case=> [|[|j]].
- by case=> [|[|j]] // _; rewrite /= size_nseq.
by exists preds.
Qed.

(** ** The rollout is a recurrence *)
Section Recurrence.
Variables (R : rcfType) (d : nat) (eps : R) (sine : R -> R) (pi : R).
Variable solve : (tree R -> tree R) -> tree R -> option (tree R -> tree R) -> option (tree R).
Variables (cfg : config R) (s : sem R d) (net : nat -> seq (seq R) -> seq (seq R)).
Notation k := (time_order cfg).
Notation vel := (s_velocity s).
Lemma step_advects us ps cus f u p cu : solve_one_step eps sine pi solve cfg s us ps cus f = inr (u, p, cu) -> cu = v_C eps vel u.
Proof.
rewrite /solve_one_step; case: (extk_coeffs _ _) => // ext; case: (cu_extrapolated _ _ _) => // c; case: us => // u0 us.
case: (add_kolmogorov _ _ _ _ _ _) => // f1; case: (stokes_one_step _ _ _ _ _ _ _ _ _ _ _ _ _) => // -[v q].
pose pr (x : nerror + (seq (seq R) * seq R * seq (seq R))) := if x is inr (w, _, t) then (w, t) else ([::], [::]).
move=> /(congr1 pr) /= e; have e1 : v = u := congr1 fst e; have e2 : v_C eps vel v = cu := congr1 snd e.
by rewrite -e1 e2.
Qed.
(** Prediction [j] is the step from the [k] states before it, oldest first, which are
    given states and earlier predictions, with the closure term that the network makes
    of the newest of them. *)
Theorem C75_recurrence m i us ps preds : size us = k -> size ps = k -> (0 < k)%N ->
  ns_rollout eps sine pi solve cfg s net m i us ps [seq v_C eps vel u | u <- us] = inr preds ->
  size preds = m /\ forall j, (j < m)%N ->
    let window (T : Type) (x : seq T) := take k (drop j x) in
    let us' := window _ (us ++ map fst preds) in let ps' := window _ (ps ++ map snd preds) in
    exists f, [/\ size us' = k, size ps' = k, closure_term cfg s default_perm (net (i + j)%N) (last [::] us') = inr f &
      solve_one_step eps sine pi solve cfg s us' ps' [seq v_C eps vel u | u <- us'] f =
        inr (nth ([::], [::]) preds j, v_C eps vel (nth ([::], [::]) preds j).1)].
Proof.
move=> su sp k0; elim: m i us ps preds su sp => [|m IH] i us ps preds su sp; first by move=> [<-].
case: us su => [|u0 us0] su; first by move: k0; rewrite -su.
set us := u0 :: us0; rewrite [ns_rollout _ _ _ _ _ _ _ m.+1 _ _ _ _]/= -[v_C _ _ _ :: _]/[seq v_C eps vel u | u <- us].
case cE : (closure_term _ _ _ _ _) => [//|f]; case sE : (solve_one_step _ _ _ _ _ _ _ _ _ _) => [//|[[u p] cu]].
have cuE := step_advects sE; rewrite cuE in sE *.
have -> : rcons (behead [seq v_C eps vel w | w <- us]) (v_C eps vel u) = [seq v_C eps vel w | w <- rcons (behead us) u] by rewrite map_rcons.
case rE : (ns_rollout _ _ _ _ _ _ _ _ _ _ _ _) => [//|preds'] -[<-].
have s1 : size (rcons (behead us) u) = k by rewrite size_rcons.
have s2 : size (rcons (behead ps) p) = k by rewrite size_rcons size_behead sp prednK.
have [sz H] := IH _ _ _ _ s1 s2 rE; split=> /=; first by rewrite sz.
rewrite -!cat_cons -/us; have su' : size us = k by [].
have cut (T : Type) (x : seq T) (w : T) t j : (0 < size x)%N -> drop j.+1 (x ++ w :: t) = drop j (rcons (behead x) w ++ t).
  by case: x => // v x _; rewrite /= cat_rcons.
case=> [_|j jm].
  by exists f; rewrite addn0 !drop0 (take_size_cat _ su') (take_size_cat _ sp); split.
have [f' [h1 h2 h3 h4]] := H j jm; exists f'.
by rewrite !(cut _ _ _ _ j) ?su' ?sp // -addSnnS; split.
Qed.
End Recurrence.

Print Assumptions C75_first_order_refuted.
Print Assumptions C75_plane_only.
Print Assumptions C75_extrapolation.
Print Assumptions C75_ends.
Print Assumptions C75_exact.
Print Assumptions C75_steady.
Print Assumptions C75_rollout.
Print Assumptions C75_incompressible.
Print Assumptions C75_forever.
Print Assumptions C75_predict.
Print Assumptions C75_uniform.
Print Assumptions ex_channel.
Print Assumptions C75_recurrence.
