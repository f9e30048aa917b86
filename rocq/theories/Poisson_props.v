(** C62: [solve_poisson]. *)
From mathcomp Require Import all_ssreflect all_algebra polyrcf zify ring.
From Verif Require Import PyDict_model PyDict_proofs GS_model GS_props Interp_model Interp_spec Tensor_proofs Interp_proofs2 Interp_props FES_model FES_proofs FES_proofs2 FES_props FES_props2.
From Verif Require Import CG_model CG_proofs CG_props CG_props2 TimeCoef_model Stokes_model Stokes_proofs.
From Verif Require Import Unisolvent_proofs Poisson_model Poisson_spec Poisson_proofs.
Set Implicit Arguments.
Unset Strict Implicit.
Unset Printing Implicit Defensive.
Import Order.TTheory GRing.Theory Num.Theory.
Local Open Scope ring_scope.

Section Props.
Variables (R : rcfType) (d : nat) (eps : R) (inv : 'M[R]_d -> 'M[R]_d) (L : eqType).
Notation mesh := (FES_model.mesh R d).
Notation fespace := (fespace R d).
Notation solve := (@solve_poisson R d eps inv L).
Notation l2 := (@l2 R d eps).
Implicit Types (m : mesh) (fs : fespace) (masks : seq (L * seq bool)) (bc : bcs R L) (u v f : seq R).

(** ** The mask *)
Lemma interior_maskE masks bc N (acc : seq R) : all (fun gm => size gm.2 == N) masks -> all (accepted masks) bc -> size acc = N ->
  exists2 mk, interior_mask masks bc acc = inr mk & size mk = N /\
    forall i, (i < N)%N -> nth 0 mk i = if on_dirichlet masks bc i then 0 else nth 0 acc i.
Proof.
move=> al; elim: bc acc => [|[g [ty v]] bc IH] acc /=; first by move=> _ sa; exists acc.
rewrite /accepted /= => /andP[/andP[hv]]; rewrite hv; case: ty => /= [|_]; last exact: IH.
case E : (dget masks g) => [mk|] // _ ok sa.
have smk : size mk = N.
  have : (g, mk) \in masks; last by move=> h; apply/eqP; exact: (allP al _ h).
  by move: E {IH ok al}; elim: masks => [|[g' mk'] l IH] //=; case: eqP => [-> [->]|_ /IH h]; rewrite inE ?eqxx // h orbT.
have sv : size acc = size [seq 1 - (b : bool)%:R : R | b <- mk] by rewrite size_map smk.
have [||mk' e [s' H]] := IH (vmul acc [seq 1 - (b : bool)%:R | b <- mk]) => //; first by rewrite size_vmul // size_map.
exists mk' => //; split=> // i hi; rewrite H // nth_vmul // (nth_map false) ?smk //.
rewrite /on_dirichlet /=; case: (has _ bc); rewrite ?orbT // orbF; case: (nth false mk i); by rewrite ?subrr ?mulr0 // subr0 mulr1.
Qed.
Lemma interior_mask_bad masks l1 g ty (bv : bcvalue R) l2' (acc : seq R) : all (accepted masks) l1 ->
  ~~ accepted masks (g, (ty, bv)) ->
  interior_mask masks (l1 ++ (g, (ty, bv)) :: l2') acc = inl (if homogeneous bv then PKeyError else PNotImplemented).
Proof.
elim: l1 acc => [|[g' [ty' v']] l1 IH] acc /=.
  by rewrite /accepted /= => _; case: (homogeneous bv) => //=; case: ty => //; case: (dget masks g).
move=> /andP[/andP[/= ->]]; case: ty' => /= [|_]; last exact: IH.
by case: (dget masks g') => // mk _; exact: IH.
Qed.

(** ** The assembled forms *)
Definition assembled fs fm u : seq R :=
  scatter_scalar (fs_mesh fs) (covector eps fs fm [:: fun_of fs KScalar (Some (gather_scalar (fs_mesh fs) u)); fun_of fs KScalar None]).
Lemma size_assembled fs fm u : size (assembled fs fm u) = num_nodes (fs_mesh fs).
Proof. exact: size_scatter_comp. Qed.
Lemma operatorE fs fm masks bc u : operator eps fs fm masks bc u =
  if size u != num_nodes (fs_mesh fs) then inl PValueError else with_bc (fs_mesh fs) masks bc (assembled fs fm u).
Proof.
rewrite /operator; case: ifP => // _; rewrite /nodal_create /= !eqxx /= /assembled /covector /local_covector /=.
by rewrite /input_space /= !eqxx.
Qed.
Lemma elem_valE m u e n : proper m -> size u = num_nodes m -> (e < num_elements m)%N -> (n < m_per_element m)%N ->
  gather_comp m u e n = elem_val m u e n.
Proof.
move=> [al ea] su he hn; have sz : size (nth [::] (m_elements m) e) = m_per_element m by apply/eqP; apply: (allP al); rewrite mem_nth.
rewrite /gather_comp /elem_val /gather (nth_map 0) ?sz //.
have : nth 0 (nth [::] (m_elements m) e) n \in flatten (m_elements m).
  by apply/flattenP; exists (nth [::] (m_elements m) e); rewrite mem_nth // sz.
move/(nthP 0) => [s hs <-]; have [->//|[k hk ->]] := ea s hs.
by rewrite /at_ /=.
Qed.
Definition test_form fs fm u v : R :=
  form_integral eps fs fm [:: fun_of fs KScalar (Some (gather_scalar (fs_mesh fs) u)); fun_of fs KScalar (Some (gather_scalar (fs_mesh fs) v))].
Lemma assembledE fs fm u v : proper (fs_mesh fs) -> linear_slot fm 1 -> size v = num_nodes (fs_mesh fs) ->
  inner (num_nodes (fs_mesh fs)) v (assembled fs fm u) = test_form fs fm u v.
Proof.
move=> pr lin sv; rewrite /inner /assembled /scatter_scalar assembly //.
have [b hb] : exists b, local_covector eps fs fm [:: fun_of fs KScalar (Some (gather_scalar (fs_mesh fs) u)); fun_of fs KScalar None] = inr b.
  by rewrite /local_covector /= /input_space /= !eqxx /=; eexists.
rewrite /test_form -(C40_represents (gather_scalar (fs_mesh fs) v) hb) // /covector hb /pairing.
by apply: eq_bigr => e _; apply: eq_bigr => n _; rewrite big_ord1.
Qed.
Lemma evaluate_scalar fs u e q : evaluate_nodal eps fs KScalar (gather_scalar (fs_mesh fs) u) e q =
  at_quad eps (fs_mesh fs) (evalpoints fs) (gather_comp (fs_mesh fs) u e) q :: phys_grad fs e (gather_comp (fs_mesh fs) u e) q.
Proof.
rewrite /evaluate_nodal /value_list /grad_list /=; congr cons.
apply: (@eq_from_nth _ 0) => [|j]; last first.
  have -> (l : seq nat) : flatten [seq [:: nth 0 (phys_grad fs e (comp (gather_scalar (fs_mesh fs) u) e 0) q) j] | j <- l] =
    [seq nth 0 (phys_grad fs e (comp (gather_scalar (fs_mesh fs) u) e 0) q) j | j <- l] by elim: l => //= ? ? ->.
  by rewrite size_map size_iota => hj; rewrite (nth_map 0%N) ?size_iota // nth_iota.
rewrite size_phys_grad size_flatten /shape -map_comp (eq_map (_ : _ =1 (fun=> 1%N))) //.
by rewrite sumnE big_map sum1_size size_iota.
Qed.
Lemma integrate_ext2 fs (w w' : nat -> nat -> R) : (forall e q, (e < num_elements (fs_mesh fs))%N -> w e q = w' e q) ->
  integrate fs w = integrate fs w'.
Proof. by move=> H; apply: eq_suml => e he; apply: eq_suml => q _; rewrite H. Qed.
Lemma test_mass fs u v : proper (fs_mesh fs) -> size u = num_nodes (fs_mesh fs) -> size v = num_nodes (fs_mesh fs) ->
  test_form fs (@l_form R d) u v = l2 fs u v.
Proof.
move=> pr su sv; rewrite /test_form /form_integral; apply: integrate_ext2 => e q he.
rewrite -[map _ _]/[:: evaluate_nodal eps fs KScalar (gather_scalar (fs_mesh fs) u) e q; evaluate_nodal eps fs KScalar (gather_scalar (fs_mesh fs) v) e q] !evaluate_scalar /l_form /vval /arg /=.
by congr (_ * _); apply: at_quad_ext => n hn; apply: elem_valE.
Qed.
Lemma test_stiffness fs u v : proper (fs_mesh fs) -> size u = num_nodes (fs_mesh fs) -> size v = num_nodes (fs_mesh fs) ->
  test_form fs (@a_form R d) u v = energy fs u v.
Proof.
move=> pr su sv; rewrite /test_form /form_integral; apply: integrate_ext2 => e q he.
rewrite -[map _ _]/[:: evaluate_nodal eps fs KScalar (gather_scalar (fs_mesh fs) u) e q; evaluate_nodal eps fs KScalar (gather_scalar (fs_mesh fs) v) e q] !evaluate_scalar /a_form /vval /arg /= sumlE; apply: eq_bigr => j _.
by congr (nth 0 _ _ * nth 0 _ _); apply: phys_grad_ext => n hn; apply: elem_valE.
Qed.
Arguments vval : simpl never.
Lemma l_form_lin : linear_slot (@l_form R d) 1.
Proof. by move=> x vs a s t st; rewrite /l_form !arg_set /= vval_comb //; ring. Qed.
Lemma a_form_lin : linear_slot (@a_form R d) 1.
Proof. by move=> x vs a s t st; rewrite /a_form !arg_set /=; apply: suml_lin => j; rewrite vval_comb //; ring. Qed.

Lemma energy_sym fs u v : energy fs u v = energy fs v u.
Proof. by apply: integrate_ext2 => e q _; apply: eq_bigr => j _; rewrite mulrC. Qed.
Lemma l2_sym fs u v : l2 fs u v = l2 fs v u.
Proof. by apply: integrate_ext2 => e q _; rewrite mulrC. Qed.
Lemma inner_lin N c u v w : inner N (lin N c u v) w = c * inner N u w + inner N v w.
Proof. by rewrite /inner mulr_sumr -big_split; apply: eq_bigr => i _; rewrite nth_lin // mulrDl mulrA. Qed.

(** The function always gets its space. *)
Theorem C62_creates m masks : mesh_ok m masks -> exists fs, space_of eps inv m fs.
Proof.
move=> [d0 [n [t [n1 [hg hN]]]] _ _]; have [np _ _ _ _] := created_grid (ltnW n1) hg.
have q0 : (0 < quadrature_points m)%N by rewrite /quadrature_points np; lia.
have [quad hq] : exists q, quadrature_create R (quadrature_points m) GAUSS_LEGENDRE = inr q.
  by rewrite /quadrature_create /= (gtn_eqF q0) /quadrature_from_nodes /= (gtn_eqF q0); eexists.
have [fs hf] : exists fs, fespace_create eps inv m quad = inr fs by apply/(C38_creates eps inv d0 (ltnW n1) q0 hg hq).
by exists fs, quad.
Qed.

Section Fixed.
Variables (m : mesh) (masks : seq (L * seq bool)) (bc : bcs R L) (fs : fespace) (f : seq R).
Hypotheses (mok : mesh_ok m masks) (sp : space_of eps inv m fs).
Notation N := (num_nodes m).
Notation D := (on_dirichlet masks bc).
Notation adm := (admissible m masks bc).

Lemma space_facts : exists quad nq, [/\ standard eps inv m quad fs nq GAUSS_LEGENDRE, fs_mesh fs = m,
  (nd_num_points (m_grid m) <= nq)%N, num_quad fs = (nq ^ d)%N & proper m].
Proof.
have [d0 [n [t [n1 [hg hN]]]] pr _] := mok; have [quad hq hf] := sp.
have [np _ _ _ _] := created_grid (ltnW n1) hg.
have q0 : (0 < quadrature_points m)%N by rewrite /quadrature_points np; lia.
have [qn _ _] := quad_facts q0 hq; have [gs [_ _ fmE fq _]] := fespace_createE hf.
exists quad, (quadrature_points m); split=> //.
- by split=> //; exists n, t.
- by rewrite /quadrature_points np; lia.
- by rewrite /num_quad fq qn.
Qed.
Let fmE : fs_mesh fs = m. Proof. by have [quad [nq []]] := space_facts. Qed.
Let pr : proper m. Proof. by case: mok. Qed.

Definition opA u : seq R := if operator eps fs (@a_form R d) masks bc u is inr w then w else [::].
Lemma with_bcE w : all (accepted masks) bc -> size w = N -> exists2 w', with_bc m masks bc w = inr w' &
  size w' = N /\ forall i, (i < N)%N -> nth 0 w' i = if D i then 0 else nth 0 w i.
Proof.
move=> ok sw; have [_ _ _ ms] := mok; rewrite /with_bc.
have [mk -> [sm H]] := interior_maskE ms ok (size_nseq N (1 : R)).
exists (vmul w mk) => //; split=> [|i hi]; first by rewrite size_vmul ?sw ?sm.
by rewrite nth_vmul ?sm // H //; case: ifP; rewrite ?mulr0 // nth_nseq hi mulr1.
Qed.
Lemma operator_ok fm u : all (accepted masks) bc -> linear_slot fm 1 -> size u = N ->
  exists2 w, operator eps fs fm masks bc u = inr w &
    vanish N D w /\ forall v, adm v -> inner N v w = test_form fs fm u v.
Proof.
move=> ok lin su; rewrite operatorE fmE su eqxx /=.
have [|w -> [sw H]] := with_bcE (w := assembled fs fm u) ok; first by rewrite size_assembled fmE.
exists w => //; split=> [|v [sv zv]]; first by split=> // i hi Di; rewrite H // Di.
rewrite -assembledE ?fmE //; apply: eq_bigr => i _; rewrite H //; case: ifP => // Di.
by rewrite zv // !mul0r.
Qed.

(** ** Errors *)
Lemma solveE rtol atol : solve m masks f bc rtol atol =
  match operator eps fs (@l_form R d) masks bc f with
  | inl e => inl e
  | inr b => inr (cg (map opA) [:: b] None rtol atol None None (@jnp_vdot R))
  end.
Proof. by have [quad hq hf] := sp; rewrite /solve_poisson hq hf. Qed.

Theorem C62_errors rtol atol :
  [/\ size f <> N -> solve m masks f bc rtol atol = inl PValueError,
      forall l1 b l2, size f = N -> bc = l1 ++ b :: l2 -> all (accepted masks) l1 -> ~~ accepted masks b ->
        solve m masks f bc rtol atol = inl (if homogeneous b.2.2 then PKeyError else PNotImplemented) &
      size f = N -> all (accepted masks) bc -> exists r, solve m masks f bc rtol atol = inr r].
Proof.
split=> [/eqP sf|l1 [g [ty bv]] l2' sf bE ok bad|sf ok]; rewrite solveE.
- by rewrite operatorE fmE sf.
- by rewrite operatorE fmE sf eqxx /= /with_bc bE interior_mask_bad.
- by have [w -> _] := operator_ok ok l_form_lin sf; eexists.
Qed.

Section Accepted.
Hypotheses (ok : all (accepted masks) bc) (sf : size f = N).

Lemma opA_ok u : size u = N -> vanish N D (opA u).
Proof. by move=> su; have [w e [h _]] := operator_ok ok a_form_lin su; rewrite /opA e. Qed.
Lemma opA_energy u v : size u = N -> vanish N D v -> inner N v (opA u) = energy fs u v.
Proof.
move=> su vv; have [w e [_ h]] := operator_ok ok a_form_lin su; rewrite /opA e h //.
by apply: test_stiffness; rewrite ?fmE //; case: vv.
Qed.
Lemma energy_inner u v : size u = N -> size v = N -> energy fs u v = inner N v (assembled fs (@a_form R d) u).
Proof. by move=> su sv; rewrite -(fmE) assembledE ?fmE //; [rewrite test_stiffness ?fmE|exact: a_form_lin]. Qed.
Lemma l2_inner u v : size u = N -> size v = N -> l2 fs u v = inner N v (assembled fs (@l_form R d) u).
Proof. by move=> su sv; rewrite -(fmE) assembledE ?fmE //; [rewrite test_mass ?fmE|exact: l_form_lin]. Qed.
Lemma energy_lin c u v w : size u = N -> size v = N -> size w = N -> energy fs (lin N c u v) w = c * energy fs u w + energy fs v w.
Proof.
move=> su sv sw; rewrite !(energy_sym fs _ w) !(energy_inner sw) ?size_mkseq //; exact: inner_lin.
Qed.
Lemma rhs_ok : exists2 b, operator eps fs (@l_form R d) masks bc f = inr b &
  vanish N D b /\ forall v, vanish N D v -> inner N v b = l2 fs f v.
Proof.
have [b e [h1 h2]] := operator_ok ok l_form_lin sf; exists b => //; split=> // v vv.
by rewrite h2 // test_mass ?fmE //; case: vv.
Qed.

Theorem C62_vanishes rtol atol x g k : solve m masks f bc rtol atol = inr (CGDone x g k) ->
  exists2 u, adm u & x = [:: u].
Proof.
have [b e [vb _]] := rhs_ok; rewrite solveE e => -[h].
exact: (cg_vanish opA_ok vb h).
Qed.

(** The residual in the Galerkin equations. *)
Theorem C62_residual rtol atol u g k : solve m masks f bc rtol atol = inr (CGDone [:: u] g k) ->
  (k <= 10 * N)%N /\ (k = (10 * N)%N \/ forall v, adm v ->
   (l2 fs f v - energy fs u v) ^+ 2 <=
   Num.max (rtol ^+ 2 * \sum_(i < N | ~~ D i) l2 fs f (unitvec R N i) ^+ 2) (atol ^+ 2) * \sum_(i < N) nth 0 v i ^+ 2).
Proof.
have [b e [vb bE]] := rhs_ok; rewrite solveE e => -[h].
have [su [kl H]] := cg_residual opA_ok opA_energy energy_lin vb h.
split=> //; case: H => [->|H]; [by left|right=> v av]; have := H v av; rewrite bE //.
have -> : inner N v v = \sum_(i < N) nth 0 v i ^+ 2 by apply: eq_bigr => i _; rewrite expr2.
suff -> : inner N b b = \sum_(i < N | ~~ D i) l2 fs f (unitvec R N i) ^+ 2 by [].
have [_ zb] := vb; rewrite [RHS]big_mkcond /inner; apply: eq_bigr => i _.
case: ifP => Di; last by rewrite zb ?mul0r // -[D i]negbK Di.
by rewrite -bE ?sum_unitvec // ?expr2 //; exact: unit_vanish.
Qed.

Section Oriented.
Hypothesis ori : oriented fs.

Lemma weights_pos q : (q < num_quad fs)%N -> 0 < nth 0 (getr (weights_nd (fs_quad fs) d)) q.
Proof.
have [quad [nq [[hf d0 nq0 hq _] _ _ nqE _]]] := space_facts; have [gs [_ _ _ fq _]] := fespace_createE hf.
rewrite nqE fq => hlt; have [w hw [wE _ _]] := C36_weights_nd d0 nq0 hq.
rewrite hw /=; apply: (allP (weights_nd_pos nq0 hq hw)); apply: mem_nth.
by rewrite wE size_map size_cart_nseq; have [-> _ _ _] := C36_exact nq0 hq.
Qed.
Lemma energy_ge0 u : 0 <= energy fs u u.
Proof.
rewrite /energy /integrate sumlE; apply: sumr_ge0 => e _; rewrite sumlE; apply: sumr_ge0 => q _.
apply: mulr_ge0; last by rewrite ltW // weights_pos.
apply: mulr_ge0; last by rewrite ltW // ori.
by apply: sumr_ge0 => j _; rewrite -expr2 sqr_ge0.
Qed.

Theorem C62_solves rtol atol :
  (forall z, adm z -> (forall v, adm v -> energy fs z v = 0) -> l2 fs f z = 0) ->
  exists u g k, [/\ solve m masks f bc rtol atol = inr (CGDone [:: u] g k), adm u, (k <= N)%N &
    rtol = 0 -> atol = 0 -> weak_solution eps fs masks bc f u].
Proof.
move=> compat; have [b e [vb bE]] := rhs_ok.
have [|x [g [k [h1 h2 h3 _ h5]]]] := cg_exact opA_ok opA_energy energy_lin (fun u v _ _ => energy_sym fs u v) vb (fun u _ => energy_ge0 u) rtol atol.
  by move=> z vz hz; rewrite bE //; apply: compat.
exists x, g, k; split=> //; first by rewrite solveE e h1.
by move=> t0 a0; split=> [|v]; rewrite fmE // => vv; rewrite h5 // bE.
Qed.

(** ** The kernel *)
Hypothesis inv_ok : forall J : 'M[R]_d, J \in unitmx -> inv J = invmx J.
Lemma energy_zero u : energy fs u u = 0 -> forall e q j, (e < num_elements m)%N -> (q < num_quad fs)%N -> (j < d)%N ->
  nth 0 (phys_grad fs e (elem_val m u e) q) j = 0.
Proof.
rewrite /energy /integrate sumlE fmE => E e q j he hq hj.
have sq e' q' : 0 <= \sum_(j < d) nth 0 (phys_grad fs e' (elem_val m u e') q') j * nth 0 (phys_grad fs e' (elem_val m u e') q') j.
  by apply: sumr_ge0 => i _; rewrite -expr2 sqr_ge0.
have term (e' : 'I_(num_elements m)) (q' : 'I_(num_quad fs)) : 0 <= (\sum_(j < d) nth 0 (phys_grad fs e' (elem_val m u e') q') j * nth 0 (phys_grad fs e' (elem_val m u e') q') j) *
    fs_jacdets fs e' q' * nth 0 (getr (weights_nd (fs_quad fs) d)) q'.
  apply: mulr_ge0; last by rewrite ltW // weights_pos.
  by apply: mulr_ge0 => //; rewrite ltW // ori // fmE.
have E1 : suml (num_quad fs) (fun q => (\sum_(j < d) nth 0 (phys_grad fs e (elem_val m u e) q) j * nth 0 (phys_grad fs e (elem_val m u e) q) j) *
    fs_jacdets fs e q * nth 0 (getr (weights_nd (fs_quad fs) d)) q) = 0.
  have G := psumr_eq0P _ E; apply: (G _ (Ordinal he)) => // e' _; rewrite sumlE; apply: sumr_ge0 => q' _; exact: term.
rewrite sumlE in E1; have {}E1 := psumr_eq0P (fun q' _ => term (Ordinal he) q') E1.
have /eqP := E1 (Ordinal hq) isT; rewrite /= !mulf_eq0.
have /gt_eqF -> := weights_pos hq; have /gt_eqF -> : 0 < fs_jacdets fs e q by apply: ori; rewrite ?fmE.
rewrite !orbF => /eqP/psumr_eq0P z; apply/eqP; rewrite -sqrf_eq0 expr2; apply/eqP.
by apply: (z _ (Ordinal hj)) => // i _; rewrite -expr2 sqr_ge0.
Qed.
Lemma kernel_joined u i j : size u = N -> energy fs u u = 0 -> joined m i j -> nth 0 u i = nth 0 u j.
Proof.
move=> su E; elim=> // el i' j' k hel hi hj _ <-.
have [e he elE] : exists2 e, (e < num_elements m)%N & nth [::] (m_elements m) e = el by apply/nthP.
have [quad [nq [st _ enough nqE [al _]]]] := space_facts.
have sel : size el = m_per_element m by apply/eqP; apply: (allP al).
have [n hn nE] : exists2 n, (n < m_per_element m)%N & nth 0 el n = Posz i' by rewrite -sel; apply/nthP.
have [n' hn' nE'] : exists2 n, (n < m_per_element m)%N & nth 0 el n = Posz j' by rewrite -sel; apply/nthP.
have := grad_zero_const inv_ok st enough (e := e) (u := elem_val m u e) _ _ hn hn'.
rewrite /elem_val elE nE nE'; apply=> [q hq|q c hq hc].
  by rewrite gt_eqF // ori ?fmE ?nqE.
by have := energy_zero E he (q := q) (j := c); rewrite /elem_val elE nqE; apply.
Qed.

(** ** Dirichlet conditions *)
Lemma l2_zero z : size z = N -> (forall i, (i < N)%N -> nth 0 z i = 0) -> l2 fs f z = 0.
Proof. by move=> sz z0; rewrite l2_inner // /inner big1 // => i _; rewrite z0 // mul0r. Qed.
Lemma differ u u' : weak_solution eps fs masks bc f u -> weak_solution eps fs masks bc f u' ->
  adm (lin N (-1) u u') /\ forall v, adm v -> energy fs (lin N (-1) u u') v = 0.
Proof.
rewrite /weak_solution fmE => -[[su zu] hu] [[su' zu'] hu']; split=> [|v av].
  by split=> [|i hi Di]; [exact: size_lin|rewrite nth_lin // zu // zu' // mulr0 addr0].
by have [sv _] := av; rewrite energy_lin // hu // hu' // mulN1r addNr.
Qed.
Theorem C62_dirichlet rtol atol :
  (forall i, (i < N)%N -> exists2 j, (j < N)%N && D j & joined m i j) ->
  exists u g k, [/\ solve m masks f bc rtol atol = inr (CGDone [:: u] g k), adm u, (k <= N)%N &
    rtol = 0 -> atol = 0 -> weak_solution eps fs masks bc f u /\
      forall u', weak_solution eps fs masks bc f u' -> u' = u].
Proof.
move=> conn.
have K z : adm z -> energy fs z z = 0 -> forall i, (i < N)%N -> nth 0 z i = 0.
  move=> [sz zz] E i hi; have [j /andP[hj Dj] ij] := conn i hi.
  by rewrite (kernel_joined sz E ij) zz.
have [|u [g [k [h1 h2 h3 h4]]]] := C62_solves rtol atol.
  by move=> z az Ez; have z0 := K z az (Ez z az); have [sz _] := az; apply: l2_zero.
exists u, g, k; split=> // t0 a0; have wu := h4 t0 a0; split=> // u' wu'.
have [az Ez] := differ wu wu'; have z0 := K _ az (Ez _ az).
have [su _] := h2; have [[su' _] _] := wu'; rewrite fmE in su'.
apply: (@eq_from_nth _ 0) => [|i]; rewrite su' // => hi.
by have /eqP := z0 i hi; rewrite nth_lin // mulN1r addrC subr_eq0 => /eqP.
Qed.

(** ** No Dirichlet conditions *)
Lemma energy_const c u : (forall el, el \in m_elements m -> all (>= 0) el) -> energy fs u (nseq N c) = 0.
Proof.
move=> pad; rewrite /energy /integrate sumlE fmE big1 // => e _; rewrite sumlE big1 // => q _.
rewrite [X in X * _ * _]big1 ?mul0r // => j _.
have [quad [nq [st _ _ nqE [al ea]]]] := space_facts.
suff G : phys_grad fs e (elem_val m (nseq N c) e) q = phys_grad fs e (fun=> c) q.
  by rewrite G (C39_constant _ _ st) -?nqE // nth_nseq if_same mulr0.
apply: phys_grad_ext => n.
rewrite fmE /elem_val => hn; have hel : nth [::] (m_elements m) e \in m_elements m by rewrite mem_nth.
have sel : size (nth [::] (m_elements m) e) = m_per_element m by apply/eqP; apply: (allP al).
have hin : nth 0 (nth [::] (m_elements m) e) n \in nth [::] (m_elements m) e by rewrite mem_nth ?sel.
have := allP (pad _ hel) _ hin.
have : nth 0 (nth [::] (m_elements m) e) n \in flatten (m_elements m) by apply/flattenP; exists (nth [::] (m_elements m) e).
move=> /(nthP 0)[s hs <-]; have [->|[k hk -> _]] := ea s hs; first by [].
by rewrite nth_nseq hk.
Qed.
Theorem C62_neumann rtol atol :
  (forall el, el \in m_elements m -> all (>= 0) el) ->
  (forall i, (i < N)%N -> ~~ D i) -> (forall i j, (i < N)%N -> (j < N)%N -> joined m i j) ->
  (l2 fs f (nseq N 1) != 0 -> forall u, ~ weak_solution eps fs masks bc f u) /\
  (l2 fs f (nseq N 1) = 0 ->
   exists u g k, [/\ solve m masks f bc rtol atol = inr (CGDone [:: u] g k), (k <= N)%N, \sum_(i < N) nth 0 u i = 0 &
    rtol = 0 -> atol = 0 -> weak_solution eps fs masks bc f u /\
      forall u', weak_solution eps fs masks bc f u' <-> size u' = N /\ exists c, forall i, (i < N)%N -> nth 0 u' i = nth 0 u i + c]).
Proof.
move=> pad noD conn; have adm1 c : adm (nseq N c) by split=> [|i hi]; rewrite ?size_nseq // (negbTE (noD i hi)).
split=> [f0 u [_ hu]|f0].
  by move: f0; rewrite -hu ?fmE // energy_const // eqxx.
have K z : size z = N -> energy fs z z = 0 -> z = nseq N (nth 0 z 0).
  move=> sz E; apply: (@eq_from_nth _ 0); rewrite ?size_nseq sz // => i hi; rewrite nth_nseq hi.
  by apply: kernel_joined => //; apply: conn => //; apply: leq_ltn_trans hi.
have l2c c : l2 fs f (nseq N c) = 0.
  rewrite l2_inner ?size_nseq // -[RHS](mulr0 c) -f0 l2_inner ?size_nseq // /inner mulr_sumr.
  by apply: eq_bigr => i _; rewrite !nth_nseq ltn_ord mul1r.
have [b e [vb bE]] := rhs_ok.
have [|x [g [k [h1 h2 h3 [y [sy _] xE] h5]]]] := cg_exact opA_ok opA_energy energy_lin (fun u v _ _ => energy_sym fs u v) vb (fun u _ => energy_ge0 u) rtol atol.
  move=> z vz hz; have [sz _] := vz; rewrite bE // (K z sz (hz z vz)); exact: l2c.
have [sx _] := h2.
exists x, g, k; split=> //; first by rewrite solveE e h1.
  have <- : inner N (nseq N 1) x = \sum_(i < N) nth 0 x i by apply: eq_bigr => i _; rewrite nth_nseq ltn_ord mul1r.
  by rewrite xE opA_energy // ?energy_const //; exact: adm1.
move=> t0 a0; have wx : weak_solution eps fs masks bc f x.
  by split=> [|v]; rewrite fmE // => vv; rewrite h5 // bE.
split=> // u'; split=> [wu'|[su' [c hc]]].
  have [[su' _] _] := wu'; rewrite fmE in su'; split=> //.
  have [az Ez] := differ wx wu'; have [sz _] := az; exists (nth 0 (lin N (-1) x u') 0) => i hi.
  have := congr1 (fun l => nth 0 l i) (K _ sz (Ez _ az)); rewrite nth_nseq hi => <-; rewrite nth_lin //.
  by rewrite mulN1r addrA subrr add0r.
have uE : u' = lin N 1 (nseq N c) x.
  by apply: (@eq_from_nth _ 0); rewrite su' ?size_lin // => i hi; rewrite nth_lin // nth_nseq hi mul1r hc // addrC.
have [_ hx] := wx; split; rewrite fmE; first by split=> // i hi; rewrite (negbTE (noD i hi)).
move=> v av.
have [sv _] := av; rewrite uE energy_lin ?size_nseq // mul1r energy_sym energy_const // add0r hx ?fmE //.
Qed.

End Oriented.
End Accepted.
End Fixed.
End Props.

(** ** Examples: a bar of elements of any order, divided at given points *)
Section Bar.
Variables (R : rcfType) (eps : R) (inv : 'M[R]_1 -> 'M[R]_1) (K p : nat) (g : nodes1d R) (brk : nat -> R).
Hypotheses (K0 : (0 < K)%N) (hg : nodes1d_create R p.+2 GAUSS_LOBATTO_LEGENDRE = inr g) (inc : forall i, brk i < brk i.+1).
Notation n := p.+1.
Definition bar_point (i : nat) : 'rV[R]_1 :=
  \row_j (brk (i %/ n) + (1 + nth 0 (nd_values g) (i %% n)) / 2%:R * (brk (i %/ n).+1 - brk (i %/ n))).
Definition bar : FES_model.mesh R 1 :=
  Mesh (mkseq bar_point (K * n).+1) [seq [seq Posz (e * n + k) | k <- iota 0 n.+1] | e <- iota 0 K] n.+1 g.
(** The groups "ends" and "left". *)
Definition bar_masks : seq (bool * seq bool) :=
  [:: (true, mkseq (fun i => (i == 0%N) || (i == (K * n)%N)) (K * n).+1); (false, mkseq (fun i => i == 0%N) (K * n).+1)].

Lemma bar_coord e k : (e < K)%N -> (k <= n)%N -> element_coords bar e k 0 0 =
  brk e + (1 + nth 0 (nd_values g) k) / 2%:R * (brk e.+1 - brk e).
Proof.
move=> he hk; have hlt : (e * n + k < (K * n).+1)%N by rewrite ltnS -(leq_add2r n) -mulSnr; have := leq_mul he (leqnn n); lia.
have elE : nth [::] (m_elements bar) e = [seq Posz (e * n + k) | k <- iota 0 n.+1].
  by rewrite (nth_map 0%N) ?size_iota // nth_iota.
rewrite /element_coords elE /gather -map_comp (nth_map 0%N) ?size_iota ?ltnS //.
rewrite nth_iota ?ltnS // add0n /= /at_ /= nth_mkseq // mxE; move: hk; rewrite leq_eqVlt => /orP[/eqP ->|hk].
  rewrite -mulSnr mulnK // modnMl.
  have [_ sz cont _] := C33_lobatto_nodes hg; move: cont; rewrite /is_continuous -nth_last sz /= => /andP[/eqP -> /eqP ->].
  by rewrite subrr !mul0r addr0 -[1 + 1]/(2%:R) divff ?pnatr_eq0 // mul1r addrC subrK.
by rewrite divnMDl // divn_small // addn0 modnMDl modn_small.
Qed.
Lemma bar_ok : mesh_ok bar bar_masks.
Proof.
split=> //.
- by exists p.+2, GAUSS_LOBATTO_LEGENDRE.
- split; first by apply/allP => el /mapP[e _ ->]; rewrite size_map size_iota.
  move=> s hs; right; have := mem_nth 0 hs; move: (nth 0 _ s) => z /flattenP[el /mapP[e + ->] /mapP[k + ->]].
  rewrite !mem_iota !add0n => he hk; exists (e * n + k)%N => //; rewrite size_mkseq; have := leq_mul he (leqnn n); rewrite mulSnr; lia.
- by apply/allP => gm; rewrite !inE => /orP[] /eqP ->; rewrite /num_nodes !size_mkseq.
Qed.
Lemma bar_space : exists2 fs, space_of eps inv bar fs & oriented fs.
Proof.
have [np _ _ _ _] := created_grid (ltn0Sn _) hg.
have q0 : (0 < quadrature_points bar)%N by rewrite /quadrature_points np; lia.
have [fs sp] := C62_creates eps inv bar_ok; exists fs => //; have [quad hq hf] := sp.
have [gs [_ _ fmE fq _]] := fespace_createE hf; have [qn _ _] := quad_facts q0 hq.
have st : standard eps inv bar quad fs (quadrature_points bar) GAUSS_LEGENDRE by split=> //; exists p.+2, GAUSS_LOBATTO_LEGENDRE.
move=> e q; rewrite fmE /num_quad fq qn {1}/num_elements size_map size_iota => he hq'.
have P : parallelepiped bar e (brk e)%:M (brk e.+1 - brk e)%:M.
  move=> k hk; apply/rowP => j; rewrite (ord1 j) bar_coord // !mxE big_ord1 !mxE !eqxx !mulr1n; congr (_ + _ * _).
  congr ((1 + _) / _); rewrite (_ : cart (nseq 1 (nd_values g)) = [seq [:: y] | y <- nd_values g]); last by elim: (nd_values g) => //= y l ->.
  by have [_ sz _ _] := C33_lobatto_nodes hg; rewrite (nth_map 0) ?sz.
rewrite (standard_jac st P) // det_scalar expr1 divr_gt0 ?subr_gt0 // exprn_gt0 ?ltr0n //.
Qed.
Lemma bar_joined i j : (i < num_nodes bar)%N -> (j < num_nodes bar)%N -> joined bar i j.
Proof.
have step e k k' l : (e < K)%N -> (k <= n)%N -> (k' <= n)%N -> joined bar (e * n + k') l -> joined bar (e * n + k) l.
  move=> he hk hk'; apply: Joined_step (_ : [seq Posz (e * n + k) | k <- iota 0 n.+1] \in _) _ _.
  - by apply/mapP; exists e; rewrite ?mem_iota.
  - by apply/mapP; exists k; rewrite ?mem_iota.
  - by apply/mapP; exists k'; rewrite ?mem_iota.
have all0 l : forall i, (i <= K * n)%N -> joined bar 0 l -> joined bar i l.
  move=> i' hi; have : (i' %/ n * n <= K * n)%N by have := divn_eq i' n; lia.
  rewrite leq_mul2r /= => hd h0; rewrite (divn_eq i' n).
  have G e : (e <= K)%N -> joined bar (e * n) l.
    elim: e => [|e IH] he; first by rewrite mul0n.
    by rewrite mulSnr; apply: (step e n 0%N) => //; rewrite addn0; apply: IH; exact: ltnW.
  move: hd; rewrite leq_eqVlt => /orP[/eqP e|hd].
    have := divn_eq i' n; rewrite e => iE; have -> : (i' %% n = 0)%N by move: hi iE; clear; lia.
    by rewrite addn0; apply: G.
  by apply: (step _ _ 0%N) => //; [apply: ltnW; rewrite ltn_mod|rewrite addn0; apply: G; exact: ltnW].
have sym a b : joined bar a b -> joined bar b a.
  have tr x y z : joined bar x y -> joined bar y z -> joined bar x z.
    by elim=> // el i' j' k h1 h2 h3 _ IH /IH; exact: Joined_step h1 h2 h3.
  elim=> [c|el i' j' k h1 h2 h3 _ IH]; first exact: Joined_refl.
  by apply: tr IH _; apply: Joined_step h1 h3 h2 _; exact: Joined_refl.
rewrite /num_nodes size_mkseq !ltnS => hi hj; apply: (all0) => //; apply: (sym); apply: (all0) => //; exact: Joined_refl.
Qed.
Hypothesis inv_ok : forall J : 'M[R]_1, J \in unitmx -> inv J = invmx J.
Notation N := (K * n).+1.
(** Fixed at both ends, or at the left end only. *)
Example ex_bar_dirichlet ends (f : seq R) : size f = N -> exists u g' k,
  [/\ solve_poisson eps inv bar bar_masks f [:: (ends, (DIRICHLET, BScalar 0))] 0 0 = inr (CGDone [:: u] g' k),
      nth 0 u 0 = 0, ends -> nth 0 u (K * n) = 0 & (k <= N)%N].
Proof.
move=> sf; have [fs sp ori] := bar_space; have NE : num_nodes bar = N by rewrite /num_nodes size_mkseq.
have ok : all (accepted bar_masks) [:: (ends, (DIRICHLET, BScalar (0 : R)))] by rewrite /= /accepted /= eqxx; case: ends.
have D0 : on_dirichlet bar_masks [:: (ends, (DIRICHLET, BScalar (0 : R)))] 0 by rewrite /on_dirichlet /=; case: (ends).
have D1 : ends -> on_dirichlet bar_masks [:: (ends, (DIRICHLET, BScalar (0 : R)))] (K * n).
  by rewrite /on_dirichlet; case: (ends) => //= _; rewrite (nth_mkseq _ _ (ltnSn _)) eqxx orbT.
have sf' : size f = num_nodes bar by rewrite NE.
have [|u [g' [k [h1 [su z] h2 _]]]] := C62_dirichlet bar_ok sp ok sf' ori inv_ok 0 0.
  by move=> i hi; exists 0%N; rewrite ?NE ?D0 // ; apply: bar_joined.
exists u, g', k; split=> //; [by apply: z|by move=> e; apply: z; rewrite ?NE ?D1|by rewrite -NE].
Qed.
(** Free. *)
Example ex_bar_neumann (f : seq R) : size f = N -> exists2 fs, space_of eps inv bar fs &
  l2 eps fs f (nseq N 1) = 0 -> exists u g' k,
  [/\ solve_poisson eps inv bar bar_masks f [:: (true, (NEUMANN, BScalar 0))] 0 0 = inr (CGDone [:: u] g' k), (k <= N)%N,
      \sum_(i < N) nth 0 u i = 0 & weak_solution eps fs bar_masks [:: (true, (NEUMANN, BScalar 0))] f u].
Proof.
move=> sf; have [fs sp ori] := bar_space; have NE : num_nodes bar = N by rewrite /num_nodes size_mkseq.
have ok : all (accepted bar_masks) [:: (true, (NEUMANN, BScalar (0 : R)))] by rewrite /= /accepted /= eqxx.
have sf' : size f = num_nodes bar by rewrite NE.
exists fs => // f0.
have [|||_] := C62_neumann bar_ok sp ok sf' ori inv_ok 0 0; rewrite ?NE //.
- by move=> el /mapP[e _ ->]; apply/allP => z /mapP[k _ ->].
- by move=> i j; rewrite -NE; exact: bar_joined.
by move=> /(_ f0)[u [g' [k [h1 h2 h3 h4]]]]; have [wu _] := h4 erefl erefl; exists u, g', k.
Qed.
End Bar.

Print Assumptions C62_creates.
Print Assumptions C62_errors.
Print Assumptions C62_vanishes.
Print Assumptions C62_residual.
Print Assumptions C62_solves.
Print Assumptions C62_dirichlet.
Print Assumptions C62_neumann.
