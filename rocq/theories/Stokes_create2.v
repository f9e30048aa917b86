(** Facts about what [sem_create] makes: masks, geometry, the mass. *)
From Coq Require List.
From mathcomp Require Import all_ssreflect all_algebra polyrcf zify ring.
From Verif Require Import PyDict_model PyDict_proofs GS_model GS_proofs GS_props Interp_model Interp_spec.
From Verif Require Import Gauss_proofs2 Interp_proofs2 Tensor_proofs Interp_props FES_model FES_proofs FES_proofs2 FES_props FES_props2 Premesh_model.
From Verif Require Import CG_model CG_proofs CG_props TimeCoef_model Stokes_model Stokes_spec Stokes_proofs Stokes_proofs2 Stokes_proofs3.
From Verif Require Import Stokes_create.
Set Implicit Arguments.
Unset Strict Implicit.
Unset Printing Implicit Defensive.
Import Order.TTheory GRing.Theory Num.Theory.
Local Open Scope ring_scope.

(** ** The mask *)
Section Mask.
Variables (R : rcfType) (L : eqType) (BCV : Type) (masks : seq (L * seq bool)) (N : nat).
Hypothesis sizes : all (fun gm => size gm.2 == N) masks.
Implicit Types (bcs : seq (L * (bctype * BCV))) (i : nat).

Lemma dget_mem g mk : dget masks g = Some mk -> (g, mk) \in masks.
Proof.
elim: masks => [|[a b] l IH] //=; case: eqP => [-> [->]|_ /IH h]; first by rewrite mem_head.
by rewrite inE h orbT.
Qed.
Lemma dget_size g mk : dget masks g = Some mk -> size mk = N.
Proof. by move/dget_mem/(allP sizes)/eqP. Qed.

Definition hit i (gb : L * (bctype * BCV)) : bool :=
  if gb.2.1 is DIRICHLET then nth false (odflt [::] (dget masks gb.1)) i else false.
Definition missing (gb : L * (bctype * BCV)) : bool :=
  if gb.2.1 is DIRICHLET then ~~ isSome (dget masks gb.1) else false.

Lemma mask_loopE bcs (acc : seq R) : size acc = N ->
  match mask_loop masks bcs acc with
  | inl e => e = SKeyError /\ has missing bcs
  | inr r => [/\ ~~ has missing bcs, size r = N & forall i, (i < N)%N -> nth 0 r i = nth 0 acc i * (~~ has (hit i) bcs)%:R]
  end.
Proof.
elim: bcs acc => [|[g [[] v]] bcs IH] acc sa /=.
- by split=> // i _; rewrite mulr1.
- rewrite /missing /hit /=; case hm : (dget masks g) => [mk|] //=.
  have sm := dget_size hm.
  set acc' := vmul acc _; have sa' : size acc' = N by rewrite size_vmul size_map sm.
  have := IH _ sa'; case: (mask_loop _ _ _) => // r [nm sr H]; split=> // i hi.
  rewrite H // nth_vmul ?size_map ?sa ?sm // (nth_map false) ?sm //.
  by case: (nth false mk i); rewrite /= ?subrr ?subr0 ?mulr0 ?mul0r ?mulr1.
- by rewrite /missing /hit /=; exact: IH.
Qed.
Lemma dirichletE bcs : match dirichlet_bc R N masks bcs with
  | inl e => e = SKeyError /\ has missing bcs
  | inr r => [/\ ~~ has missing bcs, size r = N & forall i, (i < N)%N -> nth 0 r i = (~~ has (hit i) bcs)%:R]
  end.
Proof.
have := @mask_loopE bcs (nseq N 1) (size_nseq _ _); rewrite /dirichlet_bc; case: (mask_loop _ _ _) => // r [nm sr H].
by split=> // i hi; rewrite H // nth_nseq hi mul1r.
Qed.
Lemma hasP' bcs (P : pred (L * (bctype * BCV))) : reflect (exists2 x, List.In x bcs & P x) (has P bcs).
Proof.
elim: bcs => [|x l IH] /=; first by right; case.
apply: (iffP orP) => [[px|/IH[y hy py]]|[y [<-|hy] py]].
- by exists x; [left|].
- by exists y; [right|].
- by left.
- by right; apply/IH; exists y.
Qed.
End Mask.

Section Create.
Variables (R : rcfType) (d : nat) (eps : R) (inv : 'M[R]_d -> 'M[R]_d) (L : eqType) (BCV : Type).
Notation rmesh := (Premesh_model.mesh [zmodType of 'rV[R]_d] L).
Variables (refined : nodes1d R -> ierror + rmesh) (K : nat) (F : nat -> 'I_d -> tpoly R).
Hypothesis fam : mesh_family refined K F.
Variables (o order overint : nat) (bcs : seq (L * (bctype * BCV))) (s : sem R d).
Hypothesis hs : sem_create eps inv refined o order bcs overint = inr s.
Let d0 : (0 < d)%N := mf_dim fam.

Record created_facts (gp gv : nodes1d R) (rp rv : rmesh) (quad : quadrature1d R) : Prop := CreatedFacts {
  cf_order : (1 < order)%N;
  cf_gp : nodes1d_create R (order - 1) GAUSS_LEGENDRE = inr gp;
  cf_gv : nodes1d_create R order.+1 GAUSS_LOBATTO_LEGENDRE = inr gv;
  cf_rp : mesh_on K F (order - 1) gp rp;
  cf_rv : mesh_on K F order.+1 gv rv;
  cf_pm : fe_mesh rp gp = inr (pm s);
  cf_vm : fe_mesh rv gv = inr (vm s);
  cf_quad : quadrature_create R order.+1 GAUSS_LOBATTO_LEGENDRE = inr quad;
  cf_ps : fespace_create eps inv (pm s) quad = inr (p_space (s_pressure s));
  cf_vs : fespace_create eps inv (vm s) quad = inr (v_space (s_velocity s));
  cf_mask : dirichlet_bc R (nv s) (m_masks rv) bcs = inr (v_mask (s_velocity s));
  cf_qqt : v_qqt (s_velocity s) = scatter_comp (vm s) (fun _ _ => 1);
  cf_pgi : p_gi (s_pressure s) = m_gi rp;
  cf_pui : p_ui (s_pressure s) = m_ui rp;
  cf_vgi : v_gi (s_velocity s) = m_gi rv;
  cf_vui : v_ui (s_velocity s) = m_ui rv;
  cf_massE : s_mass s = v_scatter (s_velocity s) (B_local eps (s_velocity s) (ones_local (s_velocity s))) }.
Lemma created : exists gp gv rp rv quad, created_facts gp gv rp rv quad.
Proof.
have [gp [gv [rp [rv [quad [og [oq [[_ o1 h1 h2] [[h3 h4 h5 h6 h7] [[h8 h9 _ _ _] [h10 h11 [h12 h13] [h14 h15] h16]]]]]]]]]]] := sem_createE hs.
by exists gp, gv, rp, rv, quad; split=> //; [apply: (mf_mesh fam _ h1)|apply: (mf_mesh fam _ h2)]; rewrite ?subn_gt0.
Qed.

Section Facts.
Variables (gp gv : nodes1d R) (rp rv : rmesh) (quad : quadrature1d R).
Hypothesis cf : created_facts gp gv rp rv quad.
Let op : (0 < order - 1)%N. Proof. by rewrite subn_gt0 (cf_order cf). Qed.
Let vE := feE (ltn0Sn _) (cf_gv cf) (cf_vm cf).
Let pE := feE op (cf_gp cf) (cf_pm cf).

Lemma masks_sizes : all (fun gm => size gm.2 == nv s) (m_masks rv).
Proof. by have [eC _ _ _] := vE; rewrite /nv /nn eC; exact: (mo_masks (cf_rv cf)). Qed.
Lemma exchanges_on n g (rm : rmesh) N : mesh_on K F n g rm -> size (m_coords rm) = N -> exchanges R N (m_gi rm) (m_ui rm) (m_node_indices rm).
Proof.
move=> mo e; split; first by rewrite (mo_indices mo).
by move=> c sc; rewrite (mo_gi mo) (mo_ui mo) /serial_exchange; case: exchange_indices_serial.
Qed.
Lemma vel_exchanges : exchanges R (nv s) (v_gi (s_velocity s)) (v_ui (s_velocity s)) (m_node_indices rv).
Proof.
rewrite (cf_vgi cf) (cf_vui cf); apply: (exchanges_on (cf_rv cf)).
by have [eC _ _ _] := vE; rewrite /nv /nn eC.
Qed.
Lemma pre_exchanges : exchanges R (np s) (p_gi (s_pressure s)) (p_ui (s_pressure s)) (m_node_indices rp).
Proof.
rewrite (cf_pgi cf) (cf_pui cf); apply: (exchanges_on (cf_rp cf)).
by have [eC _ _ _] := pE; rewrite /np /nn eC.
Qed.
Lemma facts_ok : sem_ok s.
Proof.
split.
- exact: fe_proper (ltn0Sn _) (cf_gv cf) (cf_rv cf) (cf_vm cf).
- exact: fe_proper op (cf_gp cf) (cf_rp cf) (cf_pm cf).
- by have := dirichletE R masks_sizes bcs; rewrite (cf_mask cf) => -[].
- by rewrite (cf_massE cf); apply: good_vscatter.
- by exists (m_node_indices rv); exact: vel_exchanges.
- by exists (m_node_indices rp); exact: pre_exchanges.
Qed.
Lemma mask_entry i : (i < nv s)%N -> nth 0 (v_mask (s_velocity s)) i = (~~ has (hit (m_masks rv) i) bcs)%:R.
Proof. by have := dirichletE R masks_sizes bcs; rewrite (cf_mask cf) => -[_ _]; apply. Qed.
Lemma facts_binary : mask_binary s.
Proof. by move=> i hi; rewrite mask_entry //; case: (has _ _); [left|right]. Qed.
Lemma facts_consistent : mask_consistent s.
Proof.
exists (m_node_indices rv); first exact: vel_exchanges.
have [eC _ _ _] := vE; have [sI _] := vel_exchanges.
move=> k j; rewrite sI => hk hj sk; rewrite !mask_entry //; congr (~~ _)%:R; apply: eq_has => gb; rewrite /hit.
case: gb => g [[] v] //=; case hm : (dget _ g) => [mk|] /=; last by rewrite !nth_nil.
move: sk; rewrite /shared; case: ifP => [_ /eqP -> //|_ /eqP e].
have hC : size (m_coords rv) = nv s by rewrite /nv /nn eC.
by apply: (mo_consistent (cf_rv cf) (dget_mem hm)); rewrite ?hC.
Qed.
Lemma facts_geometry : (2 < order)%N -> same_geometry s.
Proof.
move=> o2; have op1 : (1 < order - 1)%N by rewrite ltn_subRL.
have [vm' vq vnq] := fs_basic (ltn0Sn _) (cf_quad cf) (cf_vs cf).
have [pm' pq pnq] := fs_basic (ltn0Sn _) (cf_quad cf) (cf_ps cf).
have eK : num_elements (pm s) = K by apply: fe_num op (cf_gp cf) (cf_rp cf) (cf_pm cf).
split; rewrite ?vq ?pq // ?eK; first exact: fe_num (ltn0Sn _) (cf_gv cf) (cf_rv cf) (cf_vm cf).
move=> e q he; rewrite pnq => hq.
rewrite (fs_jac fam (ltn0Sn _) (cf_gv cf) (cf_rv cf) (cf_vm cf) (ltn0Sn _) (cf_quad cf) (cf_vs cf)) //; last by have := cf_order cf; lia.
by rewrite (fs_jac fam op (cf_gp cf) (cf_rp cf) (cf_pm cf) (ltn0Sn _) (cf_quad cf) (cf_ps cf)).
Qed.
(** With order 2 the pressure elements have one node. *)
Lemma facts_degenerate e q : order = 2%N -> (e < K)%N -> (q < 3 ^ d)%N -> fs_jacdets (p_space (s_pressure s)) e q = 0.
Proof.
move=> o2 he hq.
rewrite (fs_jac1 fam op (cf_gp cf) (cf_pm cf) (ltn0Sn _) (cf_quad cf) (cf_ps cf)) ?o2 //.
Qed.
(** The pressure mesh shares nothing. *)
Lemma facts_pexchange p : size p = np s -> p_exchange (s_pressure s) p = p.
Proof.
move=> sp; have [sI H] := pre_exchanges; rewrite /p_exchange H //.
apply: (@eq_from_nth _ 0).
  by rewrite /serial_exchange; case: exchange_indices_serial => gi ui; rewrite size_exchange.
have sx : size (serial_exchange (m_node_indices rp) p) = np s.
  by rewrite /serial_exchange; case: exchange_indices_serial => gi ui; rewrite size_exchange.
move=> i; rewrite sx -sI => hi; apply: C10_exchange_only_copy => //; first by rewrite sp sI.
rewrite count_uniq_mem ?mem_nth //; apply: (mo_discontinuous (cf_rp cf)).
by have [_ _ ->] := C33_gauss_nodes op (cf_gp cf).
Qed.

(** ** Collocation: the quadrature points of the velocity space are its nodes. *)
Lemma at_quad_colloc u q : (q < order.+1 ^ d)%N -> at_quad eps (vm s) (qd_nodes quad) u q = u q.
Proof.
move=> hq; have [_ _ per gE] := vE; have [np _ _ _ _] := created_grid (ltn0Sn _) (cf_gv cf).
rewrite /at_quad /interpolate size_node_list per gE np eqxx /=.
have [_ [_ [_ E]]] := C37_equality eps; have [_ hq' _] := quad_facts (ltn0Sn _) (cf_quad cf).
rewrite (E _ _ _ _ _ _ (cf_gv cf) hq') eqxx /= /node_list per (nth_map 0%N) ?size_iota //.
by rewrite nth_iota // add0n.
Qed.
(** The weight of node [n] of element [e] in the mass. *)
Definition mass_weight e n : R := fs_jacdets (v_space (s_velocity s)) e n * nth 0 (getr (weights_nd quad d)) n.
Lemma B_localE (u : larray R) e n c : (e < K)%N -> (n < order.+1 ^ d)%N -> (c < d)%N ->
  la_data (B_local eps (s_velocity s) u) e n c = la_data u e n c * mass_weight e n.
Proof.
move=> he hn hc; have [vm' vq vnq] := fs_basic (ltn0Sn _) (cf_quad cf) (cf_vs cf).
have eK : num_elements (vm s) = K by apply: fe_num (ltn0Sn _) (cf_gv cf) (cf_rv cf) (cf_vm cf).
rewrite /B_local /covector /local_covector /= !eqxx /=.
rewrite /form_integral /integrate vq vnq vm' eK sumlE (bigD1 (Ordinal he)) //= [X in _ + X]big1 ?addr0; last first.
  move=> e' ne; rewrite sumlE big1 // => q _; rewrite [vmass _ _](_ : _ = 0) ?mul0r //.
  rewrite /vmass sumlE big1 // => c' _; rewrite /arg /= /vval !nth_cat !size_map !size_iota ltn_ord.
  rewrite !(nth_map 0%N) ?size_iota // !nth_iota // /comp /= /evalpoints vq vm' !at_quad_colloc //.
  by rewrite (negbTE (ne : (e' : nat) != e)) mulr0.
rewrite sumlE (bigD1 (Ordinal hn)) //= [X in _ + X]big1 ?addr0; last first.
  move=> q nq; rewrite [vmass _ _](_ : _ = 0) ?mul0r //.
  rewrite /vmass sumlE big1 // => c' _; rewrite /arg /= /vval !nth_cat !size_map !size_iota ltn_ord.
  rewrite !(nth_map 0%N) ?size_iota // !nth_iota // /comp /= /evalpoints vq vm' !at_quad_colloc //.
  by rewrite (negbTE (nq : (q : nat) != n)) andbF mulr0.
rewrite -mulrA; congr (_ * _); rewrite /vmass sumlE (bigD1 (Ordinal hc)) //= big1 ?addr0.
  rewrite /arg /= /vval !nth_cat !size_map !size_iota hc.
  by rewrite !(nth_map 0%N) ?size_iota // !nth_iota // /comp /= /evalpoints vq vm' !at_quad_colloc // !eqxx mulr1.
move=> c' nc; rewrite /arg /= /vval !nth_cat !size_map !size_iota ltn_ord.
rewrite !(nth_map 0%N) ?size_iota // !nth_iota // /comp /= /evalpoints vq vm' !at_quad_colloc //.
by rewrite (negbTE (nc : (c' : nat) != c)) andbF mulr0.
Qed.
End Facts.
End Create.
