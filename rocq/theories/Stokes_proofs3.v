(** Proofs about the Stokes model: the inverse mass operator, E, and the
    projection. *)
From mathcomp Require Import all_ssreflect all_algebra zify ring.
From Verif Require Import PyDict_model GS_model GS_proofs GS_props Premesh_model Interp_model FES_model FES_proofs.
From Verif Require Import FES_proofs2 FES_props FES_props2 CG_model CG_proofs CG_props TimeCoef_model Stokes_model Stokes_proofs.
From Verif Require Import Stokes_proofs2.
Set Implicit Arguments.
Unset Strict Implicit.
Unset Printing Implicit Defensive.
Import Order.TTheory GRing.Theory Num.Theory.
Local Open Scope ring_scope.

(** Two nodes that the exchange adds up: the same node or equal unique ids. *)
Definition shared (ids : seq int) (k j : nat) : bool :=
  if nth 0 ids k == SENT then k == j else nth 0 ids j == nth 0 ids k.

Section Exch.
Variables (R : realFieldType) (ids : seq int).
Notation N := (size ids).
Notation ex := (serial_exchange ids).

Lemma shared_refl k : shared ids k k.
Proof. by rewrite /shared; case: ifP; rewrite ?eqxx. Qed.
Lemma shared_sym k j : shared ids k j = shared ids j k.
Proof.
rewrite /shared; case: (nth 0 ids k =P SENT) => [ek|nk]; case: (nth 0 ids j =P SENT) => [ej|nj].
- by rewrite eq_sym.
- have /negbTE -> : k != j by apply: contraPneq nj => <-.
  by have /negbTE -> : nth 0 ids k != nth 0 ids j by apply/eqP; rewrite ek => e; apply: nj.
- have /negbTE -> : j != k by apply: contraPneq nk => <-.
  by have /negbTE -> : nth 0 ids j != nth 0 ids k by apply/eqP; rewrite ej => e; apply: nk.
- by rewrite eq_sym.
Qed.
Lemma shared_trans k j i : shared ids k j -> shared ids j i = shared ids k i.
Proof.
rewrite /shared; case: (nth 0 ids k =P SENT) => [ek /eqP <-|nk /eqP e]; first by rewrite ek eqxx.
by rewrite e; case: eqP.
Qed.

Lemma ex_sum (u : seq R) k : size u = N -> (k < N)%N ->
  nth 0 (ex u) k = \sum_(j < N) (shared ids k j)%:R * nth 0 u j.
Proof.
move=> su hk; rewrite (@exchange_coef _ ids N) //; apply: eq_bigr => j _; congr (_ * _).
by rewrite /shared; case: ifP.
Qed.
Lemma ex_shared (u : seq R) k j : size u = N -> (k < N)%N -> (j < N)%N -> shared ids k j -> nth 0 (ex u) k = nth 0 (ex u) j.
Proof.
move=> su hk hj s; rewrite !ex_sum //; apply: eq_bigr => i _; by rewrite (shared_trans _ s).
Qed.

(** Arrays with the same value on shared nodes. *)
Definition consistent (w : nat -> R) : Prop := forall k j, (k < N)%N -> (j < N)%N -> shared ids k j -> w k = w j.
Definition mult (k : nat) : R := \sum_(j < N) (shared ids k j)%:R.
Lemma mult_gt0 k : (k < N)%N -> 0 < mult k.
Proof.
move=> hk; rewrite /mult (bigD1 (Ordinal hk)) //= shared_refl.
by rewrite ltr_paddr ?ltr01 // sumr_ge0 // => i _; rewrite ler0n.
Qed.
Lemma mult_consistent : consistent mult.
Proof. by move=> k j hk hj s; apply: eq_bigr => i _; rewrite (shared_trans _ s). Qed.

Lemma weighted_sym (w : nat -> R) (u v : seq R) : consistent w -> size u = N -> size v = N ->
  \sum_(k < N) w k * nth 0 (ex u) k * nth 0 v k = \sum_(k < N) w k * nth 0 (ex v) k * nth 0 u k.
Proof.
move=> cw su sv.
under eq_bigr do rewrite ex_sum // mulr_sumr mulr_suml.
under [RHS]eq_bigr do rewrite ex_sum // mulr_sumr mulr_suml.
rewrite exchange_big; apply: eq_bigr => j _; apply: eq_bigr => k _.
rewrite (shared_sym k j); case s : (shared ids j k); last by rewrite !mul0r !mulr0 !mul0r.
by rewrite (cw j k) // !mul1r mulrAC.
Qed.
Lemma weighted_square (w : nat -> R) (u : seq R) : consistent w -> size u = N ->
  \sum_(k < N) w k * nth 0 (ex u) k * nth 0 u k = \sum_(k < N) w k / mult k * nth 0 (ex u) k ^+ 2.
Proof.
move=> cw su.
have sx : size (ex u) = N.
  by rewrite /serial_exchange; case: exchange_indices_serial => gi ui; rewrite size_exchange su.
have [cw' M] : consistent (fun k => w k / mult k) /\ forall k, (k < N)%N -> nth 0 (ex (ex u)) k = mult k * nth 0 (ex u) k.
  split=> [k j hk hj s|k hk]; first by rewrite (cw _ _ hk hj s) (mult_consistent hk hj s).
  rewrite ex_sum // /mult mulr_suml; apply: eq_bigr => j _; case s : (shared ids k j); last by rewrite !mul0r.
  by rewrite (ex_shared su hk (ltn_ord j) s).
transitivity (\sum_(k < N) w k / mult k * nth 0 (ex (ex u)) k * nth 0 u k).
  apply: eq_bigr => k _; rewrite M // mulrA divfK //; apply: lt0r_neq0; exact: mult_gt0.
rewrite (weighted_sym cw') //; apply: eq_bigr => k _; by rewrite expr2 mulrA.
Qed.
End Exch.

Section Sem.
Variables (R : rcfType) (d : nat) (eps : R).
Notation sem := (sem R d).
Notation D := (@D R d eps).
Notation Dt := (@Dt R d eps).
Notation E := (@E R d eps).
Notation p_B := (@p_B R d eps).
Implicit Types (s : sem) (u v w : seq (seq R)) (p q r : seq R).

(** The mask has the same value on shared nodes. *)
Definition mask_consistent s : Prop := exists2 ids, exchanges R (nv s) (v_gi (s_velocity s)) (v_ui (s_velocity s)) ids &
  consistent ids (nth 0 (v_mask (s_velocity s))).
Definition mask_binary s : Prop := forall i, (i < nv s)%N -> nth 0 (v_mask (s_velocity s)) i = 0 \/ nth 0 (v_mask (s_velocity s)) i = 1.
(** Zero on Dirichlet nodes. *)
Definition vanishes s u : Prop := forall c i, (c < d)%N -> (i < nv s)%N -> nth 0 (v_mask (s_velocity s)) i = 0 -> ent u c i = 0.
Definition mass_positive s : Prop := forall c i, (c < d)%N -> (i < nv s)%N -> 0 < ent (s_mass s) c i.

Section Fixed.
Variables (s : sem) (ok : sem_ok s).
Notation vel := (s_velocity s).
Notation pr := (s_pressure s).

Lemma masked_inner u w : mask_binary s -> vgood s u -> vgood s w -> vanishes s u ->
  vinner d (nv s) u (v_masked vel w) = vinner d (nv s) u w.
Proof.
move=> mb gu gw vu; apply: eq_bigr => c _; apply: eq_bigr => i _; rewrite (ent_masked ok _ gw) //.
by have [m0|->] := mb _ (ltn_ord i); [rewrite (vu c i) // !mul0r|rewrite mul1r].
Qed.
Lemma vanishes_masked w : vgood s w -> vanishes s (v_masked vel w).
Proof. by move=> gw c i hc _ m0; rewrite (ent_masked ok _ gw) // m0 mul0r. Qed.
Lemma vanishes_Dt p : vanishes s (Dt s p).
Proof. apply: vanishes_masked; exact: good_vscatter. Qed.

Lemma adjoint_masked u p : same_geometry s -> mask_binary s -> vgood s u -> vanishes s u -> size p = np s ->
  pinner (np s) (D s u) p = vinner d (nv s) u (Dt s p).
Proof. move=> sg mb gu vu sp; rewrite adjoint // masked_inner //; exact: good_vscatter. Qed.

Lemma ex_mass_gt0 c i : mass_positive s -> (c < d)%N -> (i < nv s)%N -> 0 < ent (v_exchange vel (s_mass s)) c i.
Proof.
move=> mp hc hi; have [ids he] := ok_vex ok; have [si _] := he.
rewrite (ent_exch _ he (ok_mass ok) hc).
rewrite ex_sum ?si ?(good_comp (ok_mass ok) hc) // (bigD1 (Ordinal hi)) //= shared_refl mul1r.
apply: ltr_paddr; last exact: mp.
by apply: sumr_ge0 => j _; rewrite mulr_ge0 ?ler0n // ltW // mp.
Qed.

Section Ids.
Variables (ids : seq int) (he : exchanges R (nv s) (v_gi vel) (v_ui vel) ids).
Let si : size ids = nv s. Proof. by case: he. Qed.
Lemma inv_mass_consistent c : (c < d)%N -> consistent ids (fun k => (ent (v_exchange vel (s_mass s)) c k)^-1).
Proof.
move=> hc k j hk hj sk; congr (_^-1).
rewrite (ent_exch _ he (ok_mass ok) hc) (ent_exch _ he (ok_mass ok) hc).
by apply: ex_shared => //; rewrite (good_comp (ok_mass ok) hc) si.
Qed.
Lemma Bi_inner u v : vgood s u -> vgood s v ->
  vinner d (nv s) (Bi s u) v = \sum_(c < d) \sum_(k < size ids)
    (ent (v_exchange vel (s_mass s)) c k)^-1 * nth 0 (serial_exchange ids (nth [::] u c)) k * nth 0 (nth [::] v c) k.
Proof.
move=> gu gv; rewrite si; apply: eq_bigr => c _; apply: eq_bigr => i _.
by rewrite (ent_Bi ok gu) // (ent_exch _ he gu).
Qed.
End Ids.

Lemma Bi_sym u v : vgood s u -> vgood s v -> vinner d (nv s) (Bi s u) v = vinner d (nv s) (Bi s v) u.
Proof.
move=> gu gv; have [ids he] := ok_vex ok; have [si _] := he; rewrite !(Bi_inner he) //.
apply: eq_bigr => c _; apply: (weighted_sym (w := fun k => (ent (v_exchange vel (s_mass s)) c k)^-1)).
- exact: (inv_mass_consistent he).
- by rewrite (good_comp gu) // si.
- by rewrite (good_comp gv) // si.
Qed.
Lemma Bi_ge0 u : mass_positive s -> vgood s u -> 0 <= vinner d (nv s) (Bi s u) u.
Proof.
move=> mp gu; have [ids he] := ok_vex ok; have [si _] := he; rewrite !(Bi_inner he) //.
apply: sumr_ge0 => c _; rewrite (weighted_square (w := fun k => (ent (v_exchange vel (s_mass s)) c k)^-1)).
- apply: sumr_ge0 => k _; rewrite mulr_ge0 ?sqr_ge0 // divr_ge0 //.
    rewrite invr_ge0 ltW // ex_mass_gt0 //; case: k => k /=; by rewrite si.
  by rewrite ltW // mult_gt0.
- exact: (inv_mass_consistent he).
- by rewrite (good_comp gu) // si.
Qed.
Lemma vanishes_Bi u : mask_consistent s -> vgood s u -> vanishes s u -> vanishes s (Bi s u).
Proof.
move=> [ids he mc] gu vu c i hc hi m0; have [si _] := he.
rewrite (ent_Bi ok gu) // (ent_exch _ he gu) // ex_sum ?si ?(good_comp gu hc) //.
rewrite big1 ?mulr0 // => j _; case sk : (shared ids i j); last by rewrite mul0r.
rewrite (_ : nth 0 _ j = ent u c j) // vu ?mulr0 //; by rewrite -(mc i j) // si.
Qed.
Lemma vinnerZ (a : R) u v : vinner d (nv s) (tree_scale a u) v = a * vinner d (nv s) u v.
Proof.
rewrite /vinner mulr_sumr; apply: eq_bigr => c _; rewrite mulr_sumr; apply: eq_bigr => i _.
by rewrite ent_scale mulrA.
Qed.
Lemma good_Q dt beta u : vgood s u -> vgood s (Q s dt beta u).
Proof. by move=> gu; apply: good_scale; apply: good_Bi. Qed.

Lemma E_inner dt beta p q : same_geometry s -> mask_binary s -> mask_consistent s -> size p = np s -> size q = np s ->
  pinner (np s) (E s dt beta p) q = dt / beta * vinner d (nv s) (Bi s (Dt s p)) (Dt s q).
Proof.
move=> sg mb mc sp sq; have gp := good_Dt eps ok p.
rewrite adjoint_masked //; first by rewrite vinnerZ.
- exact: good_Q.
- move=> c i hc hi m0; rewrite ent_scale (vanishes_Bi mc gp) ?mulr0 //; exact: vanishes_Dt.
Qed.
End Fixed.
End Sem.
