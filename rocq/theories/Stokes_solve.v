(** The operators of the two linear solves of a time step, as operators on the
    trees of [cg]. *)
From mathcomp Require Import all_ssreflect all_algebra zify ring.
From Verif Require Import GS_model GS_proofs GS_props Interp_model FES_model FES_proofs FES_props.
From Verif Require Import CG_model CG_proofs CG_props TimeCoef_model Stokes_model Stokes_proofs Stokes_proofs2 Stokes_proofs3 Stokes_proofs4.
Set Implicit Arguments.
Unset Strict Implicit.
Unset Printing Implicit Defensive.
Import Order.TTheory GRing.Theory Num.Theory.
Local Open Scope ring_scope.

Section Sem.
Variables (R : rcfType) (d : nat) (eps : R) (s : sem R d).
Hypothesis ok : sem_ok s.
Notation vel := (s_velocity s).
Notation pr := (s_pressure s).
Notation D := (@D R d eps s).
Notation Dt := (@Dt R d eps s).
Notation A := (@A R d eps s).
Notation E := (@Stokes_model.E R d eps s).
Notation H := (@H R d eps s).
Implicit Types (u v w : seq (seq R)) (p q r : seq R).

(** ** Linearity *)
Lemma ent_beyond u c i : vgood s u -> (nv s <= i)%N -> ent u c i = 0.
Proof.
move=> gu hi; case: (ltnP c d) => hc; last exact: (ent_out _ gu hc).
by rewrite /ent nth_default // (good_comp gu hc).
Qed.
Lemma exch_lin a u v w c i : vgood s u -> vgood s v -> vgood s w -> (forall c i, ent w c i = a * ent u c i + ent v c i) ->
  ent (v_exchange vel w) c i = a * ent (v_exchange vel u) c i + ent (v_exchange vel v) c i.
Proof.
move=> gu gv gw e; have [gu' gv' gw'] := And3 (good_exch gu) (good_exch gv) (good_exch gw).
case: (ltnP c d) => hc; last by rewrite (ent_out _ gw' hc) (ent_out _ gu' hc) (ent_out _ gv' hc) mulr0 addr0.
case: (ltnP i (nv s)) => hi; last by rewrite (ent_beyond _ gw' hi) (ent_beyond _ gu' hi) (ent_beyond _ gv' hi) mulr0 addr0.
have [ids he] := ok_vex ok; have [si _] := he.
rewrite (ent_exch _ he gw hc) (ent_exch _ he gu hc) (ent_exch _ he gv hc) !ex_sum ?si ?(good_comp gu hc) ?(good_comp gv hc) ?(good_comp gw hc) //.
rewrite mulr_sumr -big_split /=; apply: eq_bigr => j _.
by rewrite -[nth 0 (nth _ w c) j]/(ent w c j) e mulrDr mulrCA.
Qed.
Lemma Bi_lin a u v w c i : vgood s u -> vgood s v -> vgood s w -> (forall c i, ent w c i = a * ent u c i + ent v c i) ->
  ent (Bi s w) c i = a * ent (Bi s u) c i + ent (Bi s v) c i.
Proof.
move=> gu gv gw e; have [gu' gv' gw'] := And3 (good_Bi ok gu) (good_Bi ok gv) (good_Bi ok gw).
case: (ltnP c d) => hc; last by rewrite (ent_out _ gw' hc) (ent_out _ gu' hc) (ent_out _ gv' hc) mulr0 addr0.
case: (ltnP i (nv s)) => hi; last by rewrite (ent_beyond _ gw' hi) (ent_beyond _ gu' hi) (ent_beyond _ gv' hi) mulr0 addr0.
by rewrite !(ent_Bi ok) // (exch_lin c i gu gv gw e) mulrDr mulrCA.
Qed.
Lemma scal (a b x y : R) : b * (a * x + y) = a * (b * x) + b * y.
Proof. by rewrite mulrDr mulrCA. Qed.
Lemma E_lin dt beta a p q r i : size p = np s -> size q = np s -> size r = np s ->
  (forall i, nth 0 r i = a * nth 0 p i + nth 0 q i) ->
  nth 0 (E dt beta r) i = a * nth 0 (E dt beta p) i + nth 0 (E dt beta q) i.
Proof.
move=> sp sq sr e; have gD x := good_Dt eps ok x; have gQ x := good_Q ok dt beta (gD x).
have eD c j : ent (Dt r) c j = a * ent (Dt p) c j + ent (Dt q) c j by apply: (Dt_lin eps ok); rewrite ?sp ?sq ?sr.
have eB c j := Bi_lin c j (gD p) (gD q) (gD r) eD.
have eQ c j : ent (Q s dt beta (Dt r)) c j = a * ent (Q s dt beta (Dt p)) c j + ent (Q s dt beta (Dt q)) c j.
  have eS x : ent (Q s dt beta (Dt x)) c j = dt / beta * ent (Bi s (Dt x)) c j := ent_scale _ _ _ _.
  apply: (etrans (eS r)); apply: (etrans (congr1 ( *%R (dt / beta)) (eB c j))).
  apply: (etrans _ (esym (congr2 (fun x y => a * x + y) (eS p) (eS q)))).
  exact: scal.
rewrite /Stokes_model.E; exact: (D_lin eps ok i (gQ p) (gQ q) (gQ r) eQ).
Qed.
Definition E_tree (dt beta : R) (t : tree R) : tree R := [:: E dt beta (head [::] t)].
Lemma one_leaf (t : tree R) : good [:: np s] t -> exists2 p, t = [:: p] & size p = np s.
Proof. by case: t => [|p [|x t]] //= [e]; exists p. Qed.
Lemma size_E dt beta p : size (E dt beta p) = np s.
Proof. exact: size_D. Qed.
Lemma leaf_comb a (x y z : seq R) : size x = np s -> size y = np s ->
  (size z = np s /\ forall i, nth 0 z i = a * nth 0 x i + nth 0 y i) <-> [:: z] = tree_add (tree_scale a [:: x]) [:: y].
Proof.
move=> sx sy; have m1 : size [seq a * y | y <- x] = np s by rewrite size_map.
rewrite -[tree_add _ _]/[:: map2 +%R [seq a * y | y <- x] y]; split=> [[sz e]|[->]].
  congr [:: _]; apply: (@eq_from_nth _ 0); first by rewrite sz size_map2 ?m1 ?sy.
  by move=> i _; rewrite e nth_map2d ?addr0 ?m1 // nth_scale.
by rewrite size_map2 ?m1 //; split=> // i; rewrite nth_map2d ?addr0 ?m1 // nth_scale.
Qed.
Lemma E_tree_linear dt beta : tree_linear [:: np s] (E_tree dt beta).
Proof.
have sE x := size_E dt beta x.
split=> [t /one_leaf[p -> sp]|a t1 t2 /one_leaf[p -> sp] /one_leaf[q -> sq]].
  by rewrite /good /shape /= sE.
rewrite /E_tree -[head [::] [:: p]]/p -[head [::] [:: q]]/q.
have [_ {}/(_ erefl)] := @leaf_comb a p q (head [::] (tree_add (tree_scale a [:: p]) [:: q])) sp sq.
move: (head _ _) => z [sz e]; apply/(leaf_comb a _ (sE p) (sE q)); split=> [|i]; first exact: sE.
exact: (E_lin dt beta i sp sq sz e).
Qed.
Lemma good_H beta dt mu v : vgood s v -> vgood s (H beta dt mu v).
Proof. by move=> gv; apply: good_add; apply: good_scale; [exact: good_B|exact: good_A]. Qed.
Lemma ent_H beta dt mu v c i : vgood s v -> ent (H beta dt mu v) c i = beta / dt * ent (B s v) c i + mu * ent (A v) c i.
Proof.
move=> gv; rewrite (ent_add _ _ (good_scale _ (good_B ok gv)) (good_scale _ (good_A _ ok v))).
by rewrite !ent_scale.
Qed.
Lemma H_lin beta dt mu a u v w c i : vgood s u -> vgood s v -> vgood s w -> (forall c i, ent w c i = a * ent u c i + ent v c i) ->
  ent (H beta dt mu w) c i = a * ent (H beta dt mu u) c i + ent (H beta dt mu v) c i.
Proof.
move=> gu gv gw e.
have eB := B_lin ok c i gu gv gw e; have eA := A_lin eps ok c i gu gv gw e.
apply: (etrans (ent_H beta dt mu c i gw)).
apply: (etrans _ (esym (congr2 (fun x y => a * x + y) (ent_H beta dt mu c i gu) (ent_H beta dt mu c i gv)))).
by apply: (etrans (congr2 (fun x y => beta / dt * x + mu * y) eB eA)); ring.
Qed.
Lemma H_linear beta dt mu : tree_linear (nseq d (nv s)) (H beta dt mu).
Proof.
split=> [u gu|a u v gu gv]; first exact: good_H.
have gw := good_add (good_scale a gu) gv.
apply: (good_eq (good_H _ _ _ gw) (good_add (good_scale a (good_H _ _ _ gu)) (good_H _ _ _ gv))) => c i hc hi.
rewrite (ent_add _ _ (good_scale a (good_H _ _ _ gu)) (good_H _ _ _ gv)) ent_scale.
by apply: (H_lin _ _ _ _ _ gu gv gw) => c' i'; rewrite (ent_add _ _ (good_scale a gu) gv) ent_scale.
Qed.
End Sem.
