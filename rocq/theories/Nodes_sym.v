(** The created nodes are symmetric about 0, increasing, in [-1, 1]. *)
From mathcomp Require Import all_ssreflect all_algebra polyrcf zify ring.
From Verif Require Import Interp_model Interp_spec Legendre_proofs Gauss_proofs Gauss_proofs2 Interp_proofs2.
Set Implicit Arguments.
Unset Strict Implicit.
Unset Printing Implicit Defensive.
Import Order.TTheory GRing.Theory Num.Theory.
Local Open Scope ring_scope.

Section Sym.
Variable R : rcfType.
Notation P := (legendre R).

(** A sorted list closed under negation is symmetric. *)
Lemma closed_sym (xs : seq R) : sorted <%R xs -> (forall x, x \in xs -> - x \in xs) -> rev [seq - x | x <- xs] = xs.
Proof.
move=> so cl; apply: (sorted_eq (leT := <%R)).
- exact: lt_trans.
- by move=> x y /andP[a b]; move: (lt_trans a b); rewrite ltxx.
- rewrite rev_sorted sorted_map; apply: sub_sorted so => x y /=; by rewrite ltr_opp2.
- exact: so.
apply: uniq_perm.
- by rewrite rev_uniq map_inj_uniq ?(sorted_uniq lt_trans ltxx) //; apply: oppr_inj.
- exact: (sorted_uniq lt_trans ltxx).
move=> x; rewrite mem_rev; apply/mapP/idP => [[y yx ->]|xx]; first exact: cl.
by exists (- x); [apply: cl | rewrite opprK].
Qed.
Lemma nth_sym (xs : seq R) i : rev [seq - x | x <- xs] = xs -> (i < size xs)%N -> nth 0 xs ((size xs).-1 - i) = - nth 0 xs i.
Proof.
move=> e; rewrite -[X in nth 0 X (_ - _)]e; move: (size_map -%R xs); rewrite -/(size xs).
move=> sz il; have k1 : ((size xs).-1 - i < size xs)%N by rewrite (leq_ltn_trans (leq_subr _ _)) // prednK ?(leq_ltn_trans _ il).
rewrite nth_rev ?sz //.
have -> : (size xs - ((size xs).-1 - i).+1 = i)%N.
  by move: (size xs) il => k; lia.
by rewrite (nth_map 0).
Qed.

Lemma leg_refl n x : (P n).[- x] = (-1) ^+ n * (P n).[x].
Proof.
suff: (P n).[- x] = (-1) ^+ n * (P n).[x] /\ (P n.+1).[- x] = (-1) ^+ n.+1 * (P n.+1).[x] by case.
elim: n => [|n [IH1 IH2]]; first by rewrite legendre0 legendre1 !hornerC !hornerX expr1 mul1r mulN1r.
split=> //; rewrite legendreSS !hornerZ !hornerD !hornerN !hornerZ !hornerM !hornerX IH1 IH2 !exprS.
move: (_%:R^-1) (n.*2 + 3)%:R n.+1%:R ((-1) ^+ n) (legendre R n).[x] (legendre R n.+1).[x] => a b c e p q; ring.
Qed.
Lemma dleg_refl n x : (P n)^`().[- x] = - (-1) ^+ n * (P n)^`().[x].
Proof.
have E : P n \Po - 'X = (-1) ^+ n *: P n.
  apply/eqP; rewrite -subr_eq0; apply/eqP/many_roots => y _.
  by rewrite hornerD hornerN horner_comp hornerZ hornerN hornerX leg_refl subrr.
have := congr1 (fun p => p^`().[x]) E; rewrite /= deriv_comp derivZ derivN derivX hornerM horner_comp !hornerN hornerX hornerC hornerZ.
by rewrite mulrN1 => /eqP; rewrite eqr_oppLR => /eqP->; rewrite mulNr.
Qed.

Lemma roots_sym (p : {poly R}) c x : (forall x, p.[- x] = c * p.[x]) -> x \in roots p (-1) 1 -> - x \in roots p (-1) 1.
Proof.
move=> e; have [->|p0] := eqVneq p 0; first by rewrite roots0.
move=> xr; apply: root_in_roots => //.
  by have /itvP i := roots_in xr; rewrite in_itv /= ltr_oppl opprK ltr_oppl !i.
by apply/rootP; rewrite e (rootP (root_roots xr)) mulr0.
Qed.
Lemma gl_sym n x : x \in leggauss_nodes R n -> - x \in leggauss_nodes R n.
Proof. by apply: roots_sym (leg_refl n). Qed.
Lemma gll_sym N x : x \in gll_nodes R N -> - x \in gll_nodes R N.
Proof.
rewrite /gll_nodes !inE !mem_cat !inE => /or3P[/eqP->|h|/eqP->].
- by rewrite opprK eqxx !orbT.
- by rewrite (roots_sym (dleg_refl N.+1) h) ?orbT.
- by rewrite eqxx.
Qed.

Theorem created_symmetric n t g : (1 < n)%N -> nodes1d_create R n t = inr g ->
  forall i, (i < n)%N -> nth 0 (nd_values g) (n.-1 - i) = - nth 0 (nd_values g) i.
Proof.
move=> n1 cg; case: t cg => //=.
- move=> [<-] i il /=; rewrite !nth_nc //; last by lia.
  have h : n.-1%:R != 0 :> R by rewrite pnatr_eq0; lia.
  rewrite natrB; last by lia.
  by rewrite mulrBl mulrCA mulfV // mulr1; ring.
- rewrite gtn_eqF; last by lia.
  move=> [<-] i il /=; have e := closed_sym (gl_sorted R n) (@gl_sym n).
  by have := nth_sym e; rewrite size_leggauss; apply.
- case: n n1 => [|[|N]] // _.
  have := gll_create R N; rewrite /nodes1d_create => -> [<-] i il.
  have e := closed_sym (@gll_sorted R N) (@gll_sym N).
  by have := nth_sym e; rewrite gll_size; apply.
Qed.
End Sym.
