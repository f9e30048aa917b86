(** Units of the operators, and the instances of the scan. *)
From Coq Require Import List ZArith Bool Lia ZifyBool SpecFloat Permutation.
From Verif Require Import Groups_model Groups_proofs Pscan_model Pscan_spec Pscan_proofs Crystal_proofs2.
Import ListNotations.
Open Scope Z_scope.
Ltac Zify.zify_post_hook ::= Z.div_mod_to_equations.

(** ** Integers *)
Definition irange (signed : bool) (w z : Z) : Prop := imin signed w <= z <= imax signed w.
Definition iwidth_ok (signed : bool) (w : Z) : Prop := if signed then 2 <= w else 1 <= w.

Lemma pow2_split w : 1 <= w -> 2 ^ w = 2 * 2 ^ (w - 1) /\ 0 < 2 ^ (w - 1).
Proof.
  intro H. split; [|apply Z.pow_pos_nonneg; lia].
  replace w with (1 + (w - 1)) at 1 by lia. rewrite Z.pow_add_r by lia. reflexivity.
Qed.

Lemma iwrap_range s w z : 1 <= w -> irange s w (iwrap s w z).
Proof.
  intro Hw. destruct (pow2_split w Hw) as (E & Hp). unfold irange, imin, imax, iwrap.
  destruct s.
  - pose proof (Z.mod_pos_bound (z + 2 ^ (w - 1)) (2 ^ w)). lia.
  - pose proof (Z.mod_pos_bound z (2 ^ w)). lia.
Qed.

Lemma iwrap_id s w z : 1 <= w -> irange s w z -> iwrap s w z = z.
Proof.
  intros Hw. destruct (pow2_split w Hw) as (E & Hp). unfold irange, imin, imax, iwrap. destruct s; intro H.
  - rewrite Z.mod_small by lia. lia.
  - apply Z.mod_small. lia.
Qed.

Lemma iwrap_congr s w a b : 1 <= w -> (a mod 2 ^ w = b mod 2 ^ w) -> iwrap s w a = iwrap s w b.
Proof.
  intros Hw H. destruct (pow2_split w Hw) as (E & Hp). unfold iwrap. destruct s; auto.
  f_equal. rewrite <- (Z.add_mod_idemp_l a), H, Z.add_mod_idemp_l by lia. reflexivity.
Qed.

Lemma iwrap_mod s w a : 1 <= w -> iwrap s w a mod 2 ^ w = a mod 2 ^ w.
Proof.
  intro Hw. destruct (pow2_split w Hw) as (E & Hp). unfold iwrap. destruct s.
  - rewrite Zminus_mod_idemp_l. f_equal. lia.
  - apply Z.mod_mod. lia.
Qed.

Lemma irange_shiftr s w z : 1 <= w ->
  irange s w z <-> (if s then Z.shiftr z (w - 1) = 0 \/ Z.shiftr z (w - 1) = -1 else Z.shiftr z w = 0).
Proof.
  intro Hw. destruct (pow2_split w Hw) as (E & Hp). unfold irange, imin, imax. destruct s.
  - rewrite Z.shiftr_div_pow2 by lia. set (p := 2 ^ (w - 1)) in *. split; intro H.
    + destruct (Z_le_gt_dec 0 z); [left; apply Z.div_small; lia | right].
      symmetry. apply Z.div_unique with (z + p); lia.
    + assert (z = p * (z / p) + z mod p) by (apply Z.div_mod; lia).
      pose proof (Z.mod_pos_bound z p). destruct H as [H|H]; rewrite H in *; lia.
  - rewrite Z.shiftr_div_pow2 by lia. set (p := 2 ^ w) in *. split; intro H.
    + apply Z.div_small; lia.
    + assert (z = p * (z / p) + z mod p) by (apply Z.div_mod; lia).
      pose proof (Z.mod_pos_bound z p). rewrite H in *; lia.
Qed.

Lemma land_ones_range w z : 1 <= w -> irange false w z -> Z.land (2 ^ w - 1) z = z.
Proof.
  intros Hw H. destruct (pow2_split w Hw) as (E & Hp).
  replace (2 ^ w - 1) with (Z.ones w) by (rewrite Z.ones_equiv; lia).
  rewrite Z.land_comm, Z.land_ones by lia. apply Z.mod_small. unfold irange, imin, imax in H. lia.
Qed.

Lemma int_monoid s w o : iwidth_ok s w -> monoid_on (irange s w) (isem s w o) (iunit s w o).
Proof.
  intro Hok. assert (Hw : 1 <= w) by (destruct s; cbn in Hok; lia).
  destruct (pow2_split w Hw) as (E & Hp).
  assert (R0 : irange s w 0) by (unfold irange, imin, imax; destruct s; lia).
  assert (R1 : irange s w 1).
  { unfold irange, imin, imax. destruct s; cbn in Hok; try lia. destruct (pow2_split (w - 1)) as (E' & Hp'); lia. }
  destruct o; cbn [isem iunit].
  - constructor; auto.
    + intros. now apply iwrap_range.
    + intros x y z _ _ _. apply iwrap_congr; auto.
      rewrite <- (Z.add_mod_idemp_r x), iwrap_mod, Z.add_mod_idemp_r by lia.
      rewrite <- (Z.add_mod_idemp_l (iwrap s w (x + y))), iwrap_mod, Z.add_mod_idemp_l by lia. f_equal. lia.
    + intros x Hx. now apply iwrap_id.
    + intros x Hx. rewrite Z.add_0_r. now apply iwrap_id.
  - constructor; auto.
    + intros. now apply iwrap_range.
    + intros x y z _ _ _. apply iwrap_congr; auto.
      rewrite <- (Z.mul_mod_idemp_r x), iwrap_mod, Z.mul_mod_idemp_r by lia.
      rewrite <- (Z.mul_mod_idemp_l (iwrap s w (x * y))), iwrap_mod, Z.mul_mod_idemp_l by lia. f_equal. ring.
    + intros x Hx. rewrite Z.mul_1_l. now apply iwrap_id.
    + intros x Hx. rewrite Z.mul_1_r. now apply iwrap_id.
  - unfold irange. constructor; intros; unfold imin, imax in *; destruct s; lia.
  - unfold irange. constructor; intros; unfold imin, imax in *; destruct s; lia.
  - constructor.
    + unfold irange, imin, imax; destruct s; change (Z.lnot 0) with (-1); lia.
    + intros x y Hx Hy. apply irange_shiftr in Hx, Hy; auto. apply irange_shiftr; auto.
      destruct s; rewrite Z.shiftr_land.
      * destruct Hx as [->| ->], Hy as [->| ->]; cbn; auto.
      * now rewrite Hx.
    + intros. now rewrite Z.land_assoc.
    + intros x Hx. destruct s; [apply Z.land_m1_l | now apply land_ones_range].
    + intros x Hx. rewrite Z.land_comm. destruct s; [apply Z.land_m1_l | now apply land_ones_range].
  - constructor; auto.
    + intros x y Hx Hy. apply irange_shiftr in Hx, Hy; auto. apply irange_shiftr; auto.
      destruct s; rewrite Z.shiftr_lor.
      * destruct Hx as [->| ->], Hy as [->| ->]; cbn; auto.
      * now rewrite Hx, Hy.
    + intros. now rewrite Z.lor_assoc.
    + intros x Hx. apply Z.lor_0_r.
  - constructor; auto.
    + intros x y Hx Hy. apply irange_shiftr in Hx, Hy; auto. apply irange_shiftr; auto.
      destruct s; rewrite Z.shiftr_lxor.
      * destruct Hx as [->| ->], Hy as [->| ->]; cbn; auto.
      * now rewrite Hx, Hy.
    + intros. now rewrite Z.lxor_assoc.
    + intros x Hx. apply Z.lxor_0_r.
Qed.

Lemma bool_monoid o : monoid_on (fun _ => True) (bsem o) (bunit o).
Proof.
  constructor; intros; destruct o; cbn; auto;
    repeat match goal with b : bool |- _ => destruct b end; reflexivity.
Qed.

(** ** Floats *)
Section Floats.
Variables (prec emax : Z).
Hypothesis Hprec : 1 < prec.
Hypothesis Hemax : prec < emax.

Lemma digits_bounds p : 2 ^ (Zpos (digits2_pos p) - 1) <= Zpos p < 2 ^ Zpos (digits2_pos p).
Proof.
  assert (S : forall q : positive, Zpos (Pos.succ q) = Zpos q + 1) by (intro; lia).
  induction p; cbn [digits2_pos].
  - rewrite S. destruct (pow2_split (Z.pos (digits2_pos p) + 1)) as (E & _); [lia|].
    destruct (pow2_split (Z.pos (digits2_pos p))) as (E' & _); [lia|].
    replace (Z.pos (digits2_pos p) + 1 - 1) with (Z.pos (digits2_pos p)) in * by lia. lia.
  - rewrite S. destruct (pow2_split (Z.pos (digits2_pos p) + 1)) as (E & _); [lia|].
    destruct (pow2_split (Z.pos (digits2_pos p))) as (E' & _); [lia|].
    replace (Z.pos (digits2_pos p) + 1 - 1) with (Z.pos (digits2_pos p)) in * by lia. lia.
  - cbn. lia.
Qed.

Lemma bounded_facts m e : bounded prec emax m e = true ->
  Zpos (digits2_pos m) <= prec /\ e <= emax - prec /\ SpecFloat.fexp prec emax (Zpos (digits2_pos m) + e) = e.
Proof.
  unfold bounded, canonical_mantissa. intro H. apply andb_prop in H as (H1 & H2).
  apply Zeq_bool_eq in H1. apply Zle_bool_imp_le in H2. split; [|split; auto].
  unfold fexp in H1. lia.
Qed.

Lemma pcompare_lt a b : Zpos a < Zpos b -> Pos.compare_cont Eq a b = Lt.
Proof. intro. apply Pos.compare_lt_iff. lia. Qed.
Lemma pcompare_ge a b : Zpos b <= Zpos a -> Pos.compare_cont Eq a b = Gt \/ (a = b /\ Pos.compare_cont Eq a b = Eq).
Proof.
  intro. change (Pos.compare_cont Eq a b) with (Pos.compare a b). destruct (Pos.compare_spec a b); auto.
  lia.
Qed.

Lemma finfo_mantissa : Zpos (Z.to_pos (2 ^ prec - 1)) = 2 ^ prec - 1.
Proof. destruct (pow2_split prec) as (E & H); [lia|]. rewrite Z2Pos.id; lia. Qed.

Lemma mant_le m e : bounded prec emax m e = true -> Zpos m <= 2 ^ prec - 1.
Proof.
  intro H. apply bounded_facts in H as (H & _ & _). pose proof (digits_bounds m).
  assert (2 ^ Z.pos (digits2_pos m) <= 2 ^ prec) by (apply Z.pow_le_mono_r; lia). lia.
Qed.

Definition is_inf (x : spec_float) (neg : bool) : bool :=
  match x with S754_infinity s => Bool.eqb s neg | _ => false end.

Lemma Zcmp_le e1 e2 : e1 <= e2 -> (e1 ?= e2) = Lt \/ (e1 = e2 /\ (e1 ?= e2) = Eq).
Proof. intro. destruct (Z.compare_spec e1 e2); auto. lia. Qed.

Lemma fmax_unit_ok x : valid_binary prec emax x = true -> is_inf x true = false ->
  fmax (finfo_min prec emax) x = x /\ fmax x (finfo_min prec emax) = x.
Proof.
  intros V I. destruct x as [s|s| |s m e]; cbn in I; try (destruct s; try discriminate; cbn; auto; fail); auto.
  cbn in V. pose proof (mant_le m e V) as Hm. pose proof (bounded_facts m e V) as (_ & He & _).
  destruct s.
  2:{ cbn. auto. }
  unfold finfo_min, finfo_max, SFopp, fmax, negb. unfold SFltb, SFcompare.
  rewrite (Z.compare_antisym e (emax - prec)).
  destruct (Zcmp_le _ _ He) as [C|(Ee & C)]; rewrite C; cbn [CompOpp]; [auto|].
  destruct (pcompare_ge (Z.to_pos (2 ^ prec - 1)) m) as [D|(Em & D)]; [rewrite finfo_mantissa; auto| |]; rewrite D; cbn [CompOpp].
  - split; auto. assert (L : Pos.compare_cont Eq m (Z.to_pos (2 ^ prec - 1)) = Lt).
    { apply Pos.compare_gt_iff in D. apply Pos.compare_lt_iff. auto. }
    rewrite L. cbn. auto.
  - subst m e. rewrite D. cbn. auto.
Qed.

Lemma fmin_unit_ok x : valid_binary prec emax x = true -> is_inf x false = false ->
  fmin (finfo_max prec emax) x = x /\ fmin x (finfo_max prec emax) = x.
Proof.
  intros V I. destruct x as [s|s| |s m e]; cbn in I; try (destruct s; try discriminate; cbn; auto; fail); auto.
  cbn in V. pose proof (mant_le m e V) as Hm. pose proof (bounded_facts m e V) as (_ & He & _).
  destruct s.
  1:{ cbn. auto. }
  unfold finfo_max, fmin. unfold SFltb, SFcompare.
  rewrite (Z.compare_antisym e (emax - prec)).
  destruct (Zcmp_le _ _ He) as [C|(Ee & C)]; rewrite C; cbn [CompOpp]; [auto|].
  destruct (pcompare_ge (Z.to_pos (2 ^ prec - 1)) m) as [D|(Em & D)]; [rewrite finfo_mantissa; auto| |]; rewrite D.
  - split; auto. assert (L : Pos.compare_cont Eq m (Z.to_pos (2 ^ prec - 1)) = Lt).
    { apply Pos.compare_gt_iff in D. apply Pos.compare_lt_iff. auto. }
    rewrite L. cbn. auto.
  - subst m e. rewrite D. cbn. auto.
Qed.

Lemma fadd_unit_ok x : x <> S754_zero true ->
  SFadd prec emax (S754_zero false) x = x /\ SFadd prec emax x (S754_zero false) = x.
Proof. intros H. destruct x as [[]|[]| |[]]; cbn; auto. now elim H. Qed.

Lemma fadd_unit_negzero :
  SFadd prec emax (S754_zero false) (S754_zero true) = S754_zero false /\
  SFadd prec emax (S754_zero true) (S754_zero false) = S754_zero false /\
  SFeqb (S754_zero false) (S754_zero true) = true.
Proof. cbn. auto. Qed.

(** Multiplication by one is exact. *)
Lemma digits_double p : digits2_pos (xO p) = Pos.succ (digits2_pos p).
Proof. reflexivity. Qed.

Lemma digits_shift n m : digits2_pos (Pos.iter xO m n) = (match n with _ => digits2_pos m + n end)%positive.
Proof.
  induction n using Pos.peano_ind; [cbn; lia|]. rewrite Pos.iter_succ. cbn [digits2_pos]. lia.
Qed.

Lemma iter_pos_iter {A} (f : A -> A) n x : iter_pos f n x = Pos.iter f x n.
Proof.
  revert x. induction n; intro x; cbn; auto.
  - rewrite !IHn. rewrite <- !Pos.iter_swap. reflexivity.
  - now rewrite !IHn.
Qed.

Lemma shr_shift n m : Pos.iter shr_1 {| shr_m := Zpos (Pos.iter xO m n); shr_r := false; shr_s := false |} n
   = {| shr_m := Zpos m; shr_r := false; shr_s := false |}.
Proof.
  induction n using Pos.peano_ind; [reflexivity|].
  rewrite Pos.iter_succ_r, Pos.iter_succ. exact IHn.
Qed.

Lemma iter_xO_mul n m : Zpos (Pos.iter xO m n) = 2 ^ Zpos n * Zpos m.
Proof.
  induction n using Pos.peano_ind; [cbn [Pos.iter]; lia|].
  rewrite Pos.iter_succ. rewrite Pos2Z.inj_succ, Z.pow_succ_r by lia. lia.
Qed.

Lemma round_exact s m e n : bounded prec emax m e = true ->
  binary_round_aux prec emax s (Zpos (Pos.iter xO m n)) (e - Zpos n) loc_Exact = S754_finite s m e.
Proof.
  intro B. pose proof (bounded_facts m e B) as (_ & He & F).
  unfold binary_round_aux, shr_fexp. cbn [Zdigits2 shr_record_of_loc]. rewrite digits_shift.
  replace (Z.pos (digits2_pos m + n) + (e - Z.pos n)) with (Z.pos (digits2_pos m) + e) by lia.
  rewrite F. replace (e - (e - Z.pos n)) with (Z.pos n) by lia. cbn [shr].
  rewrite iter_pos_iter, shr_shift. cbn [shr_m loc_of_shr_record round_nearest_even Zdigits2].
  replace (e - Z.pos n + Z.pos n) with e by lia. rewrite F.
  replace (e - e) with 0 by lia. cbn [shr shr_m].
  destruct (Zle_bool e (emax - prec)) eqn:L; auto. apply Z.leb_gt in L. lia.
Qed.

Lemma fmul_unit_ok x : valid_binary prec emax x = true ->
  SFmul prec emax (fone prec) x = x /\ SFmul prec emax x (fone prec) = x.
Proof.
  intro V. destruct x as [[]|[]| |s m e]; try (cbn; auto; fail).
  cbn in V. set (n := Z.to_pos (prec - 1)).
  assert (En : Zpos n = prec - 1) by (unfold n; rewrite Z2Pos.id; lia).
  assert (E1 : Z.to_pos (2 ^ (prec - 1)) = Pos.iter xO xH n).
  { pose proof (iter_xO_mul n 1). rewrite En in H. rewrite Z.mul_1_r in H. rewrite <- H. reflexivity. }
  assert (E2 : (Z.to_pos (2 ^ (prec - 1)) * m)%positive = Pos.iter xO m n).
  { apply Pos2Z.inj. rewrite Pos2Z.inj_mul, E1, !iter_xO_mul. lia. }
  unfold SFmul, fone. split.
  - rewrite E2. replace (1 - prec + e) with (e - Zpos n) by lia. rewrite round_exact by auto. now destruct s.
  - rewrite (Pos.mul_comm m), E2. replace (e + (1 - prec)) with (e - Zpos n) by lia. rewrite round_exact by auto. now destruct s.
Qed.
End Floats.

(** ** Leaves *)
Section Leaves.
Context {X : Type}.
Variables (ok : X -> Prop) (op : X -> X -> X) (e : X) (L : nat).
Hypothesis M : monoid_on ok op e.

Definition leaves_ok (l : list X) : Prop := length l = L /\ Forall ok l.

Lemma list_op_nth l l' i d : length l = length l' -> (i < length l)%nat ->
  nth i (list_op op l l') d = op (nth i l d) (nth i l' d).
Proof.
  intros E Hi. unfold list_op. set (f := fun ab : X * X => _).
  rewrite nth_indep with (d' := f (d, d)) by (rewrite map_length, combine_length; lia).
  rewrite map_nth, combine_nth by auto. reflexivity.
Qed.
Lemma list_op_length l l' : length (list_op op l l') = Nat.min (length l) (length l').
Proof. unfold list_op. now rewrite map_length, combine_length. Qed.

Lemma Forall_nth_ok l : Forall ok l <-> forall i, (i < length l)%nat -> ok (nth i l e).
Proof.
  rewrite Forall_forall. split; intros H.
  - intros. apply H, nth_In. auto.
  - intros x Hx. apply (In_nth _ _ e) in Hx as (i & Hi & <-). auto.
Qed.

Lemma list_monoid : monoid_on leaves_ok (list_op op) (repeat e L).
Proof.
  constructor.
  - split; [apply repeat_length|]. apply Forall_forall. intros x Hx. apply repeat_spec in Hx. subst. apply M.
  - intros x y (Lx & Fx) (Ly & Fy). split; [rewrite list_op_length; lia|].
    apply Forall_nth_ok. rewrite list_op_length. intros i Hi. rewrite list_op_nth by lia.
    rewrite Forall_nth_ok in Fx, Fy. apply M; [apply Fx | apply Fy]; lia.
  - intros x y z (Lx & Fx) (Ly & Fy) (Lz & Fz).
    apply nth_ext with (d := e) (d' := e); [rewrite !list_op_length; lia|].
    intros i Hi. rewrite !list_op_length in Hi. rewrite Forall_nth_ok in Fx, Fy, Fz.
    repeat rewrite list_op_nth by (rewrite ?list_op_length; lia).
    apply M; [apply Fx|apply Fy|apply Fz]; lia.
  - intros x (Lx & Fx). apply nth_ext with (d := e) (d' := e); [rewrite list_op_length, repeat_length; lia|].
    intros i Hi. rewrite list_op_length, repeat_length in Hi. rewrite list_op_nth by (rewrite ?repeat_length; lia).
    rewrite nth_repeat. apply M. rewrite Forall_nth_ok in Fx. apply Fx. lia.
  - intros x (Lx & Fx). apply nth_ext with (d := e) (d' := e); [rewrite list_op_length, repeat_length; lia|].
    intros i Hi. rewrite list_op_length, repeat_length in Hi. rewrite list_op_nth by (rewrite ?repeat_length; lia).
    rewrite nth_repeat. apply M. rewrite Forall_nth_ok in Fx. apply Fx. lia.
Qed.

Lemma fold_left_leaf ls l0 i : (i < L)%nat -> length l0 = L -> (forall l, In l ls -> length l = L) ->
  nth i (fold_left (list_op op) ls l0) e = fold_left op (map (fun l => nth i l e) ls) (nth i l0 e)
  /\ length (fold_left (list_op op) ls l0) = L.
Proof.
  intro Hi. revert l0. induction ls as [|l ls IH]; intros l0 H0 H; cbn; auto.
  assert (length l = L) by (apply H; cbn; auto).
  destruct (IH (list_op op l0 l)) as (A & B).
  - rewrite list_op_length. lia.
  - intros; apply H; cbn; auto.
  - rewrite A, B. split; auto. now rewrite list_op_nth by lia.
Qed.

End Leaves.

(** Every device [i] has [L] leaves and leaf [l] is [f l i]. *)
Definition leafwise {X} (d : X) (P L : nat) (out : list (list X)) (f : nat -> nat -> X) : Prop :=
  length out = P /\
  forall i, (i < P)%nat -> length (nth i out []) = L /\ forall l, (l < L)%nat -> nth l (nth i out []) d = f l i.
Definition leaf {X} (d : X) (xs : list (list X)) (l : nat) : list X := map (fun x => nth l x d) xs.

Section Scan.
Context {X : Type}.
Variables (ok : X -> Prop) (sem : opname -> X -> X -> X) (ut : opname -> X) (o : opname).
Variables (L : nat) (xs : list (list X)).
Hypothesis M : monoid_on ok (sem o) (ut o).
Hypothesis OK : forall x, In x xs -> length x = L /\ Forall ok x.
Hypothesis HP : (1 <= length xs)%nat.

Lemma scan_leafwise : leafwise (ut o) (length xs) L (exclusive_scan (list_op (sem o)) (repeat (ut o) L) xs)
   (fun l i => exclusive_prefix (sem o) (ut o) (leaf (ut o) xs l) i).
Proof.
  unfold exclusive_scan. split; [now rewrite map_length, seq_length|].
  intros i Hi. rewrite nth_indep with (d' := exclusive_prefix (list_op (sem o)) (repeat (ut o) L) xs 0)
    by (now rewrite map_length, seq_length).
  rewrite (map_nth (exclusive_prefix (list_op (sem o)) (repeat (ut o) L) xs)), seq_nth by auto. cbn [Nat.add].
  unfold exclusive_prefix.
  assert (H : forall l, In l (firstn i xs) -> length l = L).
  { intros l Hl. apply OK. rewrite <- (firstn_skipn i xs). apply in_or_app. auto. }
  assert (HL : length (fold_left (list_op (sem o)) (firstn i xs) (repeat (ut o) L)) = L).
  { assert (H0 := repeat_length (ut o) L). revert H0. generalize (repeat (ut o) L). 
    induction (firstn i xs) as [|l ls IH]; intros l0 H0; cbn; auto.
    apply IH; [intros; apply H; cbn; auto|]. rewrite list_op_length, (H l); [lia|cbn; auto]. }
  split; auto. intros l Hl.
  destruct (fold_left_leaf (sem o) (ut o) L (firstn i xs) (repeat (ut o) L) l) as (A & _); auto.
  { apply repeat_length. }
  rewrite A, nth_repeat. unfold leaf. now rewrite firstn_map.
Qed.

Lemma red_leafwise : leafwise (ut o) (length xs) L (full_reduction (list_op (sem o)) (repeat (ut o) L) xs)
   (fun l i => fold_left (sem o) (leaf (ut o) xs l) (ut o)).
Proof.
  unfold full_reduction. split; [now rewrite repeat_length|].
  intros i Hi. rewrite nth_indep with (d' := fold_left (list_op (sem o)) xs (repeat (ut o) L))
    by (now rewrite repeat_length).
  rewrite nth_repeat.
  assert (H : forall l, In l xs -> length l = L) by (intros; now apply OK).
  assert (HL : length (fold_left (list_op (sem o)) xs (repeat (ut o) L)) = L).
  { assert (H0 := repeat_length (ut o) L). revert H0. generalize (repeat (ut o) L). clear -H.
    induction xs as [|l ls IH]; intros l0 H0; cbn; auto.
    apply IH; [intros; apply H; cbn; auto|]. rewrite list_op_length, (H l); [lia|cbn; auto]. }
  split; auto. intros l Hl.
  destruct (fold_left_leaf (sem o) (ut o) L xs (repeat (ut o) L) l) as (A & _); auto.
  { apply repeat_length. }
  now rewrite A, nth_repeat.
Qed.

Lemma units_ok : length (map (map (fun _ => ut o)) xs) = length xs /\
  forall q, (q < length xs)%nat -> nth q (map (map (fun _ => ut o)) xs) (repeat (ut o) L) = repeat (ut o) L.
Proof.
  split; [apply map_length|]. intros q Hq.
  rewrite nth_indep with (d' := map (fun _ : X => ut o) []) by (now rewrite map_length).
  rewrite (map_nth (map (fun _ : X => ut o))). destruct (OK (nth q xs [])) as (H & _); [now apply nth_In|].
  rewrite <- H. clear. induction (nth q xs []); cbn; congruence.
Qed.

Lemma pscan_lemma : exists out, pscan sem ut o xs = Some out /\
  leafwise (ut o) (length xs) L out (fun l i => exclusive_prefix (sem o) (ut o) (leaf (ut o) xs l) i).
Proof.
  destruct (fanin_fanout_spec _ _ _ xs (list_monoid ok (sem o) (ut o) L M) OK HP true
              (map (map (fun _ => ut o)) xs) units_ok false) as (d & E & S & _).
  unfold pscan. rewrite E. cbn. eexists; split; [reflexivity|]. rewrite S by auto. apply scan_leafwise.
Qed.

Lemma pscan_red_lemma : exists out red, pscan_red sem ut o xs = Some (out, red) /\
  pscan sem ut o xs = Some out /\
  leafwise (ut o) (length xs) L out (fun l i => exclusive_prefix (sem o) (ut o) (leaf (ut o) xs l) i) /\
  leafwise (ut o) (length xs) L red (fun l i => fold_left (sem o) (leaf (ut o) xs l) (ut o)).
Proof.
  destruct (fanin_fanout_spec _ _ _ xs (list_monoid ok (sem o) (ut o) L M) OK HP true
              (map (map (fun _ => ut o)) xs) units_ok false) as (d & E & S & _).
  destruct (fanin_fanout_spec _ _ _ xs (list_monoid ok (sem o) (ut o) L M) OK HP true
              (map (map (fun _ => ut o)) xs) units_ok true) as ((s & r) & E' & S' & R').
  cbn in S', R'. exists s, r. unfold pscan, pscan_red. rewrite E, E'. cbn. split; auto.
  rewrite S by auto. rewrite S', R' by auto. split; auto. split; [apply scan_leafwise | apply red_leafwise].
Qed.

Lemma all_reduce_leafwise :
  leafwise (ut o) (length xs) L (all_reduce sem o xs) (fun l i => fold_left (sem o) (leaf (ut o) xs l) (ut o)).
Proof.
  pose proof red_leafwise as H. replace (all_reduce sem o xs) with (full_reduction (list_op (sem o)) (repeat (ut o) L) xs); auto.
  unfold full_reduction, all_reduce. destruct xs as [|x rest]; [reflexivity|]. f_equal. cbn [fold_left].
  f_equal. apply (list_monoid ok (sem o) (ut o) L M). apply OK. cbn. auto.
Qed.

Lemma preduce_lemma : exists red, preduce sem ut o xs = Some red /\
  leafwise (ut o) (length xs) L red (fun l i => fold_left (sem o) (leaf (ut o) xs l) (ut o)).
Proof.
  assert (G : exists red, option_map snd (fanin_fanout_flat (list_op (sem o)) (map (map (fun _ => ut o)) xs) false true xs) = Some red /\
     leafwise (ut o) (length xs) L red (fun l i => fold_left (sem o) (leaf (ut o) xs l) (ut o))).
  { destruct (fanin_fanout_spec _ _ _ xs (list_monoid ok (sem o) (ut o) L M) OK HP false
              (map (map (fun _ => ut o)) xs) units_ok true) as (d & E & _ & R).
    rewrite E. cbn. eexists; split; [reflexivity|]. rewrite R by auto. apply red_leafwise. }
  unfold preduce. pose proof all_reduce_leafwise. destruct o; eauto.
Qed.
End Scan.

(** ** Shuffles *)
Lemma pscan_shuffles_lemma P : (1 <= P)%nat ->
  exists sched, schedule P (ginit P) = Some sched /\ (length sched <= Nat.log2_up P)%nat /\
   forall tab, In tab sched -> Permutation (tmap ptarget tab) (arange P) /\
     forall q g, nth_error tab q = Some g ->
       0 <= gb g <= Z.of_nat q /\ Z.of_nat q < gb g + gn g <= Z.of_nat P /\
       gb g <= ptarget (Z.of_nat q) g < gb g + gn g.
Proof.
  intro HP. destruct (schedule_spec P P 0 HP ltac:(lia)) as (sched & E & N & MX). change (gtab P 0) with (ginit P) in E.
  exists sched. split; auto. split.
  - apply last_log; auto. split; auto. intros j Hj. now apply N.
  - intros tab Ht. apply (In_nth _ _ []) in Ht as (j & Hj & <-). destruct (N j Hj) as (-> & _). cbn [Nat.add].
    pose proof (gtab_inv P j HP) as GI. split; [apply is_perm_spec; eapply pperm_ok; eauto|].
    intros q g Hg. assert (LT : length (gtab P j) = P) by apply GI.
    assert (Hq : (q < P)%nat) by (rewrite <- LT; apply nth_error_Some; congruence).
    apply (nth_error_nth _ _ g0) in Hg. subst g.
    destruct (pt_involution P _ _ GI q Hq) as (a & b & c & d). 
    destruct (nums P _ _ GI q Hq) as (n1 & n2 & _ & n4 & n5 & _). lia.
Qed.
