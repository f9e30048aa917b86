(** C08: semi-traced scalars. *)
From Coq Require Import List ZArith Bool Lia ZifyBool.
From Verif Require Import Groups_model Groups_proofs SemiTraced_model.
Import ListNotations.
Open Scope Z_scope.

(** Specification: the value of the expression on device [p], scalar by scalar. *)
Section Spec.
Context {V : Type}.
Variables (sem : binop -> V -> V -> V) (truth : V -> bool) (of_nat : nat -> V).
Fixpoint value (P p : nat) (e : expr V) : V :=
  match e with
  | EIndex => of_nat p
  | ESize => of_nat P
  | EConst c => c
  | EBin o x y => sem o (value P p x) (value P p y)
  | EBinC o x c => sem o (value P p x) c
  | ECBin o c x => sem o c (value P p x)
  | EWhere c x y => if truth (value P p c) then value P p x else value P p y
  end.

Hypothesis mirror_ok : forall o a b, is_comparison o = true -> sem (mirror o) a b = sem o b a.

Lemma map2_seq (f : V -> V -> V) g h l : map2 f (map g l) (map h l) = map (fun q : nat => f (g q) (h q)) l.
Proof. unfold map2. induction l; cbn; congruence. Qed.
Lemma np_where_seq c g h l :
  np_where truth (map c l) (map g l) (map h l) = map (fun q : nat => if truth (c q) then g q else h q) l.
Proof. unfold np_where. induction l; cbn; congruence. Qed.
Lemma repeat_seq {W} (c : W) P a : repeat c P = map (fun _ => c) (seq a P).
Proof. revert a. induction P; intro; cbn; f_equal; auto. Qed.

Lemma run_spec P p e :
  local (run sem truth of_nat P p e) = value P p e /\
  global_ (run sem truth of_nat P p e) = map (fun q => value P q e) (seq 0 P).
Proof.
  induction e; cbn [run value].
  - split; reflexivity.
  - split; [reflexivity | apply repeat_seq].
  - split; [reflexivity | apply repeat_seq].
  - destruct IHe1 as (A & B), IHe2 as (C & D). cbn. rewrite A, B, C, D. split; auto. apply map2_seq.
  - destruct IHe as (A & B). cbn. rewrite A, B, map_map. auto.
  - destruct IHe as (A & B). destruct (is_comparison o) eqn:E; cbn; rewrite A, B, map_map; auto.
    rewrite mirror_ok by auto. split; auto. apply map_ext. intro. now apply mirror_ok.
  - destruct IHe1 as (A & B), IHe2 as (C & D), IHe3 as (E & F). cbn. rewrite A, B, C, D, E, F. split; auto.
    apply np_where_seq.
Qed.
End Spec.

(** C08: for every expression, axis size and device, the local value is the
    scalar value of the expression on that device, and it is the entry of the
    global table at the axis index; the table is the same on all devices. *)
Theorem C08_semi_traced_agree :
  forall (V : Type) (sem : binop -> V -> V -> V) (truth : V -> bool) (of_nat : nat -> V) (e : expr V) (P p : nat),
  (forall o a b, is_comparison o = true -> sem (mirror o) a b = sem o b a) ->
  (p < P)%nat ->
  let s := run sem truth of_nat P p e in
  local s = value sem truth of_nat P p e /\
  nth_error (global_ s) p = Some (local s) /\
  length (global_ s) = P /\
  forall p', global_ (run sem truth of_nat P p' e) = global_ s.
Proof.
  intros V sem truth ofn e P p HM Hp s. destruct (run_spec sem truth ofn HM P p e) as (A & B).
  fold s in A, B. split; auto. split; [|split].
  - rewrite B, A. erewrite map_nth_error; [reflexivity|].
    rewrite (nth_error_nth' _ 0%nat) by (now rewrite seq_length). now rewrite seq_nth.
  - now rewrite B, map_length, seq_length.
  - intro p'. rewrite B. apply (run_spec sem truth ofn HM P p' e).
Qed.
Print Assumptions C08_semi_traced_agree.

(** C08 applied to the schedules: the semi-traced n and base_lo of stage k are, in
    their global view, the group table used by the shuffles and, locally, its
    entry at the device. *)
Lemma sched_vars_spec P p k : (p < P)%nat ->
  global_ (fst (sched_vars P p k)) = map gn (gtab P k) /\
  global_ (snd (sched_vars P p k)) = map gb (gtab P k) /\
  local (fst (sched_vars P p k)) = gn (nth p (gtab P k) g0) /\
  local (snd (sched_vars P p k)) = gb (nth p (gtab P k) g0).
Proof.
  intro Hp. assert (HP : (1 <= P)%nat) by lia. induction k.
  - cbn. rewrite (nth_indep _ g0 (Grp (Z.of_nat P) 0)) by (unfold ginit; now rewrite repeat_length).
    unfold ginit. rewrite nth_repeat. cbn. split; [|split]; auto.
    + clear. generalize (Z.of_nat P). intro z. induction P; cbn; congruence.
    + clear. generalize (Z.of_nat P). intro z. induction P; cbn; congruence.
  - cbn [sched_vars]. destruct (sched_vars P p k) as (n & b). cbn [fst snd] in *.
    destruct IHk as (A & B & C & D).
    pose proof (gtab_inv P k HP) as GI. assert (LT : length (gtab P k) = P) by apply GI.
    assert (E : nth p (gtab P (S k)) g0 = gstep1 (Z.of_nat p) (nth p (gtab P k) g0)).
    { cbn. unfold gstep. apply tmap_nth. lia. }
    assert (T : forall tab, length tab = P ->
      map2 (zsem BAdd) (map gb tab) (map (fun a => zsem BFloordiv a 2) (map (fun a => zsem BAdd a 1) (map gn tab))) = map base_hi tab).
    { clear. intros tab _. induction tab as [|g tab IH]; cbn; auto. f_equal; auto. }
    assert (W : forall (c : list Z) (f : Z -> grp -> Z) (g h : grp -> Z) a tab, 
       map2 (zsem BLt) (map Z.of_nat (seq a (length tab))) (map base_hi tab) = 
       map (fun ig => Z.b2z (is_lo (fst ig) (snd ig))) (combine (map Z.of_nat (seq a (length tab))) tab) /\
       np_where ztruth (map (fun ig => Z.b2z (is_lo (fst ig) (snd ig))) (combine (map Z.of_nat (seq a (length tab))) tab)) (map g tab) (map h tab)
       = map (fun ig : Z * grp => if is_lo (fst ig) (snd ig) then g (snd ig) else h (snd ig)) (combine (map Z.of_nat (seq a (length tab))) tab)).
    { clear. intros _ _ g h a tab. revert a. induction tab as [|x tab IH]; intro a; [cbn; auto|].
      cbn [length seq map combine map2]. destruct (IH (S a)) as (E1 & E2). split.
      - unfold map2 in *. cbn [map combine fst snd]. rewrite E1. reflexivity.
      - unfold np_where in *. cbn [map combine fst snd]. rewrite E2. f_equal.
        destruct (is_lo (Z.of_nat a) x); reflexivity. }
    assert (TM : forall (f : grp -> Z), map f (gtab P (S k)) =
        map (fun ig : Z * grp => f (gstep1 (fst ig) (snd ig))) (combine (map Z.of_nat (seq 0 (length (gtab P k)))) (gtab P k))).
    { intro f. cbn [gtab]. unfold gstep, tmap, arange. rewrite map_map. reflexivity. }
    cbn [fst snd sched_step zlift zliftc st_where lift_st lift_c local global_ axis_index].
    unfold zlift, zliftc. cbn [fst snd sched_step zlift zliftc st_where lift_st lift_c local global_ axis_index].
    rewrite A, B, C, D, E. rewrite T by auto.
    assert (W0 := fun g h => W [] (fun _ _ => 0) g h 0%nat (gtab P k)). setoid_rewrite LT in W0. assert (TM0 := TM). setoid_rewrite LT in TM0.
    rewrite (proj1 (W0 gn gb)).
    split; [|split; [|split]].
    + replace (map (fun a => zsem BFloordiv a 2) (map (fun a => zsem BAdd a 1) (map gn (gtab P k)))) with (map n_lo (gtab P k))
        by (rewrite !map_map; reflexivity).
      replace (map2 (zsem BSub) (map gn (gtab P k)) (map n_lo (gtab P k))) with (map (fun g => gn g - n_lo g) (gtab P k)).
      2:{ unfold map2. clear. induction (gtab P k) as [|g tab IH]; cbn; auto. f_equal. exact IH. }
      rewrite (proj2 (W0 n_lo (fun g => gn g - n_lo g))).
      rewrite TM0. apply map_ext. intros (i & g). reflexivity.
    + rewrite (proj2 (W0 gb base_hi)).
      rewrite TM0. apply map_ext. intros (i & g). reflexivity.
    + unfold gstep1, is_lo, base_hi, n_lo. cbn [gn zsem].
      destruct (Z.of_nat p <? _); reflexivity.
    + unfold gstep1, is_lo, base_hi, n_lo. cbn [gb zsem].
      destruct (Z.of_nat p <? _); reflexivity.
Qed.

Theorem C08_schedule_tables :
  forall P p k, (p < P)%nat ->
  let '(n, base_lo) := sched_vars P p k in
  global_ n = map gn (gtab P k) /\ global_ base_lo = map gb (gtab P k) /\
  nth_error (map gn (gtab P k)) p = Some (local n) /\
  nth_error (map gb (gtab P k)) p = Some (local base_lo).
Proof.
  intros P p k Hp. pose proof (sched_vars_spec P p k Hp) as H. destruct (sched_vars P p k) as (n & b).
  cbn [fst snd] in H. destruct H as (A & B & C & D). split; auto. split; auto.
  assert (LT : length (gtab P k) = P) by (apply (gtab_inv P k); lia).
  rewrite C, D. split; apply map_nth_error; apply nth_error_nth'; lia.
Qed.
Print Assumptions C08_schedule_tables.

(** where((3 - idx) < size // 2, idx, 7 - idx), a reflected subtraction. *)
Definition ex_expr : expr Z :=
  EWhere (EBin BLt (ECBin BSub 3 EIndex) (EBinC BFloordiv ESize 2)) EIndex (ECBin BSub 7 EIndex).
Example ex_semi_traced :
  (forall o a b, is_comparison o = true -> zsem (mirror o) a b = zsem o b a) /\
  run zsem ztruth Z.of_nat 5 3 ex_expr = ST 3 [7; 6; 2; 3; 4].
Proof.
  split; [|reflexivity]. intros o a b H. destruct o; try discriminate; cbn; auto.
  - now rewrite Z.eqb_sym.
  - now rewrite Z.eqb_sym.
Qed.
