(** Properties of pscan.py (C04-C07). *)
From Coq Require Import List ZArith Bool SpecFloat Permutation.
From Verif Require Import Groups_model Pscan_model Pscan_spec Pscan_proofs Pscan_units.
Import ListNotations.
Open Scope Z_scope.

(** C04 (scan part): the schedule exists for every axis size, has logarithmic
    length, and every shuffle is a permutation that stays inside the group. *)
Theorem C04_pscan_shuffles :
  forall P, (1 <= P)%nat ->
  exists sched, schedule P (ginit P) = Some sched /\ (length sched <= Nat.log2_up P)%nat /\
   forall tab, In tab sched -> Permutation (tmap ptarget tab) (arange P) /\
     forall q g, nth_error tab q = Some g ->
       0 <= gb g <= Z.of_nat q /\ Z.of_nat q < gb g + gn g <= Z.of_nat P /\
       gb g <= ptarget (Z.of_nat q) g < gb g + gn g.
Proof. exact pscan_shuffles_lemma. Qed.
Print Assumptions C04_pscan_shuffles.

(** C05: for every monoid (no commutativity), every number of devices and every
    number of leaves, device i gets unit op x_0 op ... op x_{i-1} on each leaf. *)
Theorem C05_pscan_exclusive_prefix :
  forall (X : Type) (ok : X -> Prop) (sem : opname -> X -> X -> X) (unit_table : opname -> X)
         (o : opname) (L : nat) (xs : list (list X)),
  monoid_on ok (sem o) (unit_table o) ->
  (forall x, In x xs -> length x = L /\ Forall ok x) ->
  (1 <= length xs)%nat ->
  exists out, pscan sem unit_table o xs = Some out /\
    leafwise (unit_table o) (length xs) L out
      (fun l i => exclusive_prefix (sem o) (unit_table o) (leaf (unit_table o) xs l) i).
Proof. exact @pscan_lemma. Qed.
Print Assumptions C05_pscan_exclusive_prefix.

(** C05 on machine integers, all operators, and on booleans. *)
Theorem C05_pscan_integers :
  forall (signed : bool) (w : Z) (o : opname) (L : nat) (xs : list (list Z)),
  iwidth_ok signed w ->
  (forall x, In x xs -> length x = L /\ Forall (irange signed w) x) ->
  (1 <= length xs)%nat ->
  exists out, pscan (isem signed w) (iunit signed w) o xs = Some out /\
    leafwise (iunit signed w o) (length xs) L out
      (fun l i => exclusive_prefix (isem signed w o) (iunit signed w o) (leaf (iunit signed w o) xs l) i).
Proof. intros s w o L xs H. exact (pscan_lemma _ _ _ o L xs (int_monoid s w o H)). Qed.
Print Assumptions C05_pscan_integers.

(** C06: with reduction=True the scan is the one of plain pscan, and every device
    also gets the reduction over all devices in device order. *)
Theorem C06_pscan_reduction :
  forall (X : Type) (ok : X -> Prop) (sem : opname -> X -> X -> X) (unit_table : opname -> X)
         (o : opname) (L : nat) (xs : list (list X)),
  monoid_on ok (sem o) (unit_table o) ->
  (forall x, In x xs -> length x = L /\ Forall ok x) ->
  (1 <= length xs)%nat ->
  exists out red, pscan_red sem unit_table o xs = Some (out, red) /\
    pscan sem unit_table o xs = Some out /\
    leafwise (unit_table o) (length xs) L out
      (fun l i => exclusive_prefix (sem o) (unit_table o) (leaf (unit_table o) xs l) i) /\
    leafwise (unit_table o) (length xs) L red
      (fun l i => fold_left (sem o) (leaf (unit_table o) xs l) (unit_table o)).
Proof. exact @pscan_red_lemma. Qed.
Print Assumptions C06_pscan_reduction.

(** C06: preduce gives the full reduction on every device. *)
Theorem C06_preduce :
  forall (X : Type) (ok : X -> Prop) (sem : opname -> X -> X -> X) (unit_table : opname -> X)
         (o : opname) (L : nat) (xs : list (list X)),
  monoid_on ok (sem o) (unit_table o) ->
  (forall x, In x xs -> length x = L /\ Forall ok x) ->
  (1 <= length xs)%nat ->
  exists red, preduce sem unit_table o xs = Some red /\
    leafwise (unit_table o) (length xs) L red
      (fun l i => fold_left (sem o) (leaf (unit_table o) xs l) (unit_table o)).
Proof. exact @preduce_lemma. Qed.
Print Assumptions C06_preduce.

(** C07: on every integer type (any width, signed or unsigned) every operator is
    associative, stays in range, and its unit is a two-sided identity. *)
Theorem C07_units_integers :
  forall (signed : bool) (w : Z) (o : opname), iwidth_ok signed w ->
  monoid_on (irange signed w) (isem signed w o) (iunit signed w o).
Proof. exact int_monoid. Qed.
Print Assumptions C07_units_integers.

Theorem C07_units_booleans :
  forall o, monoid_on (fun _ => True) (bsem o) (bunit o).
Proof. exact bool_monoid. Qed.
Print Assumptions C07_units_booleans.

(** C07 on IEEE floats of any precision: zero and one are identities (zero up to
    the sign of zero); the units of max/min are identities on everything except
    the infinity beyond them. *)
Theorem C07_units_floats :
  forall (prec emax : Z), 1 < prec -> prec < emax ->
  forall o f u x, fsem prec emax o = Some f -> funit prec emax o = Some u ->
  valid_binary prec emax x = true ->
  (o = OMax -> x <> S754_infinity true) -> (o = OMin -> x <> S754_infinity false) ->
  (o = OAdd -> x <> S754_zero true) ->
  f u x = x /\ f x u = x.
Proof.
  intros prec emax Hp He o f u x Hf Hu V H1 H2 H3. destruct o; try discriminate; injection Hf as <-; injection Hu as <-.
  - apply fadd_unit_ok. auto.
  - now apply fmul_unit_ok.
  - apply fmax_unit_ok; auto. destruct x as [|[]| |]; cbn; auto. now elim H1.
  - apply fmin_unit_ok; auto. destruct x as [|[]| |]; cbn; auto. now elim H2.
Qed.
Print Assumptions C07_units_floats.

Theorem C07_unit_negative_zero :
  forall prec emax,
  SFadd prec emax (S754_zero false) (S754_zero true) = S754_zero false /\
  SFadd prec emax (S754_zero true) (S754_zero false) = S754_zero false /\
  SFeqb (S754_zero false) (S754_zero true) = true.
Proof. exact fadd_unit_negzero. Qed.
Print Assumptions C07_unit_negative_zero.

(** The claim fails for max on -inf (and min on +inf), in every format. *)
Theorem C07_units_infinities_refuted :
  forall prec emax,
  fmax (finfo_min prec emax) (S754_infinity true) <> S754_infinity true /\
  fmin (finfo_max prec emax) (S754_infinity false) <> S754_infinity false.
Proof. intros; split; discriminate. Qed.
Print Assumptions C07_units_infinities_refuted.

(** Consequence seen by a caller: in a max-scan over three devices all holding
    -inf (binary32), device 1 does not get x_0 = -inf. *)
Theorem C05_pscan_float_max_refuted :
  exists out, pscan (fun _ => fmax) (fun _ => finfo_min 24 128) OMax
                (repeat [S754_infinity true] 3) = Some out /\
    nth 1 out [] = [finfo_min 24 128] /\ nth 1 out [] <> [S754_infinity true].
Proof. eexists. split; [vm_compute; reflexivity|]. split; [reflexivity | discriminate]. Qed.
Print Assumptions C05_pscan_float_max_refuted.

(** A non-commutative monoid (words) on 5 devices with two leaves. *)
Example ex_pscan_words :
  let sem := fun _ : opname => @app nat in let ut := fun _ : opname => @nil nat in
  let xs := [[[0];[10]]; [[1];[11]]; [[2];[12]]; [[3];[13]]; [[4];[14]]]%nat in
  monoid_on (fun _ => True) (sem OMul) (ut OMul) /\
  pscan_red sem ut OMul xs =
    Some ([[[];[]]; [[0];[10]]; [[0;1];[10;11]]; [[0;1;2];[10;11;12]]; [[0;1;2;3];[10;11;12;13]]]%nat,
          repeat [[0;1;2;3;4];[10;11;12;13;14]]%nat 5) /\
  preduce sem ut OMul xs = Some (repeat [[0;1;2;3;4];[10;11;12;13;14]]%nat 5).
Proof.
  cbv zeta. split; [|split; vm_compute; reflexivity].
  constructor; intros; auto; [apply app_assoc | apply app_nil_r].
Qed.
Example ex_pscan_int8 :
  iwidth_ok true 8 /\
  pscan (isem true 8) (iunit true 8) OAdd [[100]; [100]; [-3]; [7]] = Some [[0]; [100]; [-56]; [-59]].
Proof. vm_compute. intuition discriminate. Qed.
Example ex_unit_f32 :
  valid_binary 24 128 (S754_finite true 12345678 3) = true /\
  fmax (finfo_min 24 128) (S754_finite true 12345678 3) = S754_finite true 12345678 3 /\
  SFmul 24 128 (fone 24) (S754_finite true 12345678 3) = S754_finite true 12345678 3.
Proof. vm_compute. auto. Qed.
