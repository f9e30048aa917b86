(** Facts about the recursive halving of Groups_model.v. *)
From Coq Require Import List ZArith Bool Lia ZifyBool Permutation.
From Verif Require Import Groups_model.
Import ListNotations.
Open Scope Z_scope.
Ltac Zify.zify_post_hook ::= Z.div_mod_to_equations.
Arguments Z.max : simpl never.
Arguments Z.add : simpl never.
Arguments Z.sub : simpl never.
Arguments Z.of_nat : simpl never.
Arguments Z.div : simpl never.

Lemma arange_length P : length (arange P) = P.
Proof. unfold arange. now rewrite map_length, seq_length. Qed.

Lemma arange_nth P q d : (q < P)%nat -> nth q (arange P) d = Z.of_nat q.
Proof.
  intro H. unfold arange.
  rewrite (nth_indep _ d (Z.of_nat 0)) by (rewrite map_length, seq_length; lia).
  rewrite map_nth, seq_nth; auto.
Qed.

Lemma tmap_length {X Y} (f : Z -> X -> Y) tab : length (tmap f tab) = length tab.
Proof. unfold tmap. rewrite map_length, combine_length, arange_length. lia. Qed.

Lemma tmap_nth {X Y} (f : Z -> X -> Y) tab q d d' : (q < length tab)%nat ->
  nth q (tmap f tab) d' = f (Z.of_nat q) (nth q tab d).
Proof.
  intro H. unfold tmap.
  set (F := fun ig : Z * X => f (fst ig) (snd ig)).
  rewrite (nth_indep _ d' (F (0, d)))
    by (rewrite map_length, combine_length, arange_length; lia).
  rewrite map_nth, combine_nth by (now rewrite arange_length).
  rewrite arange_nth by auto. reflexivity.
Qed.

Lemma tmap_map {X Y} (f : Z -> X -> Y) tab d :
  tmap f tab = map (fun q => f (Z.of_nat q) (nth q tab d)) (seq 0 (length tab)).
Proof.
  apply nth_ext with (d := f (Z.of_nat 0) d) (d' := f (Z.of_nat 0) (nth 0 tab d)).
  { now rewrite tmap_length, map_length, seq_length. }
  intros q H. rewrite tmap_length in H.
  rewrite (tmap_nth f tab q d) by auto.
  rewrite (map_nth (fun q => f (Z.of_nat q) (nth q tab d))), seq_nth; auto.
Qed.

Lemma mapM_nth {X Y} (f : X -> option Y) l : forall l', mapM f l = Some l' ->
  length l' = length l /\
  forall q d d', (q < length l)%nat -> f (nth q l d) = Some (nth q l' d').
Proof.
  induction l as [|x l IH]; cbn; intros l' H.
  - inversion H; subst; cbn. split; auto. intros; lia.
  - destruct (f x) eqn:Fx; try discriminate.
    destruct (mapM f l) eqn:M; try discriminate.
    inversion H; subst. destruct (IH _ eq_refl) as [L N]. cbn. split; [lia|].
    intros [|q] d d' Hq; cbn; auto. apply N. lia.
Qed.

Lemma mapM_some {X Y} (f : X -> option Y) l :
  (forall x, In x l -> f x <> None) -> exists l', mapM f l = Some l'.
Proof.
  induction l as [|x l IH]; cbn; intros H.
  - eauto.
  - destruct (f x) eqn:Fx; [|exfalso; apply (H x); auto].
    destruct IH as [l' ->]; eauto.
Qed.

Lemma mapM_map {X Y} (f : X -> option Y) (g : X -> Y) l :
  (forall x, In x l -> f x = Some (g x)) -> mapM f l = Some (map g l).
Proof.
  induction l as [|x l IH]; cbn; intros H; auto.
  rewrite H by auto. rewrite IH; auto.
Qed.

(** Validity of a permutation given by an involution of [0, P). *)
Lemma is_perm_involution P perm (t : nat -> nat) :
  length perm = P ->
  (forall q, (q < P)%nat -> nth q perm 0 = Z.of_nat (t q)) ->
  (forall q, (q < P)%nat -> (t q < P)%nat /\ t (t q) = q) ->
  is_perm perm P = true.
Proof.
  intros L N I. unfold is_perm. rewrite L, Nat.eqb_refl. cbn [andb].
  apply andb_true_intro; split; apply forallb_forall.
  - intros k Hk. apply (In_nth _ _ 0) in Hk as (q & Hq & <-).
    rewrite L in Hq. rewrite N by auto. destruct (I q Hq). lia.
  - intros i Hi. unfold arange in Hi. apply in_map_iff in Hi as (q & <- & Hq).
    apply in_seq in Hq. apply existsb_exists.
    destruct (I q) as [H1 H2]; [lia|].
    exists (nth (t q) perm 0). split; [apply nth_In; lia|].
    rewrite N, H2 by auto. lia.
Qed.

Lemma pshuffle_nth {X} perm (xs : list X) :
  is_perm perm (length xs) = true ->
  exists ys, pshuffle perm xs = Some ys /\ length ys = length xs /\
   forall q d, (q < length xs)%nat -> nth q ys d = nth (Z.to_nat (nth q perm 0)) xs d.
Proof.
  intro H. unfold pshuffle. rewrite H.
  unfold is_perm in H. apply andb_prop in H as [H H3]. apply andb_prop in H as [H1 H2].
  apply Nat.eqb_eq in H1.
  rewrite forallb_forall in H2.
  destruct (mapM_some (fun k => nth_error xs (Z.to_nat k)) perm) as [ys Hy].
  { intros k Hk. apply H2 in Hk. apply nth_error_Some. lia. }
  exists ys. split; auto. apply mapM_nth in Hy as [L N]. split; [lia|].
  intros q d Hq. rewrite <- H1 in Hq. specialize (N q 0 d Hq).
  symmetry. now apply nth_error_nth.
Qed.

(** Soundness of [is_perm]: the table lists every device exactly once. *)
Lemma is_perm_spec perm P : is_perm perm P = true -> Permutation perm (arange P).
Proof.
  unfold is_perm. intro H. apply andb_prop in H as [H H3]. apply andb_prop in H as [H1 H2].
  apply Nat.eqb_eq in H1. rewrite forallb_forall in H2, H3.
  assert (ND : NoDup (arange P)).
  { unfold arange. apply FinFun.Injective_map_NoDup; [intros a b E; now apply Nat2Z.inj | apply seq_NoDup]. }
  symmetry. apply NoDup_Permutation_bis; auto.
  - rewrite arange_length. lia.
  - intros i Hi. specialize (H3 i Hi). apply existsb_exists in H3 as (k & Hk & E).
    apply Z.eqb_eq in E. now subst.
Qed.

Lemma zmax_ub l x : In x l -> x <= zmax l.
Proof. induction l; cbn; try fold (zmax l); [tauto|]. intros [->|H]; [lia|]. specialize (IHl H). lia. Qed.

Lemma zmax_lub l b : 0 <= b -> (forall x, In x l -> x <= b) -> zmax l <= b.
Proof. induction l; cbn; try fold (zmax l); intros; [lia|]. pose proof (H0 a). assert (zmax l <= b) by (apply IHl; auto). lia. Qed.

Lemma zmax_ex l : 0 < zmax l -> exists x, In x l /\ x = zmax l.
Proof.
  induction l; cbn; try fold (zmax l); intro H; [lia|].
  destruct (Z.max_spec a (zmax l)) as [[? E]|[? E]]; rewrite E in *.
  - destruct IHl as (x & ? & ?); [lia|]. eauto.
  - eauto.
Qed.

(** The table describes a partition of [0, P) into intervals whose sizes differ
    by at most one. *)
Definition g0 := Grp 0 0.
Definition GInv (P : nat) (m : Z) (tab : list grp) : Prop :=
  1 <= m /\ length tab = P /\
  forall q, (q < P)%nat ->
    let g := nth q tab g0 in
    0 <= gb g <= Z.of_nat q /\ Z.of_nat q < gb g + gn g <= Z.of_nat P /\
    m <= gn g <= m + 1 /\
    forall q', gb g <= Z.of_nat q' < gb g + gn g -> nth q' tab g0 = g.

Lemma ginit_inv P : (1 <= P)%nat -> GInv P (Z.of_nat P) (ginit P).
Proof.
  intro H. unfold ginit. split; [lia|]. split; [apply repeat_length|].
  intros q Hq g.
  assert (E : forall k, (k < P)%nat -> nth k (repeat (Grp (Z.of_nat P) 0) P) g0 = Grp (Z.of_nat P) 0).
  { intros k Hk. apply (repeat_spec P). apply nth_In. now rewrite repeat_length. }
  subst g. rewrite E by auto. cbn. repeat split; try lia.
  intros q' H'. apply E. lia.
Qed.

Lemma gstep_inv P m tab : GInv P m tab -> GInv P (Z.max 1 (m / 2)) (gstep tab).
Proof.
  intros (Hm & L & H). split; [lia|]. split; [unfold gstep; now rewrite tmap_length|].
  intros q Hq g. specialize (H q Hq). cbv zeta in H.
  assert (E : g = gstep1 (Z.of_nat q) (nth q tab g0)).
  { subst g. unfold gstep. apply tmap_nth. lia. }
  clearbody g. subst g.
  destruct (nth q tab g0) as [n b] eqn:Eg. cbn in H.
  destruct H as (H1 & H2 & H3 & H4).
  unfold gstep1, is_lo, base_hi, n_lo. cbn.
  destruct (Z.of_nat q <? b + (n + 1) / 2) eqn:Elo; cbn; (repeat split; try lia);
  intros q' Hq'; unfold gstep; (rewrite tmap_nth with (d := g0) by lia);
  rewrite H4 by lia; unfold gstep1, is_lo, base_hi, n_lo; cbn.
  - replace (Z.of_nat q' <? b + (n + 1) / 2) with true by lia. reflexivity.
  - replace (Z.of_nat q' <? b + (n + 1) / 2) with false by lia. reflexivity.
Qed.

Fixpoint gm (P k : nat) : Z :=
  match k with O => Z.of_nat P | S k' => Z.max 1 (gm P k' / 2) end.

Lemma gtab_inv P k : (1 <= P)%nat -> GInv P (gm P k) (gtab P k).
Proof.
  intro H. induction k; cbn; [now apply ginit_inv | now apply gstep_inv].
Qed.

Lemma gtab_shift P k : gtab P (S k) = gstep (gtab P k).
Proof. reflexivity. Qed.

Lemma max_gn_le1 P m tab : GInv P m tab -> max_gn tab <= 1 ->
  forall q, (q < P)%nat -> gn (nth q tab g0) = 1 /\ gb (nth q tab g0) = Z.of_nat q.
Proof.
  intros (Hm & L & H) M q Hq. specialize (H q Hq). cbv zeta in H.
  assert (gn (nth q tab g0) <= 1).
  { etransitivity; [|apply M]. apply zmax_ub. apply in_map. apply nth_In. lia. }
  lia.
Qed.

Lemma max_gn_gt1 tab : 1 < max_gn tab ->
  exists q, (q < length tab)%nat /\ 1 < gn (nth q tab g0).
Proof.
  intro H. destruct (zmax_ex (map gn tab)) as (x & Hx & E); [unfold max_gn in H; lia|].
  apply in_map_iff in Hx as (g & Eg & Hg).
  apply (In_nth _ _ g0) in Hg as (q & Hq & <-).
  exists q. split; auto. rewrite Eg, E. apply H.
Qed.

(** The halving terminates: after [k] stages the largest group has at most
    [P - k] devices, or one. *)
Lemma max_gn_bound P k : (1 <= P)%nat ->
  max_gn (gtab P k) <= Z.max 1 (Z.of_nat P - Z.of_nat k).
Proof.
  intro HP. induction k.
  - apply zmax_lub; [lia|]. intros x Hx. apply in_map_iff in Hx as (g & <- & Hg).
    cbn in Hg. apply repeat_spec in Hg. subst. cbn. lia.
  - apply zmax_lub; [lia|]. intros x Hx. apply in_map_iff in Hx as (g & <- & Hg).
    pose proof (gtab_inv P k HP) as (Hm & L & H).
    pose proof (gtab_inv P (S k) HP) as (Hm' & L' & H').
    apply (In_nth _ _ g0) in Hg as (q & Hq & <-).
    rewrite L' in Hq. specialize (H q Hq). cbv zeta in H.
    assert (gn (nth q (gtab P k) g0) <= max_gn (gtab P k)).
    { apply zmax_ub, in_map, nth_In. lia. }
    assert (E : nth q (gtab P (S k)) g0 = gstep1 (Z.of_nat q) (nth q (gtab P k) g0)).
    { cbn. unfold gstep. apply tmap_nth. lia. }
    rewrite E. unfold gstep1. cbn [gn].
    unfold is_lo, base_hi, n_lo. destruct (_ <? _) eqn:El; lia.
Qed.

(** Permuting the devices of a sum over devices. *)
Lemma involution_seq_perm P (t : nat -> nat) :
  (forall q, (q < P)%nat -> (t q < P)%nat /\ t (t q) = q) ->
  Permutation (map t (seq 0 P)) (seq 0 P).
Proof.
  intro I. symmetry. apply NoDup_Permutation_bis.
  - apply seq_NoDup.
  - now rewrite map_length.
  - intros q Hq. apply in_seq in Hq. apply in_map_iff. exists (t q).
    destruct (I q) as [A B]; [lia|]. split; auto. apply in_seq. lia.
Qed.

Lemma flat_map_reindex {X} P (t : nat -> nat) (f : nat -> list X) :
  (forall q, (q < P)%nat -> (t q < P)%nat /\ t (t q) = q) ->
  Permutation (flat_map (fun q => f (t q)) (seq 0 P)) (flat_map f (seq 0 P)).
Proof.
  intro I. rewrite (flat_map_concat_map (fun q => f (t q))).
  rewrite <- (map_map t f). rewrite <- flat_map_concat_map.
  apply Permutation_flat_map. now apply involution_seq_perm.
Qed.
