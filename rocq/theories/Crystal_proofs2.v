From Coq Require Import List ZArith Bool Lia ZifyBool Permutation Arith.
From Verif Require Import Groups_model Groups_proofs Crystal_model Crystal_spec Crystal_proofs.
Import ListNotations.
Open Scope Z_scope.
Ltac Zify.zify_post_hook ::= Z.div_mod_to_equations.
Arguments Z.max : simpl never.
Arguments Z.add : simpl never.
Arguments Z.sub : simpl never.
Arguments Z.of_nat : simpl never.
Arguments Z.div : simpl never.

(** ** Number of stages *)
Definition is_last (P K : nat) : Prop :=
  max_gn (gtab P K) <= 1 /\ forall j, (j < K)%nat -> 1 < max_gn (gtab P j).

Lemma last_exists P : (1 <= P)%nat -> exists K, is_last P K /\ (K <= P)%nat.
Proof.
  intro HP.
  assert (forall n, (exists K, is_last P K /\ (K <= n)%nat) \/ (forall j, (j <= n)%nat -> 1 < max_gn (gtab P j))).
  { induction n as [|n [(K & HK & HL)|IH]].
    - destruct (Z_le_gt_dec (max_gn (gtab P 0)) 1).
      + left. exists 0%nat. split; auto. split; auto. intros; lia.
      + right. intros j Hj. replace j with 0%nat by lia. lia.
    - left. exists K. split; auto.
    - destruct (Z_le_gt_dec (max_gn (gtab P (S n))) 1).
      + left. exists (S n). split; auto. split; auto. intros; apply IH; lia.
      + right. intros j Hj. destruct (Nat.eq_dec j (S n)); [subst; lia|]. apply IH; lia. }
  destruct (H P) as [|H']; auto. exfalso. specialize (H' P (le_n _)).
  pose proof (max_gn_bound P P HP). lia.
Qed.

Lemma max_gn_pow P c k : (1 <= P)%nat -> (P <= 2 ^ c)%nat ->
  max_gn (gtab P k) <= Z.of_nat (2 ^ (c - k)).
Proof.
  intros HP HC. induction k.
  - apply zmax_lub; [lia|]. intros x Hx. apply in_map_iff in Hx as (g & <- & Hg).
    cbn in Hg. apply repeat_spec in Hg. subst. cbn [gn]. rewrite Nat.sub_0_r. lia.
  - apply zmax_lub; [lia|]. intros x Hx. apply in_map_iff in Hx as (g & <- & Hg).
    pose proof (gtab_inv P k HP) as (Hm & L & H).
    pose proof (gtab_inv P (S k) HP) as (Hm' & L' & H').
    apply (In_nth _ _ g0) in Hg as (q & Hq & <-).
    rewrite L' in Hq. specialize (H q Hq). cbv zeta in H.
    assert (X : gn (nth q (gtab P k) g0) <= max_gn (gtab P k)).
    { apply zmax_ub, in_map, nth_In. lia. }
    assert (E : nth q (gtab P (S k)) g0 = gstep1 (Z.of_nat q) (nth q (gtab P k) g0)).
    { cbn. unfold gstep. apply tmap_nth. lia. }
    rewrite E. unfold gstep1. cbn [gn].
    assert (Z.of_nat (2 ^ (c - k)) <= 2 * Z.of_nat (2 ^ (c - S k)) /\ 1 <= Z.of_nat (2 ^ (c - S k))).
    { assert (2 ^ (c - S k) <> 0)%nat by (apply Nat.pow_nonzero; lia).
      destruct (le_lt_dec c k).
      - replace (c - k)%nat with 0%nat by lia. replace (c - S k)%nat with 0%nat by lia. rewrite Nat.pow_0_r. lia.
      - replace (c - k)%nat with (S (c - S k)) by lia. rewrite Nat.pow_succ_r'. lia. }
    unfold is_lo, base_hi, n_lo. destruct (_ <? _) eqn:El; lia.
Qed.

Lemma last_log P K : (1 <= P)%nat -> is_last P K -> (K <= Nat.log2_up P)%nat.
Proof.
  intros HP (H1 & H2). destruct (le_lt_dec K (Nat.log2_up P)); auto. exfalso.
  specialize (H2 _ l).
  pose proof (max_gn_pow P (Nat.log2_up P) (Nat.log2_up P) HP) as B.
  rewrite Nat.sub_diag, Nat.pow_0_r in B.
  assert (P <= 2 ^ Nat.log2_up P)%nat.
  { destruct (Nat.eq_dec P 1); [subst; cbn; lia|]. apply Nat.log2_up_spec. lia. }
  lia.
Qed.

Lemma bit_ceil_ge n : (n <= bit_ceil n)%nat.
Proof.
  unfold bit_ceil. destruct (Nat.eqb_spec n 0); [lia|].
  destruct (Nat.eqb_spec (n - 1) 0).
  - cbn. lia.
  - pose proof (Nat.log2_spec (n - 1) ltac:(lia)). lia.
Qed.

Section Drv.
Context {A : Type}.
Variables (fill zero : val A).
Notation cdata := (cdata A).
Notation row := (list (option (val A))).
Variables (P : nat) (R0 : nat -> list row).
Hypothesis HP : (1 <= P)%nat.

Fixpoint Rk (k : nat) : nat -> list row :=
  match k with O => R0 | S k' => nextR (gtab P k') (Rk k') end.

Definition width (R : nat -> list row) : nat := nmax (map (fun q => length (R q)) (seq 0 P)).

Lemma nextR_ext m tab (R R' : nat -> list row) : GInv P m tab ->
  (forall q, (q < P)%nat -> R q = R' q) ->
  forall q, (q < P)%nat -> nextR tab R q = nextR tab R' q.
Proof.
  intros GI H q Hq. unfold nextR, keepR, sendR.
  rewrite (H q Hq). rewrite (H (t1 tab q)) by (eapply t1_spec; eauto).
  destruct (two tab q) eqn:T; auto.
  rewrite (H (t1 tab (t2 tab q))); auto.
  assert (A2 : all_ge2 P tab) by (eapply two_all; eauto).
  eapply t1_spec; eauto. eapply t2_spec; eauto.
Qed.

Lemma width_ext R R' : (forall q, (q < P)%nat -> R q = R' q) -> width R = width R'.
Proof.
  intro H. unfold width. f_equal. apply map_ext_in. intros q Hq. apply in_seq in Hq.
  rewrite H; auto. lia.
Qed.

(** States [ds] of static width [w] holding the rows [R]. *)
Definition holds (w L : nat) (ds : list cdata) (R : nat -> list row) : Prop :=
  length ds = P /\ forall q, (q < P)%nat -> WF w L (nth q ds d0) /\ rows (nth q ds d0) = R q.

Lemma holds_resize w L b ds R : holds w L ds R -> (width R <= b)%nat -> holds b L (map (resize zero b) ds) R.
Proof.
  intros (HL & H) Hb. split; [now rewrite map_length|]. intros q Hq.
  rewrite nth_indep with (d' := resize zero b d0) by (rewrite map_length; lia).
  rewrite map_nth. destruct (H q Hq) as (W & E).
  destruct (resize_spec zero w L b (nth q ds d0) W) as (W' & E' & _).
  - etransitivity; [|exact Hb]. rewrite <- rows_length, E. apply nmax_ub.
    apply in_map_iff. exists q. split; auto. apply in_seq. lia.
  - split; auto. congruence.
Qed.

Lemma holds_width w L ds R : holds w L ds R -> (width R <= w)%nat.
Proof.
  intros (HL & H). unfold width.
  assert (forall l, (forall q, In q l -> (q < P)%nat) -> (nmax (map (fun q => length (R q)) l) <= w)%nat).
  { induction l; cbn; try fold (nmax (map (fun q => length (R q)) l)); intros Hl; [lia|].
    destruct (H a) as (W & E); [apply Hl; auto|].
    assert (length (R a) <= w)%nat by (rewrite <- E, rows_length; apply W).
    assert (nmax (map (fun q => length (R q)) l) <= w)%nat by (apply IHl; auto). lia. }
  apply H0. intros q Hq. apply in_seq in Hq. lia.
Qed.

Lemma holds_ext w L ds R R' : (forall q, (q < P)%nat -> R q = R' q) -> holds w L ds R -> holds w L ds R'.
Proof. intros E (HL & H). split; auto. intros q Hq. rewrite <- E; auto. Qed.

Lemma loop_spec L K B s : is_last P K -> (s <= K)%nat ->
  forall fuel i ds mx, (i <= K)%nat -> (K - i < fuel)%nat ->
  holds B L ds (Rk (Nat.max s i)) ->
  mx = (if (s <? i)%nat then width (Rk i) else 0%nat) -> (mx <= B)%nat ->
  exists ds' mx' i', loop fill zero fuel B s ds mx i (gtab P i) = Some (ds', mx', i') /\
  ( ((mx' <= B)%nat /\ i' = K /\ holds B L ds' (Rk K) /\
       mx' = (if (s <? K)%nat then width (Rk K) else 0%nat))
    \/ ((B < mx')%nat /\ (s <= i' < K)%nat /\ holds B L ds' (Rk i') /\ mx' = width (Rk (S i'))) ).
Proof.
  intros HK Hs. induction fuel as [|fuel IH]; intros i ds mx Hi Hf HH Hmx HB; [lia|].
  cbn [loop]. destruct HK as (HK1 & HK2).
  destruct (Z.leb_spec (max_gn (gtab P i)) 1) as [Hg|Hg].
  { assert (i = K). { destruct (Nat.eq_dec i K); auto. specialize (HK2 i ltac:(lia)). lia. }
    subst i. do 3 eexists. split; [reflexivity|]. left. split; auto. split; auto.
    split; auto. now rewrite Nat.max_r in HH by lia. }
  assert (Hi' : (i < K)%nat). { destruct (Nat.eq_dec i K); [subst; lia|lia]. }
  destruct (Nat.leb_spec s i) as [Hsi|Hsi].
  - rewrite Nat.max_r in HH by lia. pose proof HH as (HL & HW).
    destruct (stage_spec fill zero P _ (gtab P i) ds B L B (gtab_inv P i HP) HL)
      as (ds' & mx' & E & L' & M & C).
    { intros q Hq. apply HW; auto. }
    rewrite E.
    assert (EXT : forall q, (q < P)%nat -> nextR (gtab P i) (fun q => rows (nth q ds d0)) q = Rk (S i) q).
    { intros q Hq. cbn [Rk]. eapply nextR_ext; eauto. apply (gtab_inv P i HP). intros. now apply HW. }
    assert (M' : mx' = width (Rk (S i))).
    { rewrite M. apply (width_ext _ _ EXT). }
    destruct (Nat.ltb_spec B mx') as [Hb|Hb].
    + do 3 eexists. split; [reflexivity|]. right. split; auto. split; [lia|]. split; auto.
      apply holds_resize with (w := B); auto. now apply holds_width in HH.
    + rewrite <- gtab_shift. apply IH; try lia.
      * replace (Nat.max s (S i)) with (S i) by lia.
        split; auto. intros q Hq. rewrite <- EXT by auto. apply C; auto.
      * replace (s <? S i)%nat with true by (symmetry; apply Nat.ltb_lt; lia). auto.
  - rewrite Nat.max_l in HH by lia.
    assert (s <? i = false)%nat by (apply Nat.ltb_ge; lia). rewrite H in Hmx. subst mx.
    destruct (Nat.ltb_spec B 0); [lia|].
    rewrite <- gtab_shift. apply IH; try lia.
    + rewrite Nat.max_l by lia. apply holds_resize with (w := B); auto. now apply holds_width in HH.
    + replace (s <? S i)%nat with false; auto. symmetry. apply Nat.ltb_ge. lia.
Qed.

Definition trunc (n : nat) (d : cdata) : cdata := CData (map (firstn n) (leaves d)) (cnt d).

Lemma holds_trunc w L n ds R : holds w L ds R -> (width R <= n <= w)%nat ->
  holds n L (map (trunc n) ds) R.
Proof.
  intros HH Hn.
  destruct (Nat.eq_dec n w) as [->|NE].
  - assert (E : map (trunc w) ds = ds).
    { destruct HH as (HL & H). rewrite <- (map_id ds) at 2. apply map_ext_in. intros d Hd.
      apply (In_nth _ _ d0) in Hd as (q & Hq & <-). destruct (H q) as ((_ & _ & W & _) & _); [lia|].
      unfold trunc. destruct (nth q ds d0); cbn in *. f_equal.
      rewrite <- (map_id leaves) at 2. apply map_ext_in. intros a Ha. apply firstn_all2.
      now rewrite W. }
    now rewrite E.
  - pose proof (holds_resize w L n ds R HH ltac:(lia)) as HR.
    assert (E : map (trunc n) ds = map (resize zero n) ds); [|now rewrite E].
    apply map_ext_in. intros d Hd. destruct HH as (HL & H).
    apply (In_nth _ _ d0) in Hd as (q & Hq & <-). destruct (H q) as (W & _); [lia|].
    unfold trunc, resize, pad_to_size. f_equal. rewrite (WF_size0 _ _ _ W).
    destruct (leaves (nth q ds d0)); auto.
    destruct (Nat.eqb_spec w n); [lia|]. destruct (Nat.ltb_spec n w); [auto|lia].
Qed.

Lemma driver_spec L K : is_last P K -> (1 <= K)%nat ->
  forall fuel calls ds s f B,
  holds B L ds (Rk s) -> (s < K)%nat ->
  (f = s \/ (f = S s /\ (width (Rk (S s)) <= B)%nat)) ->
  (K - f < fuel)%nat ->
  exists ds' calls', driver fill zero fuel calls ds s B = Some (ds', calls') /\
    (calls' <= calls + (K - f) + 1)%nat /\
    holds (width (Rk K)) L ds' (Rk K).
Proof.
  intros HK HK1. induction fuel as [|fuel IH]; intros calls ds s f B HH Hs Hf Hfu; [lia|].
  cbn [driver]. unfold router_loop. pose proof HH as (HL & _). rewrite HL.
  destruct (loop_spec L K B s HK ltac:(lia) (S P) 0 ds 0) as (ds' & mx & i' & E & H); try lia.
  { destruct HK as (_ & HK2).
    destruct (le_lt_dec (K) P); [lia|]. specialize (HK2 P l). pose proof (max_gn_bound P P HP). lia. }
  { now rewrite Nat.max_0_r. }
  { reflexivity. }
  change (ginit P) with (gtab P 0). rewrite E.
  destruct H as [(Hb & -> & HR & Hm)|(Hb & Hi & HR & Hm)].
  - destruct (Nat.ltb_spec B mx); [lia|]. do 2 eexists. split; [reflexivity|]. split; [lia|].
    replace (s <? K)%nat with true in Hm by (symmetry; apply Nat.ltb_lt; lia). rewrite Hm.
    apply (holds_trunc B L _ ds' (Rk K)); auto. lia.
  - destruct (Nat.ltb_spec B mx); [|lia].
    assert (f <= i')%nat.
    { destruct Hf as [->|(-> & HfB)]; [lia|]. destruct (Nat.eq_dec i' s); [|lia]. subst i'. lia. }
    pose proof (bit_ceil_ge mx).
    destruct (IH (S calls) (map (resize zero (bit_ceil mx)) ds') i' (S i') (bit_ceil mx)) as (o & c & E' & C & HO); try lia.
    { apply holds_resize with (w := B); auto. apply holds_width in HR. lia. }
    exists o, c. split; auto. split; auto. lia.
Qed.

(** ** Permutation and locality invariants of the reference *)
Definition tgt_in (lo hi : Z) (r : row) : Prop :=
  exists t, hd None r = Some (VInt t) /\ lo <= t < hi.

Lemma tgt_lt_spec c (r : row) t : hd None r = Some (VInt t) -> tgt_lt c r = (t <? c).
Proof. destruct r as [|[v|] r]; cbn; intro H; inversion H; subst; reflexivity. Qed.

Definition local (tab : list grp) (R : nat -> list row) : Prop :=
  forall q r, (q < P)%nat -> In r (R q) ->
    tgt_in (gb (nth q tab g0)) (gb (nth q tab g0) + gn (nth q tab g0)) r.

Lemma local_step m tab (R : nat -> list row) : GInv P m tab -> local tab R -> local (gstep tab) (nextR tab R).
Proof.
  intros GI HL q r Hq Hr. pose proof GI as (Hm & LT & HG).
  assert (E : nth q (gstep tab) g0 = gstep1 (Z.of_nat q) (nth q tab g0)).
  { unfold gstep. apply tmap_nth. lia. }
  rewrite E. clear E. pose proof (HG q Hq) as Gq. cbv zeta in Gq.
  destruct Gq as (G1 & G2 & G3 & G4).
  unfold nextR in Hr. apply in_app_or in Hr as [Hr|Hr]; [apply in_app_or in Hr as [Hr|Hr]|].
  - unfold keepR in Hr. apply filter_In in Hr as [Hr K].
    destruct (HL q r Hq Hr) as (t & Ht & B). unfold keepb in K.
    rewrite (tgt_lt_spec _ _ _ Ht) in K. exists t. split; auto.
    unfold gstep1, is_lo, base_hi, n_lo in *. cbn [gn gb]. match goal with |- context[if ?b then _ else _] => destruct b eqn:El end; lia.
  - destruct (self tab q) eqn:S; [destruct Hr|].
    unfold sendR in Hr. apply filter_In in Hr as [Hr K].
    destruct (t1_spec P m tab GI q Hq) as (e1 & e2 & e3 & e4 & e5 & e6).
    destruct (HL _ r e2 Hr) as (t & Ht & B). unfold keepb in K.
    rewrite (tgt_lt_spec _ _ _ Ht) in K. rewrite e1, e3 in *. exists t. split; auto.
    unfold self, is_self_target in S. unfold target1 in *.
    unfold gstep1, is_lo, base_hi, n_lo in *. cbn [gn gb]. match goal with |- context[if ?b then _ else _] => destruct b eqn:El end; lia.
  - destruct (two tab q) eqn:T; [|destruct Hr].
    destruct (two_self P m tab GI q Hq T) as (f1 & f2 & f3 & f4 & f5).
    rewrite t2_val, T in Hr.
    assert (Hq1 : (q - 1 < P)%nat) by lia.
    destruct (t1_spec P m tab GI _ Hq1) as (_ & _ & _ & _ & _ & e6). rewrite e6 in Hr by auto.
    unfold sendR in Hr. apply filter_In in Hr as [Hr K].
    destruct (HL _ r Hq1 Hr) as (t & Ht & B). unfold keepb in K.
    rewrite (tgt_lt_spec _ _ _ Ht) in K. rewrite f3 in *. exists t. split; auto.
    unfold gstep1, is_lo, base_hi, n_lo in *. cbn [gn gb]. match goal with |- context[if ?b then _ else _] => destruct b eqn:El end; lia.
Qed.

Lemma flat_map_app_perm {X} (f g : nat -> list X) l :
  Permutation (flat_map (fun q => f q ++ g q) l) (flat_map f l ++ flat_map g l).
Proof.
  induction l; cbn; auto. rewrite <- !app_assoc. apply Permutation_app_head.
  rewrite IHl. rewrite !app_assoc. apply Permutation_app_tail, Permutation_app_comm.
Qed.

Lemma flat_map_ext_in {X} (f g : nat -> list X) l :
  (forall q, In q l -> f q = g q) -> flat_map f l = flat_map g l.
Proof. intro H. rewrite !flat_map_concat_map. f_equal. now apply map_ext_in. Qed.

Lemma filter_split {X} (f : X -> bool) l :
  Permutation (filter f l ++ filter (fun x => negb (f x)) l) l.
Proof.
  induction l; cbn; auto. destruct (f a); cbn.
  - now constructor.
  - rewrite <- Permutation_middle. now constructor.
Qed.

Lemma flat_map_perm_in {X} (f g : nat -> list X) l :
  (forall q, In q l -> Permutation (f q) (g q)) -> Permutation (flat_map f l) (flat_map g l).
Proof.
  induction l; cbn; intro H; auto. apply Permutation_app; auto.
Qed.

Lemma perm_step m tab (R : nat -> list row) : GInv P m tab -> local tab R ->
  Permutation (flat_map (nextR tab R) (seq 0 P)) (flat_map R (seq 0 P)).
Proof.
  intros GI HL.
  set (S q := sendR tab R q).
  assert (Sn : forall q, (q < P)%nat -> gn (nth q tab g0) = 1 -> S q = []).
  { intros q Hq N. unfold S, sendR. apply (incl_l_nil (A := row)). intros r Hr.
    apply filter_In in Hr as [Hr K]. destruct (HL q r Hq Hr) as (t & Ht & B).
    unfold keepb in K. rewrite (tgt_lt_spec _ _ _ Ht) in K.
    pose proof (proj2 (proj2 GI) q Hq) as G. cbv zeta in G.
    unfold base_hi, n_lo in K. lia. }
  transitivity (flat_map (fun q => keepR tab R q ++ S q) (seq 0 P)).
  2:{ apply flat_map_perm_in. intros q _. unfold keepR, S, sendR. apply filter_split. }
  unfold nextR. fold S.
  rewrite flat_map_app_perm, flat_map_app_perm, flat_map_app_perm.
  rewrite <- app_assoc. apply Permutation_app_head.
  (* first round *)
  transitivity (flat_map (fun q => if self tab q then [] else S q) (seq 0 P) ++
                flat_map (fun q => if self tab q then S q else []) (seq 0 P)).
  2:{ rewrite <- flat_map_app_perm. apply flat_map_perm_in. intros q _.
      destruct (self tab q); cbn; auto. now rewrite app_nil_r. }
  apply Permutation_app.
  - rewrite <- (flat_map_reindex P (t1 tab) (fun q => if self tab q then [] else S q)).
    2:{ intros q Hq. destruct (t1_spec P m tab GI q Hq) as (_ & ? & _ & ? & _). auto. }
    apply flat_map_perm_in. intros q Hq. apply in_seq in Hq.
    destruct (t1_spec P m tab GI q) as (_ & _ & _ & _ & -> & _); [lia|]. auto.
  - destruct (existsb (two tab) (seq 0 P)) eqn:EX.
    + apply existsb_exists in EX as (q0 & Hq0 & T0). apply in_seq in Hq0.
      assert (A2 : all_ge2 P tab) by (apply (two_all P m tab GI q0 ltac:(lia) T0)).
      rewrite <- (flat_map_reindex P (t2 tab) (fun q => if self tab q then S q else [])).
      2:{ intros q Hq. destruct (t2_spec P m tab GI q A2 Hq) as (_ & ? & ? & _). auto. }
      apply flat_map_perm_in. intros q Hq. apply in_seq in Hq.
      destruct (t2_spec P m tab GI q A2) as (_ & Hlt & _ & _ & Es); [lia|]. rewrite Es.
      destruct (two tab q) eqn:T; auto.
      destruct (t1_spec P m tab GI (t2 tab q) Hlt) as (_ & _ & _ & _ & _ & e6).
      rewrite e6; auto.
    + assert (T : forall q, (q < P)%nat -> two tab q = false).
      { intros q Hq. destruct (two tab q) eqn:T; auto. rewrite <- EX. symmetry.
        apply existsb_exists. exists q. split; auto. apply in_seq. lia. }
      apply flat_map_perm_in. intros q Hq. apply in_seq in Hq. rewrite T by lia.
      destruct (self tab q) eqn:Sq; auto.
      destruct (Z_le_gt_dec 2 (gn (nth q tab g0))).
      * destruct (self_odd P m tab GI q) as (h1 & h2 & _); auto; [lia|].
        rewrite T in h2 by lia. discriminate.
      * rewrite Sn; auto; [lia|]. pose proof (proj2 (proj2 GI) q) as G. cbv zeta in G.
        pose proof (proj1 GI). specialize (G ltac:(lia)). lia.
Qed.

Lemma Rk_inv : local (ginit P) R0 -> forall k, local (gtab P k) (Rk k) /\
  Permutation (flat_map (Rk k) (seq 0 P)) (flat_map R0 (seq 0 P)).
Proof.
  intros H0 k. induction k as [|k [IH1 IH2]]; [split; auto|].
  cbn [Rk gtab]. pose proof (gtab_inv P k HP) as GI. split.
  - eapply local_step; eauto.
  - rewrite perm_step; eauto.
Qed.

Definition tgt_is (q : nat) (r : row) : bool :=
  match r with Some (VInt t) :: _ => t =? Z.of_nat q | _ => false end.

Lemma final_rows K : is_last P K -> local (ginit P) R0 ->
  forall q, (q < P)%nat ->
  Permutation (Rk K q) (filter (tgt_is q) (flat_map R0 (seq 0 P))).
Proof.
  intros (HK & _) H0 q Hq. destruct (Rk_inv H0 K) as (HL & HPm).
  assert (X : forall f g : list row, Permutation f g -> Permutation (filter (tgt_is q) f) (filter (tgt_is q) g)).
  { intros f g H. induction H; cbn; auto.
    - destruct (tgt_is q x); auto.
    - destruct (tgt_is q x), (tgt_is q y); auto. constructor.
    - etransitivity; eauto. }
  rewrite <- (X _ _ HPm). clear X HPm.
  assert (T : forall p r, (p < P)%nat -> In r (Rk K p) -> tgt_is q r = (p =? q)%nat).
  { intros p r Hp Hr. destruct (HL p r Hp Hr) as (t & Ht & B).
    destruct (max_gn_le1 P _ _ (gtab_inv P K HP) HK p Hp) as (N1 & N2).
    rewrite N1, N2 in B. destruct r as [|[[z|]|] r]; cbn in Ht; inversion Ht; subst. cbn.
    destruct (Nat.eqb_spec p q); lia. }
  assert (F : forall l, (forall p, In p l -> (p < P)%nat) ->
     filter (tgt_is q) (flat_map (Rk K) l) = flat_map (fun p => if (p =? q)%nat then Rk K p else []) l).
  { induction l as [|p l IH]; cbn; intro Hl; auto. rewrite filter_app. rewrite IH by auto. f_equal.
    assert (Hp : (p < P)%nat) by auto.
    destruct (Nat.eqb_spec p q).
    - subst. rewrite <- (map_id (filter _ _)), <- (map_id (Rk K q)) at 1. 
      rewrite !map_id. clear -T Hp. assert (forall r, In r (Rk K q) -> tgt_is q r = true).
      { intros r Hr. rewrite (T q r) by auto. apply Nat.eqb_refl. }
      clear T. induction (Rk K q); cbn; auto. rewrite H by (cbn; auto). f_equal. apply IHl. intros; apply H; cbn; auto.
    - apply (incl_l_nil (A := row)). intros r Hr. apply filter_In in Hr as [Hr E].
      rewrite (T p r) in E by auto. destruct (Nat.eqb_spec p q); [lia|discriminate]. }
  rewrite F by (intros p Hp; apply in_seq in Hp; lia). clear F T HL.
  assert (forall a n, (a <= q < a + n)%nat -> flat_map (fun p => if (p =? q)%nat then Rk K p else []) (seq a n) = Rk K q).
  { intros a n. revert a. induction n as [|n IH]; intros a Ha; [lia|]. cbn.
    destruct (Nat.eqb_spec a q).
    - subst. clear IH.
      replace (flat_map _ (seq (S q) n)) with (@nil row); [now rewrite app_nil_r|].
      assert (forall l, (forall p, In p l -> p <> q) -> [] = flat_map (fun p => if (p =? q)%nat then Rk K p else []) l).
      { induction l; cbn; intro Hl; auto. destruct (Nat.eqb_spec a q); [exfalso; eapply Hl; eauto|]. cbn. auto. }
      apply H. intros p Hp. apply in_seq in Hp. lia.
    - cbn. apply IH. lia. }
  rewrite H by lia. reflexivity.
Qed.
End Drv.
