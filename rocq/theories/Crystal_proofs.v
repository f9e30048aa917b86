From Coq Require Import List ZArith Bool Lia ZifyBool Permutation Arith.
From Verif Require Import Groups_model Groups_proofs Crystal_model Crystal_spec.
Import ListNotations.
Open Scope Z_scope.
Ltac Zify.zify_post_hook ::= Z.div_mod_to_equations.
Arguments Z.max : simpl never.
Arguments Z.add : simpl never.
Arguments Z.sub : simpl never.
Arguments Z.of_nat : simpl never.
Arguments Z.div : simpl never.

(** ** Schedules *)
Section Sched.
Variables (P : nat) (m : Z) (tab : list grp).
Hypothesis GI : GInv P m tab.
Let G q := nth q tab g0.

Definition t1 q := Z.to_nat (target1 (Z.of_nat q) (nth q tab g0)).
Definition t2 q := Z.to_nat (target2 (Z.of_nat q) (nth q tab g0)).
Definition self q := is_self_target (Z.of_nat q) (nth q tab g0).
Definition two q := is_recvn_two (Z.of_nat q) (nth q tab g0).
Definition nrecv q := num_recv (Z.of_nat q) (nth q tab g0).

Lemma t1_spec q : (q < P)%nat ->
  Z.of_nat (t1 q) = target1 (Z.of_nat q) (nth q tab g0) /\ (t1 q < P)%nat /\
  nth (t1 q) tab g0 = nth q tab g0 /\ t1 (t1 q) = q /\ self (t1 q) = self q /\
  (self q = true -> t1 q = q).
Proof using GI.
  intro Hq. destruct GI as (Hm & L & H). specialize (H q Hq). cbv zeta in H.
  destruct H as (H1 & H2 & H3 & H4).
  assert (E : Z.of_nat (t1 q) = target1 (Z.of_nat q) (nth q tab g0)).
  { unfold t1, target1. lia. }
  assert (E2 : nth (t1 q) tab g0 = nth q tab g0).
  { apply H4. rewrite E. unfold target1. lia. }
  split; auto. unfold target1 in E. split; [lia|]. split; auto.
  assert (E3 : t1 (t1 q) = q). { unfold t1 at 1. rewrite E2. unfold target1. lia. }
  split; auto.
  unfold self, is_self_target. rewrite E2. unfold target1. split; [lia|]. lia.
Qed.

Definition all_ge2 := forall q, (q < P)%nat -> 2 <= gn (nth q tab g0).

Lemma two_all q : (q < P)%nat -> two q = true -> all_ge2.
Proof using GI.
  intros Hq T. destruct GI as (Hm & L & H). intros q' Hq'.
  pose proof (H q Hq) as A. pose proof (H q' Hq') as B. cbv zeta in A, B.
  unfold two, is_recvn_two, base_hi, n_lo in T. lia.
Qed.

Lemma self_odd q : (q < P)%nat -> 2 <= gn (nth q tab g0) -> self q = true ->
  (S q < P)%nat /\ two (S q) = true /\ nth (S q) tab g0 = nth q tab g0 /\
  gn (nth q tab g0) mod 2 = 1 /\ Z.of_nat (S q) = base_hi (nth q tab g0).
Proof using GI.
  intros Hq N S. destruct GI as (Hm & L & H). specialize (H q Hq). cbv zeta in H.
  destruct H as (H1 & H2 & H3 & H4).
  unfold self, is_self_target, target1 in S.
  assert (E : nth (Datatypes.S q) tab g0 = nth q tab g0).
  { apply H4. lia. }
  unfold two, is_recvn_two. rewrite E. unfold base_hi, n_lo. repeat split; auto; lia.
Qed.

Lemma two_self q : (q < P)%nat -> two q = true ->
  (1 <= q)%nat /\ self (q - 1) = true /\ nth (q - 1) tab g0 = nth q tab g0 /\ self q = false
  /\ Z.of_nat q = base_hi (nth q tab g0).
Proof using GI.
  intros Hq T. destruct GI as (Hm & L & H). specialize (H q Hq). cbv zeta in H.
  destruct H as (H1 & H2 & H3 & H4).
  unfold two, is_recvn_two, base_hi, n_lo in T.
  assert (E : nth (q - 1) tab g0 = nth q tab g0).
  { apply H4. lia. }
  unfold self, is_self_target, target1. rewrite E. unfold base_hi, n_lo. repeat split; auto; lia.
Qed.

Lemma t2_val q :
  t2 q = if two q then (q - 1)%nat
         else if self q then Z.to_nat (base_hi (nth q tab g0)) else q.
Proof.
  unfold t2, target2. fold (two q) (self q).
  destruct (two q); [lia|]. destruct (self q); lia.
Qed.

Lemma t2_spec q : all_ge2 -> (q < P)%nat ->
  Z.of_nat (t2 q) = target2 (Z.of_nat q) (nth q tab g0) /\ (t2 q < P)%nat /\
  t2 (t2 q) = q /\ two (t2 q) = self q /\ self (t2 q) = two q.
Proof using GI.
  intros A Hq.
  assert (E : Z.of_nat (t2 q) = target2 (Z.of_nat q) (nth q tab g0)).
  { unfold t2. pose proof (proj2 (proj2 GI) q Hq) as H. cbv zeta in H.
    enough (0 <= target2 (Z.of_nat q) (nth q tab g0)) by lia.
    unfold target2. fold (two q). destruct (two q) eqn:T.
    - apply two_self in T; auto. lia.
    - unfold base_hi, n_lo. destruct (is_self_target _ _); lia. }
  split; auto. clear E.
  rewrite (t2_val q). destruct (two q) eqn:T.
  - destruct (two_self q Hq T) as (h1 & h2 & h3 & h4 & h5).
    assert (T' : two (q - 1) = false).
    { destruct (two (q-1)) eqn:?; auto. apply two_self in Heqb; [|lia]. destruct Heqb as (_ & _ & _ & _ & X). rewrite h3 in X. lia. }
    rewrite t2_val, T', h2, h3, h4. repeat split; auto; lia.
  - destruct (self q) eqn:S.
    + destruct (self_odd q Hq (A q Hq) S) as (h1 & h2 & h3 & h4 & h5).
      rewrite <- h5. rewrite Nat2Z.id. destruct (two_self _ h1 h2) as (k1 & k2 & k3 & k4 & k5).
      rewrite t2_val, h2, k4. repeat split; auto; lia.
    + rewrite t2_val, T, S. repeat split; auto.
Qed.

Lemma perm1_ok : is_perm (tmap target1 tab) P = true.
Proof using GI.
  destruct GI as (Hm & L & _). apply (is_perm_involution P _ t1).
  - now rewrite tmap_length.
  - intros q Hq. rewrite tmap_nth with (d := g0) by lia.
    symmetry. apply (t1_spec q Hq).
  - intros q Hq. destruct (t1_spec q Hq) as (_ & ? & _ & ? & _). auto.
Qed.

Lemma perm2_ok : all_ge2 -> is_perm (tmap target2 tab) P = true.
Proof using GI.
  intro A. destruct GI as (Hm & L & _). apply (is_perm_involution P _ t2).
  - now rewrite tmap_length.
  - intros q Hq. rewrite tmap_nth with (d := g0) by lia.
    symmetry. apply (t2_spec q A Hq).
  - intros q Hq. destruct (t2_spec q A Hq) as (_ & ? & ? & _). auto.
Qed.

Lemma nrecv_spec q : (q < P)%nat ->
  (0 <? nrecv q) = negb (self q) /\ (nrecv q =? 2) = two q.
Proof using GI.
  intro Hq. unfold nrecv, num_recv. fold (self q) (two q).
  destruct (two q) eqn:T.
  - destruct (two_self q Hq T) as (_ & _ & _ & -> & _). split; reflexivity.
  - destruct (self q); split; reflexivity.
Qed.

Lemma second_shuffle : 1 < zmax (tmap num_recv tab) ->
  exists q, (q < P)%nat /\ two q = true.
Proof using GI.
  intro H. destruct (zmax_ex (tmap num_recv tab)) as (x & Hx & E); [lia|].
  apply (In_nth _ _ 0) in Hx as (q & Hq & Eq).
  destruct GI as (Hm & L & _). rewrite tmap_length, L in Hq.
  exists q. split; auto.
  rewrite tmap_nth with (d := g0) in Eq by lia. fold (nrecv q) in Eq.
  unfold nrecv, num_recv in Eq. fold (self q) (two q) in Eq.
  destruct (two q); auto. destruct (self q); cbn in Eq; lia.
Qed.

Lemma no_second_shuffle : ~ 1 < zmax (tmap num_recv tab) ->
  forall q, (q < P)%nat -> two q = false.
Proof using GI.
  intros H q Hq. destruct (two q) eqn:T; auto. exfalso. apply H.
  destruct GI as (Hm & L & _).
  assert (nrecv q = 2). { destruct (nrecv_spec q Hq) as [_ X]. rewrite T in X. now apply Z.eqb_eq. }
  assert (nrecv q <= zmax (tmap num_recv tab)); [|lia].
  apply zmax_ub. unfold nrecv.
  rewrite <- (tmap_nth num_recv tab q g0 0) by lia. apply nth_In. rewrite tmap_length. lia.
Qed.
End Sched.

Lemma nth_error_firstn {X} (l : list X) b j : (j < b)%nat ->
  nth_error (firstn b l) j = nth_error l j.
Proof.
  revert b j. induction l as [|x l IH]; intros [|b] [|j] H; cbn; auto; try lia.
  apply IH. lia.
Qed.

(** ** Rows of a device *)
Section Rows.
Context {A : Type}.
Variables (fill zero : val A).
Notation cdata := (cdata A).
Notation row := (list (option (val A))).

Definition rows (d : cdata) : list row := live_rows (leaves d) (cnt d).

Definition WF (w L : nat) (d : cdata) : Prop :=
  (1 <= L)%nat /\ length (leaves d) = L /\
  (forall a, In a (leaves d) -> length a = w) /\ (cnt d <= w)%nat.

Definition WF' (w L : nat) (d : cdata) : Prop :=
  (1 <= L)%nat /\ length (leaves d) = L /\ (forall a, In a (leaves d) -> length a = w).

Lemma WF_size0 w L d : WF w L d -> size0 (leaves d) = w.
Proof.
  intros (h1 & h2 & h3 & h4). destruct (leaves d); cbn in *; [lia|]. apply h3; auto.
Qed.

Lemma rows_length d : length (rows d) = cnt d.
Proof. unfold rows, live_rows. now rewrite map_length, seq_length. Qed.

Lemma row_ext (ls ls' : list (leaf A)) j j' :
  length ls = length ls' ->
  (forall k, (k < length ls)%nat -> nth_error (nth k ls []) j = nth_error (nth k ls' []) j') ->
  Crystal_spec.row ls j = Crystal_spec.row ls' j'.
Proof.
  intros HL H. unfold Crystal_spec.row.
  apply nth_ext with (d := nth_error (@nil (val A)) j) (d' := nth_error (@nil (val A)) j').
  { now rewrite !map_length. }
  intros k Hk. rewrite map_length in Hk.
  rewrite (map_nth (fun a => nth_error a j)), (map_nth (fun a => nth_error a j')). auto.
Qed.

Lemma resize_spec w L b d : WF w L d -> (cnt d <= b)%nat ->
  WF b L (resize zero b d) /\ rows (resize zero b d) = rows d /\ cnt (resize zero b d) = cnt d.
Proof.
  intros W Hc. pose proof (WF_size0 _ _ _ W) as S0. destruct W as (h1 & h2 & h3 & h4).
  unfold resize, pad_to_size, rows. cbn [leaves cnt].
  destruct (leaves d) as [|a0 ls0] eqn:El; [cbn in *; lia|]. rewrite <- El in *. clear El a0 ls0.
  rewrite S0.
  destruct (Nat.eqb_spec w b); [|destruct (Nat.ltb_spec b w)].
  - subst. repeat split; auto; cbn; lia.
  - repeat split; auto.
    + cbn. now rewrite map_length.
    + cbn. intros a Ha. apply in_map_iff in Ha as (a' & <- & Ha'). apply h3 in Ha'.
      rewrite firstn_length. lia.
    + unfold live_rows. apply map_ext_in. intros j Hj. apply in_seq in Hj.
      apply row_ext; [now rewrite map_length|]. rewrite map_length. intros k Hk.
      rewrite nth_indep with (d' := firstn b (@nil (val A))) by (rewrite map_length; lia).
      rewrite map_nth, nth_error_firstn; auto. lia.
  - repeat split; auto.
    + cbn. now rewrite map_length.
    + cbn. intros a Ha. apply in_map_iff in Ha as (a' & <- & Ha'). apply h3 in Ha'.
      rewrite app_length, repeat_length. lia.
    + unfold live_rows. apply map_ext_in. intros j Hj. apply in_seq in Hj.
      apply row_ext; [now rewrite map_length|]. rewrite map_length. intros k Hk.
      set (f := fun a => a ++ repeat zero (b - w)).
      rewrite nth_indep with (d' := f []) by (rewrite map_length; lia).
      rewrite map_nth. unfold f. rewrite nth_error_app1; auto.
      rewrite h3; [lia|]. now apply nth_In.
Qed.

(** Indices selected by a mask given by a predicate on positions. *)
Lemma true_indices_filter (f : nat -> bool) w :
  true_indices (map f (seq 0 w)) = filter f (seq 0 w).
Proof.
  unfold true_indices. rewrite map_length, seq_length.
  induction (seq 0 w) as [|x l IH]; cbn; auto.
  destruct (f x); cbn; now rewrite IH.
Qed.

Lemma filter_id_length (f : nat -> bool) l :
  length (filter (fun b => b) (map f l)) = length (filter f l).
Proof. induction l; cbn; auto. destruct (f a); cbn; auto. Qed.

Lemma nth_nth_error (l : list (val A)) k d : (k < length l)%nat -> Some (nth k l d) = nth_error l k.
Proof. intro H. symmetry. now apply nth_error_nth'. Qed.

Lemma filter_length_le' {X} (f : X -> bool) l : (length (filter f l) <= length l)%nat.
Proof. induction l; cbn; auto. destruct (f a); cbn; lia. Qed.

Lemma select_spec w L d size (f : nat -> bool) :
  WF w L d -> (w <= size)%nat ->
  let d' := select fill (map f (seq 0 w)) size d in
  WF size L d' /\ rows d' = map (Crystal_spec.row (leaves d)) (filter f (seq 0 w))
  /\ cnt d' = length (filter f (seq 0 w)).
Proof.
  intros W Hs d'. pose proof (WF_size0 _ _ _ W) as S0. destruct W as (h1 & h2 & h3 & h4).
  set (idx := where_size (map f (seq 0 w)) size w).
  set (sel := filter f (seq 0 w)).
  assert (Hsel : (length sel <= w)%nat).
  { unfold sel. etransitivity; [apply filter_length_le'|]. now rewrite seq_length. }
  assert (Li : length idx = size).
  { unfold idx, where_size. rewrite firstn_length, app_length, repeat_length. lia. }
  assert (Ni : forall j, (j < length sel)%nat -> nth j idx 0%nat = nth j sel 0%nat).
  { intros j Hj. unfold idx, where_size. rewrite true_indices_filter. fold sel.
    rewrite firstn_app. rewrite firstn_all2 by lia. apply app_nth1. auto. }
  assert (C : cnt d' = length sel).
  { cbn. now rewrite filter_id_length. }
  assert (LV : leaves d' = map (fun a => map (fun k => nth k a fill) idx) (leaves d)).
  { cbn. rewrite S0. reflexivity. }
  clearbody d'.
  split; [|split]; auto.
  - split; auto. rewrite LV, map_length. split; auto. split; [|lia].
    intros a Ha. apply in_map_iff in Ha as (a' & <- & _). now rewrite map_length.
  - unfold rows, live_rows. rewrite C, LV.
    apply nth_ext with (d := Crystal_spec.row (map (fun a => map (fun k => nth k a fill) idx) (leaves d)) 0)
                       (d' := Crystal_spec.row (leaves d) 0).
    { now rewrite !map_length, seq_length. }
    intros j Hj. rewrite map_length, seq_length in Hj.
    rewrite !map_nth, seq_nth by auto. cbn.
    apply row_ext; [now rewrite map_length|]. rewrite map_length. intros k Hk.
    set (g := fun a => map (fun k => nth k a fill) idx).
    rewrite nth_indep with (d' := g []) by (rewrite map_length; lia).
    rewrite map_nth. unfold g.
    assert (Hin : In (nth j sel 0%nat) sel) by (now apply nth_In).
    unfold sel in Hin at 2. apply filter_In in Hin as [Hin _]. apply in_seq in Hin.
    set (a := nth k (leaves d) []). assert (length a = w) by (apply h3; now apply nth_In).
    rewrite (nth_error_nth' (map (fun k => nth k a fill) idx) (nth 0 a fill))
      by (rewrite map_length; lia).
    rewrite (map_nth (fun k => nth k a fill)). rewrite Ni by auto.
    apply nth_nth_error. lia.
Qed.

Lemma dus_spec a b s : (length b <= length a)%nat ->
  exists c, dus a b s = Some c /\ length c = length a /\
   ((s + length b <= length a)%nat ->
     (forall j, (j < s)%nat -> nth_error c j = nth_error (a : leaf A) j) /\
     (forall j, (j < length b)%nat -> nth_error c (s + j) = nth_error b j)).
Proof.
  intro H. unfold dus. destruct (Nat.ltb_spec (length a) (length b)); [lia|].
  eexists; split; [reflexivity|].
  set (s' := Nat.min s (length a - length b)).
  split.
  - rewrite !app_length, firstn_length, skipn_length. unfold s'. lia.
  - intro Hs. replace s' with s by (unfold s'; lia). split; intros j Hj.
    + rewrite nth_error_app1 by (rewrite firstn_length; lia).
      now apply nth_error_firstn.
    + rewrite nth_error_app2 by (rewrite firstn_length; lia).
      rewrite firstn_length. replace (s + j - Nat.min s (length a))%nat with j by lia.
      now apply nth_error_app1.
Qed.

Lemma cadd_spec w1 w2 L d e : WF' w1 L d -> WF w2 L e -> (w2 <= w1)%nat ->
  exists c, cadd d e = Some c /\ cnt c = (cnt d + cnt e)%nat /\
   WF' w1 L c /\ ((cnt d + w2 <= w1)%nat -> rows c = rows d ++ rows e).
Proof.
  intros (h1 & h2 & h3) (k1 & k2 & k3 & k4) Hw.
  assert (Hd : forall k, (k < L)%nat -> length (nth k (leaves d) []) = w1) by (intros; apply h3, nth_In; lia).
  assert (He : forall k, (k < L)%nat -> length (nth k (leaves e) []) = w2) by (intros; apply k3, nth_In; lia).
  unfold cadd.
  destruct (mapM_some (fun ab : leaf A * leaf A => dus (fst ab) (snd ab) (cnt d)) (combine (leaves d) (leaves e)))
    as [ls Hls].
  { intros [a b] Hab. cbn.
    destruct (dus_spec a b (cnt d)) as (c & -> & _); [|discriminate].
    pose proof (in_combine_l _ _ _ _ Hab). apply in_combine_r in Hab.
    rewrite (h3 a), (k3 b) by auto. lia. }
  rewrite Hls. eexists; split; [reflexivity|]. cbn [cnt leaves].
  apply mapM_nth in Hls as [Ll Nl]. rewrite combine_length in Ll, Nl.
  assert (HN : forall q, (q < L)%nat -> dus (nth q (leaves d) []) (nth q (leaves e) []) (cnt d) = Some (nth q ls [])).
  { intros q Hq. specialize (Nl q ([],[]) []). rewrite combine_nth in Nl by lia. apply Nl. lia. }
  split; auto.
  assert (HA : forall a, In a ls -> length a = w1).
  { intros a Ha. apply (In_nth _ _ []) in Ha as (q & Hq & <-).
    destruct (dus_spec (nth q (leaves d) []) (nth q (leaves e) []) (cnt d)) as (c & Hc & Lc & _).
    { rewrite Hd, He by lia. lia. }
    rewrite HN in Hc by lia. inversion Hc. subst c. rewrite Lc. apply h3, nth_In. lia. }
  split; [split; auto; split; auto; cbn [leaves]; lia|]. intro Hfit.
  unfold rows, live_rows. cbn [leaves cnt]. rewrite seq_app, map_app. f_equal.
  - apply map_ext_in. intros j Hj. apply in_seq in Hj. apply row_ext; [lia|].
    intros k Hk.
    destruct (dus_spec (nth k (leaves d) []) (nth k (leaves e) []) (cnt d)) as (c & Hc & Lc & F).
    { rewrite Hd, He by lia. lia. }
    rewrite HN in Hc by lia. inversion Hc. subst c. apply F; [|lia].
    rewrite Hd, He by lia. lia.
  - apply nth_ext with (d := Crystal_spec.row ls 0) (d' := Crystal_spec.row (leaves e) 0).
    { now rewrite !map_length, !seq_length. }
    intros j Hj. rewrite map_length, seq_length in Hj.
    rewrite !map_nth, !seq_nth by lia. cbn [Nat.add].
    apply row_ext; [lia|]. intros k Hk.
    destruct (dus_spec (nth k (leaves d) []) (nth k (leaves e) []) (cnt d)) as (c & Hc & Lc & F).
    { rewrite Hd, He by lia. lia. }
    rewrite HN in Hc by lia. inversion Hc. subst c. apply F.
    + rewrite Hd, He by lia. lia.
    + rewrite He by lia. lia.
Qed.

(** ** Row-level reference of one stage *)
Definition tgt_lt (c : Z) (r : row) : bool :=
  match r with Some v :: _ => lt_cutoff c v | _ => false end.
Definition keepb (idx c : Z) (r : row) : bool := xorb (tgt_lt c r) (c <=? idx).

Definition keepR (tab : list grp) (R : nat -> list row) (q : nat) :=
  filter (keepb (Z.of_nat q) (base_hi (nth q tab g0))) (R q).
Definition sendR (tab : list grp) (R : nat -> list row) (q : nat) :=
  filter (fun r => negb (keepb (Z.of_nat q) (base_hi (nth q tab g0)) r)) (R q).
Definition nextR (tab : list grp) (R : nat -> list row) (q : nat) : list row :=
  (keepR tab R q ++ (if self tab q then [] else sendR tab R (t1 tab q)))
  ++ (if two tab q then sendR tab R (t1 tab (t2 tab q)) else []).

Lemma combine_map {X Y Z} (f : X -> Y) (g : X -> Z) l :
  combine (map f l) (map g l) = map (fun x => (f x, g x)) l.
Proof. induction l; cbn; congruence. Qed.

Lemma map_nth_seq {X} (l : list X) d : l = map (fun j => nth j l d) (seq 0 (length l)).
Proof.
  apply nth_ext with (d := d) (d' := nth 0 l d); [now rewrite map_length, seq_length|].
  intros n Hn. rewrite (map_nth (fun j => nth j l d)), seq_nth; auto.
Qed.

Lemma filter_lt_seq (g : nat -> bool) n w : (n <= w)%nat ->
  filter (fun j => (j <? n)%nat && g j) (seq 0 w) = filter g (seq 0 n).
Proof.
  intro H. replace w with (n + (w - n))%nat by lia. rewrite seq_app, filter_app.
  rewrite <- (app_nil_r (filter g (seq 0 n))). f_equal.
  - apply filter_ext_in. intros j Hj. apply in_seq in Hj.
    destruct (Nat.ltb_spec j n); auto; lia.
  - apply (incl_l_nil (A := nat)). intros j Hj. apply filter_In in Hj as [Hj E].
    apply in_seq in Hj. lia.
Qed.

Lemma map_filter_comm {X Y} (h : X -> Y) (g : Y -> bool) l :
  map h (filter (fun x => g (h x)) l) = filter g (map h l).
Proof. induction l; cbn; auto. destruct (g (h a)); cbn; congruence. Qed.

Lemma masks_spec w L idx c d : WF w L d ->
  keep_mask idx c d = map (fun j => (j <? cnt d)%nat && keepb idx c (Crystal_spec.row (leaves d) j)) (seq 0 w)
  /\ send_mask idx c d = map (fun j => (j <? cnt d)%nat && negb (keepb idx c (Crystal_spec.row (leaves d) j))) (seq 0 w).
Proof.
  intro W. pose proof (WF_size0 _ _ _ W) as S0. destruct W as (h1 & h2 & h3 & h4).
  destruct (leaves d) as [|tg ls] eqn:El; [cbn in *; lia|]. cbn in S0.
  assert (LO : lo_mask c d = map (fun j => (j <? cnt d)%nat && tgt_lt c (Crystal_spec.row (leaves d) j)) (seq 0 w)).
  { unfold lo_mask, live_mask. rewrite El. cbn [size0 hd].
    rewrite (map_nth_seq tg fill) at 2. rewrite S0, combine_map, map_map.
    apply map_ext_in. intros j Hj. apply in_seq in Hj. cbn.
    rewrite <- (nth_nth_error tg j fill) by lia. reflexivity. }
  assert (K : keep_mask idx c d = map (fun j => (j <? cnt d)%nat && keepb idx c (Crystal_spec.row (leaves d) j)) (seq 0 w)).
  { unfold keep_mask. rewrite LO. unfold live_mask. rewrite El. cbn [size0]. rewrite S0, combine_map, map_map.
    apply map_ext. intro j. cbn [fst snd]. unfold keepb. now destruct (j <? cnt d)%nat. }
  rewrite <- El. split; auto.
  unfold send_mask. rewrite K. unfold live_mask. rewrite El. cbn [size0]. rewrite S0, combine_map, map_map.
  apply map_ext. intro j. cbn [fst snd]. destruct (j <? cnt d)%nat; now try destruct (keepb _ _ _).
Qed.

Lemma keep_part_spec w L B idx g d : WF w L d ->
  let k := keep_part fill B idx (g, d) in
  WF (B + w) L k /\ rows k = filter (keepb idx (base_hi g)) (rows d).
Proof.
  intros W k. pose proof (WF_size0 _ _ _ W) as S0.
  destruct (masks_spec w L idx (base_hi g) d W) as [K _].
  unfold k, keep_part. cbn [fst snd]. rewrite S0, K.
  destruct (select_spec w L d (B + w) (fun j => (j <? cnt d)%nat && keepb idx (base_hi g) (Crystal_spec.row (leaves d) j)) W)
    as (W' & R & C); [lia|].
  split; auto. rewrite R, filter_lt_seq by (apply W). apply map_filter_comm.
Qed.

Lemma send_part_spec w L idx g d : WF w L d ->
  let k := send_part fill idx (g, d) in
  WF w L k /\ rows k = filter (fun r => negb (keepb idx (base_hi g) r)) (rows d).
Proof.
  intros W k. pose proof (WF_size0 _ _ _ W) as S0.
  destruct (masks_spec w L idx (base_hi g) d W) as [_ K].
  unfold k, send_part. cbn [fst snd]. rewrite S0, K.
  destruct (select_spec w L d w (fun j => (j <? cnt d)%nat && negb (keepb idx (base_hi g) (Crystal_spec.row (leaves d) j))) W)
    as (W' & R & C); [lia|].
  split; auto. rewrite R, filter_lt_seq by (apply W).
  apply (map_filter_comm (Crystal_spec.row (leaves d)) (fun r => negb (keepb idx (base_hi g) r))).
Qed.

Definition d0 : cdata := CData [] 0.

Lemma merge_if_spec P w1 w2 L (c : nat -> bool) cs (keep send : list cdata) :
  length cs = P -> length keep = P -> length send = P -> (w2 <= w1)%nat ->
  (forall q, (q < P)%nat -> nth q cs false = c q) ->
  (forall q, (q < P)%nat -> WF' w1 L (nth q keep d0) /\ WF w2 L (nth q send d0)) ->
  exists out, merge_if cs keep send = Some out /\ length out = P /\
   forall q, (q < P)%nat ->
     WF' w1 L (nth q out d0) /\
     cnt (nth q out d0) = (cnt (nth q keep d0) + if c q then cnt (nth q send d0) else 0)%nat /\
     ((cnt (nth q keep d0) + w2 <= w1)%nat ->
       rows (nth q out d0) = rows (nth q keep d0) ++ if c q then rows (nth q send d0) else []).
Proof.
  intros L1 L2 L3 Hw Hc HW. unfold merge_if.
  set (F := fun cks : bool * (cdata * cdata) => if fst cks then cadd (fst (snd cks)) (snd (snd cks)) else Some (fst (snd cks))).
  assert (N : forall q, (q < P)%nat -> nth q (combine cs (combine keep send)) (false, (d0, d0)) = (c q, (nth q keep d0, nth q send d0))).
  { intros q Hq. rewrite combine_nth by (rewrite combine_length; lia).
    rewrite combine_nth by lia. now rewrite Hc. }
  assert (LC : length (combine cs (combine keep send)) = P).
  { rewrite !combine_length. lia. }
  destruct (mapM_some F (combine cs (combine keep send))) as [out Hout].
  { intros x Hx. apply (In_nth _ _ (false, (d0, d0))) in Hx as (q & Hq & <-).
    rewrite N by lia. unfold F. cbn. destruct (c q); [|discriminate].
    destruct (HW q) as [A1 A2]; [lia|].
    destruct (cadd_spec _ _ _ _ _ A1 A2 Hw) as (o & -> & _). discriminate. }
  exists out. split; auto. apply mapM_nth in Hout as [LO NO]. split; [lia|].
  intros q Hq. destruct (HW q Hq) as [A1 A2].
  specialize (NO q (false, (d0, d0)) d0 ltac:(lia)). rewrite N in NO by auto.
  unfold F in NO. cbn in NO. destruct (c q).
  - destruct (cadd_spec _ _ _ _ _ A1 A2 Hw) as (o & E & C & W' & R). rewrite E in NO.
    inversion NO. subst o. auto.
  - injection NO as E; rewrite <- E. split; auto. split; [lia|]. intros. now rewrite app_nil_r.
Qed.

Lemma nmax_ub l x : In x l -> (x <= nmax l)%nat.
Proof. induction l; cbn; try fold (nmax l); [tauto|]. intros [->|H]; [lia|]. specialize (IHl H). lia. Qed.

Lemma stage_spec P m tab ds w L B :
  GInv P m tab -> length ds = P ->
  (forall q, (q < P)%nat -> WF w L (nth q ds d0)) ->
  let R := fun q => rows (nth q ds d0) in
  exists ds' mx, stage fill zero B tab ds = Some (ds', mx) /\ length ds' = P /\ mx = nmax (map (fun q => length (nextR tab R q)) (seq 0 P)) /\ ((mx <= B)%nat -> forall q, (q < P)%nat ->
      WF B L (nth q ds' d0) /\ rows (nth q ds' d0) = nextR tab R q).
Proof.
  intros GI LD HW R. pose proof GI as (Hm & LT & HG).
  unfold stage.
  set (keep := tmap (keep_part fill B) (combine tab ds)).
  set (send := tmap (send_part fill) (combine tab ds)).
  set (nr := tmap num_recv tab).
  assert (LC : length (combine tab ds) = P) by (rewrite combine_length; lia).
  assert (LK : length keep = P) by (unfold keep; rewrite tmap_length; auto).
  assert (LS : length send = P) by (unfold send; rewrite tmap_length; auto).
  assert (LN : length nr = P) by (unfold nr; rewrite tmap_length; auto).
  assert (HK : forall q, (q < P)%nat -> WF (B + w) L (nth q keep d0) /\ rows (nth q keep d0) = keepR tab R q).
  { intros q Hq. unfold keep. rewrite tmap_nth with (d := (g0, d0)) by lia.
    rewrite combine_nth by lia. apply (keep_part_spec w L B); auto. }
  assert (HS : forall q, (q < P)%nat -> WF w L (nth q send d0) /\ rows (nth q send d0) = sendR tab R q).
  { intros q Hq. unfold send. rewrite tmap_nth with (d := (g0, d0)) by lia.
    rewrite combine_nth by lia. apply (send_part_spec w L); auto. }
  assert (HN : forall q, (q < P)%nat -> nth q nr 0 = nrecv tab q).
  { intros q Hq. unfold nr. rewrite tmap_nth with (d := g0) by lia. reflexivity. }
  destruct (pshuffle_nth (tmap target1 tab) send) as (send1 & E1 & L1 & N1).
  { rewrite LS. eapply perm1_ok; eauto. }
  rewrite E1.
  assert (HS1 : forall q, (q < P)%nat -> WF w L (nth q send1 d0) /\ rows (nth q send1 d0) = sendR tab R (t1 tab q)).
  { intros q Hq. rewrite N1 by lia. rewrite tmap_nth with (d := g0) by lia.
    fold (t1 tab q). apply HS. eapply t1_spec; eauto. }
  destruct (merge_if_spec P (B + w) w L (fun q => negb (self tab q)) (map (fun k => 0 <? k) nr) keep send1)
    as (keep1 & EK1 & LK1 & HK1); try lia.
  { now rewrite map_length. }
  { intros q Hq. rewrite nth_indep with (d' := (0 <? 0)) by (rewrite map_length; lia).
    rewrite (map_nth (fun k => 0 <? k)), HN by auto. eapply nrecv_spec; eauto. }
  { intros q Hq. split; [|now apply HS1]. destruct (HK q Hq) as [(h1 & h2 & h3 & h4) _]. split; auto. }
  rewrite EK1.
  assert (C1 : forall q, (q < P)%nat -> cnt (nth q keep1 d0) =
     length (keepR tab R q ++ (if self tab q then [] else sendR tab R (t1 tab q)))).
  { intros q Hq. destruct (HK1 q Hq) as (_ & -> & _). destruct (HK q Hq) as [_ <-].
    destruct (HS1 q Hq) as [_ <-]. rewrite app_length, rows_length.
    destruct (self tab q); cbn; auto. now rewrite rows_length. }
  assert (R1 : forall q, (q < P)%nat -> (cnt (nth q keep1 d0) <= B)%nat -> rows (nth q keep1 d0) =
     keepR tab R q ++ (if self tab q then [] else sendR tab R (t1 tab q))).
  { intros q Hq Hc. destruct (HK1 q Hq) as (_ & C & RR). rewrite C in Hc.
    rewrite RR by lia. destruct (HK q Hq) as [_ <-].
    destruct (HS1 q Hq) as [_ <-]. now destruct (self tab q). }
  assert (FIN : forall ks, length ks = P -> (forall q, (q < P)%nat -> WF' (B + w) L (nth q ks d0) /\ cnt (nth q ks d0) = length (nextR tab R q) /\ ((cnt (nth q ks d0) <= B)%nat -> rows (nth q ks d0) = nextR tab R q)) ->
     exists ds' mx, Some (map (resize zero B) ks, nmax (map cnt ks)) = Some (ds', mx) /\ length ds' = P /\ mx = nmax (map (fun q => length (nextR tab R q)) (seq 0 P)) /\ ((mx <= B)%nat -> forall q, (q < P)%nat ->
        WF B L (nth q ds' d0) /\ rows (nth q ds' d0) = nextR tab R q)).
  { intros ks Lks H. do 2 eexists. split; [reflexivity|]. rewrite map_length. split; auto. split.
    - f_equal. rewrite (map_nth_seq ks d0) at 1. rewrite map_map, Lks. apply map_ext_in.
      intros q Hq. apply in_seq in Hq. apply H. lia.
    - intros Hmx q Hq. destruct (H q Hq) as ((h1 & h2 & h3) & C & RR).
      assert (CB : (cnt (nth q ks d0) <= B)%nat).
      { etransitivity; [|apply Hmx]. apply nmax_ub. apply in_map, nth_In. lia. }
      rewrite nth_indep with (d' := resize zero B d0) by (rewrite map_length; lia).
      rewrite map_nth.
      destruct (resize_spec (B + w) L B (nth q ks d0)) as (W & E & _); auto.
      { split; auto. split; auto. split; auto. lia. }
      split; auto. rewrite E. auto. }
  destruct (Z.ltb_spec 1 (zmax nr)) as [Hz|Hz].
  - destruct (second_shuffle P m tab GI Hz) as (q0 & Hq0 & T0).
    pose proof (two_all P m tab GI q0 Hq0 T0) as A2.
    destruct (pshuffle_nth (tmap target2 tab) send1) as (send2 & E2 & L2 & N2).
    { rewrite L1, LS. eapply perm2_ok; eauto. }
    rewrite E2.
    assert (HS2 : forall q, (q < P)%nat -> WF w L (nth q send2 d0) /\ rows (nth q send2 d0) = sendR tab R (t1 tab (t2 tab q))).
    { intros q Hq. rewrite N2 by lia. rewrite tmap_nth with (d := g0) by lia.
      fold (t2 tab q). apply HS1. eapply t2_spec; eauto. }
    destruct (merge_if_spec P (B + w) w L (fun q => two tab q) (map (fun k => k =? 2) nr) keep1 send2)
      as (keep2 & EK2 & LK2 & HK2); try lia.
    { now rewrite map_length. }
    { intros q Hq. rewrite nth_indep with (d' := (0 =? 2)) by (rewrite map_length; lia).
      rewrite (map_nth (fun k => k =? 2)), HN by auto. eapply nrecv_spec; eauto. }
    { intros q Hq. split; [apply HK1; auto | now apply HS2]. }
    rewrite EK2. apply FIN; auto. intros q Hq. destruct (HK2 q Hq) as (W & C & RR).
    destruct (HS2 q Hq) as (_ & RS2).
    split; auto. split.
    + rewrite C, C1 by auto. unfold nextR. rewrite (app_length (_ ++ _)). f_equal.
      rewrite <- RS2. destruct (two tab q); auto. now rewrite rows_length.
    + intro Hc. rewrite C in Hc. rewrite RR by lia. unfold nextR. rewrite <- RS2.
      f_equal. apply R1; auto. lia.
  - apply FIN; auto. intros q Hq.
    assert (T : two tab q = false) by (eapply no_second_shuffle; eauto; unfold nr in Hz; lia).
    split; [apply HK1; auto|]. unfold nextR. rewrite T, app_nil_r. auto.
Qed.
End Rows.
