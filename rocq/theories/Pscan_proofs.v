From Coq Require Import List ZArith Bool Lia ZifyBool Permutation Arith.
From Verif Require Import Groups_model Groups_proofs Pscan_model Pscan_spec.
Import ListNotations.
Open Scope Z_scope.
Ltac Zify.zify_post_hook ::= Z.div_mod_to_equations.
Arguments Z.max : simpl never.
Arguments Z.add : simpl never.
Arguments Z.sub : simpl never.
Arguments Z.of_nat : simpl never.
Arguments Z.div : simpl never.

(** ** Schedule *)
Lemma schedule_spec P fuel k : (1 <= P)%nat -> (P <= fuel + k)%nat -> 
  exists sched, schedule fuel (gtab P k) = Some sched /\
   (forall j, (j < length sched)%nat -> nth j sched [] = gtab P (k + j)%nat /\ 1 < max_gn (gtab P (k + j))) /\
   max_gn (gtab P (k + length sched)) <= 1.
Proof.
  intro HP. revert k. induction fuel as [|fuel IH]; intros k Hk; cbn [schedule].
  - assert (max_gn (gtab P k) <= 1) by (pose proof (max_gn_bound P k HP); lia).
    destruct (Z.ltb_spec 1 (max_gn (gtab P k))); [lia|]. exists []. split; auto.
    split; [cbn; intros; lia|]. cbn. now rewrite Nat.add_0_r.
  - destruct (Z.ltb_spec 1 (max_gn (gtab P k))).
    + destruct (IH (S k)) as (s & E & N & M); [lia|]. rewrite gtab_shift in E. rewrite E.
      eexists; split; [reflexivity|]. cbn [length]. split.
      * intros [|j] Hj; cbn [nth].
        -- rewrite Nat.add_0_r. split; auto.
        -- replace (k + S j)%nat with (S k + j)%nat by lia. apply N. lia.
      * replace (k + S (length s))%nat with (S k + length s)%nat by lia. auto.
    + exists []. split; auto. split; [cbn; intros; lia|]. cbn [length]. now rewrite Nat.add_0_r.
Qed.

Section Sched.
Variables (P : nat) (m : Z) (tab : list grp).
Hypothesis GI : GInv P m tab.

Definition pt q := Z.to_nat (ptarget (Z.of_nat q) (nth q tab g0)).
Definition blo q := is_base_lo (Z.of_nat q) (nth q tab g0).
Definition bhi q := is_base_hi (Z.of_nat q) (nth q tab g0).
Definition base q := Z.to_nat (gb (nth q tab g0)).
Definition size q := Z.to_nat (gn (nth q tab g0)).
Definition sizelo q := Z.to_nat (n_lo (nth q tab g0)).

Lemma nums q : (q < P)%nat ->
  Z.of_nat (base q) = gb (nth q tab g0) /\ Z.of_nat (size q) = gn (nth q tab g0) /\
  Z.of_nat (sizelo q) = n_lo (nth q tab g0) /\
  (base q <= q < base q + size q)%nat /\ (base q + size q <= P)%nat /\
  (1 <= sizelo q)%nat /\ ((2 <= size q)%nat -> (sizelo q < size q)%nat) /\
  (size q = 1%nat -> sizelo q = 1%nat) /\
  (forall q', (base q <= q' < base q + size q)%nat -> nth q' tab g0 = nth q tab g0).
Proof.
  intro Hq. destruct GI as (Hm & L & H). specialize (H q Hq). cbv zeta in H.
  destruct H as (H1 & H2 & H3 & H4). unfold base, size, sizelo, n_lo.
  repeat split; try lia. intros q' Hq'. apply H4. lia.
Qed.

Lemma blo_spec q : (q < P)%nat -> blo q = true <-> ((2 <= size q)%nat /\ q = base q).
Proof. intro Hq. destruct (nums q Hq) as (a & b & c & _). unfold blo, is_base_lo. lia. Qed.

Lemma bhi_spec q : (q < P)%nat -> bhi q = true <-> ((2 <= size q)%nat /\ q = (base q + sizelo q)%nat).
Proof. intro Hq. destruct (nums q Hq) as (a & b & c & _). unfold bhi, is_base_hi, base_hi. lia. Qed.

Lemma pt_val q : (q < P)%nat ->
  pt q = if bhi q then base q else if blo q then (base q + sizelo q)%nat else q.
Proof.
  intro Hq. destruct (nums q Hq) as (a & b & c & _). unfold pt, ptarget. fold (bhi q) (blo q).
  destruct (bhi q); [reflexivity|]. unfold base_hi. destruct (blo q); lia.
Qed.

Lemma same_group q q' : (q < P)%nat -> (base q <= q' < base q + size q)%nat ->
  (q' < P)%nat /\ nth q' tab g0 = nth q tab g0 /\ base q' = base q /\ size q' = size q /\ sizelo q' = sizelo q.
Proof.
  intros Hq Hq'. destruct (nums q Hq) as (_ & _ & _ & a & b & _ & _ & _ & c).
  assert (E := c q' Hq'). split; [lia|]. split; auto. unfold base, size, sizelo. now rewrite E.
Qed.

Lemma pt_involution q : (q < P)%nat -> (pt q < P)%nat /\ pt (pt q) = q /\ Z.of_nat (pt q) = ptarget (Z.of_nat q) (nth q tab g0)
  /\ (base q <= pt q < base q + size q)%nat.
Proof.
  intro Hq. destruct (nums q Hq) as (a & b & c & d & e & f & g & h & i).
  assert (R : (base q <= pt q < base q + size q)%nat).
  { rewrite pt_val by auto. destruct (bhi q) eqn:Bh; [lia|]. destruct (blo q) eqn:Bl; [|lia].
    apply blo_spec in Bl; auto. lia. }
  destruct (same_group q (pt q) Hq R) as (s1 & s2 & s3 & s4 & s5).
  split; auto. split; [|split; auto].
  - rewrite (pt_val (pt q)) by auto. rewrite s3, s5.
    pose proof (bhi_spec (pt q) s1) as X1. pose proof (blo_spec (pt q) s1) as X2. rewrite s3, s4 in X1, X2. rewrite s5 in X1.
    pose proof (bhi_spec q Hq) as X3. pose proof (blo_spec q Hq) as X4.
    rewrite (pt_val q) in * by auto. destruct (bhi q), (blo q); destruct (bhi _), (blo _); lia.
  - unfold pt. unfold ptarget. fold (bhi q) (blo q). pose proof (bhi_spec q Hq). pose proof (blo_spec q Hq).
    unfold base_hi. destruct (bhi q), (blo q); lia.
Qed.

Lemma pperm_ok : is_perm (tmap ptarget tab) P = true.
Proof.
  destruct GI as (Hm & L & _). apply (is_perm_involution P _ pt).
  - now rewrite tmap_length.
  - intros q Hq. rewrite tmap_nth with (d := g0) by lia. symmetry. now apply pt_involution.
  - intros q Hq. destruct (pt_involution q Hq) as (a & b & _). auto.
Qed.

Lemma pshuffle_pt {V} (xs : list V) d : length xs = P ->
  exists ys, pshuffle (tmap ptarget tab) xs = Some ys /\ length ys = P /\
    forall q, (q < P)%nat -> nth q ys d = nth (pt q) xs d.
Proof.
  intro L. destruct (pshuffle_nth (tmap ptarget tab) xs) as (ys & E & Ly & N).
  { rewrite L. apply pperm_ok. }
  exists ys. split; auto. split; [lia|]. intros q Hq. rewrite N by lia.
  rewrite tmap_nth with (d := g0) by (destruct GI as (_ & -> & _); auto). reflexivity.
Qed.
End Sched.

Lemma cond_nth {V} c (x y : list V) q d :
  (q < length c)%nat -> length x = length c -> length y = length c ->
  nth q (cond_ c x y) d = if nth q c false then nth q x d else nth q y d.
Proof.
  intros Hq Lx Ly. unfold cond_.
  set (f := fun cxy : bool * (V * V) => _).
  rewrite nth_indep with (d' := f (false, (d, d))) by (rewrite map_length, !combine_length; lia).
  rewrite map_nth, combine_nth, combine_nth by (try rewrite combine_length; lia). reflexivity.
Qed.
Lemma cond_length {V} c (x y : list V) : length x = length c -> length y = length c -> length (cond_ c x y) = length c.
Proof. intros. unfold cond_. rewrite map_length, !combine_length. lia. Qed.

Lemma op_nth {V} op (x y : list V) q d : (q < length x)%nat -> length y = length x ->
  nth q (op_ op x y) d = op (nth q x d) (nth q y d).
Proof.
  intros Hq L. unfold op_. set (f := fun xy : V * V => _).
  rewrite nth_indep with (d' := f (d, d)) by (rewrite map_length, !combine_length; lia).
  rewrite map_nth, combine_nth by lia. reflexivity.
Qed.
Lemma op_length {V} op (x y : list V) : length y = length x -> length (op_ op x y) = length x.
Proof. intros. unfold op_. rewrite map_length, !combine_length. lia. Qed.

Lemma bools_nth {P m tab} (GI : GInv P m tab) f q : (q < P)%nat ->
  nth q (tmap f tab) false = f (Z.of_nat q) (nth q tab g0).
Proof. intro Hq. apply tmap_nth. destruct GI as (_ & -> & _). auto. Qed.

Lemma step_nums P k q : (1 <= P)%nat -> (q < P)%nat ->
  base (gtab P (S k)) q = (if (q <? base (gtab P k) q + sizelo (gtab P k) q)%nat then base (gtab P k) q
                           else base (gtab P k) q + sizelo (gtab P k) q)%nat /\
  size (gtab P (S k)) q = (if (q <? base (gtab P k) q + sizelo (gtab P k) q)%nat then sizelo (gtab P k) q
                           else size (gtab P k) q - sizelo (gtab P k) q)%nat.
Proof.
  intros HP Hq. pose proof (gtab_inv P k HP) as GI.
  destruct (nums _ _ _ GI q Hq) as (a & b & c & d & e & f & g & h & _).
  assert (E : nth q (gtab P (S k)) g0 = gstep1 (Z.of_nat q) (nth q (gtab P k) g0)).
  { cbn. unfold gstep. apply tmap_nth. destruct GI as (_ & -> & _). auto. }
  unfold base at 1, size at 1. rewrite E. unfold gstep1, is_lo, base_hi. cbn [gn gb].
  destruct (Nat.ltb_spec q (base (gtab P k) q + sizelo (gtab P k) q)).
  - replace (Z.of_nat q <? gb (nth q (gtab P k) g0) + n_lo (nth q (gtab P k) g0)) with true by lia. split; lia.
  - replace (Z.of_nat q <? gb (nth q (gtab P k) g0) + n_lo (nth q (gtab P k) g0)) with false by lia. split; lia.
Qed.

Lemma step_group P k q : (1 <= P)%nat -> (q < P)%nat -> 
  let b := base (gtab P k) q in let nl := sizelo (gtab P k) q in let n := size (gtab P k) q in
  base (gtab P (S k)) b = b /\ size (gtab P (S k)) b = nl /\
  ((2 <= n)%nat -> (b + nl < P)%nat /\ base (gtab P (S k)) (b + nl)%nat = (b + nl)%nat /\ size (gtab P (S k)) (b + nl)%nat = (n - nl)%nat).
Proof.
  intros HP Hq b nl n. pose proof (gtab_inv P k HP) as GI.
  destruct (nums _ _ _ GI q Hq) as (_ & _ & _ & d & e & f & g & h & _). fold b n nl in d, e, f, g, h.
  assert (Hb : (b < P)%nat) by lia.
  destruct (same_group _ _ _ GI q b Hq) as (_ & _ & s3 & s4 & s5); [fold b; fold n; lia|]. fold b nl n in s3, s4, s5.
  destruct (step_nums P k b HP Hb) as (E1 & E2). rewrite s3, s4, s5 in *.
  destruct (Nat.ltb_spec b (b + nl)); [|lia]. split; auto. split; auto.
  intro N2. specialize (g N2). split; [lia|].
  destruct (same_group _ _ _ GI q (b + nl)%nat Hq) as (t1 & _ & t3 & t4 & t5); [fold b; fold n; lia|]. fold b nl n in t3, t4, t5.
  destruct (step_nums P k (b + nl) HP t1) as (F1 & F2). rewrite t3, t4, t5 in *.
  destruct (Nat.ltb_spec (b + nl) (b + nl)); [lia|]. auto.
Qed.

(** A group leader stays one. *)
Lemma leader_stays P k j q : (1 <= P)%nat -> (q < P)%nat -> (k <= j)%nat ->
  base (gtab P k) q = q -> base (gtab P j) q = q.
Proof.
  intros HP Hq Hkj Hb. induction j as [|j IH].
  - replace k with 0%nat in Hb by lia. auto.
  - destruct (Nat.eq_dec k (S j)); [subst; auto|].
    rewrite (proj1 (step_nums P j q HP Hq)). rewrite IH by lia.
    pose proof (nums _ _ _ (gtab_inv P j HP) q Hq). destruct (Nat.ltb_spec q (q + sizelo (gtab P j) q)); lia.
Qed.

Lemma bhi_leader P k q : (1 <= P)%nat -> (q < P)%nat -> bhi (gtab P k) q = true -> base (gtab P (S k)) q = q.
Proof.
  intros HP Hq B. apply (bhi_spec _ _ _ (gtab_inv P k HP)) in B as (N & E); auto.
  rewrite (proj1 (step_nums P k q HP Hq)). destruct (Nat.ltb_spec q (base (gtab P k) q + sizelo (gtab P k) q)); lia.
Qed.

Lemma bhi_not_leader P k q : (1 <= P)%nat -> (q < P)%nat -> bhi (gtab P k) q = true -> base (gtab P k) q <> q.
Proof.
  intros HP Hq B. pose proof (nums _ _ _ (gtab_inv P k HP) q Hq).
  apply (bhi_spec _ _ _ (gtab_inv P k HP)) in B as (N & E); auto. lia.
Qed.

Lemma skipn_skipn' {V} n a (l : list V) : skipn n (skipn a l) = skipn (a + n) l.
Proof. revert l. induction a; intro l; [reflexivity|]. destruct l; cbn; [apply skipn_nil | auto]. Qed.

(** ** The two passes *)
Section Fan.
Context {V : Type}.
Variables (ok : V -> Prop) (op : V -> V -> V) (e : V) (xs : list V).
Hypothesis M : monoid_on ok op e.
Hypothesis OKX : forall x, In x xs -> ok x.
Let P := length xs.
Hypothesis HP : (1 <= P)%nat.

(** x_a op ... op x_{a+n-1} *)
Definition seg (a n : nat) : V := fold_right op e (firstn n (skipn a xs)).

Lemma ok_fold l : (forall x, In x l -> ok x) -> ok (fold_right op e l).
Proof. induction l; cbn; intro H; [apply M|]. apply M; auto. Qed.

Lemma firstn_skipn_in a n (l : list V) x : In x (firstn n (skipn a l)) -> In x l.
Proof.
  intro H. rewrite <- (firstn_skipn a l). apply in_or_app. right.
  rewrite <- (firstn_skipn n (skipn a l)). apply in_or_app. auto.
Qed.

Lemma seg_ok a n : ok (seg a n).
Proof. apply ok_fold. intros x Hx. apply OKX. eapply firstn_skipn_in; eauto. Qed.

Lemma fold_right_app_m l l' : (forall x, In x l -> ok x) -> (forall x, In x l' -> ok x) ->
  fold_right op e (l ++ l') = op (fold_right op e l) (fold_right op e l').
Proof.
  intros H H'. induction l as [|x l IH]; cbn.
  - symmetry. apply M. now apply ok_fold.
  - rewrite IH by (intros; apply H; cbn; auto). apply M; [apply H; cbn; auto| |]; apply ok_fold; auto.
    intros; apply H; cbn; auto.
Qed.

Lemma seg_app a n k : op (seg a n) (seg (a + n) k) = seg a (n + k).
Proof.
  unfold seg. rewrite <- fold_right_app_m.
  - f_equal. rewrite <- (firstn_skipn n (firstn (n + k) (skipn a xs))).
    f_equal.
    + rewrite firstn_firstn. f_equal. lia.
    + rewrite skipn_firstn_comm, skipn_skipn'. f_equal; lia.
  - intros x Hx. apply OKX. eapply firstn_skipn_in; eauto.
  - intros x Hx. apply OKX. eapply firstn_skipn_in; eauto.
Qed.

Lemma seg_1 q : (q < P)%nat -> seg q 1 = nth q xs e.
Proof.
  intro Hq. unfold seg. rewrite <- (firstn_skipn q xs) at 2. rewrite app_nth2; rewrite firstn_length.
  - fold P. replace (q - Nat.min q P)%nat with 0%nat by lia.
    destruct (skipn q xs) eqn:E.
    + apply (f_equal (@length _)) in E. rewrite skipn_length in E. cbn in E. fold P in E. lia.
    + cbn. apply M. apply OKX. eapply (firstn_skipn_in q 1). rewrite E. cbn. auto.
  - lia.
Qed.

Lemma seg_0 a : seg a 0 = e.
Proof. reflexivity. Qed.

Variables (ps : bool) (units : list V).
Hypothesis UN : length units = P /\ forall q, (q < P)%nat -> nth q units e = e.

Let T k := gtab P k.

(** After the fan-in of stages k, k+1, ... *)
Definition in_inv (K k : nat) (s : fan (V := V)) : Prop :=
  length (f_red s) = P /\ length (f_scan s) = P /\ ((k < K)%nat -> length (f_y s) = P) /\
  (forall q, (q < P)%nat -> base (T k) q = q -> nth q (f_red s) e = seg q (size (T k) q)) /\
  (ps = true -> (forall q, (q < P)%nat -> base (T k) q = q -> nth q (f_scan s) e = e) /\
    (forall q j, (q < P)%nat -> (k <= j < K)%nat -> bhi (T j) q = true ->
       nth q (f_scan s) e = seg (base (T j) q) (q - base (T j) q))) /\
  ((k < K)%nat -> forall q, (q < P)%nat -> bhi (T k) q = true ->
     nth q (f_y s) e = seg (base (T k) q) (sizelo (T k) q) /\
     nth q (f_red s) e = seg q (size (T k) q - sizelo (T k) q)).

Lemma fan_in_spec K : max_gn (T K) <= 1 -> forall sched k, (k + length sched = K)%nat ->
  (forall j, (j < length sched)%nat -> nth j sched [] = T (k + j)%nat) ->
  exists s, fan_in op ps sched (Fan xs units []) = Some s /\ in_inv K k s.
Proof.
  intros HK. induction sched as [|tab rest IH]; intros k Hk HT.
  - cbn [fan_in]. eexists; split; [reflexivity|]. cbn in Hk. assert (k = K) by lia. subst k.
    split; auto. split; [apply UN|]. split; [lia|]. cbn [f_red f_scan f_y].
    pose proof (max_gn_le1 P _ _ (gtab_inv P K HP) HK) as S1.
    split; [|split].
    + intros q Hq _. destruct (S1 q Hq) as (N1 & _). unfold size. fold T. unfold T. rewrite N1.
      change (Z.to_nat 1) with 1%nat. now rewrite seg_1.
    + intro. split; [intros; now apply UN | intros; lia].
    + lia.
  - destruct (IH (S k)) as (s & E & I).
    { cbn in Hk. lia. }
    { intros j Hj. specialize (HT (S j)). cbn in HT. rewrite HT by lia. f_equal. lia. }
    assert (Et : tab = T k) by (specialize (HT 0%nat); cbn in HT; rewrite HT by lia; f_equal; lia).
    assert (HkK : (k < K)%nat) by (cbn in Hk; lia).
    cbn [fan_in]. rewrite E. clear E IH HT. unfold fan_in_step. rewrite Et.
    destruct I as (L1 & L2 & L3 & I1 & I2 & I3).
    pose proof (gtab_inv P k HP) as GI. fold (T k) in GI.
    assert (LT : length (T k) = P) by apply GI.
    destruct (pshuffle_pt P _ (T k) GI (f_red s) e L1) as (y & Ey & Ly & Ny).
    rewrite Ey. eexists; split; [reflexivity|].
    assert (RN : forall q, (q < P)%nat -> nth q (cond_ (tmap is_base_lo (T k)) (op_ op (f_red s) y) (f_red s)) e =
       if blo (T k) q then op (nth q (f_red s) e) (nth (pt (T k) q) (f_red s) e) else nth q (f_red s) e).
    { intros q Hq. rewrite cond_nth by (rewrite ?tmap_length, ?op_length; lia).
      rewrite (bools_nth GI) by auto. rewrite op_nth by lia. now rewrite Ny. }
    split; [cbn; rewrite cond_length; rewrite ?tmap_length, ?op_length; lia|].
    split; [cbn; destruct ps; auto; rewrite cond_length; rewrite ?tmap_length, ?op_length; lia|].
    split; [auto|]. cbn [f_red f_scan f_y].
    split; [|split].
    + intros q Hq Hb. rewrite RN by auto.
      destruct (nums _ _ _ GI q Hq) as (_ & _ & _ & d & e1 & f & g & h & _).
      destruct (step_group P k q HP Hq) as (g1 & g2 & g3). fold (T k) (T (S k)) in g1, g2, g3. rewrite Hb in *.
      destruct (blo (T k) q) eqn:B.
      * apply (blo_spec _ _ _ GI) in B as (N & _); auto. destruct (g3 N) as (k1 & k2 & k3).
        assert (BH : bhi (T k) q = false).
        { destruct (bhi (T k) q) eqn:B'; auto. apply bhi_not_leader in B'; auto. now elim B'. }
        rewrite (pt_val _ _ _ GI) by auto. rewrite BH, Hb.
        replace (blo (T k) q) with true by (symmetry; apply (blo_spec _ _ _ GI); auto).
        rewrite (I1 q Hq g1), (I1 _ k1 k2), g2, k3, seg_app. f_equal. lia.
      * assert (size (T k) q = 1)%nat.
        { destruct (le_lt_dec 2 (size (T k) q)); [|lia].
          assert (blo (T k) q = true) by (apply (blo_spec _ _ _ GI); auto). congruence. }
        rewrite (I1 q Hq g1), g2. f_equal. lia.
    + intro Hps. rewrite Hps. destruct (I2 Hps) as (I2a & I2b).
      assert (SN : forall q, (q < P)%nat -> nth q (cond_ (tmap is_base_hi (T k)) y (f_scan s)) e =
         if bhi (T k) q then nth (pt (T k) q) (f_red s) e else nth q (f_scan s) e).
      { intros q Hq. rewrite cond_nth by (rewrite ?tmap_length; lia).
        rewrite (bools_nth GI) by auto. now rewrite Ny. }
      split.
      * intros q Hq Hb. rewrite SN by auto. destruct (bhi (T k) q) eqn:B.
        { apply bhi_not_leader in B; auto. now elim B. }
        apply I2a; auto. apply (leader_stays P k); auto.
      * intros q j Hq Hj B. rewrite SN by auto. destruct (Nat.eq_dec j k).
        -- subst j. rewrite B. rewrite (pt_val _ _ _ GI), B by auto.
           destruct (step_group P k q HP Hq) as (g1 & g2 & _). fold (T k) (T (S k)) in g1, g2.
           pose proof (nums _ _ _ GI q Hq).
           rewrite I1 by (auto; lia). rewrite g2. f_equal. apply (bhi_spec _ _ _ GI) in B; auto. lia.
        -- destruct (bhi (T k) q) eqn:B'.
           { exfalso. apply bhi_leader in B'; auto. apply (leader_stays P (S k) j) in B'; auto; [|lia].
             eapply bhi_not_leader; eauto. }
           apply I2b; auto. lia.
    + intros _ q Hq B. rewrite Ny, RN by auto. rewrite (pt_val _ _ _ GI), B by auto.
      pose proof (bhi_leader P k q HP Hq B) as LD.
      assert (BL : blo (T k) q = false).
      { destruct (blo (T k) q) eqn:B'; auto. apply (blo_spec _ _ _ GI) in B' as (_ & X); auto.
        symmetry in X. now apply bhi_not_leader in X. }
      rewrite BL.
      destruct (step_group P k q HP Hq) as (g1 & g2 & g3). fold (T k) (T (S k)) in g1, g2, g3.
      pose proof (nums _ _ _ GI q Hq).
      apply (bhi_spec _ _ _ GI) in B as (N & Eq); auto. destruct (g3 N) as (k1 & k2 & k3). rewrite <- Eq in k2, k3.
      rewrite I1 by (auto; lia). rewrite I1 by auto. now rewrite g2, k3.
Qed.

Variable (rd : bool).

(** Before fan-out stage j. *)
Definition out_inv (K j : nat) (d : list V * list V) : Prop :=
  length (fst d) = P /\ length (snd d) = P /\
  (ps = true -> (forall q, (q < P)%nat -> base (T j) q = q -> nth q (fst d) e = seg 0 q) /\
     (forall q i, (q < P)%nat -> (j <= i < K)%nat -> bhi (T i) q = true ->
       nth q (fst d) e = seg (base (T i) q) (q - base (T i) q))) /\
  (rd = true -> forall q, (q < P)%nat -> base (T j) q = q -> nth q (snd d) e = seg 0 P).

Lemma fan_out_spec K : forall sched j d, (j + length sched = K)%nat ->
  (forall i, (i < length sched)%nat -> nth i sched [] = T (j + i)%nat) ->
  out_inv K j d ->
  exists d', fan_out op ps rd sched d = Some d' /\ out_inv K K d'.
Proof.
  induction sched as [|tab rest IH]; intros j d Hj HT I.
  - exists d. split; auto. cbn in Hj. rewrite Nat.add_0_r in Hj. now subst j.
  - assert (Et : tab = T j) by (specialize (HT 0%nat); cbn in HT; rewrite HT by lia; f_equal; lia).
    cbn [fan_out]. unfold fan_out_step. rewrite Et. destruct I as (L1 & L2 & I1 & I2).
    pose proof (gtab_inv P j HP) as GI. fold (T j) in GI.
    assert (LT : length (T j) = P) by apply GI.
    destruct (pshuffle_pt P _ (T j) GI (fst d) e L1) as (ys & Es & Ls & Ns).
    destruct (pshuffle_pt P _ (T j) GI (snd d) e L2) as (yr & Er & Lr & Nr).
    rewrite Es, Er. cbn in Hj. apply (IH (S j)); [lia| |].
    { intros i Hi. specialize (HT (S i)). cbn in HT. rewrite HT by lia. f_equal. lia. }
    assert (LD : forall q, (q < P)%nat -> base (T (S j)) q = q -> base (T j) q = q \/ bhi (T j) q = true).
    { intros q Hq Hb. pose proof (nums _ _ _ GI q Hq) as NN.
      unfold T in Hb; rewrite (proj1 (step_nums P j q HP Hq)) in Hb. fold (T j) in Hb.
      destruct (Nat.ltb_spec q (base (T j) q + sizelo (T j) q)); [left; auto|].
      right. apply (bhi_spec _ _ _ GI); auto. lia. }
    split; [cbn; destruct ps; auto; rewrite cond_length; rewrite ?tmap_length, ?op_length; lia|].
    split; [cbn; destruct rd; auto; rewrite cond_length; rewrite ?tmap_length, ?op_length; lia|].
    cbn [fst snd]. split.
    + intro Hps. rewrite Hps. destruct (I1 Hps) as (I1a & I1b).
      assert (SN : forall q, (q < P)%nat -> nth q (cond_ (tmap is_base_hi (T j)) (op_ op ys (fst d)) (fst d)) e =
         if bhi (T j) q then op (nth (pt (T j) q) (fst d) e) (nth q (fst d) e) else nth q (fst d) e).
      { intros q Hq. rewrite cond_nth by (rewrite ?tmap_length, ?op_length; lia).
        rewrite (bools_nth GI) by auto. rewrite op_nth by lia. now rewrite Ns. }
      split.
      * intros q Hq Hb. rewrite SN by auto. destruct (LD q Hq Hb) as [B|B].
        { destruct (bhi (T j) q) eqn:B'; [now apply bhi_not_leader in B'|]. auto. }
        rewrite B. rewrite (pt_val _ _ _ GI), B by auto.
        pose proof (nums _ _ _ GI q Hq) as NN.
        destruct (same_group _ _ _ GI q (base (T j) q) Hq) as (s1 & _ & s3 & _); [lia|].
        rewrite I1a by auto. rewrite (I1b q j) by (auto; lia).
        change (base (T j) q) with (0 + base (T j) q)%nat at 2. rewrite seg_app. f_equal. lia.
      * intros q i Hq Hi B. rewrite SN by auto. destruct (bhi (T j) q) eqn:B'.
        { exfalso. apply bhi_leader in B'; auto. apply (leader_stays P (S j) i) in B'; auto; [|lia].
          eapply bhi_not_leader; eauto. }
        apply I1b; auto. lia.
    + intro Hrd. rewrite Hrd. intros q Hq Hb.
      rewrite cond_nth by (rewrite ?tmap_length, ?op_length; lia). rewrite (bools_nth GI) by auto.
      fold (bhi (T j) q). rewrite Ns || rewrite Nr by auto.
      destruct (LD q Hq Hb) as [B|B].
      { destruct (bhi (T j) q) eqn:B'; [now apply bhi_not_leader in B'|]. auto. }
      rewrite B, (pt_val _ _ _ GI), B by auto.
      pose proof (nums _ _ _ GI q Hq) as NN.
      destruct (same_group _ _ _ GI q (base (T j) q) Hq) as (s1 & _ & s3 & _); [lia|]. auto.
Qed.

Lemma fold_left_right l a : ok a -> (forall x, In x l -> ok x) -> fold_left op l a = op a (fold_right op e l).
Proof.
  revert a. induction l as [|x l IH]; intros a Ha Hl; cbn.
  - symmetry. now apply M.
  - rewrite IH; [|apply M; auto; apply Hl; cbn; auto | intros; apply Hl; cbn; auto].
    symmetry. apply M; auto; [apply Hl; cbn; auto|]. apply ok_fold. intros; apply Hl; cbn; auto.
Qed.

Lemma prefix_seg i : exclusive_prefix op e xs i = seg 0 i.
Proof.
  unfold exclusive_prefix, seg. cbn [skipn]. rewrite fold_left_right.
  - apply M. apply ok_fold. intros x Hx. apply OKX. rewrite <- (firstn_skipn i xs). apply in_or_app. auto.
  - apply M.
  - intros x Hx. apply OKX. rewrite <- (firstn_skipn i xs). apply in_or_app. auto.
Qed.

Lemma fanin_fanout_spec :
  exists d, fanin_fanout_flat op units ps rd xs = Some d /\
   (ps = true -> fst d = exclusive_scan op e xs) /\
   (rd = true -> snd d = full_reduction op e xs).
Proof.
  unfold fanin_fanout_flat. fold P.
  destruct (schedule_spec P P 0 HP ltac:(lia)) as (sched & E & N & MX). change (gtab P 0) with (ginit P) in E.
  rewrite E. cbn [Nat.add] in *. set (K := length sched) in *.
  destruct (fan_in_spec K MX sched 0 eq_refl) as (s & Es & I).
  { intros j Hj. now apply N. }
  rewrite Es. destruct I as (L1 & L2 & L3 & I1 & I2 & I3).
  assert (B0 : forall q, (q < P)%nat -> base (T 0) q = 0%nat /\ size (T 0) q = P).
  { intros q Hq. unfold base, size, T. cbn.
    replace (nth q (ginit P) g0) with (Grp (Z.of_nat P) 0).
    - cbn. split; lia.
    - symmetry. unfold ginit. apply (repeat_spec P). apply nth_In. now rewrite repeat_length. }
  assert (LF : length (finish_red op rd sched s) = P).
  { unfold finish_red. destruct sched as [|tab0 rest]; auto. destruct rd; auto.
    assert (length tab0 = P). { destruct (N 0%nat) as (X & _); [cbn; lia|]. cbn in X. subst tab0. apply repeat_length. }
    rewrite cond_length; rewrite ?tmap_length, ?op_length; rewrite ?L1; auto; rewrite L3; auto; unfold K; cbn; lia. }
  assert (OI : exists j, out_inv K j (f_scan s, finish_red op rd sched s) /\ (j + length (tl sched) = K)%nat /\
     (forall i, (i < length (tl sched))%nat -> nth i (tl sched) [] = T (j + i)%nat)).
  { destruct sched as [|tab0 rest].
    - exists 0%nat. cbn [tl length finish_red]. split; [|split; [reflexivity|cbn; intros; lia]].
      split; auto. split; auto. cbn [fst snd]. split.
      + intro Hps. destruct (I2 Hps) as (I2a & I2b). split; [|intros; cbn in *; lia].
        intros q Hq Hb. rewrite I2a by auto. destruct (B0 q Hq). replace q with 0%nat by lia. reflexivity.
      + intros _ q Hq Hb. rewrite I1 by auto. destruct (B0 q Hq) as (b1 & b2). rewrite b2. f_equal. lia.
    - exists 1%nat. cbn [tl]. split; [|split; [unfold K; cbn; lia|]].
      2:{ intros i Hi. destruct (N (S i)) as (X & _); [unfold K; cbn; lia|]. exact X. }
      assert (Et : tab0 = T 0). { destruct (N 0%nat) as (X & _); [unfold K; cbn; lia|]. exact X. }
      assert (HK : (0 < K)%nat) by (unfold K; cbn; lia).
      pose proof (gtab_inv P 0 HP) as GI. fold (T 0) in GI.
      assert (LD : forall q, (q < P)%nat -> base (T 1) q = q -> q = 0%nat \/ bhi (T 0) q = true).
      { intros q Hq Hb. pose proof (nums _ _ _ GI q Hq) as NN. destruct (B0 q Hq) as (b1 & b2).
        unfold T in Hb; rewrite (proj1 (step_nums P 0 q HP Hq)) in Hb. fold (T 0) in Hb.
        destruct (Nat.ltb_spec q (base (T 0) q + sizelo (T 0) q)); [left; lia|].
        right. apply (bhi_spec _ _ _ GI); auto. lia. }
      split; auto. split; auto. cbn [fst snd]. split.
      + intro Hps. destruct (I2 Hps) as (I2a & I2b). split.
        * intros q Hq Hb. destruct (LD q Hq Hb) as [->|B].
          -- rewrite I2a; auto. now destruct (B0 0%nat Hq).
          -- rewrite (I2b q 0%nat) by (auto; lia). destruct (B0 q Hq) as (-> & _). f_equal. lia.
        * intros q i Hq Hi B. apply I2b; auto. lia.
      + intros Hrd q Hq Hb. unfold finish_red. rewrite Hrd, Et.
        assert (LT : length (T 0) = P) by apply GI.
        rewrite cond_nth by (rewrite ?tmap_length, ?op_length, ?L1, ?L3 by (rewrite ?L1, ?L3; auto); lia).
        rewrite (bools_nth GI) by auto. fold (bhi (T 0) q).
        rewrite op_nth by (rewrite ?L1, ?L3; auto).
        destruct (bhi (T 0) q) eqn:B.
        * destruct (I3 HK q Hq B) as (J1 & J2). rewrite J1, J2. destruct (B0 q Hq) as (b1 & b2).
          pose proof (nums _ _ _ GI q Hq) as NN. apply (bhi_spec _ _ _ GI) in B as (N2 & Eq); auto.
          rewrite b1 in *. cbn [Nat.add] in Eq. rewrite Eq at 2.
          change (sizelo (T 0) q) with (0 + sizelo (T 0) q)%nat at 2. rewrite seg_app. f_equal. lia.
        * destruct (LD q Hq Hb) as [->|B']; [|congruence].
          rewrite I1 by (auto; now destruct (B0 0%nat Hq)). destruct (B0 0%nat Hq) as (_ & ->). reflexivity. }
  destruct OI as (j & OI & Hj & HT).
  destruct (fan_out_spec K (tl sched) j _ Hj HT OI) as (d & Ed & O).
  exists d. split; auto. destruct O as (O1 & O2 & O3 & O4).
  assert (BK : forall q, (q < P)%nat -> base (T K) q = q).
  { intros q Hq. destruct (max_gn_le1 P _ _ (gtab_inv P K HP) MX q Hq) as (_ & X). unfold base, T. lia. }
  split.
  - intro Hps. destruct (O3 Hps) as (O3a & _). unfold exclusive_scan. fold P.
    apply nth_ext with (d := e) (d' := exclusive_prefix op e xs 0).
    { rewrite map_length, seq_length. lia. }
    intros q Hq. rewrite O1 in Hq. rewrite (map_nth (exclusive_prefix op e xs)), seq_nth by auto.
    rewrite prefix_seg. cbn [Nat.add]. auto.
  - intro Hrd. unfold full_reduction. fold P.
    apply nth_ext with (d := e) (d' := fold_left op xs e).
    { rewrite repeat_length. lia. }
    intros q Hq. rewrite O2 in Hq. rewrite nth_repeat. rewrite (O4 Hrd) by auto.
    rewrite <- (prefix_seg P). unfold exclusive_prefix, P. now rewrite firstn_all.
Qed.
End Fan.
