From Coq Require Import List ZArith Bool Lia ZifyBool Permutation Arith.
From Verif Require Import Groups_model Groups_proofs Crystal_model Crystal_spec Crystal_proofs Crystal_proofs2.
Import ListNotations.
Open Scope Z_scope.
Arguments Z.max : simpl never.
Arguments Z.add : simpl never.
Arguments Z.sub : simpl never.
Arguments Z.of_nat : simpl never.
Arguments Z.div : simpl never.

Section Top.
Context {A : Type}.
Variables (fill zero : val A).
Notation cdata := (cdata A).
Notation row := (list (option (val A))).
Notation input := (@input A).

Definition x0 : input := (0%nat, [], []).

(** Rows held initially: target, payload and (if requested) source. *)
Definition in_rows (x : input) : list row := live_rows (in_target x :: in_data x) (in_n x).
Definition R_in (src : bool) (inputs : list input) (q : nat) : list row :=
  map (fun r => if src then r ++ [Some (VInt (Z.of_nat q))] else r) (in_rows (nth q inputs x0)).

Definition to_cdata (x : input) : cdata := CData (in_target x :: in_data x) (in_n x).

Lemma nth_repeat' {X} (a : X) n j : (j < n)%nat -> nth_error (repeat a n) j = Some a.
Proof. revert j. induction n; intros [|j] H; cbn; auto; try lia. apply IHn. lia. Qed.

Lemma append_source_spec w L q (d : cdata) : WF w L d ->
  WF w (S L) (append_source (Z.of_nat q) d) /\
  rows (append_source (Z.of_nat q) d) = map (fun r => r ++ [Some (VInt (Z.of_nat q))]) (rows d).
Proof.
  intro W. pose proof (WF_size0 _ _ _ W) as S0. destruct W as (h1 & h2 & h3 & h4).
  unfold append_source, WF, rows, live_rows. cbn [leaves cnt]. rewrite S0. split.
  - split; [lia|]. split; [rewrite app_length; cbn; lia|]. split; auto.
    intros a Ha. apply in_app_or in Ha as [Ha|[<-|[]]]; auto. apply repeat_length.
  - rewrite map_map. apply map_ext_in. intros j Hj. apply in_seq in Hj.
    unfold Crystal_spec.row. rewrite map_app. cbn. rewrite nth_repeat' by lia. reflexivity.
Qed.

Lemma WF_input w nl inputs x : valid_input w nl inputs -> In x inputs -> WF w (S nl) (to_cdata x).
Proof.
  intros (HP & H) Hx. destruct (H x Hx) as (h1 & h2 & h3 & h4).
  unfold to_cdata, WF. cbn [leaves cnt]. split; [lia|]. split; [cbn; lia|]. split; auto.
Qed.

Definition nleaves (src : bool) (nl : nat) : nat := if src then S (S nl) else S nl.

Lemma init_holds src w nl inputs : valid_input w nl inputs ->
  let b := bit_ceil (match map to_cdata inputs with [] => 0%nat | d :: _ => size0 (leaves d) end) in
  let ds1 := map (resize zero b) (map to_cdata inputs) in
  holds (length inputs) b (nleaves src nl) (if src then tmap append_source ds1 else ds1) (R_in src inputs).
Proof.
  intros V b ds1. set (P := length inputs).
  assert (Eb : b = bit_ceil w).
  { unfold b. destruct inputs as [|x l] eqn:E; [destruct V as (V & _); cbn in V; lia|].
    cbn [map]. rewrite (WF_size0 w (S nl)); auto. eapply WF_input; eauto. cbn; auto. }
  assert (H1 : holds P b (S nl) ds1 (fun q => in_rows (nth q inputs x0))).
  { apply (holds_resize zero P (fun _ => []) (proj1 V) w).
    - split; [unfold P; now rewrite map_length|]. intros q Hq. fold P.
      rewrite nth_indep with (d' := to_cdata x0) by (rewrite map_length; auto).
      rewrite map_nth. split; [|reflexivity]. eapply WF_input; eauto. now apply nth_In.
    - rewrite Eb. etransitivity; [|apply bit_ceil_ge].
      apply (holds_width P (fun _ => []) (proj1 V) w (S nl) (map to_cdata inputs)).
      split; [unfold P; now rewrite map_length|]. intros q Hq. fold P.
      rewrite nth_indep with (d' := to_cdata x0) by (rewrite map_length; auto).
      rewrite map_nth. split; [|reflexivity]. eapply WF_input; eauto. now apply nth_In. }
  unfold P in *. clear P. destruct H1 as (L1 & H1). destruct src; cbn [nleaves].
  - split; [now rewrite tmap_length|]. intros q Hq. rewrite tmap_nth with (d := d0) by lia.
    destruct (H1 q Hq) as (W & E). destruct (append_source_spec _ _ q _ W) as (W' & E').
    split; auto. rewrite E', E. reflexivity.
  - split; auto. intros q Hq. destruct (H1 q Hq) as (W & E). split; auto.
    rewrite E. unfold R_in. now rewrite map_id.
Qed.

Lemma init_local src w nl inputs : valid_input w nl inputs ->
  local (length inputs) (ginit (length inputs)) (R_in src inputs).
Proof.
  intros V q r Hq Hr. pose proof V as (HP & H).
  destruct (H (nth q inputs x0)) as (h1 & h2 & h3 & h4); [now apply nth_In|].
  unfold R_in in Hr. apply in_map_iff in Hr as (r' & <- & Hr').
  unfold in_rows, live_rows in Hr'. apply in_map_iff in Hr' as (j & <- & Hj).
  apply in_seq in Hj. destruct (h4 j ltac:(lia)) as (t & Ht & Hb).
  exists (Z.of_nat t). split.
  - cbn. rewrite Ht. now destruct src.
  - unfold ginit. replace (nth q (repeat _ _) g0) with (Grp (Z.of_nat (length inputs)) 0).
    + cbn. lia.
    + symmetry. apply (repeat_spec (length inputs)). apply nth_In. now rewrite repeat_length.
Qed.

Lemma last_pos P K : (2 <= P)%nat -> is_last P K -> (1 <= K)%nat.
Proof.
  intros HP (H & _). destruct K; [|lia]. exfalso. cbn [gtab] in H.
  assert (Z.of_nat P <= max_gn (ginit P)); [|lia].
  apply zmax_ub. unfold ginit. destruct P; [lia|]. cbn. auto.
Qed.

(** The main technical result: the outputs hold the rows of the reference
    run. *)
Lemma crystal_router_run src w nl inputs fuel :
  valid_input w nl inputs -> (2 <= length inputs)%nat -> (Nat.log2_up (length inputs) < fuel)%nat ->
  exists K ds calls,
    is_last (length inputs) K /\
    crystal_router fill zero fuel src inputs = Some (map (unpack src) ds, calls) /\
    (calls <= Nat.log2_up (length inputs) + 1)%nat /\
    holds (length inputs) (width (length inputs) (Rk (length inputs) (R_in src inputs) K))
      (nleaves src nl) ds (Rk (length inputs) (R_in src inputs) K).
Proof.
  intros V HP2 Hf. set (P := length inputs) in *. pose proof (proj1 V) as HP. fold P in HP.
  destruct (last_exists P HP) as (K & HK & _).
  pose proof (last_log P K HP HK) as HKl.
  unfold crystal_router.
  replace (map (fun x => let '(n, data, target) := x in CData (target :: data) n) inputs)
    with (map to_cdata inputs) by (apply map_ext; intros [[n data] target]; reflexivity).
  unfold crystal.
  set (b := bit_ceil _). cbv zeta.
  pose proof (init_holds src w nl inputs V) as IH. cbv zeta in IH. fold P b in IH.
  set (ds2 := if src then _ else _) in *.
  destruct (driver_spec fill zero P (R_in src inputs) HP (nleaves src nl) K HK (last_pos P K HP2 HK)
              fuel 0 ds2 0 0 b) as (ds' & calls & E & C & HH); auto.
  - apply (last_pos P K); auto.
  - lia.
  - rewrite E. exists K, ds', calls. split; auto. split; auto. split; [lia|]. exact HH.
Qed.

(** *** From rows to the API-level specification *)
Lemma map_removelast' {X Y} (f : X -> Y) l : map f (removelast l) = removelast (map f l).
Proof. induction l as [|x l IH]; cbn; auto. destruct l; cbn in *; auto. now rewrite IH. Qed.

Lemma last_map {X Y} (f : X -> Y) l d : l <> [] -> last (map f l) (f d) = f (last l d).
Proof. induction l as [|x l IH]; cbn; [tauto|]. intros _. destruct l; cbn in *; auto. now rewrite IH. Qed.

Lemma last_indep {X} (l : list X) d d' : l <> [] -> last l d = last l d'.
Proof. induction l as [|x l IH]; cbn; [tauto|]. intros _. destruct l; auto. apply IH. discriminate. Qed.

Lemma unpack_rows_src w nl (d : cdata) : WF w (S (S nl)) d ->
  received_with_source (unpack true d) = map (fun r => (removelast (tl r), last r None)) (rows d).
Proof.
  intros (h1 & h2 & h3 & h4). unfold received_with_source, unpack, rows, live_rows.
  cbn [out_source out_data out_n]. rewrite map_map. apply map_ext_in. intros j Hj. apply in_seq in Hj.
  f_equal.
  - unfold Crystal_spec.row. rewrite map_removelast'. f_equal. destruct (leaves d); reflexivity.
  - unfold Crystal_spec.row. rewrite <- (last_map (fun a => nth_error a j)).
    + apply last_indep. destruct (leaves d); [cbn in h2; lia | discriminate].
    + destruct (leaves d); [cbn in h2; lia | discriminate].
Qed.

Lemma unpack_rows w nl (d : cdata) : WF w (S nl) d ->
  received (unpack false d) = map (@tl _) (rows d).
Proof.
  intros (h1 & h2 & h3 & h4). unfold received, unpack, rows, live_rows.
  cbn [out_data out_n]. rewrite map_map. apply map_ext. intro j.
  unfold Crystal_spec.row. destruct (leaves d); reflexivity.
Qed.

Lemma filter_map_comm {X Y} (h : X -> Y) (g : Y -> bool) l :
  filter g (map h l) = map h (filter (fun x => g (h x)) l).
Proof. induction l; cbn; auto. destruct (g (h a)); cbn; congruence. Qed.

Lemma filter_flat_map {X Y} (g : Y -> bool) (f : X -> list Y) l :
  filter g (flat_map f l) = flat_map (fun x => filter g (f x)) l.
Proof. induction l; cbn; auto. rewrite filter_app. congruence. Qed.

Lemma combine_seq_map (inputs : list input) :
  combine (seq 0 (length inputs)) inputs = map (fun q => (q, nth q inputs x0)) (seq 0 (length inputs)).
Proof.
  rewrite (map_nth_seq inputs x0) at 2.
  rewrite <- (map_id (seq 0 (length inputs))) at 1. now rewrite combine_map.
Qed.

Lemma filtered_rows src q (inputs : list input) :
  filter (tgt_is q) (flat_map (R_in src inputs) (seq 0 (length inputs))) =
  flat_map (fun p => map (fun j => (Crystal_spec.row (in_target (nth p inputs x0) :: in_data (nth p inputs x0)) j)
                             ++ if src then [Some (VInt (Z.of_nat p))] else [])
                      (filter (addressed q (nth p inputs x0)) (seq 0 (in_n (nth p inputs x0)))))
           (seq 0 (length inputs)).
Proof.
  rewrite filter_flat_map. apply flat_map_ext_in. intros p _.
  unfold R_in, in_rows, live_rows. rewrite map_map, filter_map_comm.
  rewrite (filter_ext _ (addressed q (nth p inputs x0))).
  - apply map_ext. intro j. destruct src; auto. now rewrite app_nil_r.
  - intro j. unfold addressed. cbn.
    destruct (nth_error (in_target (nth p inputs x0)) j) as [[z|]|]; destruct src; reflexivity.
Qed.

Lemma expected_flat q (inputs : list input) :
  expected q inputs = flat_map (fun p => sent q p (nth p inputs x0)) (seq 0 (length inputs)).
Proof. unfold expected. rewrite combine_seq_map, map_map. cbn. now rewrite flat_map_concat_map. Qed.

Lemma map_flat_map {X Y Z} (g : Y -> Z) (f : X -> list Y) l :
  map g (flat_map f l) = flat_map (fun x => map g (f x)) l.
Proof. induction l; cbn; auto. rewrite map_app. congruence. Qed.

Lemma expected_src q (inputs : list input) :
  map (fun r => (removelast (tl r), last r None)) (filter (tgt_is q) (flat_map (R_in true inputs) (seq 0 (length inputs))))
  = map (fun rp => (fst rp, src_val (snd rp))) (expected q inputs).
Proof.
  rewrite filtered_rows, expected_flat, !map_flat_map. apply flat_map_ext_in. intros p _.
  unfold sent. rewrite !map_map. apply map_ext. intro j. cbn [fst snd].
  cbn [Crystal_spec.row map app tl]. rewrite removelast_last. f_equal.
  rewrite app_comm_cons, last_last. reflexivity.
Qed.

Lemma expected_nosrc q (inputs : list input) :
  map (@tl _) (filter (tgt_is q) (flat_map (R_in false inputs) (seq 0 (length inputs))))
  = map fst (expected q inputs).
Proof.
  rewrite filtered_rows, expected_flat, !map_flat_map. apply flat_map_ext_in. intros p _.
  unfold sent. rewrite !map_map. apply map_ext. intro j. cbn [fst]. now rewrite app_nil_r.
Qed.

Lemma nmax_ext_perm (f g : nat -> nat) l : (forall q, In q l -> f q = g q) -> nmax (map f l) = nmax (map g l).
Proof. intro H. f_equal. now apply map_ext_in. Qed.

Lemma unpack_shape src W nl (d : cdata) : WF W (nleaves src nl) d -> out_shape W nl (unpack src d).
Proof.
  intros (h1 & h2 & h3 & h4). unfold out_shape, unpack. destruct src; cbn in *.
  - destruct (leaves d) as [|a l]; [cbn in *; lia|]. cbn [tl].
    destruct (exists_last (l := l)) as (l' & s & ->); [destruct l; cbn in *; [lia|discriminate]|].
    rewrite removelast_last. cbn in h2. rewrite app_length in h2. cbn in h2. split; [lia|].
    split; [|split; auto].
    + intros b Hb. apply h3. right. apply in_or_app. auto.
    + apply h3. rewrite app_comm_cons, last_last. right. apply in_or_app. cbn; auto.
  - destruct (leaves d) as [|a l]; [cbn in *; lia|]. cbn in *. split; [lia|]. split; auto.
Qed.

Lemma sent_count src w nl inputs K : valid_input w nl inputs -> is_last (length inputs) K ->
  forall q, (q < length inputs)%nat ->
  length (Rk (length inputs) (R_in src inputs) K q) = length (expected q inputs).
Proof.
  intros V HK q Hq.
  pose proof (final_rows (length inputs) (R_in src inputs) (proj1 V) K HK (init_local src w nl inputs V) q Hq) as Pm.
  apply Permutation_length in Pm. rewrite Pm. destruct src.
  - rewrite <- (map_length (fun rp => (fst rp, @src_val A (snd rp)))), <- expected_src. now rewrite map_length.
  - rewrite <- (map_length fst), <- expected_nosrc. now rewrite map_length.
Qed.

Lemma crystal_router_delivers src w nl inputs fuel :
  valid_input w nl inputs -> (2 <= length inputs)%nat -> (Nat.log2_up (length inputs) < fuel)%nat ->
  exists outs calls,
    crystal_router fill zero fuel src inputs = Some (outs, calls) /\
    (calls <= Nat.log2_up (length inputs) + 1)%nat /\
    length outs = length inputs /\
    forall q o, nth_error outs q = Some o ->
      out_n o = length (expected q inputs) /\
      out_shape (maxcount inputs) nl o /\
      (if src then Permutation (received_with_source o)
                     (map (fun rp => (fst rp, src_val (snd rp))) (expected q inputs))
       else out_source o = None) /\
      Permutation (received o) (map fst (expected q inputs)).
Proof.
  intros V HP2 Hf.
  destruct (crystal_router_run src w nl inputs fuel V HP2 Hf) as (K & ds & calls & HK & E & C & HL & HH).
  exists (map (unpack src) ds), calls. split; auto. split; auto. split; [now rewrite map_length|].
  intros q o Ho. assert (Hq : (q < length inputs)%nat).
  { rewrite <- HL, <- (map_length (unpack src)). apply nth_error_Some. congruence. }
  apply nth_error_nth with (d := unpack src d0) in Ho. rewrite map_nth in Ho. subst o.
  destruct (HH q Hq) as (W & R). set (d := nth q ds d0) in *.
  pose proof (final_rows (length inputs) (R_in src inputs) (proj1 V) K HK (init_local src w nl inputs V) q Hq) as Pm.
  rewrite <- R in Pm.
  assert (EW : width (length inputs) (Rk (length inputs) (R_in src inputs) K) = maxcount inputs).
  { apply nmax_ext_perm. intros p Hp. apply in_seq in Hp. eapply sent_count; eauto. lia. }
  assert (N : out_n (unpack src d) = length (expected q inputs)).
  { replace (out_n (unpack src d)) with (cnt d) by (destruct src; reflexivity).
    rewrite <- rows_length, R. eapply sent_count; eauto. }
  split; auto. split; [rewrite <- EW; now apply unpack_shape|].
  destruct src.
  - assert (PP : Permutation (received_with_source (unpack true d)) (map (fun rp => (fst rp, src_val (snd rp))) (expected q inputs))).
    { rewrite (unpack_rows_src _ _ _ W), <- expected_src. now apply Permutation_map. }
    split; auto.
    apply (Permutation_map fst) in PP. rewrite map_map in PP. cbn in PP.
    unfold received_with_source in PP. cbn [out_source unpack] in PP. rewrite map_map in PP.
    unfold received, live_rows. exact PP.
  - split; auto. rewrite (unpack_rows _ _ _ W), <- expected_nosrc. now apply Permutation_map.
Qed.

(** *** Independence of the static width, the padding and the fill values *)
Lemma Rk_ext P (R R' : nat -> list row) : (1 <= P)%nat -> (forall q, (q < P)%nat -> R q = R' q) ->
  forall k q, (q < P)%nat -> Rk P R k q = Rk P R' k q.
Proof.
  intros HP H k. induction k; intros q Hq; cbn [Rk]; auto.
  eapply nextR_ext; eauto. apply (gtab_inv P k HP).
Qed.
End Top.

Lemma last_unique P K K' : is_last P K -> is_last P K' -> K = K'.
Proof.
  intros (h1 & h2) (k1 & k2). destruct (lt_eq_lt_dec K K') as [[H|H]|H]; auto.
  - specialize (k2 _ H). lia.
  - specialize (h2 _ H). lia.
Qed.

Lemma crystal_router_width_independent {A} (fill zero fill' zero' : val A) src w w' nl inputs inputs' fuel fuel' outs outs' c c' :
  valid_input w nl inputs -> valid_input w' nl inputs' -> Forall2 same_rows inputs inputs' ->
  (2 <= length inputs)%nat -> (Nat.log2_up (length inputs) < fuel)%nat -> (Nat.log2_up (length inputs) < fuel')%nat ->
  crystal_router fill zero fuel src inputs = Some (outs, c) ->
  crystal_router fill' zero' fuel' src inputs' = Some (outs', c') ->
  Forall2 (fun o o' => out_n o = out_n o' /\ received o = received o' /\
                       received_with_source o = received_with_source o' /\
                       map (@length _) (out_data o) = map (@length _) (out_data o')) outs outs'.
Proof.
  intros V V' F HP2 Hf Hf' E E'.
  assert (EL : length inputs = length inputs') by (clear -F; induction F; cbn; auto).
  destruct (crystal_router_run fill zero src w nl inputs fuel V HP2 Hf) as (K & ds & c1 & HK & E1 & _ & HL & HH).
  destruct (crystal_router_run fill' zero' src w' nl inputs' fuel' V') as (K' & ds' & c1' & HK' & E1' & _ & HL' & HH');
    [rewrite <- EL; auto | rewrite <- EL; auto |].
  rewrite E1 in E. rewrite E1' in E'. inversion E; inversion E'; subst. clear E E' E1 E1'.
  rewrite <- EL in *. assert (K = K') by (eapply last_unique; eauto). subst K'.
  assert (RR : forall q, (q < length inputs)%nat -> Rk (length inputs) (R_in src inputs) K q = Rk (length inputs) (R_in src inputs') K q).
  { apply Rk_ext; [lia|]. intros q Hq. unfold R_in. f_equal.
    assert (X : forall l l' q, Forall2 (@same_rows A) l l' -> in_rows (nth q l x0) = in_rows (nth q l' x0)).
    { induction l; intros l' k HF; inversion HF; subst; auto. destruct k; cbn; auto. }
    now apply X. }
  assert (WE : width (length inputs) (Rk (length inputs) (R_in src inputs) K) = width (length inputs) (Rk (length inputs) (R_in src inputs') K)).
  { unfold width. f_equal. apply map_ext_in. intros q Hq. apply in_seq in Hq. rewrite RR; auto. lia. }
  rewrite (map_nth_seq ds d0), (map_nth_seq ds' d0), HL, HL', !map_map.
  assert (FF : forall l, (forall q, In q l -> (q < length inputs)%nat) ->
    Forall2 (fun o o' => out_n o = out_n o' /\ received o = received o' /\
                       received_with_source o = received_with_source o' /\
                       map (@length _) (out_data o) = map (@length _) (out_data o'))
     (map (fun q => unpack src (nth q ds d0)) l) (map (fun q => unpack src (nth q ds' d0)) l)).
  { induction l as [|q l IH]; cbn; intro Hl; constructor; auto. clear IH.
    assert (Hq : (q < length inputs)%nat) by auto.
    destruct (HH q Hq) as (W & R). destruct (HH' q Hq) as (W' & R').
    assert (ER : rows (nth q ds d0) = rows (nth q ds' d0)) by (rewrite R, R'; auto).
    split; [|split; [|split]].
    - assert (cnt (nth q ds d0) = cnt (nth q ds' d0)) by (rewrite <- !rows_length; congruence).
      destruct src; auto.
    - destruct src; cbn [nleaves] in *.
      + assert (X : forall d w, WF w (S (S nl)) d -> received (unpack true d) = map (fun r => removelast (tl r)) (rows (A := A) d)).
        { intros d v Wd. pose proof (unpack_rows_src _ _ _ Wd) as U. apply (f_equal (map fst)) in U.
          unfold received_with_source in U. cbn [unpack out_source] in U. rewrite !map_map in U. exact U. }
        rewrite (X _ _ W), (X _ _ W'). congruence.
      + rewrite (unpack_rows _ _ _ W), (unpack_rows _ _ _ W'). congruence.
    - destruct src; cbn [nleaves] in *.
      + rewrite (unpack_rows_src _ _ _ W), (unpack_rows_src _ _ _ W'). congruence.
      + reflexivity.
    - apply unpack_shape in W, W'. destruct W as (a1 & a2 & _). destruct W' as (b1 & b2 & _).
      rewrite <- WE in b2. revert a1 b1 a2 b2. generalize (out_data (unpack src (nth q ds d0))) (out_data (unpack src (nth q ds' d0))).
      clear. intros l l' <-. revert l'. induction l as [|a l IH]; intros [|a' l'] EL H1 H2; cbn in *; try discriminate; auto.
      rewrite (H1 a), (H2 a') by auto. f_equal. apply IH; auto. }
  apply FF. intros q Hq. apply in_seq in Hq. lia.
Qed.

Lemma filter_all_true {X} (f : X -> bool) l : (forall x, In x l -> f x = true) -> filter f l = l.
Proof. induction l; cbn; intro H; auto. rewrite H by auto. f_equal. auto. Qed.

(** *** Round trip *)
Section Round.
Context {A : Type}.
Variables (fill zero : val A).
Notation input := (@input A).

Definition tval (x : input) (j : nat) : option nat :=
  match nth_error (in_target x) j with Some (VInt z) => Some (Z.to_nat z) | _ => None end.

Lemma partition_by_target w nl (inputs : list input) p :
  valid_input w nl inputs -> (p < length inputs)%nat ->
  let x := nth p inputs x0 in
  Permutation
    (flat_map (fun q => map (fun j => (Crystal_spec.row (in_data x) j, q)) (filter (addressed q x) (seq 0 (in_n x))))
       (seq 0 (length inputs)))
    (flat_map (fun j => match tval x j with Some t => [(Crystal_spec.row (in_data x) j, t)] | None => [] end) (seq 0 (in_n x))).
Proof.
  intros V Hp x. destruct V as (_ & V). destruct (V x) as (_ & _ & _ & HT); [now apply nth_In|].
  assert (HT' : forall l, (forall j, In j l -> exists t, nth_error (in_target x) j = Some (VInt (Z.of_nat t)) /\ (t < length inputs)%nat) ->
   Permutation (flat_map (fun q => map (fun j => (Crystal_spec.row (in_data x) j, q)) (filter (addressed q x) l)) (seq 0 (length inputs)))
    (flat_map (fun j => match tval x j with Some t => [(Crystal_spec.row (in_data x) j, t)] | None => [] end) l)).
  { induction l as [|j l IH]; intro Hl.
    - cbn. rewrite flat_map_concat_map. induction (seq 0 (length inputs)); cbn; auto.
    - destruct (Hl j) as (t & Ht & Htb); [cbn; auto|].
      cbn [flat_map]. rewrite <- IH by (intros; apply Hl; cbn; auto). clear IH.
      unfold tval at 1. rewrite Ht, Nat2Z.id.
      transitivity (flat_map (fun q => (if (q =? t)%nat then [(Crystal_spec.row (in_data x) j, q)] else [])
          ++ map (fun j => (Crystal_spec.row (in_data x) j, q)) (filter (addressed q x) l)) (seq 0 (length inputs))).
      { apply flat_map_perm_in. intros q _. cbn [filter]. unfold addressed at 1. rewrite Ht.
        destruct (Nat.eqb_spec q t).
        - subst. replace (Z.of_nat t =? Z.of_nat t) with true by lia. reflexivity.
        - replace (Z.of_nat t =? Z.of_nat q) with false by lia. reflexivity. }
      rewrite flat_map_app_perm. apply Permutation_app_tail.
      assert (X : forall a n, (a <= t < a + n)%nat -> flat_map (fun q => if (q =? t)%nat then [(Crystal_spec.row (in_data x) j, q)] else []) (seq a n) = [(Crystal_spec.row (in_data x) j, t)]).
      { intros a n. revert a. induction n as [|n IHn]; intros a Ha; [lia|]. cbn.
        destruct (Nat.eqb_spec a t).
        - subst. cbn. f_equal. clear. assert (forall b, (t < b)%nat -> flat_map (fun q => if (q =? t)%nat then [(Crystal_spec.row (in_data x) j, q)] else []) (seq b n) = []).
          { induction n; intros b Hb; cbn; auto. destruct (Nat.eqb_spec b t); [lia|]. cbn. apply IHn. lia. }
          apply H. lia.
        - cbn. apply IHn. lia. }
      rewrite X by lia. reflexivity. }
  apply HT'. intros j Hj. apply in_seq in Hj. apply HT. lia.
Qed.

Lemma crystal_router_round_trip w nl inputs fuel outs c :
  valid_input w nl inputs -> (2 <= length inputs)%nat -> (Nat.log2_up (length inputs) < fuel)%nat ->
  crystal_router fill zero fuel true inputs = Some (outs, c) ->
  exists outs2 c2,
    crystal_router fill zero fuel true (map reply outs) = Some (outs2, c2) /\
    length outs2 = length inputs /\
    forall p o x, nth_error outs2 p = Some o -> nth_error inputs p = Some x ->
      out_n o = in_n x /\ Permutation (received_with_source o) (initial_pairs x).
Proof.
  intros V HP2 Hf E.
  destruct (crystal_router_delivers fill zero true w nl inputs fuel V HP2 Hf) as (outs' & c' & E' & _ & HL & HD).
  rewrite E in E'. inversion E'; subst outs' c'. clear E'.
  assert (SRC : forall o, In o outs -> exists s, out_source o = Some s).
  { intros o Ho. destruct (out_source o) eqn:Eo; eauto.
    unfold crystal_router in E. destruct (crystal _ _ _ _ _) as [[ds k]|]; [|discriminate].
    inversion E; subst. apply in_map_iff in Ho as (d & <- & _). discriminate. }
  assert (V2 : valid_input (maxcount inputs) nl (map reply outs)).
  { split; [rewrite map_length; lia|]. intros x Hx. apply in_map_iff in Hx as (o & <- & Ho).
    destruct (SRC o Ho) as (s & Es). apply In_nth_error in Ho as (q & Hq).
    destruct (HD q o Hq) as (N & (s1 & s2 & s3 & s4) & PP & _). rewrite Es in s4.
    unfold reply. rewrite Es. cbn [in_data in_target in_n fst snd].
    split; auto. split; [intros a [<-|Ha]; auto|]. split; auto.
    intros j Hj.
    assert (IN : In (Crystal_spec.row (out_data o) j, nth_error s j) (received_with_source o)).
    { unfold received_with_source. rewrite Es. apply in_map_iff. exists j. split; auto. apply in_seq. lia. }
    eapply Permutation_in in IN; [|exact PP]. apply in_map_iff in IN as ((r & p) & Er & Hr).
    inversion Er as [[Er1 Er2]]. cbn in Er2. exists p. split; [auto|].
    rewrite map_length, HL. rewrite expected_flat in Hr. apply in_flat_map in Hr as (p' & Hp' & Hr).
    unfold sent in Hr. apply in_map_iff in Hr as (j' & Ej & _). inversion Ej. subst. apply in_seq in Hp'. lia. }
  assert (LR : length (map reply outs) = length inputs) by (now rewrite map_length).
  destruct (crystal_router_delivers fill zero true _ nl (map reply outs) fuel V2) as (outs2 & c2 & E2 & _ & HL2 & HD2);
    [now rewrite LR | now rewrite LR |].
  exists outs2, c2. split; auto. split; [lia|].
  intros p o x Ho Hx. destruct (HD2 p o Ho) as (N & _ & PP & _).
  assert (Hp : (p < length inputs)%nat) by (apply nth_error_Some; congruence).
  assert (Ex : nth p inputs x0 = x) by (now apply nth_error_nth).
  assert (PE : Permutation (expected p (map reply outs))
     (flat_map (fun j => match tval x j with Some t => [(Crystal_spec.row (in_data x) j, t)] | None => [] end) (seq 0 (in_n x)))).
  { rewrite <- Ex. rewrite <- (partition_by_target w nl inputs p V Hp). rewrite Ex.
    rewrite expected_flat, LR. apply flat_map_perm_in. intros q Hq. apply in_seq in Hq.
    assert (Ho' : exists o', nth_error outs q = Some o').
    { destruct (nth_error outs q) eqn:Eq; eauto. apply nth_error_None in Eq. lia. }
    destruct Ho' as (o' & Ho').
    assert (En : nth q (map reply outs) x0 = reply o').
    { apply nth_error_nth. now apply map_nth_error. }
    rewrite En. destruct (HD q o' Ho') as (_ & _ & PQ & _).
    destruct (SRC o') as (s & Es). { eapply nth_error_In; eauto. }
    unfold received_with_source in PQ. rewrite Es in PQ.
    (* keep the entries whose source is p *)
    set (isp := fun rv : list (option (val A)) * option (val A) => match snd rv with Some (VInt z) => z =? Z.of_nat p | _ => false end).
    assert (FP : forall l l' : list (list (option (val A)) * option (val A)), Permutation l l' -> Permutation (filter isp l) (filter isp l')).
    { intros l l' H. induction H; cbn; auto.
      - destruct (isp x1); auto.
      - destruct (isp x1), (isp y); auto. constructor.
      - etransitivity; eauto. }
    apply FP in PQ. rewrite !filter_map_comm in PQ.
    apply (Permutation_map (fun rv => (fst rv, q))) in PQ. rewrite !map_map in PQ. cbn [fst] in PQ.
    unfold sent, reply. rewrite Es. cbn [in_n in_data in_target fst snd].
    etransitivity; [etransitivity; [|exact PQ]|].
    - reflexivity.
    - rewrite expected_flat, filter_flat_map, map_flat_map.
      assert (X : forall a n, (a <= p < a + n)%nat ->
        flat_map (fun p' => map (fun rp : list (option (val A)) * nat => (fst rp, q)) (filter (fun rp => isp (fst rp, src_val (snd rp))) (sent q p' (nth p' inputs x0)))) (seq a n)
        = map (fun j => (Crystal_spec.row (in_data x) j, q)) (filter (addressed q x) (seq 0 (in_n x)))).
      { assert (Z0 : forall p', p' <> p -> filter (fun rp : list (option (val A)) * nat => isp (fst rp, src_val (snd rp))) (sent q p' (nth p' inputs x0)) = []).
        { intros p' Hp'. apply (incl_l_nil (A := list (option (val A)) * nat)). intros rp Hr. apply filter_In in Hr as (Hr & Ei).
          unfold sent in Hr. apply in_map_iff in Hr as (j & <- & _). unfold isp in Ei. cbn in Ei. lia. }
        intros a n. revert a. induction n as [|n IHn]; intros a Ha; [lia|]. cbn [seq flat_map].
        destruct (Nat.eq_dec a p).
        - subst a. rewrite Ex.
          replace (flat_map _ (seq (S p) n)) with (@nil (list (option (val A)) * nat)).
          + rewrite app_nil_r. unfold sent. rewrite filter_map_comm, map_map. cbn [fst snd]. f_equal.
            apply filter_all_true. intros j _. unfold isp. cbn. apply Z.eqb_refl.
          + symmetry. assert (forall b, (p < b)%nat -> flat_map (fun p' => map (fun rp : list (option (val A)) * nat => (fst rp, q)) (filter (fun rp => isp (fst rp, src_val (snd rp))) (sent q p' (nth p' inputs x0)))) (seq b n) = []).
            { clear -Z0. induction n; intros b Hb; cbn [seq flat_map]; auto. rewrite Z0 by lia. cbn. apply IHn. lia. }
            apply H. lia.
        - rewrite Z0 by auto. cbn. apply IHn. lia. }
      rewrite X by lia. reflexivity. }
  assert (PI : map (fun rp => (fst rp, src_val (snd rp)))
      (flat_map (fun j => match tval x j with Some t => [(Crystal_spec.row (in_data x) j, t)] | None => [] end) (seq 0 (in_n x)))
      = initial_pairs x).
  { unfold initial_pairs. rewrite map_flat_map. destruct V as (_ & V). destruct (V x) as (_ & _ & _ & HT); [rewrite <- Ex; now apply nth_In|].
    assert (forall l, (forall j, In j l -> (j < in_n x)%nat) -> flat_map (fun j => map (fun rp => (fst rp, @src_val A (snd rp))) (match tval x j with Some t => [(Crystal_spec.row (in_data x) j, t)] | None => [] end)) l = map (fun j => (Crystal_spec.row (in_data x) j, nth_error (in_target x) j)) l).
    { induction l as [|j l IHl]; cbn; intro Hl; auto. destruct (HT j) as (t & Ht & _); [auto|].
      unfold tval at 1. rewrite Ht, Nat2Z.id. cbn. f_equal. auto. }
    apply H. intros j Hj. apply in_seq in Hj. lia. }
  split.
  - rewrite N. rewrite (Permutation_length PE), <- (map_length (fun rp => (fst rp, @src_val A (snd rp)))), PI.
    unfold initial_pairs. now rewrite map_length, seq_length.
  - rewrite PP, <- PI. now apply Permutation_map.
Qed.
End Round.

(** *** One device *)
Lemma crystal_router_single_lemma {A} (fill zero : val A) src w nl x fuel :
  valid_input w nl [x] ->
  exists o, crystal_router fill zero (S fuel) src [x] = Some ([o], 1%nat) /\
    out_n o = in_n x /\ length (out_data o) = nl /\ (forall a, In a (out_data o) -> a = []).
Proof.
  intros V. pose proof (init_holds zero src w nl [x] V) as IH. cbv zeta in IH.
  unfold crystal_router.
  replace (map (fun x => let '(n, data, target) := x in CData (target :: data) n) [x])
    with (map to_cdata [x]) by (apply map_ext; intros [[n data] target]; reflexivity).
  unfold crystal.
  set (b := bit_ceil _) in *. cbv zeta.
  set (ds2 := if src then _ else _) in *.
  destruct IH as (L & H). destruct (H 0%nat ltac:(cbn; lia)) as (W & R).
  destruct ds2 as [|d [|d' ds]]; cbn in L; try lia. cbn in W, R.
  cbn. eexists; split; [reflexivity|].
  assert (E : cnt d = in_n x).
  { apply (f_equal (@length _)) in R. rewrite rows_length in R. unfold R_in in R.
    rewrite map_length in R. unfold in_rows, live_rows in R. rewrite map_length, seq_length in R. exact R. }
  destruct W as (w1 & w2 & w3 & w4).
  destruct src; cbn in *.
  - split; auto. destruct (leaves d) as [|a l]; cbn in *; [lia|].
    destruct (exists_last (l := l)) as (l' & s & ->); [destruct l; cbn in *; [lia|discriminate]|].
    rewrite map_app. cbn [map]. rewrite removelast_last. rewrite app_length in w2. cbn in w2.
    rewrite map_length. split; [lia|]. intros y Hy. apply in_map_iff in Hy as (z & <- & _). reflexivity.
  - split; auto. destruct (leaves d) as [|a l]; cbn in *; [lia|].
    rewrite map_length. split; [lia|]. intros y Hy. apply in_map_iff in Hy as (z & <- & _). reflexivity.
Qed.

(** *** Schedules *)
Lemma crystal_shuffles_lemma P k : (1 <= P)%nat ->
  let tab := gtab P k in
  Permutation (tmap target1 tab) (arange P) /\
  (1 < zmax (tmap num_recv tab) -> Permutation (tmap target2 tab) (arange P)) /\
  (forall q g, nth_error tab q = Some g ->
     0 <= gb g <= Z.of_nat q /\ Z.of_nat q < gb g + gn g <= Z.of_nat P /\
     gb g <= target1 (Z.of_nat q) g < gb g + gn g /\
     (1 < zmax (tmap num_recv tab) -> gb g <= target2 (Z.of_nat q) g < gb g + gn g)).
Proof.
  intros HP tab. pose proof (gtab_inv P k HP) as GI. fold tab in GI.
  assert (L : length tab = P) by apply GI.
  split; [|split].
  - apply is_perm_spec. eapply perm1_ok; eauto.
  - intro H. apply is_perm_spec. destruct (second_shuffle P _ tab GI H) as (q & Hq & T).
    eapply perm2_ok; eauto. eapply two_all; eauto.
  - intros q g Hg. assert (Hq : (q < P)%nat) by (rewrite <- L; apply nth_error_Some; congruence).
    apply nth_error_nth with (d := g0) in Hg. pose proof (proj2 (proj2 GI) q Hq) as G.
    cbv zeta in G. rewrite Hg in G. destruct G as (G1 & G2 & G3 & G4).
    split; auto. split; auto. split; [unfold target1; lia|].
    intro H. destruct (second_shuffle P _ tab GI H) as (q0 & Hq0 & T0).
    pose proof (two_all _ _ _ GI q0 Hq0 T0) as A2.
    destruct (t2_spec _ _ _ GI q A2 Hq) as (E & _). rewrite <- Hg, <- E, Hg.
    rewrite t2_val. destruct (two tab q) eqn:T.
    + destruct (two_self _ _ _ GI q Hq T) as (f1 & f2 & f3 & _).
      pose proof (proj2 (proj2 GI) (q - 1)%nat ltac:(lia)) as G. cbv zeta in G. rewrite f3, Hg in G. lia.
    + destruct (self tab q) eqn:Sq; [|lia].
      destruct (self_odd _ _ _ GI q Hq (A2 q Hq) Sq) as (f1 & _ & f3 & _ & f5).
      pose proof (proj2 (proj2 GI) (S q) f1) as G. cbv zeta in G. rewrite f3, Hg in G.
      rewrite Hg in f5. rewrite Hg. lia.
Qed.

(** Executable check of [valid_input], for examples. *)
Definition valid_inputb {A} (w nl : nat) (inputs : list (input (A := A))) : bool :=
  (1 <=? length inputs)%nat &&
  forallb (fun x => (length (in_data x) =? nl)%nat &&
     forallb (fun a => (length a =? w)%nat) (in_target x :: in_data x) &&
     (in_n x <=? w)%nat &&
     forallb (fun j => match nth_error (in_target x) j with
                       | Some (VInt z) => (0 <=? z) && (z <? Z.of_nat (length inputs))
                       | _ => false end) (seq 0 (in_n x))) inputs.

Lemma valid_inputb_sound {A} w nl (inputs : list (input (A := A))) :
  valid_inputb w nl inputs = true -> valid_input w nl inputs.
Proof.
  unfold valid_inputb. intro H. apply andb_prop in H as (H1 & H2). apply Nat.leb_le in H1.
  split; auto. intros x Hx. rewrite forallb_forall in H2. specialize (H2 x Hx).
  repeat (apply andb_prop in H2 as (H2 & ?)). apply Nat.eqb_eq in H2. apply Nat.leb_le in H0.
  split; auto. rewrite forallb_forall in H, H3. split; [intros a Ha; apply Nat.eqb_eq; auto|].
  split; auto. intros j Hj. specialize (H j). destruct (nth_error (in_target x) j) as [[z|]|].
  - assert (IN : In j (seq 0 (in_n x))) by (apply in_seq; lia). specialize (H IN).
    exists (Z.to_nat z). split; [do 2 f_equal; lia|lia].
  - exfalso. assert (IN : In j (seq 0 (in_n x))) by (apply in_seq; lia). specialize (H IN). discriminate.
  - exfalso. assert (IN : In j (seq 0 (in_n x))) by (apply in_seq; lia). specialize (H IN). discriminate.
Qed.

Lemma crystal_router_single_refuted_lemma :
  exists (inputs : list (input (A := Z))) outs calls o,
    length inputs = 1%nat /\ valid_input 2 1 inputs /\
    crystal_router (VInt 0) (VInt 0) 5 true inputs = Some (outs, calls) /\
    nth_error outs 0 = Some o /\
    length (expected 0 inputs) = 2%nat /\
    ~ Permutation (received o) (map fst (expected 0 inputs)).
Proof.
  exists [(2%nat, [[VData 7; VData 8]], [VInt 0; VInt 0])].
  do 3 eexists. split; [reflexivity|]. split; [apply valid_inputb_sound; reflexivity|].
  split; [vm_compute; reflexivity|]. split; [reflexivity|]. split; [reflexivity|].
  vm_compute. intro H. apply (Permutation_in [None]) in H; [|left; reflexivity].
  destruct H as [H|[H|[]]]; discriminate.
Qed.
