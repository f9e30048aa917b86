(** C09: argument binding of jit_distributed. *)
From Coq Require Import List Bool Arith Lia.
From Verif Require Import Groups_model JitDist_model.
Import ListNotations.

(** Specification. *)
Section Spec.
Context {V : Type}.
Definition krank (k : kind) : nat := match k with PosOnly => 0 | PosOrKw => 1 | KwOnly => 2 end.
(** Python only admits signatures with distinct names and ordered kinds. *)
Record wf_sig (ps : list (param V)) : Prop := {
  wf_names : NoDup (map p_name ps);
  wf_order : forall i j p q, i < j -> nth_error ps i = Some p -> nth_error ps j = Some q ->
             krank (p_kind p) <= krank (p_kind q) }.
(** What the body of f should see on device [d]. *)
Definition device_env (slice : nat -> V -> V) (st : list name) (d : nat) (env : list (name * V)) : list (name * V) :=
  map (fun kv => (fst kv, if mem (fst kv) st then snd kv else slice d (snd kv))) env.
(** Positional-only parameters are all static or all sharded. *)
Definition pos_only_uniform (ps : list (param V)) (st : list name) : Prop :=
  forall p q, In p ps -> In q ps -> p_kind p = PosOnly -> p_kind q = PosOnly ->
  mem (p_name p) st = mem (p_name q) st.
End Spec.

Section Proofs.
Context {V : Type}.
Implicit Types (ps : list (param V)) (env kw E : list (name * V)).

Lemma lookup_in x E v : lookup x E = Some v -> In (x, v) E.
Proof.
  unfold lookup. destruct (find (fun kv => fst kv =? x) E) as [(y, w)|] eqn:F; cbn; [|discriminate]. intro H. injection H as <-.
  apply find_some in F as (I & H). cbn in H. apply Nat.eqb_eq in H. now subst.
Qed.
Lemma lookup_none x E : lookup x E = None <-> ~ In x (map fst E).
Proof.
  unfold lookup. split.
  - destruct (find (fun kv => fst kv =? x) E) eqn:F; [discriminate|]. intros _ I. apply in_map_iff in I as ((y, w) & <- & I).
    apply (find_none _ _ F) in I. cbn in I. now rewrite Nat.eqb_refl in I.
  - intro N. destruct (find (fun kv => fst kv =? x) E) as [(y, w)|] eqn:F; auto. exfalso. apply N.
    apply find_some in F as (I & H). cbn in H. apply Nat.eqb_eq in H. subst y. now apply (in_map fst) in I.
Qed.
Lemma lookup_nodup x v E : NoDup (map fst E) -> In (x, v) E -> lookup x E = Some v.
Proof.
  induction E as [|(y, w) E IH]; intros ND H; [inversion H|]. cbn in ND, H. destruct H as [H|H]; unfold lookup; cbn.
  - injection H as -> ->. now rewrite Nat.eqb_refl.
  - inversion ND; subst. destruct (y =? x) eqn:Eq.
    + apply Nat.eqb_eq in Eq. subst. elim H2. now apply (in_map fst) in H.
    + apply IH; auto.
Qed.
Lemma lookup_cons x y v E : lookup x ((y, v) :: E) = if y =? x then Some v else lookup x E.
Proof. unfold lookup. cbn. destruct (y =? x); reflexivity. Qed.
Lemma lookup_app x E E' : lookup x (E ++ E') = match lookup x E with Some v => Some v | None => lookup x E' end.
Proof.
  induction E as [|(y, w) E IH]; cbn [app]; auto. rewrite !lookup_cons. destruct (y =? x); auto.
Qed.
Lemma lookup_filter x f E : lookup x (filter (fun kv => f (fst kv)) E) = if f x then lookup x E else None.
Proof.
  induction E as [|(y, w) E IH]; cbn [filter]; [now destruct (f x)|]. cbn [fst].
  destruct (f y) eqn:F; rewrite ?lookup_cons; destruct (Nat.eqb_spec y x); subst; rewrite ?F, ?IH; auto; try now rewrite F.
  all: destruct (f x); auto.
Qed.
Lemma mem_in x l : mem x l = true <-> In x l.
Proof.
  unfold mem. rewrite existsb_exists. split; [intros (y & I & H); apply Nat.eqb_eq in H; now subst | exists x; now rewrite Nat.eqb_refl].
Qed.

Lemma bind_go_names ps : forall args kw env, bind_go ps args kw = Some env -> map fst env = map p_name ps.
Proof.
  induction ps as [|p ps IH]; cbn; intros args kw env H.
  - destruct args; [injection H as <-; auto | discriminate].
  - assert (G : forall a v, option_map (cons (p_name p, v)) (bind_go ps a kw) = Some env -> map fst env = p_name p :: map p_name ps).
    { intros a v. destruct (bind_go ps a kw) eqn:B; cbn; [|discriminate]. intro X. injection X as <-. cbn. f_equal. eauto. }
    destruct (p_kind p), args as [|v args]; destruct (lookup (p_name p) kw); destruct (p_default p); eauto; try discriminate.
Qed.

(** Everything by keyword. *)
Lemma bind_kw ps : forall env kw,
  map fst env = map p_name ps ->
  (forall p, In p ps -> p_kind p <> PosOnly) ->
  (forall x v, In (x, v) env -> lookup x kw = Some v) ->
  bind_go ps [] kw = Some env.
Proof.
  induction ps as [|p ps IH]; intros [|(x, v) env] kw Hn Hk Hl; cbn in Hn; try discriminate; cbn [bind_go]; auto.
  injection Hn as Hx Hn. assert (L := Hl x v (or_introl eq_refl)). rewrite <- Hx, L.
  rewrite (IH env); auto; [| intros q Iq; apply Hk; cbn; auto | intros; apply Hl; cbn; auto].
  assert (K := Hk p (or_introl eq_refl)). destruct (p_kind p); auto. now elim K.
Qed.

Lemma ba_kwargs_names st ps E x : In x (map fst (ba_kwargs st ps E)) -> In x (map p_name ps).
Proof.
  revert st. induction ps as [|p ps IH]; intro st; cbn; auto.
  destruct (lookup (p_name p) E); [destruct (st || _)|]; cbn; intros H; try destruct H; eauto.
Qed.

Lemma ba_kwargs_true ps E x : In x (map p_name ps) -> lookup x E <> None -> In x (map fst (ba_kwargs true ps E)).
Proof.
  induction ps as [|p ps IH]; cbn; [easy|]. intros [<-|H] N.
  - destruct (lookup (p_name p) E); cbn; auto. easy.
  - destruct (lookup (p_name p) E); cbn; auto.
Qed.

Lemma ba_kwargs_lookup st ps E x : NoDup (map p_name ps) ->
  lookup x (ba_kwargs st ps E) = if mem x (map fst (ba_kwargs st ps E)) then lookup x E else None.
Proof.
  revert st. induction ps as [|p ps IH]; intros st ND; [reflexivity|]. cbn [ba_kwargs].
  inversion ND; subst. destruct (lookup (p_name p) E) eqn:L; auto.
  destruct (st || _); auto. rewrite lookup_cons. cbn [map fst mem existsb].
  rewrite (Nat.eqb_sym x). destruct (Nat.eqb_spec (p_name p) x); cbn [orb].
  - now subst.
  - now apply IH.
Qed.

Lemma bind_pos ps : forall env E kw,
  NoDup (map p_name ps) ->
  (forall i j p q, i < j -> nth_error ps i = Some p -> nth_error ps j = Some q -> krank (p_kind p) <= krank (p_kind q)) ->
  map fst env = map p_name ps ->
  (forall x v, In (x, v) env -> lookup x E = Some v \/ lookup x E = None) ->
  (forall p, In p ps -> p_kind p = PosOnly -> lookup (p_name p) E <> None) ->
  (forall x v, In (x, v) env ->
     lookup x kw = if mem x (map fst (ba_kwargs false ps E)) then Some v
                   else match lookup x E with None => Some v | Some _ => None end) ->
  bind_go ps (ba_args ps E) kw = Some env.
Proof.
  induction ps as [|p ps IH]; intros [|(x, v) env] E kw ND Or Hn HE HP HK; cbn in Hn; try discriminate; auto.
  injection Hn as Hx Hn. subst x.
  assert (Hpos : p_kind p <> PosOnly -> forall q, In q ps -> p_kind q <> PosOnly).
  { intros K q Iq C. apply In_nth_error in Iq as (j & Hj). specialize (Or 0 (S j) p q ltac:(lia) eq_refl Hj).
    rewrite C in Or. cbn in Or. destruct (p_kind p); cbn in Or; try lia; now elim K. }
  assert (KEY : ba_args (p :: ps) E = [] -> p_kind p <> PosOnly ->
     (forall y w, In (y, w) ((p_name p, v) :: env) -> lookup y kw = Some w) -> bind_go (p :: ps) (ba_args (p :: ps) E) kw = Some ((p_name p, v) :: env)).
  { intros -> K H. apply bind_kw; auto.
    - cbn. now f_equal.
    - intros q [<-|Iq]; auto. }
  assert (ST : (match p_kind p with KwOnly => true | _ => match lookup (p_name p) E with None => true | Some _ => false end end) = true ->
      forall y w, In (y, w) ((p_name p, v) :: env) -> lookup y kw = Some w).
  { intros S y w I. rewrite (HK y w I). destruct (mem y _) eqn:M; auto.
    destruct (lookup y E) eqn:L; auto. exfalso.
    assert (Iy : In y (map p_name (p :: ps))).
    { cbn. rewrite <- Hn. apply (in_map fst) in I. cbn in I. exact I. }
    cbn [ba_kwargs orb] in M. rewrite S in M.
    assert (X : In y (map fst (ba_kwargs true (p :: ps) E))) by (apply ba_kwargs_true; auto; congruence).
    cbn [ba_kwargs orb] in X. apply mem_in in X. congruence. }
  destruct (lookup (p_name p) E) as [v'|] eqn:L.
  2:{ assert (K : p_kind p <> PosOnly) by (intro C; apply (HP p); cbn; auto).
      assert (A : ba_args (p :: ps) E = []) by (cbn; rewrite L; destruct (p_kind p); auto).
      apply KEY; auto. intros y w I. apply ST; auto. destruct (p_kind p); auto. }
  destruct (p_kind p) eqn:K.
  3:{ assert (A : ba_args (p :: ps) E = []) by (cbn; rewrite K; auto).
      apply KEY; auto; try congruence. }
  all: destruct (HE _ _ (or_introl eq_refl)) as [L'|L']; [|congruence]; rewrite L in L'; injection L' as ->.
  all: inversion ND as [|? ? N1 N2]; subst.
  all: assert (KW : ba_kwargs false (p :: ps) E = ba_kwargs false ps E) by (cbn [ba_kwargs]; rewrite K, L; reflexivity).
  all: assert (R : bind_go ps (ba_args ps E) kw = Some env) by
   (apply IH; auto;
    [ intros i j a b Hij Ha Hb; apply (Or (S i) (S j) a b); auto; lia
    | intros; apply HE; cbn; auto | intros; apply HP; cbn; auto
    | intros y w I; rewrite (HK y w) by (cbn; auto); now rewrite KW ]).
  all: cbn [bind_go ba_args]; rewrite K, L, R; auto.
  rewrite (HK (p_name p) v) by (cbn; auto). rewrite KW, L.
  destruct (mem (p_name p) _) eqn:M; auto.
  apply mem_in, ba_kwargs_names in M. contradiction.
Qed.

Lemma ba_args_map (f : V -> V) ps E : ba_args ps (map (fun kv => (fst kv, f (snd kv))) E) = map f (ba_args ps E).
Proof.
  assert (LM : forall x, lookup x (map (fun kv => (fst kv, f (snd kv))) E) = option_map f (lookup x E)).
  { intro x. induction E as [|(y, w) E IH]; cbn [map fst snd]; auto. rewrite !lookup_cons. destruct (y =? x); auto. }
  induction ps as [|p ps IH]; cbn; auto. rewrite LM. destruct (p_kind p), (lookup (p_name p) E); cbn; auto; now rewrite IH.
Qed.
Lemma ba_kwargs_map (f : V -> V) st ps E : ba_kwargs st ps (map (fun kv => (fst kv, f (snd kv))) E) = map (fun kv => (fst kv, f (snd kv))) (ba_kwargs st ps E).
Proof.
  assert (LM : forall x, lookup x (map (fun kv => (fst kv, f (snd kv))) E) = option_map f (lookup x E)).
  { intro x. induction E as [|(y, w) E IH]; cbn [map fst snd]; auto. rewrite !lookup_cons. destruct (y =? x); auto. }
  revert st. induction ps as [|p ps IH]; intro st; cbn; auto. rewrite LM.
  destruct (lookup (p_name p) E); cbn; auto.
  destruct (st || _); cbn; auto. now rewrite IH.
Qed.

(** Splitting an environment in two and rebinding. *)
Lemma rebind ps env (S : name -> bool) kw : wf_sig ps ->
  map fst env = map p_name ps ->
  (forall p q, In p ps -> In q ps -> p_kind p = PosOnly -> p_kind q = PosOnly -> S (p_name p) = S (p_name q)) ->
  let E1 := filter (fun kv => S (fst kv)) env in
  let E2 := filter (fun kv => negb (S (fst kv))) env in
  (forall x, lookup x kw = match lookup x (ba_kwargs false ps E1) with Some v => Some v | None => lookup x (ba_kwargs false ps E2) end) ->
  bind_go ps (ba_args ps E1 ++ ba_args ps E2) kw = Some env.
Proof.
  intros W Hn HU E1 E2 HK.
  assert (ND : NoDup (map p_name ps)) by apply W.
  assert (NE : NoDup (map fst env)) by congruence.
  assert (L1 : forall x v, In (x, v) env -> lookup x E1 = if S x then Some v else None).
  { intros x v I. unfold E1. rewrite lookup_filter. rewrite (lookup_nodup x v); auto. }
  assert (L2 : forall x v, In (x, v) env -> lookup x E2 = if S x then None else Some v).
  { intros x v I. unfold E2. rewrite (lookup_filter x (fun y => negb (S y))). rewrite (lookup_nodup x v); auto. destruct (S x); auto. }
  assert (EX : forall p, In p ps -> exists v, In (p_name p, v) env).
  { intros p I. apply (in_map p_name) in I. rewrite <- Hn in I. apply in_map_iff in I as ((y, w) & Hy & I). cbn in Hy. subst y. eauto. }
  assert (INP : forall x v, In (x, v) env -> In x (map p_name ps)).
  { intros x v I. rewrite <- Hn. now apply (in_map fst) in I. }
  (* one side starts with the first parameter; the other passes nothing by position *)
  assert (KEY : forall A B (T : name -> bool),
     (forall x v, In (x, v) env -> lookup x A = if T x then Some v else None) ->
     (forall x v, In (x, v) env -> lookup x B = if T x then None else Some v) ->
     (forall p q, In p ps -> In q ps -> p_kind p = PosOnly -> p_kind q = PosOnly -> T (p_name p) = T (p_name q)) ->
     (forall x, In x (map p_name ps) -> lookup x kw = match lookup x (ba_kwargs false ps A) with Some v => Some v | None => lookup x (ba_kwargs false ps B) end) ->
     (forall p ps', ps = p :: ps' -> T (p_name p) = true) ->
     bind_go ps (ba_args ps A) kw = Some env /\ ba_args ps B = []).
  { intros A B T HA HB HT HL HF.
    assert (BA : ba_args ps B = []).
    { destruct ps as [|p ps']; auto. cbn. destruct (EX p) as (v & I); [cbn; auto|].
      rewrite (HB _ _ I), (HF p ps' eq_refl). destruct (p_kind p); auto. }
    split; auto. apply bind_pos; auto.
    - apply W.
    - intros x v I. rewrite (HA x v I). destruct (T x); auto.
    - intros p I K. destruct (EX p I) as (v & Iv). rewrite (HA _ _ Iv).
      destruct ps as [|p0 ps'] eqn:Eps; [inversion I|].
      assert (K0 : p_kind p0 = PosOnly).
      { destruct I as [<-|I]; auto. apply In_nth_error in I as (j & Hj).
        assert (O := wf_order _ W 0 (Datatypes.S j) p0 p ltac:(lia) eq_refl Hj). rewrite K in O. destruct (p_kind p0); cbn in O; auto; lia. }
      rewrite (HT p p0), (HF p0 ps' eq_refl); cbn; auto. discriminate.
    - intros x v I. rewrite HL by eauto. rewrite !ba_kwargs_lookup by auto. rewrite (HA x v I), (HB x v I).
      destruct (T x) eqn:Tx.
      + destruct (mem x _) eqn:M1; auto. destruct (mem x (map fst (ba_kwargs false ps B))); auto.
      + assert (MB : mem x (map fst (ba_kwargs false ps B)) = true).
        { apply mem_in. destruct ps as [|p ps']; [now elim (INP x v I)|].
          destruct (EX p) as (w & Iw); [cbn; auto|].
          assert (LB : lookup (p_name p) B = None) by (now rewrite (HB _ _ Iw), (HF p ps' eq_refl)).
          assert (X : In x (map fst (ba_kwargs true (p :: ps') B))).
          { apply ba_kwargs_true; eauto. rewrite (HB x v I), Tx. discriminate. }
          cbn [ba_kwargs orb] in X |- *. rewrite LB in X |- *. destruct (p_kind p); exact X. }
        rewrite MB. clear MB. destruct (mem x _); auto. }
  destruct ps as [|p0 ps'] eqn:Eps.
  - destruct env; cbn in Hn; [|discriminate]. reflexivity.
  - destruct (S (p_name p0)) eqn:S0.
    + destruct (KEY E1 E2 S) as (A & B); auto.
      { intros q qs X. injection X as <- <-. auto. }
      rewrite B, app_nil_r. auto.
    + destruct (KEY E2 E1 (fun x => negb (S x))) as (A & B).
      * intros x v I. rewrite (L2 x v I). destruct (S x); auto.
      * intros x v I. rewrite (L1 x v I). destruct (S x); auto.
      * intros p q Ip Iq Kp Kq. now rewrite (HU p q).
      * intros x Ix. rewrite HK. rewrite !ba_kwargs_lookup by auto.
        rewrite <- Hn in Ix. apply in_map_iff in Ix as ((y, v) & <- & I). cbn [fst].
        rewrite (L1 y v I), (L2 y v I). destruct (S y), (mem y _), (mem y _); auto.
      * intros q qs X. injection X as <- <-. now rewrite S0.
      * rewrite B. cbn [app]. auto.
Qed.

Lemma filter_map_env (slice : nat -> V -> V) st d env (b : bool) :
  filter (fun kv => if b then mem (fst kv) st else negb (mem (fst kv) st)) (device_env slice st d env) =
  if b then filter (fun kv => mem (fst kv) st) env
  else map (fun kv => (fst kv, slice d (snd kv))) (filter (fun kv => negb (mem (fst kv) st)) env).
Proof.
  induction env as [|(x, v) env IH]; cbn [device_env map filter fst snd]; [now destruct b|].
  unfold device_env in IH. rewrite IH. destruct b, (mem x st) eqn:E; cbn [negb map fst snd]; rewrite ?E; reflexivity.
Qed.

Lemma accepts_kw_all ps E kw : 
  (forall p, In p ps -> p_kind p = PosOnly -> ~ In (p_name p) (map fst (ba_kwargs false ps E))) -> 
  (forall x, In x (map fst kw) -> In x (map fst (ba_kwargs false ps E))) -> NoDup (map p_name ps) ->
  forallb (fun kv => accepts_kw ps (fst kv)) kw = true.
Proof.
  intros H I ND. apply forallb_forall. intros (x, v) Hx. apply (in_map fst) in Hx. cbn in Hx |- *. apply I in Hx.
  assert (Hp := ba_kwargs_names _ _ _ _ Hx). apply in_map_iff in Hp as (p & <- & Ip).
  unfold accepts_kw. apply existsb_exists. exists p. split; auto. rewrite Nat.eqb_refl. cbn.
  destruct (p_kind p) eqn:K; auto. elim (H p Ip K Hx).
Qed.

(** Positional-only parameters of the side that owns the first parameter are
    passed by position. *)
Lemma pos_only_not_kw ps E : NoDup (map p_name ps) ->
  (forall i j p q, i < j -> nth_error ps i = Some p -> nth_error ps j = Some q -> krank (p_kind p) <= krank (p_kind q)) ->
  (forall p q, In p ps -> In q ps -> p_kind p = PosOnly -> p_kind q = PosOnly ->
     (lookup (p_name p) E = None <-> lookup (p_name q) E = None)) ->
  forall p, In p ps -> p_kind p = PosOnly -> ~ In (p_name p) (map fst (ba_kwargs false ps E)).
Proof.
  induction ps as [|p0 ps IH]; intros ND Or HU p I K C; [inversion I|].
  inversion ND as [|? ? N1 N2]; subst.
  assert (K0 : p_kind p0 = PosOnly).
  { destruct I as [<-|I]; auto. apply In_nth_error in I as (j & Hj).
    specialize (Or 0 (S j) p0 p ltac:(lia) eq_refl Hj). rewrite K in Or. destruct (p_kind p0); cbn in Or; auto; lia. }
  destruct (lookup (p_name p0) E) eqn:L.
  - cbn [ba_kwargs orb] in C. rewrite K0, L in C. destruct I as [<-|I].
    + apply ba_kwargs_names in C. contradiction.
    + revert C. apply IH; auto.
      * intros i j a b Hij Ha Hb. apply (Or (S i) (S j) a b); auto. lia.
      * intros; apply HU; cbn; auto.
  - assert (LP : lookup (p_name p) E = None) by (apply (HU p0 p); cbn; auto).
    assert (X : forall st qs, In (p_name p) (map fst (ba_kwargs st qs E)) -> False).
    { clear -LP. intros st qs. revert st. induction qs as [|q qs IH]; intro st; cbn; auto.
      destruct (lookup (p_name q) E) eqn:Lq; eauto. destruct (st || _); cbn; eauto.
      intros [Eq|H]; eauto. rewrite Eq in Lq. congruence. }
    eapply X, C.
Qed.

Lemma pmapped_lemma (slice : nat -> V -> V) (shk : bool) ps static d args kw env :
  wf_sig ps -> pos_only_uniform ps (static_names ps static) ->
  bind ps args kw = Some env ->
  (shk = true \/ ba_kwargs false ps (sub_bind (fun x => mem x (map p_name ps) && negb (mem x (static_names ps static))) env) = []) ->
  pmapped slice shk ps static d args kw = Some (device_env slice (static_names ps static) d env).
Proof.
  intros W HU B HS. unfold pmapped. rewrite B. set (st := static_names ps static) in *.
  assert (Bg : bind_go ps args kw = Some env).
  { unfold bind in B. destruct (forallb _ kw); [auto|discriminate]. }
  assert (Hn := bind_go_names _ _ _ _ Bg).
  assert (ND : NoDup (map p_name ps)) by apply W.
  assert (SE : sub_bind (fun x => mem x (map p_name ps) && negb (mem x st)) env = filter (fun kv => negb (mem (fst kv) st)) env).
  { unfold sub_bind. assert (H : forall kv, In kv env -> mem (fst kv) (map p_name ps) = true).
    { intros kv I. apply mem_in. rewrite <- Hn. now apply in_map. }
    clear -H. induction env as [|kv env IH]; cbn; auto. rewrite H by (cbn; auto). cbn.
    rewrite IH by (intros; apply H; cbn; auto). reflexivity. }
  rewrite SE in *. unfold sub_bind.
  set (envd := device_env slice st d env).
  assert (Hnd : map fst envd = map p_name ps). { unfold envd, device_env. rewrite map_map. cbn. exact Hn. }
  set (E1 := filter (fun kv => mem (fst kv) st) envd).
  set (E2 := filter (fun kv => negb (mem (fst kv) st)) envd).
  assert (X1 : E1 = filter (fun kv => mem (fst kv) st) env) by (exact (filter_map_env slice st d env true)).
  assert (X2 : E2 = map (fun kv => (fst kv, slice d (snd kv))) (filter (fun kv => negb (mem (fst kv) st)) env)) by (exact (filter_map_env slice st d env false)).
  rewrite <- X1. rewrite <- (ba_args_map (slice d)), <- (ba_kwargs_map (slice d)). rewrite <- X2.
  assert (G : bind ps (ba_args ps E1 ++ ba_args ps E2)
      (filter (fun kv => negb (mem (fst kv) (map fst (ba_kwargs false ps E2)))) (ba_kwargs false ps E1) ++ ba_kwargs false ps E2) = Some envd).
  { unfold bind.
    assert (PO : forall E (keep : name -> bool), E = filter (fun kv => keep (fst kv)) envd -> 
        (forall p q, In p ps -> In q ps -> p_kind p = PosOnly -> p_kind q = PosOnly -> keep (p_name p) = keep (p_name q)) ->
        forallb (fun kv => accepts_kw ps (fst kv)) (ba_kwargs false ps E) = true).
    { intros E keep -> HK. apply (accepts_kw_all ps (filter (fun kv => keep (fst kv)) envd)); auto. apply pos_only_not_kw; auto; [apply W|].
      intros p q Ip Iq Kp Kq. rewrite !lookup_filter, (HK p q) by auto.
      assert (Y : forall r, In r ps -> lookup (p_name r) envd <> None).
      { intros r Ir C. apply lookup_none in C. apply C. rewrite Hnd. now apply in_map. }
      destruct (keep (p_name q)); split; auto; intro C; exfalso; eapply Y; try exact C; auto. }
    rewrite forallb_app.
    rewrite (PO E2 (fun x => negb (mem x st))); auto; [|intros; f_equal; apply HU; auto].
    replace (forallb _ (filter _ _)) with true.
    2:{ symmetry. apply forallb_forall. intros kv Hkv. apply filter_In in Hkv as (Hkv & _).
        assert (F := PO E1 (fun x => mem x st) eq_refl HU). rewrite forallb_forall in F. auto. }
    cbn [andb]. apply (rebind ps envd (fun x => mem x st)); auto.
    intro x. fold E1 E2. rewrite lookup_app, (lookup_filter x (fun y => negb (mem y (map fst (ba_kwargs false ps E2))))).
    assert (DJ : lookup x (ba_kwargs false ps E1) <> None -> lookup x (ba_kwargs false ps E2) <> None -> False).
    { rewrite !ba_kwargs_lookup by auto. unfold E1, E2.
      rewrite (lookup_filter x (fun y => mem y st)), (lookup_filter x (fun y => negb (mem y st))).
      destruct (mem x st), (mem x _), (mem x _); cbn; congruence. }
    destruct (mem x (map fst (ba_kwargs false ps E2))) eqn:M; cbn [negb].
    - apply mem_in in M. destruct (lookup x (ba_kwargs false ps E1)) eqn:L1; auto.
      destruct (lookup x (ba_kwargs false ps E2)) eqn:L2; [exfalso; apply DJ; congruence|].
      now apply lookup_none in L2.
    - reflexivity. }
  assert (HS' : shk = true \/ ba_kwargs false ps E2 = []).
  { destruct HS as [->|HS]; auto. right. rewrite X2, ba_kwargs_map, HS. reflexivity. }
  destruct (ba_args ps E2) as [|a la] eqn:A2, (ba_kwargs false ps E2) as [|k lk] eqn:K2.
  - rewrite !app_nil_r in G. cbn [map fst] in G. 
    replace (filter _ (ba_kwargs false ps E1)) with (ba_kwargs false ps E1) in G; auto.
    clear. induction (ba_kwargs false ps E1) as [|x l IH]; cbn; auto. f_equal. auto.
  - destruct HS' as [->|HS']; [|discriminate]. cbn [negb andb]. exact G.
  - destruct shk; cbn [negb andb]; exact G.
  - destruct HS' as [->|HS']; [|discriminate]. cbn [negb andb]. exact G.
Qed.

(** With the default static names every sharded parameter goes by position. *)
Lemma default_static_no_kwargs ps env : wf_sig ps -> map fst env = map p_name ps ->
  ba_kwargs false ps (sub_bind (fun x => mem x (map p_name ps) && negb (mem x (static_names ps None))) env) = [].
Proof.
  intros W Hn. set (E := sub_bind _ env).
  assert (ND : NoDup (map p_name ps)) by apply W.
  assert (LE : forall p, In p ps -> lookup (p_name p) E = None <-> p_kind p = KwOnly).
  { intros p Ip. unfold E, sub_bind.
    rewrite (lookup_filter _ (fun x => mem x (map p_name ps) && negb (mem x (static_names ps None)))).
    assert (M : mem (p_name p) (map p_name ps) = true) by (apply mem_in; now apply in_map). rewrite M. cbn [andb].
    assert (Y : lookup (p_name p) env <> None).
    { intro C. apply lookup_none in C. apply C. rewrite Hn. now apply in_map. }
    destruct (mem (p_name p) (static_names ps None)) eqn:S; cbn [negb].
    - split; auto. intros _. apply mem_in in S. cbn in S. apply in_map_iff in S as (q & Eq & Iq).
      apply filter_In in Iq as (Iq & Kq).
      assert (q = p). { clear -ND Eq Iq Ip. induction ps as [|r ps IH]; [inversion Ip|]. cbn in ND. inversion ND; subst.
        destruct Iq as [->|Iq], Ip as [->|Ip]; auto.
        - elim H1. rewrite Eq. now apply in_map.
        - elim H1. rewrite <- Eq. now apply in_map. }
      subst q. destruct (p_kind p); auto; discriminate.
    - split; [intro; contradiction|]. intro K. exfalso.
      assert (X : mem (p_name p) (static_names ps None) = true).
      { apply mem_in. cbn. apply in_map, filter_In. split; auto. now rewrite K. }
      congruence. }
  assert (GEN : forall qs st, (forall q, In q qs -> In q ps) -> 
     (forall i j p q, i < j -> nth_error qs i = Some p -> nth_error qs j = Some q -> krank (p_kind p) <= krank (p_kind q)) ->
     (st = true -> forall q, In q qs -> p_kind q = KwOnly) -> ba_kwargs st qs E = []).
  { induction qs as [|q qs IH]; intros b Hq Or Hb; auto. cbn.
    destruct (lookup (p_name q) E) eqn:L.
    - assert (K : p_kind q <> KwOnly). { intro C. apply LE in C; [|apply Hq; cbn; auto]. congruence. }
      destruct b; [elim K; apply Hb; cbn; auto|].
      assert (RR : ba_kwargs false qs E = []).
      { apply IH; [intros; apply Hq; cbn; auto | intros i j a c Hij Ha Hc; apply (Or (S i) (S j) a c); auto; lia | discriminate]. }
      destruct (p_kind q); cbn; auto. now elim K.
    - assert (K : p_kind q = KwOnly) by (apply LE; [apply Hq; cbn; auto | auto]).
      apply IH; [intros; apply Hq; cbn; auto | intros i j a c Hij Ha Hc; apply (Or (S i) (S j) a c); auto; lia |].
      intros _ r Ir. apply In_nth_error in Ir as (j & Hj). specialize (Or 0 (S j) q r ltac:(lia) eq_refl Hj).
      rewrite K in Or. destruct (p_kind r); cbn in Or; auto; lia. }
  apply GEN; auto; [apply W | discriminate].
Qed.
End Proofs.

(** C09: if the direct call binds, then on every device the body of f runs with
    exactly the same parameters: static ones whole, sharded ones by their slice,
    defaults included.  Needs a shard_map that forwards keyword arguments when
    sharded parameters follow static ones. *)
Theorem C09_jit_distributed_binding :
  forall (V : Type) (slice : nat -> V -> V) (ps : list (param V)) static d args kw env,
  wf_sig ps -> pos_only_uniform ps (static_names ps static) ->
  bind ps args kw = Some env ->
  pmapped slice true ps static d args kw = Some (device_env slice (static_names ps static) d env).
Proof. intros. apply pmapped_lemma; auto. Qed.
Print Assumptions C09_jit_distributed_binding.

(** C09 with the default static names (keyword-only parameters): positional-only
    parameters need no side condition and shard_map gets no keyword arguments. *)
Theorem C09_jit_distributed_default_static :
  forall (V : Type) (slice : nat -> V -> V) (shk : bool) (ps : list (param V)) d args kw env,
  wf_sig ps -> bind ps args kw = Some env ->
  pmapped slice shk ps None d args kw = Some (device_env slice (static_names ps None) d env).
Proof.
  intros V slice shk ps d args kw env W B. apply pmapped_lemma; auto.
  - intros p q Ip Iq Kp Kq.
    assert (X : forall r, In r ps -> p_kind r = PosOnly -> mem (p_name r) (static_names ps None) = false).
    { intros r Ir Kr. destruct (mem _ _) eqn:M; auto. apply mem_in in M. cbn in M.
      apply in_map_iff in M as (s & Es & Is). apply filter_In in Is as (Is & Ks).
      assert (ND := wf_names _ W). assert (s = r).
      { clear -ND Es Is Ir. induction ps as [|t ps IH]; [inversion Ir|]. cbn in ND. inversion ND; subst.
        destruct Is as [->|Is], Ir as [->|Ir]; auto.
        - elim H1. rewrite Es. now apply in_map.
        - elim H1. rewrite <- Es. now apply in_map. }
      subst s. rewrite Kr in Ks. discriminate. }
    now rewrite !X.
  - right. apply default_static_no_kwargs; auto.
    unfold bind in B. destruct (forallb _ kw); [|discriminate]. eapply bind_go_names; eauto.
Qed.
Print Assumptions C09_jit_distributed_default_static.

(** A call the direct function rejects is rejected. *)
Theorem C09_jit_distributed_rejects :
  forall (V : Type) (slice : nat -> V -> V) shk (ps : list (param V)) static d args kw,
  bind ps args kw = None -> pmapped slice shk ps static d args kw = None.
Proof. intros. unfold pmapped. now rewrite H. Qed.
Print Assumptions C09_jit_distributed_rejects.

(** The claim fails when a positional-only parameter is static and a later one
    is not: f(a, b, /) with static_argnames=['a'] binds directly, but the wrapper
    passes b by keyword. *)
Theorem C09_positional_only_refuted :
  exists (ps : list (param nat)) static args, wf_sig ps /\ bind ps args [] <> None /\
    pmapped (fun d v => v) true ps static 0 args [] = None.
Proof.
  exists [Param 0 PosOnly None; Param 1 PosOnly None], (Some [0]), [5; 6].
  split; [|split; [vm_compute; discriminate | vm_compute; reflexivity]].
  split.
  - repeat constructor; cbn; intuition discriminate.
  - intros [|[|i]] [|[|j]] p q Hij Hp Hq; cbn in *; try lia; try (destruct i; discriminate);
      try (destruct j; discriminate); injection Hp as <-; injection Hq as <-; cbn; lia.
Qed.
Print Assumptions C09_positional_only_refuted.

(** ... and, if shard_map takes positional arguments only (as in JAX), for every
    call in which a sharded parameter follows a static one. *)
Theorem C09_static_first_refuted :
  exists (ps : list (param nat)) static args, wf_sig ps /\ bind ps args [] <> None /\
    pos_only_uniform ps (static_names ps static) /\
    pmapped (fun d v => v) false ps static 0 args [] = None.
Proof.
  exists [Param 0 PosOrKw None; Param 1 PosOrKw None], (Some [0]), [5; 6].
  split; [|split; [vm_compute; discriminate | split; [|vm_compute; reflexivity]]].
  - split.
    + repeat constructor; cbn; intuition discriminate.
    + intros [|[|i]] [|[|j]] p q Hij Hp Hq; cbn in *; try lia; try (destruct i; discriminate);
        try (destruct j; discriminate); injection Hp as <-; injection Hq as <-; cbn; lia.
  - intros p q [<-|[<-|[]]] _ K; discriminate.
Qed.
Print Assumptions C09_static_first_refuted.

(** f(a, b=7, *, s), called f(10, s=2): a and b are sharded, s is static. *)
Example ex_jit :
  let ps := [Param 0 PosOrKw None; Param 1 PosOrKw (Some 7); Param 2 KwOnly None] in
  bind ps [10] [(2, 2)] = Some [(0, 10); (1, 7); (2, 2)] /\
  pmapped (fun d v => 100 * d + v) false ps None 3 [10] [(2, 2)] = Some [(0, 310); (1, 307); (2, 2)] /\
  pmapped (fun d v => 100 * d + v) true ps (Some [1]) 3 [10] [(2, 2)] = Some [(0, 310); (1, 7); (2, 302)].
Proof. vm_compute. auto. Qed.
