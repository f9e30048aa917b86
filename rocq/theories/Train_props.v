(** C57: training with checkpoints survives being killed at any point. *)
From mathcomp Require Import all_ssreflect zify.
From Verif Require Import Train_model.
Set Implicit Arguments. Unset Strict Implicit. Unset Printing Implicit Defensive.

Section C57.
Variables (V B : Type) (fresh : V) (update : nat -> B -> V -> V).
Variables (batches : nat -> option B) (eval_batches : option nat).
Variable cfg : tconfig.
Notation tstate := (tstate V).
Notation disk := (disk V).
Notation tick := (tick fresh update batches eval_batches cfg).
Notation happen := (happen fresh update batches eval_batches cfg).
Notation history := (history fresh update batches eval_batches cfg).
Notation init := (TState 0 fresh).
Notation N := (num_steps cfg).
Notation K := (steps_per_checkpoint cfg).

(** * Specification *)

(** Uninterrupted training on the batches [bs]: the optimiser steps have the
    numbers [0], [1], ..., one for each batch. *)
Definition after (bs : seq B) : tstate :=
  TState (size bs)
    (foldl (fun v kb => update kb.1 kb.2 v) fresh (zip (iota 0 (size bs)) bs)).

(** The first [n] batches of the data, and what training sees in runs that
    contribute [n1], [n2], ... steps. *)
Definition seen (n : nat) : seq B := pmap batches (iota 0 n).
Definition served (ns : seq nat) : seq B := flatten (map seen ns).

(** [s] is the result of training in runs of [ns] steps; each run but the first
    starts at a multiple of [steps_per_checkpoint]. *)
Definition lineage (ns : seq nat) (s : tstate) : Prop :=
  [/\ s = after (served ns), st_step s = sumn ns &
      forall j, j < size ns -> K %| sumn (take j ns)].

Definition top (d : disk) : nat := st_step (restore d init).

(** * Lemmas *)

Lemma after_rcons bs b : after (rcons bs b) = train_step update (after bs) b.
Proof.
rewrite /after /train_step /= size_rcons -[X in iota 0 X]addn1 iotaD add0n cats1.
by rewrite zip_rcons ?size_iota // foldl_rcons.
Qed.

Lemma seenS n b : batches n = Some b -> seen n.+1 = rcons (seen n) b.
Proof.
by move=> e; rewrite /seen -[X in iota 0 X]addn1 iotaD pmap_cat /= add0n e cats1.
Qed.

Lemma served_rcons ns n : served (rcons ns n) = served ns ++ seen n.
Proof. by rewrite /served map_rcons flatten_rcons. Qed.

Definition newer : rel tstate := fun a b => st_step b < st_step a.

Lemma newer_trans : transitive newer.
Proof. by move=> b a c; rewrite /newer => h1 h2; apply: ltn_trans h2 h1. Qed.

Lemma latest_cons (c : tstate) d : latest (c :: d) =
  if latest d is Some b then if st_step c < st_step b then Some b else Some c
  else Some c.
Proof. by rewrite /latest /=; case: (foldr _ _ _). Qed.

Lemma latest_sorted d : sorted newer d -> latest d = ohead d.
Proof.
elim: d => [//|c [//|c' d] IH] /andP [cc' p].
rewrite latest_cons IH //=.
by rewrite ltnNge ltnW //; exact: cc'.
Qed.

Lemma restore_cons c d : sorted newer (c :: d) -> restore (c :: d) init = c.
Proof. by move=> s; rewrite /restore latest_sorted. Qed.

Lemma latest_max (d : disk) (c : tstate) : latest d = Some c -> all (fun c' => st_step c' <= st_step c) d.
Proof.
elim: d c => [//|a d IH] c; rewrite latest_cons; case e : (latest d) => [b|].
  have := IH _ e; case: ifP => [ab|/negbT]; last rewrite -leqNgt => ba.
    by move=> al [<-]; rewrite /= al ltnW.
  by move=> al [<-]; rewrite /= leqnn /=; apply: sub_all al => x; move/leq_trans; apply.
move=> [<-]; rewrite /= leqnn; case: d {IH} e => [//|a' d]; rewrite latest_cons.
by case: (latest d) => [b|] //; case: ifP.
Qed.

Lemma latest_none (d : disk) : latest d = None -> d = [::].
Proof.
by case: d => [//|a d]; rewrite latest_cons; case: (latest d) => [b|] //; case: ifP.
Qed.

Lemma commitE (d : disk) (s : tstate) : top d < st_step s -> commit d s = inr (s :: d).
Proof.
rewrite /top /restore /commit => lt.
case e : (latest d) lt => [c|] /= lt; last by rewrite (latest_none e).
rewrite ifF //; apply/negbTE; rewrite -all_predC.
by apply: sub_all (latest_max e) => x /= xc; rewrite -ltnNge (leq_ltn_trans xc).
Qed.

Lemma sorted_push (d : disk) (s : tstate) : sorted newer d -> top d < st_step s -> sorted newer (s :: d).
Proof.
case: d => [//|c d] so; rewrite /top restore_cons // => lt.
by rewrite /= /newer lt.
Qed.

Lemma pruneE d : sorted newer d -> prune d = take keep d.
Proof.
move=> so; rewrite /prune sorted_sort //.
  by move=> b a c h1 h2; apply: leq_trans h2 h1.
by apply: sub_sorted so => a b; apply: ltnW.
Qed.

Lemma sorted_prune d : sorted newer d -> sorted newer (prune d).
Proof. by move=> so; rewrite pruneE // take_sorted. Qed.

Lemma latest_prune d : sorted newer d -> latest (prune d) = latest d.
Proof.
move=> so; rewrite latest_sorted ?sorted_prune // pruneE // latest_sorted //.
by case: d {so}.
Qed.

(** * The invariant *)

(** No checkpoint is due for the step counts in [(top d, n]]. *)
Definition quiet (d : disk) (n : nat) : Prop :=
  forall m, top d < m <= n -> ~~ (K %| m) /\ m <> N.

Definition ckpt_ok (c : tstate) : Prop :=
  (exists ns, lineage ns c) /\ 0 < st_step c <= N /\
  ((K %| st_step c) || (st_step c == N)).

Definition running (used : nat) (s : tstate) : Prop :=
  exists ns, [/\ s = after (served (rcons ns used)), st_step s = sumn ns + used,
    forall j, j < size ns -> K %| sumn (take j ns),
    (K %| sumn ns) || (sumn ns == N) & sumn ns <= st_step s].

Definition proc_ok (d : disk) (p : proc V) : Prop :=
  match p with
  | Off => True
  | Loop k used _ s =>
      [/\ k = st_step s, k <= N, top d <= k, quiet d k & running used s] /\
      (top d = k -> s = restore d init)
  | AfterStep k used _ s | AfterEval k used _ s =>
      [/\ k.+1 = st_step s, k < N, top d <= k, quiet d k & running used s] /\
      0 < used
  | AfterCommit k used _ s =>
      [/\ k.+1 = st_step s, k < N, latest d = Some s & running used s] /\
      0 < used
  | Finished s =>
      st_step s = N /\ s = restore d init \/
      [/\ exists u, batches u = None, st_step s <= N & exists ns, lineage ns s]
  | Raised e => e <> TOutdated
  end.

Definition ok (x : disk * proc V) : Prop :=
  [/\ sorted newer x.1, List.Forall ckpt_ok x.1 & proc_ok x.1 x.2].

Lemma Forall_latest (P : tstate -> Prop) d c :
  List.Forall P d -> latest d = Some c -> P c.
Proof.
elim: d c => [//|a d IH] c /List.Forall_cons_iff [Pa Pd]; rewrite latest_cons.
case e : (latest d) => [b|]; last by move=> [<-].
by case: ifP => _ [<-] //; apply: IH.
Qed.

Lemma lineage_nil : lineage [::] init.
Proof. by split. Qed.

Lemma restore_lineage d : List.Forall ckpt_ok d ->
  exists ns, lineage ns (restore d init) /\ ((K %| sumn ns) || (sumn ns == N)).
Proof.
move=> al; rewrite /restore; case e : (latest d) => [c|]; last first.
  by exists [::]; rewrite dvdn0; split=> //; apply: lineage_nil.
have [[ns l] [_ h]] := Forall_latest al e.
by exists ns; split=> //; case: l => _ <-.
Qed.

Lemma seen0 : seen 0 = [::]. Proof. by []. Qed.

Lemma top_le d : List.Forall ckpt_ok d -> top d <= N.
Proof.
move=> al; rewrite /top /restore; case e : (latest d) => [c|] //.
by have [_ [/andP []]] := Forall_latest al e.
Qed.

Lemma running_lineage used s :
  running used s -> 0 < used -> st_step s <= N -> exists ns, lineage ns s.
Proof.
case=> ns [e1 e2 e3 e4 e5] u0 sN; exists (rcons ns used); split=> //.
  by rewrite sumn_rcons.
move=> j; rewrite size_rcons ltnS leq_eqVlt => /orP [/eqP ->|jn]; last first.
  by rewrite -cats1 takel_cat ?(ltnW jn) //; apply: e3.
rewrite -cats1 take_size_cat //; case/orP: e4 => // /eqP e.
by move: sN; rewrite e2 e; lia.
Qed.

Lemma ok_tick x : ok x -> ok (tick x).
Proof.
case: x => d p [] /= so al; case: p => [|k u v s|k u v s|k u v s|k u v s|s|e] /=.
- move=> _; split=> //=; split; last by [].
  split=> //; first exact: top_le.
    by move=> m /andP [h1 h2]; move: (leq_trans h1 h2); rewrite ltnn.
  have [ns [[e1 e2 e3] h]] := restore_lineage al; exists ns.
  by rewrite served_rcons seen0 cats0 e2 addn0.
- case=> -[ks kN tk qk ru] tops; case: ifP => [kN'|/negbT]; last first.
    rewrite -leqNgt => Nk; split=> //=; left.
    have eN : k = N by apply/eqP; rewrite eqn_leq kN Nk.
    split; first by rewrite -ks.
    apply: tops; apply/eqP; rewrite eqn_leq tk /= leqNgt; apply/negP => lt.
    by have [_] := qk k (introT andP (conj lt (leqnn k))).
  case eb : (batches u) => [b|]; last first.
    split=> //=; right; split; [by exists u|by rewrite -ks|].
    case: (posnP u) => [u0|u0]; last by apply: running_lineage ru u0 _; rewrite -ks.
    case: ru => ns [e1 e2 e3 e4 e5]; exists ns; split=> //.
      by rewrite e1 u0 served_rcons seen0 cats0.
    by rewrite e2 u0 addn0.
  split=> //=; split=> //; split=> //; first by rewrite ks.
  case: ru => ns [e1 e2 e3 e4 e5]; exists ns; split=> //=.
  + by rewrite served_rcons (seenS eb) -rcons_cat after_rcons -served_rcons -e1.
  + by rewrite e2 addnS.
  + by rewrite ltnW.
- by case=> inv u0; do ?[case: ifP => _]; split.
- case=> -[ks kN tk qk ru] u0; case: ifP => // K0.
  have lt : top d < st_step s by rewrite -ks.
  case: ifP => due.
    have so' := sorted_push so lt.
    rewrite commitE //; split=> //.
    + constructor=> //; split.
        by apply: (running_lineage ru u0); rewrite -ks.
      rewrite -ks /=; split; first exact: kN.
      by case/orP: due => [due|->]; rewrite ?orbT // /dvdn due.
    + split=> //; split=> //.
      by rewrite (latest_sorted so').
  split=> //=; split; last by move=> e; move: tk; rewrite e ltnn.
  split=> //; first by rewrite leqW.
  move=> m /andP [h1]; rewrite leq_eqVlt => /orP [/eqP ->|h2]; last first.
    by apply: qk; rewrite h1.
  by move: due; rewrite /dvdn => /negbT; rewrite negb_or => /andP [-> /eqP].
- case=> -[ks kN la ru] u0; split=> /=; first exact: sorted_prune.
    rewrite pruneE //; move: al; rewrite -{1}(cat_take_drop keep d).
    by move/List.Forall_app => [].
  have rE : restore (prune d) init = s by rewrite /restore latest_prune // la.
  rewrite /top rE; split=> //; split=> //; first by rewrite ks.
  by rewrite /quiet /top rE ks => m /andP [h1 h2]; move: (leq_trans h1 h2); rewrite ltnn.
- by split.
- by split.
Qed.

Lemma ok_happen x e : ok x -> ok (happen x e).
Proof. by case: e => [|[so al _]]; [apply: ok_tick|split]. Qed.

Lemma ok_history es d : sorted newer d -> List.Forall ckpt_ok d -> ok (history es d).
Proof.
move=> so al; rewrite /Train_model.history.
have: ok (d, Off V) by split.
by elim: es (d, Off V) => [//|e es IH] x h /=; apply: IH; apply: ok_happen.
Qed.

Lemma ok_empty es : ok (history es [::]).
Proof. by apply: ok_history. Qed.

(** * Theorems *)

(** The state a process holds. *)
Definition held (p : proc V) : option tstate :=
  match p with
  | Loop _ _ _ s | AfterStep _ _ _ s | AfterEval _ _ _ s
  | AfterCommit _ _ _ s | Finished s => Some s
  | Off | Raised _ => None
  end.

(** Whatever happened, every checkpoint is the result of training with the step
    numbers [0], [1], ..., each used once and in order, on the batches of some
    runs; its step count is a multiple of the period or the last one. *)
Theorem C57_checkpoints es c :
  List.In c (history es [::]).1 ->
  (exists ns, lineage ns c) /\ 0 < st_step c <= N /\
  ((K %| st_step c) || (st_step c == N)).
Proof.
by have [_ al _] := ok_empty es; move: c; apply/List.Forall_forall.
Qed.

(** The same for the state the process holds, at any time. *)
Theorem C57_states es s :
  held (history es [::]).2 = Some s ->
  exists ns, [/\ s = after (served ns), st_step s = sumn ns & st_step s <= N].
Proof.
have [_ al] := ok_empty es.
have aux u s' : running u s' -> st_step s' <= N ->
    exists ns, [/\ s' = after (served ns), st_step s' = sumn ns & st_step s' <= N].
  by case=> ns [e1 e2 _ _ _] h; exists (rcons ns u); split; rewrite ?sumn_rcons.
case: (history es [::]).2 => //= [k u v s'|k u v s'|k u v s'|k u v s'|s'] inv [<-].
- by case: inv => -[ks kN _ _ ru] _; apply: aux ru _; rewrite -ks.
- by case: inv => -[ks kN _ _ ru] _; apply: aux ru _; rewrite -ks.
- by case: inv => -[ks kN _ _ ru] _; apply: aux ru _; rewrite -ks.
- by case: inv => -[ks kN _ ru] _; apply: aux ru _; rewrite -ks.
case: inv => [[sN ->]|[_ sN [ns [e1 e2 _]]]]; last by exists ns.
have [ns [[e1 e2 _] _]] := restore_lineage al.
by exists ns; split=> //; apply: top_le.
Qed.

(** The number of the loop is the number of the optimiser step. *)
Theorem C57_numbers es k u v s :
  (history es [::]).2 = Loop k u v s -> st_step s = k.
Proof. by have [_ _] := ok_empty es => /[swap] -> [[]]. Qed.

(** Saving never finds a checkpoint of the same or a later step. *)
Theorem C57_not_outdated es : (history es [::]).2 <> Raised V TOutdated.
Proof. by have [_ _] := ok_empty es => /[swap] ->. Qed.

(** What is lost when the process is killed: the newest checkpoint is at most
    one period behind. *)
Theorem C57_lost es s :
  0 < K -> held (history es [::]).2 = Some s ->
  (forall u, batches u <> None) ->
  top (history es [::]).1 <= st_step s <= top (history es [::]).1 + K.
Proof.
move=> K0; have [so al] := ok_empty es; set d := (history es [::]).1 in so al *.
have tK : (K %| top d) || (top d == N).
  rewrite /top /restore; case e : (latest d) => [c|]; last by rewrite dvdn0.
  by have [_ [_ h]] := Forall_latest al e.
have near k : top d <= k -> k <= N -> quiet d k -> k < top d + K.
  move=> tk kN qk; rewrite ltnNge; apply/negP => h.
  case/orP: tK => [tK|/eqP tN]; last by move: kN h; rewrite tN; lia.
  have [] := qk (top d + K); first by rewrite h andbT -addn1 leq_add2l.
  by rewrite dvdn_addr // dvdnn.
case: (history es [::]).2 => //= [k u v s'|k u v s'|k u v s'|k u v s'|s'] inv [<-] data.
- case: inv => -[ks kN tk qk _] _; rewrite -ks tk ltnW //; exact: near.
- by case: inv => -[ks kN tk qk _] _; rewrite -ks leqW //=; apply: near => //; apply: ltnW.
- by case: inv => -[ks kN tk qk _] _; rewrite -ks leqW //=; apply: near => //; apply: ltnW.
- by case: inv => -[ks kN la _] _; rewrite /top /restore la leqnn leq_addr.
- case: inv => [[_ ->]|[[u /data] //]].
  by rewrite /top leqnn leq_addr.
Qed.

(** If training returns, it returns the newest checkpoint, and that has all
    [num_steps] steps. *)
Theorem C57_completes es d s :
  0 < N -> (forall u, batches u <> None) ->
  history es [::] = (d, Finished s) ->
  [/\ latest d = Some s, st_step s = N & exists ns, lineage ns s].
Proof.
move=> N0 data e; have := ok_empty es; rewrite e => -[so al /= []]; last by case=> -[u /data].
case=> sN sE; have: latest d = Some s.
  rewrite /restore in sE; case: (latest d) sE => [c|] sE; first by rewrite sE.
  by move: N0; rewrite -sN sE.
by move=> la; split=> //; have [] := Forall_latest al la.
Qed.

(** ** It does finish *)

Definition healthy : Prop :=
  [/\ 0 < K, 0 < eval_every_steps cfg, 0 < steps_per_eval cfg,
      eval_batches = None & forall u, batches u <> None].

Definition left_ (p : proc V) : nat :=
  match p with
  | Off => 4 * N + 2
  | Loop k _ _ _ => 4 * (N - k) + 1
  | AfterStep k _ _ _ => 4 * (N - k)
  | AfterEval k _ _ _ => (4 * (N - k)).-1
  | AfterCommit k _ _ _ => (4 * (N - k)).-2
  | Finished _ | Raised _ => 0
  end.

Definition fine (x : disk * proc V) : Prop :=
  ok x /\ forall e, x.2 <> Raised V e.

Lemma fine_happen x e : healthy -> fine x -> fine (happen x e).
Proof.
move=> [K0 E0 S0 eb data] [okx nr]; split; first exact: ok_happen.
case: e; last by [].
case: x okx nr => d p okx nr /=; case: p okx nr => //= [k u v s|k u v s|k u v s].
- by move=> _ _; case: ifP => // _; case: (batches u).
- move=> _ _; rewrite /eval_ends eb gtn_eqF //; case: ifP => // _.
  by rewrite gtn_eqF.
- move=> [so al [[ks kN tk qk ru] u0]] _; rewrite gtn_eqF // commitE -?ks //.
  by case: ifP.
Qed.

Lemma fine_left x : healthy -> fine x -> (exists s, x.2 = Finished s) \/
  left_ (tick x).2 < left_ x.2.
Proof.
move=> [K0 E0 S0 eb data] [okx nr].
case: x okx nr => d p okx nr; case: p okx nr => [|k u v s|k u v s|k u v s|k u v s|s|e] /=.
- by right; rewrite /=; lia.
- move=> _ _; right; case: ifP => kN /=; last by lia.
  by case eb' : (batches u) => [b|] /=; lia.
- move=> [_ _ [[ks kN tk qk ru] u0]] _; right; rewrite /eval_ends eb gtn_eqF //.
  by case: ifP => _; rewrite ?gtn_eqF //=; rewrite /= in kN; lia.
- move=> [so al [[ks kN tk qk ru] u0]] _; right; rewrite gtn_eqF // commitE -?ks //.
  by rewrite /= in kN; case: ifP => _ /=; lia.
- move=> [so al [[ks kN la ru] u0]] _; right; rewrite /= in kN; lia.
- by left; exists s.
- by move=> _ /(_ e).
Qed.

Lemma fine_finishes n x : healthy -> fine x -> left_ x.2 <= n ->
  exists s, (foldl happen x (nseq n Act)).2 = Finished s.
Proof.
move=> he; elim: n x => [|n IH] x fx le /=.
  by case: (fine_left he fx) => //; rewrite ltnNge (leq_trans le).
apply: IH; first exact: (fine_happen Act he fx).
case: (fine_left he fx) => [[s e]|lt]; last by rewrite -ltnS (leq_trans lt).
by case: x e {fx le} => d p /= ->.
Qed.

Lemma fine_history es : healthy -> fine (history es [::]).
Proof.
move=> he; have: fine ([::], Off V) by split; [exact: (ok_empty [::])|].
rewrite /Train_model.history.
by elim: es ([::], Off V) => [//|e es IH] x fx /=; apply: IH; apply: fine_happen.
Qed.

Lemma history_cat es es' d : history (es ++ es') d = foldl happen (history es d) es'.
Proof. exact: foldl_cat. Qed.

(** After any history, a run that is not killed finishes. *)
Theorem C57_terminates es :
  healthy -> exists d s,
  history (es ++ Kill :: nseq (4 * N + 2) Act) [::] = (d, Finished s).
Proof.
move=> he; rewrite history_cat /=.
have fx := fine_happen Kill he (fine_history es he).
have [s e] := fine_finishes he fx (leqnn _).
by exists (foldl happen (happen (history es [::]) Kill) (nseq (4 * N + 2) Act)).1, s;
  rewrite -e -surjective_pairing.
Qed.

(** ** Killed runs make progress if they last a period *)

Lemma top_happen x e : ok x -> top x.1 <= top (happen x e).1.
Proof.
move=> okx; case: e; last by [].
case: x okx => d p [/= so al]; case: p => [|k u v s|k u v s|k u v s|k u v s|s|e] //=.
- by case: ifP => // _ _; case: (batches u).
- by move=> _; do ?[case: ifP => _].
- case=> -[ks kN tk qk ru] u0; case: ifP => // _; case: ifP => // _.
  have lt : top d < st_step s by rewrite -ks.
  rewrite commitE //= {2}/top restore_cons ?(ltnW lt) //; exact: sorted_push.
- by move=> _; rewrite /top /restore latest_prune.
Qed.

Lemma ok_foldl x es : ok x -> ok (foldl happen x es).
Proof. by elim: es x => [//|e es IH] x okx /=; apply: IH; apply: ok_happen. Qed.

Lemma top_foldl x es : ok x -> top x.1 <= top (foldl happen x es).1.
Proof.
elim: es x => [//|e es IH] x okx /=.
by apply: leq_trans (top_happen e okx) _; apply: IH; apply: ok_happen.
Qed.

(** Checkpoints are never lost: the newest one only gets newer. *)
Theorem C57_monotone es es' :
  top (history es [::]).1 <= top (history (es ++ es') [::]).1.
Proof. by rewrite history_cat; apply: top_foldl; apply: ok_empty. Qed.

Definition togo (t : nat) (p : proc V) : nat :=
  match p with
  | Off => 4 * K + 4
  | Loop k _ _ _ => 4 * (t + K - k) + 3
  | AfterStep k _ _ _ => 4 * (t + K - k) + 2
  | AfterEval k _ _ _ => 4 * (t + K - k) + 1
  | AfterCommit _ _ _ _ | Finished _ | Raised _ => 1
  end.

Lemma near_top d k : List.Forall ckpt_ok d -> 0 < K ->
  top d <= k -> k <= N -> quiet d k -> k < top d + K.
Proof.
move=> al K0 tk kN qk; rewrite ltnNge; apply/negP => h.
have: (K %| top d) || (top d == N).
  rewrite /top /restore; case e : (latest d) => [c|]; last by rewrite dvdn0.
  by have [_ [_ h']] := Forall_latest al e.
case/orP => [tK|/eqP tN]; last by move: kN h; rewrite tN; lia.
have [] := qk (top d + K); first by rewrite h andbT -addn1 leq_add2l.
by rewrite dvdn_addr // dvdnn.
Qed.

Definition pending (t : nat) (x : disk * proc V) : Prop :=
  [/\ fine x, top x.1 = t, t < N & forall k u v s, x.2 <> AfterCommit k u v s].

Lemma pending_tick t x : healthy -> pending t x ->
  t < top (tick x).1 \/ pending t (tick x) /\ togo t (tick x).2 < togo t x.2.
Proof.
move=> he [fx tE tN nc]; have ft := fine_happen Act he fx.
move: (he) => [K0 E0 S0 eb data]; case: x fx tE nc ft => d p [okx nr] /= tE nc ft.
case: p okx nr nc ft => [|k u v s|k u v s|k u v s|k u v s|s|e] /=.
- move=> [_ al _] _ _ ft; right; split; first by split=> //=.
  by rewrite -/(top d) tE; lia.
- move=> [_ al [[ks kN tk qk ru] tops]] _ _.
  case: ifP => [kN'|].
    case eb' : (batches u) => [b|] ft; last by case: (data u).
    right; split; first by split.
    by rewrite /=; lia.
  move=> kN'; exfalso; move/negbT: kN'; rewrite -leqNgt => Nk.
  have [] := qk N; last by [].
  by rewrite /= tE tN Nk.
- move=> [_ al [[ks kN tk qk ru] u0]] _ _; rewrite /eval_ends eb gtn_eqF //.
  have lt := near_top al K0 tk (ltnW kN) qk; rewrite /= tE in lt.
  rewrite [steps_per_eval cfg == 0]gtn_eqF //.
  by case: ifP => _ ft; right; (split; first by split) => /=; lia.
- move=> [so al [[ks kN tk qk ru] u0]] _ _; rewrite gtn_eqF // commitE -?ks //.
  have lt := near_top al K0 tk (ltnW kN) qk; rewrite /= tE in lt.
  case: ifP => _ ft; last by right; (split; first by split) => /=; lia.
  left; have [[so' _ _] _] := ft.
  by rewrite /top restore_cons // -ks ltnS -tE.
- by move=> _ _ /(_ k u v s).
- move=> [_ _ /= [[sN sE]|[[u /data] //]]] _ _ _.
  by move: tN; rewrite -tE /top -sE sN ltnn.
- by move=> _ /(_ e).
Qed.

Lemma pending_progress t n x : healthy -> pending t x -> togo t x.2 <= n ->
  t < top (foldl happen x (nseq n Act)).1.
Proof.
move=> he; elim: n x => [|n IH] x px le /=.
  by move: le; rewrite leqn0; case: (x.2) => [|?|?|?|?|?|?] /=; rewrite ?addn_eq0 ?andbF.
case: (pending_tick he px) => [lt|[px' lt]].
  apply: leq_trans lt _; apply: top_foldl.
  by apply: (ok_happen Act); case: px => -[].
by apply: IH px' _; rewrite -ltnS (leq_trans lt).
Qed.

(** A run of at least one period saves a newer checkpoint. *)
Theorem C57_progress es n :
  healthy -> top (history es [::]).1 < N -> 4 * K + 4 <= n ->
  top (history es [::]).1 < top (history (es ++ Kill :: nseq n Act) [::]).1.
Proof.
move=> he tN nK; rewrite history_cat /=; apply: (pending_progress he) => //.
split=> //; exact: (fine_happen Kill he (fine_history es he)).
Qed.

(** Runs shorter than a period never save anything, however many there are. *)
Definition early (n : nat) (x : disk * proc V) : Prop :=
  x.1 = [::] /\
  match x.2 with
  | Off => n <= 3 * K
  | Loop k _ _ _ => n < 3 * (K - k)
  | AfterStep k _ _ _ => n.+1 < 3 * (K - k)
  | AfterEval k _ _ _ => n.+2 < 3 * (K - k)
  | AfterCommit _ _ _ _ => False
  | Finished _ | Raised _ => True
  end.

Lemma early_tick n x : K <= N -> early n.+1 x -> early n (tick x).
Proof.
move=> KN; case: x => d p [/= ->].
case: p => [|k u v s|k u v s|k u v s|k u v s|s|e] //= h; first by split=> //=; lia.
- by case: ifP => _; [case: (batches u) => [b|]|]; split=> //=; lia.
- by do ?[case: ifP => _]; split=> //=; lia.
- case: ifP => _; first by split.
  rewrite modn_small; last by lia.
  have -> : (k.+1 == N) = false by apply/negbTE; lia.
  by split=> //=; lia.
Qed.

Theorem C57_starved ns :
  all (fun n => n <= 3 * K) ns -> K <= N ->
  (history (flatten [seq Kill :: nseq n Act | n <- ns]) [::]).1 = [::].
Proof.
move=> al KN; rewrite /Train_model.history.
have: ([::], Off V).1 = [::] :> disk by [].
elim: ns ([::], Off V) al => [//|n ns IH] x /= /andP [nK al] x0.
rewrite foldl_cat; apply: IH al _.
have: early n (x.1, Off V) by [].
elim: {nK} n (x.1, Off V) => [|n IHn] y ey /=; first by case: ey.
by apply: IHn; apply: early_tick.
Qed.

(** ** No step is taken if there is nothing to do *)

(** A working directory with all steps done is left as it is. *)
Theorem C57_nothing_left d n :
  N <= top d -> history (nseq n.+2 Act) d = (d, Finished (restore d init)).
Proof.
rewrite /top /Train_model.history /= => Nt; rewrite ltnNge Nt /=.
by elim: n => [//|n IH] /=.
Qed.

(** If the data has not enough examples for one batch, training returns the
    initial state, without an error and without a checkpoint. *)
Theorem C57_no_data es :
  batches 0 = None ->
  (history es [::]).1 = [::] /\
  (forall s, (history es [::]).2 = Finished s -> s = init).
Proof.
move=> b0.
pose inv (x : disk * proc V) := x.1 = [::] /\
  match x.2 with
  | Loop _ u _ s => u = 0 /\ s = init | Finished s => s = init
  | Off => True | _ => False end.
suff: inv (history es [::]).
  by case: (history es [::]) => d p [/= -> h]; split=> // s e; move: h; rewrite e.
rewrite /Train_model.history; have: inv ([::], Off V) by [].
elim: es ([::], Off V) => [//|e es IH] x ix /=; apply: IH.
case: e => /=; last by case: ix.
case: x ix => d p [/= ->]; case: p => [|k u v s|k u v s|k u v s|k u v s|s|e] //=.
by case=> -> ->; rewrite b0; case: ifP.
Qed.

(** If a period rounds down to zero, the first step raises and nothing is ever
    saved. *)
Theorem C57_zero_period es :
  K = 0 \/ eval_every_steps cfg = 0 ->
  (history es [::]).1 = [::] /\
  (forall s, (history es [::]).2 = Finished s -> s = init).
Proof.
move=> z.
pose inv (x : disk * proc V) := x.1 = [::] /\
  match x.2 with
  | Loop k u _ s => s = init | Finished s => s = init
  | AfterEval _ _ _ _ => eval_every_steps cfg <> 0
  | AfterCommit _ _ _ _ => False | _ => True end.
suff: inv (history es [::]).
  by case: (history es [::]) => d p [/= -> h]; split=> // s e; move: h; rewrite e.
rewrite /Train_model.history; have: inv ([::], Off V) by [].
elim: es ([::], Off V) => [//|e es IH] x ix /=; apply: IH.
case: e => /=; last by case: ix.
case: x ix => d p [/= ->]; case: p => [|k u v s|k u v s|k u v s|k u v s|s|e] //=.
- by move=> ->; case: ifP => // _; case: (batches u).
- by move=> _; case: eqP => // ?; do ?[case: ifP => _].
- by case: z => // ->.
Qed.

(** ** Uninterrupted training *)

(** Without interruption the batches are the first [num_steps] of the data. *)
Theorem C57_uninterrupted n d s :
  (forall u, batches u <> None) ->
  history (nseq n Act) [::] = (d, Finished s) -> s = after (seen N).
Proof.
move=> data e.
have seen_size u : size (seen u) = u.
  rewrite size_pmap -[RHS](size_iota 0) -count_predT; apply: eq_count => k /=.
  by case eb : (batches k) => //; case: (data k).
pose inv (x : disk * proc V) := match x.2 with
  | Loop k u _ s => s = after (seen u) /\ k = u /\ u <= N
  | AfterStep k u _ s | AfterEval k u _ s | AfterCommit k u _ s =>
      s = after (seen u) /\ k.+1 = u /\ u <= N
  | Finished s => s = after (seen N)
  | Off => x.1 = [::]
  | Raised _ => True end.
suff: inv (history (nseq n Act) [::]) by rewrite e.
rewrite /Train_model.history {e}; have: inv ([::], Off V) by [].
elim: n ([::], Off V) => [//|n IH] x ix /=; apply: IH.
case: x ix => d' p; rewrite /inv; case: p => [|k u v s'|k u v s'|k u v s'|k u v s'|s'|e] //=.
- by move=> ->.
- case=> -> [ku uN]; case: ifP => kN; last first.
    by rewrite /=; congr (after (seen _)); move: kN; rewrite ku; lia.
  case eb : (batches u) => [b|] /=; last by case: (data u).
  by rewrite (seenS eb) after_rcons; split=> //; split; rewrite -ku.
- by move=> h; do ?[case: ifP => _].
- by move=> h; case: ifP => // _; case: ifP => // _; case: (commit _ _).
Qed.

(** ** Old checkpoints are removed *)

(** Only being killed between writing a checkpoint and removing old ones can
    leave more than [keep] (and one more while saving). *)
Definition is_kill (e : event) : bool := if e is Kill then true else false.

Theorem C57_keep es : size (history es [::]).1 <= keep + count is_kill es + 1.
Proof.
pose extra (p : proc V) := if p is AfterCommit _ _ _ _ then 1 else 0.
suff: size (history es [::]).1 <= keep + count is_kill es + extra (history es [::]).2.
  by move/leq_trans; apply; rewrite leq_add2l; case: (_.2).
rewrite /Train_model.history.
suff aux x m : size x.1 <= keep + m + extra x.2 ->
    size (foldl happen x es).1 <=
      keep + (m + count is_kill es) + extra (foldl happen x es).2.
  exact: (aux ([::], Off V) 0).
elim: es x m => [|e es IH] x m ix; first by rewrite /= addn0.
rewrite -[foldl happen x (e :: es)]/(foldl happen (happen x e) es).
rewrite -[count _ (e :: es)]/(is_kill e + count is_kill es) (addnA m); apply: IH; case: e => /=; last first.
  by apply: leq_trans ix _; rewrite /extra addn0 addnA leq_add2l; case: (x.2).
rewrite addn0.
case: x ix => d p; case: p => [|k u v s|k u v s|k u v s|k u v s|s|e] /=; rewrite !addn0 //.
- by case: ifP => _; [case: (batches u)|]; rewrite /= ?addn0.
- by do ?[case: ifP => _]; rewrite /= ?addn0.
- move=> h; do ?[case: ifP => _]; rewrite /= ?addn0 //.
  by rewrite /commit; case: ifP => _ /=; lia.
- by move=> _; rewrite /prune size_take size_sort; case: ifP => ?; lia.
Qed.

(** ** Finitely many validation batches *)

(** If the validation data gives [m] batches, a run from the beginning that is not
    killed ends with the last step when these are enough for all evaluations, and
    otherwise with StopIteration. *)
Theorem C57_validation m :
  0 < K -> 0 < eval_every_steps cfg -> 0 < steps_per_eval cfg -> eval_batches = Some m -> (forall u, batches u <> None) ->
  let p := (history (nseq (4 * N + 2) Act) [::]).2 in
  if N %/ eval_every_steps cfg * steps_per_eval cfg <= m then exists s, p = Finished s else p = Raised V TStopIteration.
Proof.
move=> K0; set E := eval_every_steps cfg; set S := steps_per_eval cfg => E0 S0 eb data p.
have no := @C57_not_outdated (nseq (4 * N + 2) Act).
pose used k v := (v == k %/ E * S) && (v <= m).
pose inv (x : disk * proc V) := match x.2 with
  | Off => x.1 = [::]
  | Loop k _ v _ => k <= N /\ used k v
  | AfterStep k _ v _ => k < N /\ used k v
  | AfterEval k _ v _ | AfterCommit k _ v _ => k < N /\ used k.+1 v
  | Finished _ => N %/ E * S <= m
  | Raised e => e = TOutdated \/ e = TStopIteration /\ m < N %/ E * S end.
have st x : inv x -> inv (tick x) /\ left_ (tick x).2 <= (left_ x.2).-1.
  case: x => d q; rewrite /inv; case: q => [|k u v s|k u v s|k u v s|k u v s|s|e] /=.
  - by move=> ->; rewrite /used /= div0n /=; split=> //; lia.
  - case=> kN /andP[/eqP vE vm]; case: ifP => kN'.
      case eu : (batches u) => [b|] /=; last by case: (data u).
      by rewrite /used -vE eqxx vm; split=> //; lia.
    by have e : k = N by [lia]; rewrite -e -vE; split=> //; lia.
  - case=> kN /andP[/eqP vE vm]; rewrite gtn_eqF // /eval_ends eb -/E -/S -/(dvdn _ _).
    have := divnS k E0; case: (E %| k.+1) => /= dE.
      have e : k.+1 %/ E * S = v + S by rewrite dE mulnDl mul1n -vE addnC.
      case: ltnP => lt /=; last by rewrite gtn_eqF //= /used e eqxx lt; split=> //; lia.
      split; last by []; right; split=> //; apply: leq_trans lt _.
      by rewrite -e leq_mul // leq_div2r.
    by rewrite /used dE add0n -vE eqxx vm; split=> //; lia.
  - case=> kN us; rewrite gtn_eqF //; case: ifP => _; last by split=> //=; lia.
    by rewrite /commit; case: ifP => _ /=; split; try (by left); try done; lia.
  - by case=> kN us; split=> //; lia.
  - by [].
  - by [].
have run n x : inv x -> left_ x.2 <= n -> inv (foldl happen x (nseq n Act)) /\ left_ (foldl happen x (nseq n Act)).2 = 0.
  elim: n x => [|n IH] x ix le /=; first by split=> //; lia.
  by have [i2 l2] := st _ ix; apply: IH => //; lia.
have [] := run (4 * N + 2) ([::], Off V) erefl (leqnn _); rewrite -/(history (nseq (4 * N + 2) Act) [::]).
move: no; rewrite /p; case: (history _ _) => d; case=> [|k u v s|k u v s|k u v s|k u v s|s|e] no; rewrite /inv /=; try by lia.
- by move=> -> _; exists s.
- by case=> [e'|[-> lt]] _; [case: no; rewrite e'|rewrite leqNgt lt].
Qed.

End C57.

(** ** The numbers of steps *)

(** A period of [a / b] epochs is the largest number of steps that is no longer than it. *)
Theorem C57_plan examples validation batch epochs checkpoint every :
  let cfg := plan_steps examples validation batch epochs checkpoint every None None in
  let steps q k := k * q.2 <= examples %/ batch * q.1 in
  0 < epochs.2 -> 0 < checkpoint.2 -> 0 < every.2 -> forall k,
  [/\ (k <= num_steps cfg) = steps epochs k, (k <= steps_per_checkpoint cfg) = steps checkpoint k &
      (k <= eval_every_steps cfg) = steps every k].
Proof. by move=> cfg steps h1 h2 h3 k; rewrite /= /int_scaled !leq_divRL. Qed.

(** * Resuming does not resume the data *)

(** The data starts again with every run, so training that was interrupted does
    not give the result of uninterrupted training: here the two steps both see
    batch 0. *)
Theorem C57_resumed_data_refuted :
  exists (update : nat -> nat -> seq nat -> seq nat) (es : seq event) s,
    let cfg := TConfig 2 1 1 1 in
    (history [::] update Some None cfg es [::]).2 = Finished s /\
    s <> after [::] update (seen Some 2) /\
    s = after [::] update (served Some [:: 1; 1]).
Proof.
exists (fun _ b v => rcons v b), (nseq 5 Act ++ Kill :: nseq 10 Act).
by exists (TState 2 [:: 0; 0]).
Qed.

(** * Examples *)
Notation run cfg es :=
  (history (V := seq (nat * nat)) (B := nat) [::] (fun k b v => rcons v (k, b))
     (fun u => Some (u %% 3)) None cfg es [::]).

(** Five steps, a checkpoint every second one, killed in the fourth step. *)
Example killed_once :
  run (TConfig 5 2 2 1) (nseq 12 Act ++ Kill :: nseq 20 Act) =
    (let b := [:: (0, 0); (1, 1)] in
     let c := [:: (0, 0); (1, 1); (2, 0); (3, 1)] in
     let d := [:: (0, 0); (1, 1); (2, 0); (3, 1); (4, 2)] in
     ([:: TState 5 d; TState 4 c; TState 2 b], Finished (TState 5 d))).
Proof. by vm_compute. Qed.

Example healthy_example :
  healthy (fun u => Some (u %% 3)) None (TConfig 5 2 2 1).
Proof. by split. Qed.

(** The default configuration: 153590 examples in batches of 128. *)
Example default_plan :
  let epoch := 1199 in
  int_scaled epoch (15, 1) = 15 * 1199 /\ int_scaled epoch (1, 10) = 119.
Proof. by vm_compute. Qed.

(** Seven steps with an evaluation of two batches after every second one need six batches *)
Example validation_example :
  let last m := (history (V := nat) (B := nat) 0 (fun _ _ v => v.+1) Some (Some m) (TConfig 7 3 2 2) (nseq 30 Act) [::]).2 in
  last 6 = Finished (TState 7 7) /\ last 5 = Raised nat TStopIteration.
Proof. by vm_compute. Qed.

(** 7 steps per epoch, a checkpoint every two thirds of an epoch *)
Example plan_example : plan_steps 71 40 10 (3, 2) (2, 3) (1, 2) None None = TConfig 10 4 3 0.
Proof. by vm_compute. Qed.

Print Assumptions C57_validation.
Print Assumptions C57_plan.
Print Assumptions C57_checkpoints.
Print Assumptions C57_states.
Print Assumptions C57_numbers.
Print Assumptions C57_not_outdated.
Print Assumptions C57_lost.
Print Assumptions C57_completes.
Print Assumptions C57_terminates.
Print Assumptions C57_monotone.
Print Assumptions C57_progress.
Print Assumptions C57_starved.
Print Assumptions C57_nothing_left.
Print Assumptions C57_no_data.
Print Assumptions C57_zero_period.
Print Assumptions C57_uninterrupted.
Print Assumptions C57_keep.
Print Assumptions C57_resumed_data_refuted.
