(** Property C50: the histories kept by the simulation drivers. *)
From mathcomp Require Import all_ssreflect all_algebra ring zify.
From Verif Require Import Datagen_model.
Set Implicit Arguments. Unset Strict Implicit. Unset Printing Implicit Defensive.
Import GRing.Theory.
Local Open Scope ring_scope.

(** * Specification: trajectories

    A time-stepping scheme of order [K] is a recurrence: entry [k + K] of the
    velocity and pressure sequences is computed from the [K] entries before
    it, oldest first. *)
Section Spec.
Variables (U P C : Type) (K : nat).

(** The [K] values ending the history at step [k]. *)
Definition history (T : Type) (x : nat -> T) (k : nat) : seq T :=
  [seq x i | i <- iota k K].

Definition is_trajectory (adv : U -> C)
    (solve : seq U -> seq P -> seq C -> derror + (U * P))
    (u : nat -> U) (p : nat -> P) (from n : nat) : Prop :=
  forall k, (from <= k < from + n)%N ->
    solve (history u k) (history p k) [seq adv v | v <- history u k]
      = inr (u (k + K)%N, p (k + K)%N).
End Spec.

Lemma last_iota x a m : last x (iota a m) = (if m == 0 then x else a + m.-1)%N.
Proof.
elim: m x a => [//|m IH] x a /=; rewrite IH; case: (m) => [|k] /=; lia.
Qed.

Section Push.
Variable K : nat.
Hypothesis K0 : (0 < K)%N.

Lemma push_history (T : Type) (x : nat -> T) k :
  push (history K x k) (x (k + K)%N) = history K x k.+1.
Proof.
rewrite /push /history.
have -> : iota k K = k :: iota k.+1 K.-1 by case: K K0.
rewrite /= -map_rcons; congr (map _ _).
have -> : iota k.+1 K = iota k.+1 (K.-1 + 1) by rewrite addn1 prednK.
by rewrite iotaD cats1 /=; congr (rcons _ _); lia.
Qed.

Lemma last_slice_history (T : Type) (x : nat -> T) k :
  last_slice (history K x k) = [:: x (k + K.-1)%N].
Proof.
rewrite /last_slice /history size_map size_iota -map_drop drop_iota.
by have -> : (K - K.-1 = 1)%N by lia.
Qed.

End Push.

Section C50.
Variables (R : comRingType) (U P C : Type) (adv : U -> C).
Variable solve : seq U -> seq P -> seq C -> derror + (U * P).
Variable DT : R.
Variable K : nat.
Hypothesis K0 : (0 < K)%N.

Notation one_cycle := (one_cycle adv solve DT).
Notation step := (cycle_step adv solve DT).

(** The states of the recurrence recorded in a file covering the steps from
    [start] to [start + n]: the first one and every tenth after it. *)
Definition recorded (T : Type) (x : nat -> T) (start n : nat) : seq T :=
  [seq x (start + 10 * j)%N | j <- iota 0 (n %/ 10).+1].

Definition state_at (u : nat -> U) (p : nat -> P) start k n : cycle_state R U P C :=
  Cycle ((start + n)%:R * DT) (history K u (k + n)) (history K p (k + n))
    [seq adv v | v <- history K u (k + n)]
    (recorded (fun i => i%:R * DT) start n)
    (recorded (fun i => u (i + K.-1)%N) k n)
    (recorded (fun i => p (i + K.-1)%N) k n).

Lemma recorded0 (T : Type) (x : nat -> T) start : recorded x start 0 = [:: x start].
Proof. by rewrite /recorded /= muln0 addn0. Qed.

Lemma recordedS (T : Type) (x : nat -> T) start n :
  recorded x start n.+1 =
    if (n.+1 %% 10 == 0)%N then rcons (recorded x start n) (x (start + n.+1)%N)
    else recorded x start n.
Proof.
rewrite /recorded; case: eqP => e.
  have -> : (n.+1 %/ 10 = (n %/ 10).+1)%N by lia.
  rewrite -[(n %/ 10).+2]addn1 iotaD map_cat -cats1; congr (_ ++ [:: x _]).
  by lia.
by have -> : (n.+1 %/ 10 = n %/ 10)%N by lia.
Qed.

Lemma fold_error (s : seq nat) e : foldl step (inl e) s = inl e.
Proof. by elim: s. Qed.

Lemma fold_trajectory u p start k n :
  is_trajectory K adv solve u p k n ->
  foldl step (inr (state_at u p start k 0)) (iota 1 n)
    = inr (state_at u p start k n).
Proof.
elim: n => [//|n IH] tr.
rewrite -[X in iota 1 X]addn1 iotaD foldl_cat add1n IH; last first.
  by move=> j jn; apply: tr; lia.
rewrite /= tr; last by lia.
rewrite !push_history //.
have -> : push [seq adv v | v <- history K u (k + n)] (adv (u (k + n + K)%N))
        = [seq adv v | v <- history K u (k + n).+1].
  rewrite -(push_history K0) /push map_rcons; congr (rcons _ _).
  by case: (history K u (k + n)).
rewrite /state_at !addnS !recordedS !addnS.
have -> : (start + n)%:R * DT + DT = (start + n).+1%:R * DT.
  by rewrite -[in RHS]addn1 [in RHS]natrD mulrDl mul1r.
have -> : ((k + n).+1 + K.-1 = k + n + K)%N by lia.
by case: ifP.
Qed.

(** One cycle started from the histories of a trajectory at step [k] goes
    [n] steps along it: the histories have length [K], are ordered from
    oldest to newest and hold the last [K] values; the file holds the states
    at step 0 and every tenth step with their times. *)
Theorem C50_cycle u p start k n :
  is_trajectory K adv solve u p k n ->
  one_cycle start n (history K u k) (history K p k) =
    inr (File start (start + n)
           (recorded (fun i => i%:R * DT) start n)
           (recorded (fun i => u (i + K.-1)%N) k n)
           (recorded (fun i => p (i + K.-1)%N) k n),
         history K u (k + n), history K p (k + n)).
Proof.
move=> tr; have := fold_trajectory start tr.
rewrite /one_cycle /state_at !recorded0 !last_slice_history // !addn0.
by move=> ->.
Qed.

(** Every successful cycle is of this form, for a trajectory that starts with
    the given histories. *)
Lemma run_trajectory start n us ps s :
  size us = K -> size ps = K ->
  foldl step (inr (Cycle (start%:R * DT) us ps (map adv us)
     [:: start%:R * DT] (last_slice us) (last_slice ps))) (iota 1 n) = inr s ->
  exists u p, [/\ us = history K u 0, ps = history K p 0 &
                  is_trajectory K adv solve u p 0 n].
Proof.
move=> su sp.
have [u0 _] : exists u0 : U, True by case: us K0 su => [|x us] /=; [lia|exists x].
have [p0 _] : exists p0 : P, True by case: ps K0 sp => [|x ps] /=; [lia|exists x].
elim: n s => [|n IH] s.
  move=> _; exists (nth u0 us), (nth p0 ps).
  rewrite /history -{1}su -{1}sp -!/(mkseq _ _) !mkseq_nth; split=> // k.
rewrite -[X in iota 1 X]addn1 iotaD foldl_cat /=.
case e : (foldl _ _ (iota 1 n)) => [//|s'] /=.
have [u [p [eu ep tr]]] := IH _ e.
have := fold_trajectory start tr.
rewrite /state_at !recorded0 addn0 -eu -ep.
move: e; set i := inr _ => e; set i' := inr _.
have -> : i' = i by rewrite /i' /i eu ep !last_slice_history.
rewrite e add0n => -[->] /=.
case e2 : (solve _ _ _) => [//|[v q]] _.
exists (fun j => if j == (n + K)%N then v else u j),
       (fun j => if j == (n + K)%N then q else p j).
have hist (T : Type) (x : nat -> T) z j : (j <= n)%N ->
    history K (fun i => if i == (n + K)%N then z else x i) j = history K x j.
  move=> jn; apply/eq_in_map => l; rewrite mem_iota => /andP [l1 l2].
  by rewrite ifN //; apply/eqP; lia.
rewrite !hist //; split=> // j jn; rewrite !hist; [|lia|lia].
case: (ltngtP j n) => jn'; last by rewrite jn' eqxx.
  by rewrite !ifN ?tr //; try (apply/eqP; lia); lia.
by lia.
Qed.

Theorem C50_cycle_only start n us ps r :
  size us = K -> size ps = K ->
  one_cycle start n us ps = inr r ->
  exists u p, [/\ us = history K u 0, ps = history K p 0 &
                  is_trajectory K adv solve u p 0 n].
Proof.
rewrite /one_cycle => su sp.
by case e : (foldl _ _ _) => [//|s] _; exact: run_trajectory e.
Qed.

(** All cycles together follow one trajectory: file [i] covers the steps from
    [i * n] to [(i + 1) * n]. *)
Theorem C50_cycles u p n c :
  is_trajectory K adv solve u p 0 (c * n) ->
  cycles adv solve DT n (iota 0 c) (history K u 0) (history K p 0) =
    ([seq File (i * n) (i * n + n)
            (recorded (fun j => j%:R * DT) (i * n) n)
            (recorded (fun j => u (j + K.-1)%N) (i * n) n)
            (recorded (fun j => p (j + K.-1)%N) (i * n) n) | i <- iota 0 c],
     inr (history K u (c * n), history K p (c * n))).
Proof.
move=> tr.
have: forall d i, (i + d = c)%N ->
  cycles adv solve DT n (iota i d) (history K u (i * n)) (history K p (i * n)) =
    ([seq File (i * n) (i * n + n)
            (recorded (fun j => j%:R * DT) (i * n) n)
            (recorded (fun j => u (j + K.-1)%N) (i * n) n)
            (recorded (fun j => p (j + K.-1)%N) (i * n) n) | i <- iota i d],
     inr (history K u (c * n), history K p (c * n))); last by move/(_ c 0%N); apply.
elim=> [|d IH] i e; first by rewrite -e addn0.
rewrite /= C50_cycle; last first.
  move=> k kn; apply: tr.
  by rewrite -e mulnDl mulSn; move: kn; move: (i * n)%N (d * n)%N => x y; lia.
by rewrite -[(i * n + n)%N]addnC -mulSn IH //; lia.
Qed.

(** When the number of steps per cycle is a multiple of ten, the last state
    of each file is written again as the first state of the next one. *)
Theorem C50_repeated_snapshot (T : Type) (x : nat -> T) i n d :
  (10 %| n)%N ->
  last d (recorded x (i * n) n) = head d (recorded x (i.+1 * n) n).
Proof.
move=> /dvdnP [m ->]; rewrite /recorded mulnK //= -[X in last X]/(x _).
rewrite (last_map (fun j => x (i * (m * 10) + 10 * j)%N) (iota 1 m)).
have -> : last 0%N (iota 1 m) = m :> nat.
  by rewrite last_iota; case: (m).
by congr (x _); rewrite mulSn muln0 addn0 addnC; lia.
Qed.

(** The assertions of [run_simulation]: all histories have length [K]. *)
Theorem C50_lengths start n us ps f us' ps' :
  size us = K -> size ps = K ->
  one_cycle start n us ps = inr (f, us', ps') ->
  [/\ size us' = K, size ps' = K &
      size (f_t f) = size (f_u f) /\ size (f_t f) = size (f_p f)].
Proof.
move=> su sp e; have [u [p [eu ep tr]]] := C50_cycle_only su sp e.
move: e; rewrite eu ep C50_cycle // => -[<- <- <-] /=.
by rewrite !size_map !size_iota.
Qed.

End C50.

(** As written, [datagen._solve_one_step] unpacks the three results of
    [stokes_one_step] into two names: the first step of the first cycle
    raises and no file is written. *)
Theorem C50_datagen_fails (R : comRingType) (U P C Aux : Type) (adv : U -> C)
    (stokes : seq U -> seq P -> seq C -> derror + (U * P * Aux)) (DT : R)
    K c n u0 p0 r :
  (0 < c)%N -> (0 < n)%N ->
  stokes (nseq K u0) (nseq K p0) (nseq K (adv u0)) = inr r ->
  run_simulation adv (datagen_solve stokes) DT K c n u0 p0
    = ([::], inl DValueError).
Proof.
case: c => [//|c] _; case: n => [//|n] _ e.
rewrite /run_simulation /= /one_cycle /= /datagen_solve map_nseq e.
case: r e => [[u p] aux] e /=.
by rewrite (fold_error adv (datagen_solve stokes) DT (iota 2 n) DValueError).
Qed.

(** With the unpacking corrected, [run_simulation] follows the trajectory
    that starts with [K] copies of the initial fields. *)
Theorem C50_run (R : comRingType) (U P C Aux : Type) (adv : U -> C)
    (stokes : seq U -> seq P -> seq C -> derror + (U * P * Aux)) (DT : R)
    K c n u p :
  (0 < K)%N ->
  (forall i, (i < K)%N -> u i = u 0%N /\ p i = p 0%N) ->
  (forall k, (k < c * n)%N ->
     exists aux, stokes (history K u k) (history K p k)
                   [seq adv v | v <- history K u k]
                   = inr (u (k + K)%N, p (k + K)%N, aux)) ->
  run_simulation adv (intended_solve stokes) DT K c n (u 0%N) (p 0%N) =
    ([seq File (i * n) (i * n + n)
            (recorded (fun j => j%:R * DT) (i * n) n)
            (recorded (fun j => u (j + K.-1)%N) (i * n) n)
            (recorded (fun j => p (j + K.-1)%N) (i * n) n) | i <- iota 0 c],
     inr (history K u (c * n), history K p (c * n))).
Proof.
move=> K0 init step.
have const (T : Type) (x : nat -> T) : (forall i, (i < K)%N -> x i = x 0%N) ->
    nseq K (x 0%N) = history K x 0.
  move=> xc; apply: (@eq_from_nth _ (x 0%N)) => [|i]; rewrite size_nseq.
    by rewrite size_map size_iota.
  by move=> iK; rewrite nth_nseq iK (nth_map 0%N) ?size_iota // nth_iota // xc.
rewrite /run_simulation !const; try by move=> i /init [].
apply: C50_cycles => // k kn.
have [aux e] := step k kn.
by rewrite /intended_solve e.
Qed.

(** * The rollout of the training loss *)
Section Rollout.
Variables (U P C F : Type) (adv : U -> C) (net : nat -> U -> F).
Variable solve : seq U -> seq P -> seq C -> F -> U * P.
Variable K : nat.
Hypothesis K0 : (0 < K)%N.

(** [u], [p] follow the solver with the network's forcing: step [i] is
    computed from entries [i .. i + K - 1] and the forcing predicted from the
    newest of them. *)
Definition is_rollout (u : nat -> U) (p : nat -> P) (n : nat) : Prop :=
  forall k, (k < n)%N ->
    solve (history K u k) (history K p k) [seq adv v | v <- history K u k]
      (net k (u (k + K.-1)%N)) = (u (k + K)%N, p (k + K)%N).

Lemma rollout_trajectory u p n k :
  (forall j, (k <= j < k + n)%N ->
    solve (history K u j) (history K p j) [seq adv v | v <- history K u j]
      (net j (u (j + K.-1)%N)) = (u (j + K)%N, p (j + K)%N)) ->
  rollout adv net solve n k (history K u k) (history K p k)
    [seq adv v | v <- history K u k] =
  ([seq u (j + K)%N | j <- iota k n],
   (history K u (k + n), history K p (k + n),
    [seq adv v | v <- history K u (k + n)])).
Proof.
elim: n k => [|n IH] k tr; first by rewrite /= addn0.
have hE : history K u k = u k :: [seq u i | i <- iota k.+1 K.-1].
  by rewrite /history; case: K K0.
have lE : last (u k) [seq u i | i <- iota k.+1 K.-1] = u (k + K.-1)%N.
  by rewrite last_map last_iota; congr u; case: eqP; lia.
rewrite [LHS]/= {1}hE lE tr; last by lia.
rewrite !push_history //.
have -> : push [seq adv v | v <- history K u k] (adv (u (k + K)%N))
        = [seq adv v | v <- history K u k.+1].
  rewrite -(push_history K0) /push map_rcons; congr (rcons _ _).
  by case: (history K u k).
by rewrite IH => [|j jn]; [rewrite addSnnS|apply: tr; lia].
Qed.

(** The predictions are the next [n] states of the rollout started from the
    first [K] entries of the window, and prediction [i] is compared with
    entry [K + i] of the window. *)
Theorem C50_rollout u p n bu bp :
  is_rollout u p n ->
  take K bu = history K u 0 -> take K bp = history K p 0 ->
  (K + n <= size bu)%N -> (K <= size bp)%N ->
  predictions adv net solve K n bu bp =
    inr ([seq u (K + i)%N | i <- iota 0 n], take n (drop K bu)).
Proof.
move=> ro eu ep su sp; rewrite /predictions sp su andbT /=.
have -> : (K <= size bu)%N by lia.
rewrite eu ep rollout_trajectory //=.
by congr (inr (_, _)); apply: eq_map => i; rewrite addnC.
Qed.

(** If the data follow the solver with the network's forcing, predictions and
    targets agree. *)
Corollary C50_perfect u p n bu bp :
  is_rollout u p n ->
  take (K + n) bu = [seq u i | i <- iota 0 (K + n)] ->
  take K bp = history K p 0 ->
  (K + n <= size bu)%N -> (K <= size bp)%N ->
  exists preds, predictions adv net solve K n bu bp = inr (preds, preds).
Proof.
move=> ro eu ep su sp; eexists; rewrite (C50_rollout ro) //; last first.
  rewrite -(@take_take _ K (K + n)) ?leq_addr // eu -map_take take_iota.
  by rewrite (minn_idPl (leq_addr _ _)).
congr (inr (_, _)).
rewrite take_drop addnC eu -map_drop drop_iota addKn add0n.
have -> : iota K n = iota (K + 0) n by rewrite addn0.
by rewrite iotaDl -map_comp.
Qed.

End Rollout.

(** * Examples *)
Section Examples.

(** A scheme of order 2, two cycles of 20 steps, with
    times in units of the step size. *)
Let scheme (us ps cs : seq int) : derror + (int * int * unit) :=
  if us is [:: a; b] then inr (b + (a - b) ^+ 2 - 1, - nth 0 cs 1, tt) else inl DSolverError.

Example run_example :
  let: (fs, r) := run_simulation (R := [comRingType of int]) (fun u => 2%:R * u)
                    (intended_solve scheme) 1 2 2 20 1 0 in
  ([seq (f_start f, f_stop f, f_t f) | f <- fs],
   [seq f_u f | f <- take 1 fs],
   if r is inr (us, ps) then size us else 0%N) =
  ([:: (0%N, 20%N, [:: 0; 10%:Z; 20%:Z]); (20%N, 40%N, [:: 20%:Z; 30%:Z; 40%:Z])],
   [:: [:: 1%:Z; - 4%:Z; - 9%:Z]], 2%N).
Proof. by vm_compute. Qed.

Example run_example_as_written :
  run_simulation (R := [comRingType of int]) (fun u => 2%:R * u)
    (datagen_solve scheme) 1 2 2 20 1 0 = ([::], inl DValueError).
Proof. by []. Qed.

Example predict_example :
  predictions (fun u : int => u) (fun i (u : int) => i%:Z)
    (fun us (ps : seq int) cs f => (nth 0 us 0 + nth 0 us 1 + f, 0)) 2 3
    [:: 1; 1; 2%:Z; 4%:Z; 8%:Z; 0] [:: 0; 0] =
  inr ([:: 2%:Z; 4%:Z; 8%:Z], [:: 2%:Z; 4%:Z; 8%:Z]).
Proof. by vm_compute. Qed.

Example predict_short :
  predictions (fun u : int => u) (fun i (u : int) => i%:Z)
    (fun us (ps : seq int) cs f => (nth 0 us 0 + nth 0 us 1 + f, 0)) 2 3
    [:: 1; 1; 2%:Z; 4%:Z] [:: 0; 0] = inl DIndexError.
Proof. by vm_compute. Qed.

End Examples.

Print Assumptions C50_cycle.
Print Assumptions C50_cycle_only.
Print Assumptions C50_cycles.
Print Assumptions C50_repeated_snapshot.
Print Assumptions C50_lengths.
Print Assumptions C50_datagen_fails.
Print Assumptions C50_run.
Print Assumptions C50_rollout.
Print Assumptions C50_perfect.
