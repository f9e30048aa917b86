(** C78: what the settings of the trainer say about the data and the mesh. *)
From Coq Require Import String QArith.
From mathcomp Require Import all_ssreflect all_algebra polyrcf zify.
From Verif Require Import Shape_model Pipeline_model Pipeline_props.
From Verif Require Import Config_model Config_props.
Set Implicit Arguments.
Unset Strict Implicit.
Unset Printing Implicit Defensive.
Local Open Scope string_scope.
Local Open Scope nat_scope.

(** ** Histories and targets *)
Section Data.
Variables (T : Type) (b : base).
Definition steps_of (train : bool) : nat := if train then b_num_steps b else b_eval_num_steps b.
Definition stride_of (train : bool) : nat := if train then 1 else 4.
(** Sample [i] of a trajectory: three states of history, [window_step] frames
    apart, and as many targets as the solver makes steps, which continue them. *)
Definition sample (train : bool) (file : seq T) (i : nat) (x : seq T * seq T) : Prop :=
  [/\ size x.1 = 3, size x.2 = steps_of train,
      (forall x0 j, j < 3 -> nth x0 x.1 j = nth x0 file (i * stride_of train + j * b_window_step b)) &
      (forall x0 j, j < steps_of train -> nth x0 x.2 j = nth x0 file (i * stride_of train + (3 + j) * b_window_step b))].
Definition window_length (train : bool) : nat := (steps_of train + 3) * b_window_step b.

Lemma split_allP k n (ws : seq (seq T)) : (forall w, List.In w ws -> k + n <= size w) ->
  split_all k n ws = inr [seq (take k w, take n (drop k w)) | w <- ws].
Proof.
elim: ws => //= w ws IH h; rewrite /split_frames h; last by left.
by rewrite IH // => w' hw; apply: h; right.
Qed.
Lemma in_nth (ws : seq (seq T)) w : List.In w ws -> exists2 i, i < size ws & nth [::] ws i = w.
Proof.
elim: ws => //= a ws IH [<-|/IH[i hi e]]; first by exists 0.
by exists i.+1.
Qed.
Lemma settingsE train : window_settings (get_config b) train =
  inr (window_length train, stride_of train, b_window_step b, b_time_order b, steps_of train).
Proof. by case: train. Qed.

(** For the third-order scheme the numbers in the file fit together, however they
    are edited: every window gives a sample, and there is one for every multiple
    of the stride that leaves room for it. *)
Theorem C78_samples train (file : seq T) : b_time_order b = 3 -> 0 < b_window_step b -> window_length train <= size file ->
  exists2 xs, step_data (get_config b) train file = inr xs &
    (forall i, i * stride_of train + window_length train <= size file <-> i < size xs) /\
    (forall i, i < size xs -> sample train file i (nth ([::], [::]) xs i)).
Proof.
move=> t3 s0 fits; rewrite /step_data settingsE t3.
have w0 : 0 < window_length train by rewrite muln_gt0 addnS s0.
have st0 : 0 < stride_of train by case: (train).
have [h _] := C55_windows file w0 st0 s0; have [ws -> [_ [cnt win]]] := h fits.
have wsz i : i < size ws -> size (nth [::] ws i) = steps_of train + 3.
  move=> hi; have [-> _] := win i hi; rewrite /window_length.
  by rewrite divnMDl // divn_small ?addn0 //; lia.
rewrite split_allP; last by move=> w /in_nth[i hi <-]; rewrite wsz //; lia.
eexists; first reflexivity; rewrite size_map; split=> // i hi.
rewrite (nth_map [::]) //; have [_ hw] := win i hi; have sz := wsz i hi.
split; rewrite /= ?size_take ?size_drop ?sz.
- by case: ltnP; lia.
- by rewrite addnK ltnn.
- by move=> x0 j hj; rewrite nth_take // hw // sz; lia.
- by move=> x0 j hj; rewrite nth_take // nth_drop hw // sz; lia.
Qed.
(** The 3 in the window sizes does not follow [time_order]: with a scheme of another order
    there are samples exactly for the lower orders. *)
Theorem C78_order3_refuted train (file : seq T) : 0 < b_window_step b -> window_length train <= size file ->
  (exists xs, step_data (get_config b) train file = inr xs) <-> b_time_order b <= 3.
Proof.
move=> s0 fits; rewrite /step_data settingsE.
have w0 : 0 < window_length train by rewrite muln_gt0 addnS s0.
have st0 : 0 < stride_of train by case: (train).
have [h _] := C55_windows file w0 st0 s0; have [ws -> [_ [cnt win]]] := h fits.
have wsz i : i < size ws -> size (nth [::] ws i) = steps_of train + 3.
  move=> hi; have [-> _] := win i hi; rewrite /window_length.
  by rewrite divnMDl // divn_small ?addn0 //; lia.
split=> [[xs]|le3]; last first.
  by exists [seq (take (b_time_order b) w, take (steps_of train) (drop (b_time_order b) w)) | w <- ws]; apply: split_allP => w /in_nth[i hi <-]; rewrite wsz //; lia.
have : 0 < size ws by apply/cnt.
case: ws {cnt win} wsz => // w ws wsz _; have /= := wsz 0 isT; rewrite /split_frames => ->.
by case: leqP => // h' _; lia.
Qed.
End Data.

(** ** Examples *)
(** Two solver steps, every second frame: windows of ten frames *)
Example ex_pairs : step_data (get_config (Base 2 4 48 6 4 2 2 12 4 3)) true [:: 0; 1; 2; 3; 4; 5; 6; 7; 8; 9; 10] =
  inr [:: ([:: 0; 2; 4], [:: 6; 8]); ([:: 1; 3; 5], [:: 7; 9])].
Proof. by vm_compute. Qed.
Example ex_fourth_order : step_data (get_config (Base 2 4 48 6 4 2 2 12 4 4)) true [:: 0; 1; 2; 3; 4; 5; 6; 7; 8; 9; 10] = inl DRange.
Proof. by vm_compute. Qed.

Print Assumptions C78_samples.
Print Assumptions C78_order3_refuted.
