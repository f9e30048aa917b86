(** Model of the input pipeline [swirl_fem/niles/input_pipeline.py] and of the
    element permutation of [swirl_fem/niles/train.py]. *)
From mathcomp Require Import all_ssreflect all_algebra.
Set Implicit Arguments. Unset Strict Implicit. Unset Printing Implicit Defensive.

(** Python exceptions. *)
Inductive perror := PValueError | PIndexError | PAssertionError | PZeroDivision.

Section Pipeline.
Variable T : Type.

(** [arr[0:len:step]] for [step > 0]: every [step]-th entry, starting with the
    first. *)
Definition every (step : nat) (arr : seq T) : seq T :=
  [seq x.1 | x <- zip arr (iota 0 (size arr)) & (x.2 %% step == 0)%N].

(** [range(0, n, stride)] for [stride > 0]. *)
Definition range (n stride : nat) : seq nat :=
  [seq k * stride | k <- iota 0 (n %/ stride + (n %% stride != 0))].

(** The loop of [_windowed], input_pipeline.py 81-86. *)
Fixpoint windowed_loop (arr : seq T) (size_ step : nat) (is_ : seq nat)
    : seq (seq T) :=
  if is_ is i :: is' then
    if size arr < i + size_ then [::]
    else every step (take size_ (drop i arr))
           :: windowed_loop arr size_ step is'
  else [::].

(** [_windowed], lines 80-86, for natural window parameters: [range] and the
    slice raise for a zero stride or step (the slice is taken at least once if
    a window fits), [np.stack] raises if there is no window. *)
Definition windowed (window_size window_stride window_step : nat) (arr : seq T)
    : perror + seq (seq T) :=
  if window_stride == 0 then inl PValueError
  else
    let ws := windowed_loop arr window_size window_step
                (range (size arr) window_stride) in
    if ws is [::] then inl PValueError
    else if window_step == 0 then inl PValueError
    else inr ws.

(** [get_num_examples], lines 47-58: [total] is the entry of
    [NUM_SPLIT_EXAMPLES] and [shards] the divisor used in debug mode. *)
Definition get_num_examples (total shards window_size window_stride : nat)
    (debug : bool) : int :=
  let num_examples := if debug then total %/ shards else total in
  (((num_examples%:Z - window_size%:Z) %/ window_stride%:Z)%Z + 1)%R.

Fixpoint sequence (A : Type) (xs : seq (perror + A)) : perror + seq A :=
  if xs is x :: xs' then
    match x with
    | inl e => inl e
    | inr a => match sequence xs' with inl e => inl e | inr r => inr (a :: r) end
    end
  else inr [::].

(** [value[a:b]] for integers [0 <= a <= b]. *)
Definition slice (A : Type) (a b : nat) (xs : seq A) : seq A :=
  take (b - a) (drop a xs).

(** [create_split], lines 91-144: the windows given to one process, before
    shuffling and batching.  [files] lists the trajectories in the shards of
    the split; the arrays ['u'], ['p'] and ['t'] of a file have the same
    length and are windowed alike, so a snapshot is one entry here. *)
Definition create_split (files : seq (seq T)) (total : nat) (debug : bool)
    (window_size window_stride window_step : nat)
    (process_count process_index : nat) : perror + seq (seq T) :=
  let filenames := if debug then take 1 files else files in
  match sequence (map (windowed window_size window_stride window_step)
                    filenames) with
  | inl e => inl e
  | inr snapshots_list =>
      if snapshots_list is [::] then
        if debug then inl PIndexError else inl PValueError
      else
        let snapshots := flatten snapshots_list in
        let num_examples := get_num_examples total (size files)
                              window_size window_stride debug in
        if (num_examples %% process_count%:Z)%Z != 0%R then inl PAssertionError
        else
          let split_size := `|(num_examples %/ process_count%:Z)%Z|%N in
          let split_start := process_index * split_size in
          inr (slice split_start (split_start + split_size) snapshots)
  end.

End Pipeline.

(** * The element permutation, train.py 176-193 *)

(** [_lex], lines 178-179. *)
Definition lex (n : nat) : seq (nat * nat) :=
  [seq (i, j) | i <- iota 0 n, j <- iota 0 n].

(** [_shifted], lines 181-186. *)
Definition shifted (p : seq (nat * nat)) (n shift_factor : nat)
    : seq (nat * nat) :=
  flatten [seq [seq (x.1 + shift_factor * s.1, x.2 + shift_factor * s.2) | x <- p]
          | s <- lex n].

(** [make_multiscale_perm], lines 188-193; [int(size / np.prod(patch_sizes))]
    is a division rounding down. *)
Definition multiscale_pairs (size_ : nat) (patch_sizes factors : seq nat)
    : seq (nat * nat) :=
  foldl (fun p pf => shifted p pf.1 pf.2)
    (lex (size_ %/ foldr muln 1 patch_sizes)) (zip patch_sizes factors).

Definition make_multiscale_perm (size_ : nat) (patch_sizes factors : seq nat)
    : seq nat :=
  [seq size_ * x.1 + x.2 | x <- multiscale_pairs size_ patch_sizes factors].

(** [np.argsort] of distinct numbers. *)
Definition argsort (p : seq nat) : seq nat := [seq index v p | v <- sort leq p].

(** [xs[perm]]: JAX clamps indices that are too large. *)
Definition gather (T : Type) (x0 : T) (xs : seq T) (perm : seq nat) : seq T :=
  [seq nth x0 xs (minn i (size xs).-1) | i <- perm].
