(** Specification of sparse all-to-all routing, independent of the router.

    An input is, for every device, a number of live rows, the payload leaves and
    the target leaf.  Row [j] consists of entry [j] of every leaf.  The routed
    result of device [q] is, up to order, the collection of all live rows of all
    devices whose target is [q], each with the index of the device it came
    from. *)
From Coq Require Import List ZArith Bool Permutation.
From Verif Require Import Crystal_model.
Import ListNotations.
Open Scope Z_scope.

Section Spec.
Context {A : Type}.

(** Entry [j] of every array ([None] where an array has no entry [j]). *)
Definition row {X} (arrays : list (list X)) (j : nat) : list (option X) :=
  map (fun a => nth_error a j) arrays.

Definition live_rows {X} (arrays : list (list X)) (n : nat) : list (list (option X)) :=
  map (row arrays) (seq 0 n).

(** What the user passes to [crystal_router]: per device [(n, data, target)]. *)
Definition input := (nat * list (leaf A) * leaf A)%type.
Definition in_n (x : input) := fst (fst x).
Definition in_data (x : input) := snd (fst x).
Definition in_target (x : input) := snd x.

(** Well-formed call on [P] devices: the same number of payload leaves and the
    same static width everywhere, live counts within the width, and live targets
    that are device indices. *)
Definition valid_input (width num_leaves : nat) (inputs : list input) : Prop :=
  (1 <= length inputs)%nat /\
  forall x, In x inputs ->
    length (in_data x) = num_leaves /\
    (forall a, In a (in_target x :: in_data x) -> length a = width) /\
    (in_n x <= width)%nat /\
    forall j, (j < in_n x)%nat ->
      exists t, nth_error (in_target x) j = Some (VInt (Z.of_nat t)) /\ (t < length inputs)%nat.

(** Is row [j] of this device addressed to device [q]? *)
Definition addressed (q : nat) (x : input) (j : nat) : bool :=
  match nth_error (in_target x) j with
  | Some (VInt z) => z =? Z.of_nat q
  | _ => false
  end.

(** Rows of device [p] addressed to [q], with their source. *)
Definition sent (q p : nat) (x : input) : list (list (option (val A)) * nat) :=
  map (fun j => (row (in_data x) j, p)) (filter (addressed q x) (seq 0 (in_n x))).

(** Everything device [q] has to receive. *)
Definition expected (q : nat) (inputs : list input) : list (list (option (val A)) * nat) :=
  concat (map (fun px => sent q (fst px) (snd px))
              (combine (seq 0 (length inputs)) inputs)).

(** What device [q] got: its live rows, paired with the source leaf. *)
Definition received_with_source (o : router_out A) : list (list (option (val A)) * option (val A)) :=
  match out_source o with
  | Some s => map (fun j => (row (out_data o) j, nth_error s j)) (seq 0 (out_n o))
  | None => []
  end.
Definition received (o : router_out A) : list (list (option (val A))) :=
  live_rows (out_data o) (out_n o).

Definition src_val (p : nat) : option (val A) := Some (VInt (Z.of_nat p)).

(** The largest number of rows any device has to receive. *)
Definition maxcount (inputs : list input) : nat :=
  list_max (map (fun q => length (expected q inputs)) (seq 0 (length inputs))).

(** Shape of one device's output: [nl] payload leaves, all of width [W]. *)
Definition out_shape (W nl : nat) (o : router_out A) : Prop :=
  length (out_data o) = nl /\ (forall a, In a (out_data o) -> length a = W) /\
  (out_n o <= W)%nat /\
  match out_source o with Some s => length s = W | None => True end.

(** Two calls whose live rows agree. *)
Definition same_rows (x x' : input) : Prop :=
  live_rows (in_target x :: in_data x) (in_n x) = live_rows (in_target x' :: in_data x') (in_n x').

(** The second call: counts and payload of the first result, targets = source. *)
Definition reply (o : router_out A) : input :=
  (out_n o, out_data o, match out_source o with Some s => s | None => [] end).

(** What device [p] started with: (payload row, original target). *)
Definition initial_pairs (x : input) : list (list (option (val A)) * option (val A)) :=
  map (fun j => (row (in_data x) j, nth_error (in_target x) j)) (seq 0 (in_n x)).

End Spec.
