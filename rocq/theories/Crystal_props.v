(** Properties of the crystal router (C01-C04). *)
From Coq Require Import List ZArith Bool Permutation.
From Verif Require Import Groups_model Crystal_model Crystal_spec Crystal_proofs3.
Import ListNotations.
Open Scope Z_scope.

(** C01: every live row arrives exactly once at its target, with all leaves
    together and with its source; the count and the static width are exact. *)
Theorem C01_crystal_router_delivers :
  forall (A : Type) (fill zero : val A) (src : bool) (w nl : nat)
         (inputs : list (input (A := A))) (fuel : nat),
  valid_input w nl inputs -> (2 <= length inputs)%nat ->
  (Nat.log2_up (length inputs) < fuel)%nat ->
  exists outs calls,
    crystal_router fill zero fuel src inputs = Some (outs, calls) /\
    (calls <= Nat.log2_up (length inputs) + 1)%nat /\
    length outs = length inputs /\
    forall q o, nth_error outs q = Some o ->
      out_n o = length (expected q inputs) /\
      out_shape (maxcount inputs) nl o /\
      (if src then Permutation (received_with_source o)
                     (map (fun rp => (fst rp, src_val (snd rp))) (expected q inputs))
       else out_source o = None) /\
      Permutation (received o) (map fst (expected q inputs)).
Proof. exact @crystal_router_delivers. Qed.
Print Assumptions C01_crystal_router_delivers.

(** C01 for a single device fails: the count is kept but every returned array
    is empty, whatever was sent. *)
Theorem C01_crystal_router_single_device :
  forall (A : Type) (fill zero : val A) (src : bool) (w nl : nat) (x : input (A := A)) (fuel : nat),
  valid_input w nl [x] ->
  exists o, crystal_router fill zero (S fuel) src [x] = Some ([o], 1%nat) /\
    out_n o = in_n x /\ length (out_data o) = nl /\ (forall a, In a (out_data o) -> a = []).
Proof. exact @crystal_router_single_lemma. Qed.
Print Assumptions C01_crystal_router_single_device.

Theorem C01_crystal_router_single_device_refuted :
  exists (inputs : list (input (A := Z))) outs calls o,
    length inputs = 1%nat /\ valid_input 2 1 inputs /\
    crystal_router (VInt 0) (VInt 0) 5 true inputs = Some (outs, calls) /\
    nth_error outs 0 = Some o /\
    length (expected 0 inputs) = 2%nat /\
    ~ Permutation (received o) (map fst (expected 0 inputs)).
Proof. exact crystal_router_single_refuted_lemma. Qed.
Print Assumptions C01_crystal_router_single_device_refuted.

(** C02: routing back to the sources restores every device's messages, each
    paired with its original target. *)
Theorem C02_crystal_router_round_trip :
  forall (A : Type) (fill zero : val A) (w nl : nat) (inputs : list (input (A := A)))
         (fuel : nat) outs c,
  valid_input w nl inputs -> (2 <= length inputs)%nat ->
  (Nat.log2_up (length inputs) < fuel)%nat ->
  crystal_router fill zero fuel true inputs = Some (outs, c) ->
  exists outs2 c2,
    crystal_router fill zero fuel true (map reply outs) = Some (outs2, c2) /\
    length outs2 = length inputs /\
    forall p o x, nth_error outs2 p = Some o -> nth_error inputs p = Some x ->
      out_n o = in_n x /\ Permutation (received_with_source o) (initial_pairs x).
Proof. exact @crystal_router_round_trip. Qed.
Print Assumptions C02_crystal_router_round_trip.

(** C03: with the same live rows, the delivered rows, their order, the counts
    and the returned widths do not depend on the static width, the contents of
    the padding or the fill values (hence not on overflows either).  The bound on
    the number of calls of the compiled loop is part of C01. *)
Theorem C03_crystal_router_width_independent :
  forall (A : Type) (fill zero fill' zero' : val A) (src : bool) (w w' nl : nat)
         (inputs inputs' : list (input (A := A))) (fuel fuel' : nat) outs outs' c c',
  valid_input w nl inputs -> valid_input w' nl inputs' -> Forall2 same_rows inputs inputs' ->
  (2 <= length inputs)%nat ->
  (Nat.log2_up (length inputs) < fuel)%nat -> (Nat.log2_up (length inputs) < fuel')%nat ->
  crystal_router fill zero fuel src inputs = Some (outs, c) ->
  crystal_router fill' zero' fuel' src inputs' = Some (outs', c') ->
  Forall2 (fun o o' => out_n o = out_n o' /\ received o = received o' /\
                       received_with_source o = received_with_source o' /\
                       map (@length _) (out_data o) = map (@length _) (out_data o')) outs outs'.
Proof. exact @crystal_router_width_independent. Qed.
Print Assumptions C03_crystal_router_width_independent.

(** C04 (crystal router part): both shuffles of every stage are permutations of
    the devices and stay inside the group of the device. *)
Theorem C04_crystal_router_shuffles :
  forall (P k : nat), (1 <= P)%nat ->
  let tab := gtab P k in
  Permutation (tmap target1 tab) (arange P) /\
  (1 < zmax (tmap num_recv tab) -> Permutation (tmap target2 tab) (arange P)) /\
  (forall q g, nth_error tab q = Some g ->
     0 <= gb g <= Z.of_nat q /\ Z.of_nat q < gb g + gn g <= Z.of_nat P /\
     gb g <= target1 (Z.of_nat q) g < gb g + gn g /\
     (1 < zmax (tmap num_recv tab) -> gb g <= target2 (Z.of_nat q) g < gb g + gn g)).
Proof. exact crystal_shuffles_lemma. Qed.
Print Assumptions C04_crystal_router_shuffles.

(** A case with overflow (everything goes to device 4 of 5, width 3), meeting
    the hypotheses of C01-C03. *)
Definition ex_inputs : list (input (A := Z)) :=
  [ (2%nat, [[VData 1; VData 2; VData 3]], [VInt 4; VInt 4; VInt 0]);
    (3%nat, [[VData 11; VData 12; VData 13]], [VInt 4; VInt 4; VInt 0]);
    (3%nat, [[VData 21; VData 22; VData 23]], [VInt 4; VInt 4; VInt 4]);
    (1%nat, [[VData 31; VData 32; VData 33]], [VInt 2; VInt 4; VInt 0]);
    (0%nat, [[VData 41; VData 42; VData 43]], [VInt 9; VInt 9; VInt 9]) ].

Example ex_inputs_valid : valid_input 3 1 ex_inputs.
Proof. apply valid_inputb_sound. vm_compute. reflexivity. Qed.

Example ex_inputs_run :
  option_map (fun r => (map out_n (fst r), snd r))
    (crystal_router (VInt 99) (VInt 0) 4 true ex_inputs) = Some ([1; 0; 1; 0; 7]%nat, 2%nat).
Proof. vm_compute. reflexivity. Qed.
