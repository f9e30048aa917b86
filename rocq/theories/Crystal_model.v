(** Model of communication/crystal_router.py.

    The state of all devices is a list with one [cdata] per device.  A leaf is
    the device-local rank-1 array of one pytree leaf; leaf 0 is the target
    array, the last leaf is the source array when requested.  Values are
    integers (targets, sources) or opaque payload.  Simplifications: leaves are
    rank 1 on each device (see [dus] for why the code supports nothing else),
    dtypes are ignored, [start_stage] (a per-device array of equal entries) is a
    single number. *)
From Coq Require Import List ZArith Bool.
From Verif Require Import Groups_model.
Import ListNotations.
Open Scope Z_scope.

Section Crystal.
Context {A : Type}.

Inductive val := VInt (z : Z) | VData (a : A).

(** [fill]: what [a.at[i].get(mode='drop')] yields out of bounds (l.151);
    [zero]: what [jnp.zeros] pads with (l.129).  Arbitrary: nothing may depend
    on padding. *)
Variables (fill zero : val).

Notation leaf := (list val).

(** l.135-138 *)
Record cdata := CData { leaves : list leaf; cnt : nat }.

(** Static length, [data[0].shape[0]]. *)
Definition size0 (ls : list leaf) : nat :=
  match ls with [] => 0%nat | a :: _ => length a end.

(** [_pad_to_size], l.113-132 *)
Definition pad_to_size (ls : list leaf) (size : nat) : list leaf :=
  match ls with
  | [] => []
  | _ =>
      let start_size := size0 ls in
      if (start_size =? size)%nat then ls
      else if (size <? start_size)%nat then map (firstn size) ls
      else map (fun a => a ++ repeat zero (size - start_size)) ls
  end.

(** [CrystalData.resize], l.140-145 *)
Definition resize (size : nat) (d : cdata) : cdata :=
  CData (pad_to_size (leaves d) size) (cnt d).

(** [jnp.where(mask, size=size, fill_value=v)], l.150: the indices of the true
    entries, truncated or padded with [v] to length [size]. *)
Definition true_indices (mask : list bool) : list nat :=
  map fst (filter snd (combine (seq 0 (length mask)) mask)).
Definition where_size (mask : list bool) (size v : nat) : list nat :=
  firstn size (true_indices mask ++ repeat v size).

(** [CrystalData.select], l.147-152 *)
Definition select (mask : list bool) (size : nat) (d : cdata) : cdata :=
  let n := length (filter (fun b => b) mask) in
  let indices := where_size mask size (size0 (leaves d)) in
  CData (map (fun a => map (fun k => nth k a fill) indices) (leaves d)) n.

(** [lax.dynamic_update_slice(a, b, start_indices=(start,))], l.173: fails if b
    is longer than a, and clamps the start so that all of b fits.  One start
    index is given, so JAX rejects leaves whose local rank is not 1. *)
Definition dus (a b : leaf) (start : nat) : option leaf :=
  if (length a <? length b)%nat then None
  else let s := Nat.min start (length a - length b) in
       Some (firstn s a ++ b ++ skipn (s + length b) a).

(** [CrystalData.__add__], l.154-177 ([zip] stops at the shorter list) *)
Definition cadd (d e : cdata) : option cdata :=
  match mapM (fun ab => dus (fst ab) (snd ab) (cnt d)) (combine (leaves d) (leaves e)) with
  | None => None
  | Some ls => Some (CData ls (cnt d + cnt e))
  end.

(** [_bit_ceil], l.180-182: [np.frexp(n - 1)[1]] is the bit length of n - 1. *)
Definition bit_ceil (n : nat) : nat :=
  if (n =? 0)%nat then 0%nat
  else Nat.pow 2 (if (n - 1 =? 0)%nat then 0 else S (Nat.log2 (n - 1)))%nat.

(** Scheduling expressions of the loop body, l.336-347. *)
Definition target1 (idx : Z) (g : grp) : Z := gn g - 1 - (idx - gb g) + gb g.
Definition is_self_target (idx : Z) (g : grp) : bool := target1 idx g =? idx.
Definition is_recvn_two (idx : Z) (g : grp) : bool :=
  (gn g mod 2 =? 1) && (idx =? base_hi g).
Definition num_recv (idx : Z) (g : grp) : Z :=
  (1 - Z.b2z (is_self_target idx g)) + Z.b2z (is_recvn_two idx g).
Definition target2 (idx : Z) (g : grp) : Z :=
  if is_recvn_two idx g then idx - 1
  else if is_self_target idx g then base_hi g else idx.

(** Entry test [target < cutoff], l.410 *)
Definition lt_cutoff (cutoff : Z) (v : val) : bool :=
  match v with VInt z => z <? cutoff | VData _ => false end.

(** Masks of one device, l.404-413 *)
Definition live_mask (d : cdata) : list bool :=
  map (fun j => (j <? cnt d)%nat) (seq 0 (size0 (leaves d))).
Definition lo_mask (cutoff : Z) (d : cdata) : list bool :=
  map (fun mt => fst mt && lt_cutoff cutoff (snd mt))
      (combine (live_mask d) (hd [] (leaves d))).
Definition keep_mask (idx cutoff : Z) (d : cdata) : list bool :=
  map (fun lm => xorb (fst lm) (snd lm && (cutoff <=? idx)))
      (combine (lo_mask cutoff d) (live_mask d)).
Definition send_mask (idx cutoff : Z) (d : cdata) : list bool :=
  map (fun mk => xorb (fst mk) (snd mk))
      (combine (live_mask d) (keep_mask idx cutoff d)).

(** l.420-421 *)
Definition keep_part (buffer_size : nat) (idx : Z) (gd : grp * cdata) : cdata :=
  let d := snd gd in
  select (keep_mask idx (base_hi (fst gd)) d) (buffer_size + size0 (leaves d)) d.
Definition send_part (idx : Z) (gd : grp * cdata) : cdata :=
  let d := snd gd in
  select (send_mask idx (base_hi (fst gd)) d) (size0 (leaves d)) d.

(** [lax.cond(c, lambda: keep + send, lambda: keep)] on all devices, l.424, 428 *)
Definition merge_if (cs : list bool) (keep send : list cdata) : option (list cdata) :=
  mapM (fun cks : bool * (cdata * cdata) => if fst cks then cadd (fst (snd cks)) (snd (snd cks))
                   else Some (fst (snd cks)))
       (combine cs (combine keep send)).

Definition nmax (l : list nat) : nat := fold_right Nat.max 0%nat l.

(** [_crystal_router_stage], l.374-430 *)
Definition stage (buffer_size : nat) (tab : list grp) (ds : list cdata)
  : option (list cdata * nat) :=
  let keep := tmap (keep_part buffer_size) (combine tab ds) in
  let send := tmap send_part (combine tab ds) in
  let nr := tmap num_recv tab in
  match pshuffle (tmap target1 tab) send with None => None | Some send1 =>
  match merge_if (map (fun k => 0 <? k) nr) keep send1 with None => None | Some keep1 =>
  let fin ks := Some (map (resize buffer_size) ks, nmax (map cnt ks)) in
  if 1 <? zmax nr then
    match pshuffle (tmap target2 tab) send1 with None => None | Some send2 =>
    match merge_if (map (fun k => k =? 2) nr) keep1 send2 with None => None | Some keep2 =>
    fin keep2 end end
  else fin keep1
  end end.

(** Inner recursive [loop] of [_crystal_router_loop], l.324-371.  Python
    recursion is modelled by recursion on fuel; [None] when it runs out. *)
Fixpoint loop (fuel buffer_size start_stage : nat)
  (ds : list cdata) (max_size i : nat) (tab : list grp)
  : option (list cdata * nat * nat) :=
  match fuel with
  | O => None
  | S fuel' =>
      if max_gn tab <=? 1 then Some (ds, max_size, i)
      else
        match (if (start_stage <=? i)%nat then stage buffer_size tab ds
               else Some (map (resize buffer_size) ds, max_size)) with
        | None => None
        | Some (next_data, max_size') =>
            if (buffer_size <? max_size')%nat
            then Some (map (resize buffer_size) ds, max_size', i)
            else loop fuel' buffer_size start_stage next_data max_size' (S i) (gstep tab)
        end
  end.

Definition router_loop (ds : list cdata) (start_stage buffer_size : nat) :=
  let P := length ds in loop (S P) buffer_size start_stage ds 0 0 (ginit P).

(** The [while True] loop of [crystal], l.225-233, with fuel; also returns the
    number of calls of the compiled loop. *)
Fixpoint driver (fuel calls : nat) (ds : list cdata) (i buffer_size : nat)
  : option (list cdata * nat) :=
  match fuel with
  | O => None
  | S fuel' =>
      match router_loop ds i buffer_size with
      | None => None
      | Some (ds', max_n, i') =>
          if (buffer_size <? max_n)%nat then
            let b := bit_ceil max_n in driver fuel' (S calls) (map (resize b) ds') i' b
          else Some (map (fun d => CData (map (firstn max_n) (leaves d)) (cnt d)) ds', S calls)
      end
  end.

(** [init_source], l.196-198, appended at l.220-224 *)
Definition append_source (idx : Z) (d : cdata) : cdata :=
  CData (leaves d ++ [repeat (VInt idx) (size0 (leaves d))]) (cnt d).

(** [crystal], l.202-233; the static width is that of the first leaf, common to
    all devices. *)
Definition crystal (fuel : nat) (append_src : bool) (ds : list cdata)
  : option (list cdata * nat) :=
  let b := bit_ceil (match ds with [] => 0%nat | d :: _ => size0 (leaves d) end) in
  let ds1 := map (resize b) ds in
  let ds2 := if append_src then tmap append_source ds1 else ds1 in
  driver fuel 0 ds2 0 b.

(** One device's output of [crystal_router], l.102-108: count, payload leaves,
    source leaf (if requested). *)
Record router_out := ROut { out_n : nat; out_data : list leaf; out_source : option leaf }.

Definition unpack (return_source : bool) (d : cdata) : router_out :=
  if return_source
  then ROut (cnt d) (removelast (tl (leaves d))) (Some (last (leaves d) []))
  else ROut (cnt d) (tl (leaves d)) None.

Definition crystal_router (fuel : nat) (return_source : bool)
  (inputs : list (nat * list leaf * leaf)) : option (list router_out * nat) :=
  match crystal fuel return_source
          (map (fun x => let '(n, data, target) := x in CData (target :: data) n) inputs) with
  | None => None
  | Some (ds, calls) => Some (map (unpack return_source) ds, calls)
  end.
End Crystal.
Arguments val : clear implicits.
Arguments cdata : clear implicits.
Arguments router_out : clear implicits.
Notation leaf A := (list (val A)).
