(** Recursive halving of the devices of an axis.

    Both [_crystal_router_loop] (communication/crystal_router.py l.320-371) and
    [_fanin_fanout_flat] (communication/pscan.py l.164-183) keep, for every
    device, the interval [base_lo, base_lo + n) of devices forming its current
    group and halve it at every stage.  A [SemiTracedScalar] is modelled by its
    [global_] table (one entry per device); that the local value is the entry of
    the table at the device index is the subject of SemiTraced_model.v. *)
From Coq Require Import List ZArith Bool.
Import ListNotations.
Open Scope Z_scope.

(** Group of one device: size [n] and first index [base_lo]. *)
Record grp := Grp { gn : Z; gb : Z }.

(** [SemiTracedScalar.axis_index(...).global_ = np.arange(P)]:
    semi_traced_scalar.py l.77-82. *)
Definition arange (P : nat) : list Z := map Z.of_nat (seq 0 P).

(** [f] lifted to a table, applied with the device index:
    semi_traced_scalar.py l.100-110. *)
Definition tmap {X Y} (f : Z -> X -> Y) (tab : list X) : list Y :=
  map (fun ig => f (fst ig) (snd ig)) (combine (arange (length tab)) tab).

(** Initial table: n = axis size, base_lo = 0.
    crystal_router.py l.320-322, pscan.py l.164-166. *)
Definition ginit (P : nat) : list grp := repeat (Grp (Z.of_nat P) 0) P.

(** n_lo = (n + 1) // 2: crystal_router.py l.331, pscan.py l.172. *)
Definition n_lo (g : grp) : Z := (gn g + 1) / 2.

(** base_hi = base_lo + n_lo: crystal_router.py l.332, pscan.py l.173. *)
Definition base_hi (g : grp) : Z := gb g + n_lo g.

(** is_lo = idx < base_hi: crystal_router.py l.333, pscan.py l.174. *)
Definition is_lo (idx : Z) (g : grp) : bool := idx <? base_hi g.

(** n = where(is_lo, n_lo, n - n_lo); base_lo = where(is_lo, base_lo, base_hi):
    crystal_router.py l.362-363, pscan.py l.182-183. *)
Definition gstep1 (idx : Z) (g : grp) : grp :=
  Grp (if is_lo idx g then n_lo g else gn g - n_lo g)
      (if is_lo idx g then gb g else base_hi g).
Definition gstep (tab : list grp) : list grp := tmap gstep1 tab.

(** np.max(n.global_): crystal_router.py l.327, pscan.py l.170.  The maximum of
    an empty array raises in numpy; an axis always has at least one device, and
    all theorems assume it. *)
Definition zmax (l : list Z) : Z := fold_right Z.max 0 l.
Definition max_gn (tab : list grp) : Z := zmax (map gn tab).

(** The table of stage [k]. *)
Fixpoint gtab (P k : nat) : list grp :=
  match k with O => ginit P | S k' => gstep (gtab P k') end.

(** [lax.pshuffle]: jax checks set(perm) = set(range(len(perm))) and then device
    i receives the value of device perm[i].  [None] models the ValueError. *)
Definition is_perm (perm : list Z) (P : nat) : bool :=
  (length perm =? P)%nat &&
  forallb (fun k => (0 <=? k) && (k <? Z.of_nat P)) perm &&
  forallb (fun i => existsb (Z.eqb i) perm) (arange P).

Fixpoint mapM {X Y} (f : X -> option Y) (l : list X) : option (list Y) :=
  match l with
  | [] => Some []
  | x :: l' =>
      match f x with
      | None => None
      | Some y => match mapM f l' with None => None | Some ys => Some (y :: ys) end
      end
  end.

Definition pshuffle {X} (perm : list Z) (xs : list X) : option (list X) :=
  if is_perm perm (length xs)
  then mapM (fun k => nth_error xs (Z.to_nat k)) perm
  else None.
