(** Model of communication/pscan.py.

    A collective value is the list of its device-local values.  The device-local
    value of the flattened pytree is a list of leaves; arrays inside a leaf are
    treated elementwise by every operator, so a leaf is one element. *)
From Coq Require Import List ZArith Bool SpecFloat.
From Verif Require Import Groups_model.
Import ListNotations.
Open Scope Z_scope.

(** ** Schedule, l.164-183 *)
(** is_base_lo, l.175 *)
Definition is_base_lo (idx : Z) (g : grp) : bool := (1 <? gn g) && (idx =? gb g).
(** is_base_hi, l.176 *)
Definition is_base_hi (idx : Z) (g : grp) : bool := (1 <? gn g) && (idx =? base_hi g).
(** target, l.177-178 *)
Definition ptarget (idx : Z) (g : grp) : Z :=
  if is_base_hi idx g then gb g
  else if is_base_lo idx g then base_hi g else idx.

(** [while np.max(n.global_) > 1], l.170-183; a schedule entry is determined by
    the group table of its stage.  [None]: fuel exhausted. *)
Fixpoint schedule (fuel : nat) (tab : list grp) : option (list (list grp)) :=
  if 1 <? max_gn tab then
    match fuel with
    | O => None
    | S fuel' =>
        match schedule fuel' (gstep tab) with
        | None => None
        | Some s => Some (tab :: s)
        end
    end
  else Some [].

Section Fan.
Context {V : Type}.
Variable (op : V -> V -> V).

(** [lax.cond(c, lambda: x, lambda: y)] on every device. *)
Definition cond_ (c : list bool) (x y : list V) : list V :=
  map (fun cxy : bool * (V * V) => if fst cxy then fst (snd cxy) else snd (snd cxy)) (combine c (combine x y)).
(** [op] on every device. *)
Definition op_ (x y : list V) : list V := map (fun xy : V * V => op (fst xy) (snd xy)) (combine x y).

(** State of the fan-in: red, scan, y (y is unbound before the first stage). *)
Record fan := Fan { f_red : list V; f_scan : list V; f_y : list V }.

(** One fan-in stage, l.192-200. *)
Definition fan_in_step (prefix_scan : bool) (s : fan) (tab : list grp) : option fan :=
  match pshuffle (tmap ptarget tab) (f_red s) with
  | None => None
  | Some y =>
      Some (Fan (cond_ (tmap is_base_lo tab) (op_ (f_red s) y) (f_red s))
                (if prefix_scan then cond_ (tmap is_base_hi tab) y (f_scan s) else f_scan s)
                y)
  end.

(** [for s in reversed(schedule)], l.192: recursion treats the tail of the
    schedule first. *)
Fixpoint fan_in (prefix_scan : bool) (sched : list (list grp)) (s : fan) : option fan :=
  match sched with
  | [] => Some s
  | tab :: rest =>
      match fan_in prefix_scan rest s with
      | None => None
      | Some s' => fan_in_step prefix_scan s' tab
      end
  end.

(** Completion of the reduction on the first base_hi, l.202-205. *)
Definition finish_red (reduction : bool) (sched : list (list grp)) (s : fan) : list V :=
  match sched with
  | tab :: _ => if reduction then cond_ (tmap is_base_hi tab) (op_ (f_y s) (f_red s)) (f_red s)
                else f_red s
  | [] => f_red s
  end.

(** One fan-out stage, l.207-222.  [data] is the pair (scan, red), scan or red
    depending on the flags; [merge] combines the scan with [op] (incoming value
    first) and replaces red. *)
Definition fan_out_step (prefix_scan reduction : bool) (d : list V * list V) (tab : list grp)
  : option (list V * list V) :=
  match pshuffle (tmap ptarget tab) (fst d), pshuffle (tmap ptarget tab) (snd d) with
  | Some ys, Some yr =>
      Some (if prefix_scan then cond_ (tmap is_base_hi tab) (op_ ys (fst d)) (fst d) else fst d,
            if reduction then cond_ (tmap is_base_hi tab) yr (snd d) else snd d)
  | _, _ => None
  end.

Fixpoint fan_out (prefix_scan reduction : bool) (sched : list (list grp)) (d : list V * list V)
  : option (list V * list V) :=
  match sched with
  | [] => Some d
  | tab :: rest =>
      match fan_out_step prefix_scan reduction d tab with
      | None => None
      | Some d' => fan_out prefix_scan reduction rest d'
      end
  end.

(** [_fanin_fanout_flat], l.53-223: returns (scan, red); the caller uses the
    components it asked for.  [units] is the initial scan, l.188-189. *)
Definition fanin_fanout_flat (units : list V) (prefix_scan reduction : bool) (xs : list V)
  : option (list V * list V) :=
  match schedule (length xs) (ginit (length xs)) with
  | None => None
  | Some sched =>
      match fan_in prefix_scan sched (Fan xs units []) with
      | None => None
      | Some s => fan_out prefix_scan reduction (tl sched) (f_scan s, finish_red reduction sched s)
      end
  end.
End Fan.

(** [list_op], l.185: leafwise, [zip] stops at the shorter list. *)
Definition list_op {X} (op : X -> X -> X) (x y : list X) : list X :=
  map (fun ab : X * X => op (fst ab) (snd ab)) (combine x y).

(** ** Operators *)
Inductive opname := OAdd | OMul | OMax | OMin | OAnd | OOr | OXor.

Definition opname_eqb (a b : opname) : bool :=
  match a, b with
  | OAdd, OAdd | OMul, OMul | OMax, OMax | OMin, OMin | OAnd, OAnd | OOr, OOr | OXor, OXor => true
  | _, _ => false
  end.

Section Scan.
Context {X : Type}.
(** Semantics of the jax.numpy operators on one element, and [unit_table],
    l.42-50, for the dtype at hand. *)
Variables (sem : opname -> X -> X -> X) (unit_table : opname -> X).

(** [pscan], l.243-267: scan only, or (scan, reduction).  [full_like(a, unit)]
    gives a leaf of units for every leaf. *)
Definition pscan (o : opname) (xs : list (list X)) : option (list (list X)) :=
  option_map fst (fanin_fanout_flat (list_op (sem o)) (map (map (fun _ => unit_table o)) xs) true false xs).
Definition pscan_red (o : opname) (xs : list (list X)) : option (list (list X) * list (list X)) :=
  fanin_fanout_flat (list_op (sem o)) (map (map (fun _ => unit_table o)) xs) true true xs.

(** [lax.psum] / [lax.pmax] / [lax.pmin]: library all-reduce, every device gets
    the leafwise fold over all devices in some order; modelled in device order
    (the operators concerned are commutative up to rounding). *)
Definition all_reduce (o : opname) (xs : list (list X)) : list (list X) :=
  match xs with
  | [] => []
  | x :: rest => repeat (fold_left (list_op (sem o)) rest x) (length xs)
  end.

(** [preduce], l.270-296 *)
Definition preduce (o : opname) (xs : list (list X)) : option (list (list X)) :=
  match o with
  | OAdd | OMax | OMin => Some (all_reduce o xs)
  | _ => option_map snd (fanin_fanout_flat (list_op (sem o)) (map (map (fun _ => unit_table o)) xs) false true xs)
  end.
End Scan.

(** ** Element types *)
(** Integers of [w] bits, signed or not, with wrap-around (two's complement). *)
Definition iwrap (signed : bool) (w : Z) (z : Z) : Z :=
  if signed then (z + 2 ^ (w - 1)) mod 2 ^ w - 2 ^ (w - 1) else z mod 2 ^ w.
(** [jnp.iinfo]; [_dtype_range], l.28-39 *)
Definition imin (signed : bool) (w : Z) : Z := if signed then - 2 ^ (w - 1) else 0.
Definition imax (signed : bool) (w : Z) : Z := if signed then 2 ^ (w - 1) - 1 else 2 ^ w - 1.
Definition isem (signed : bool) (w : Z) (o : opname) : Z -> Z -> Z :=
  match o with
  | OAdd => fun a b => iwrap signed w (a + b)
  | OMul => fun a b => iwrap signed w (a * b)
  | OMax => Z.max
  | OMin => Z.min
  | OAnd => Z.land
  | OOr => Z.lor
  | OXor => Z.lxor
  end.
(** [unit_table] on integer dtypes, l.42-50: [~0] is all ones. *)
Definition iunit (signed : bool) (w : Z) (o : opname) : Z :=
  match o with
  | OAdd => 0 | OMul => 1 | OMax => imin signed w | OMin => imax signed w
  | OAnd => if signed then Z.lnot 0 else 2 ^ w - 1
  | OOr => 0 | OXor => 0
  end.

(** Booleans: numpy's [add]/[maximum]/[bitwise_or] are or,
    [multiply]/[minimum]/[bitwise_and] are and. *)
Definition bsem (o : opname) : bool -> bool -> bool :=
  match o with
  | OAdd | OMax | OOr => orb
  | OMul | OMin | OAnd => andb
  | OXor => xorb
  end.
Definition bunit (o : opname) : bool :=
  match o with
  | OAdd => false | OMul => true | OMax => false | OMin => true
  | OAnd => negb false | OOr => false | OXor => false
  end.

(** IEEE binary floats of any precision, with the standard library's axiom-free
    specification of the operations (one NaN); [prec] counts the implicit bit.
    jnp.maximum / jnp.minimum propagate NaN; which zero is returned for two
    zeros of opposite sign is immaterial here. *)
Definition fmax (a b : spec_float) : spec_float :=
  match a, b with
  | S754_nan, _ => S754_nan
  | _, S754_nan => S754_nan
  | _, _ => if SFltb a b then b else a
  end.
Definition fmin (a b : spec_float) : spec_float :=
  match a, b with
  | S754_nan, _ => S754_nan
  | _, S754_nan => S754_nan
  | _, _ => if SFltb b a then b else a
  end.
(** [jnp.finfo(t).max]: all-ones mantissa, largest exponent; [min] is its
    opposite.  [_dtype_range], l.36-39. *)
Definition finfo_max (prec emax : Z) : spec_float :=
  S754_finite false (Z.to_pos (2 ^ prec - 1)) (emax - prec).
Definition finfo_min (prec emax : Z) : spec_float := SFopp (finfo_max prec emax).
Definition fone (prec : Z) : spec_float := S754_finite false (Z.to_pos (2 ^ (prec - 1))) (1 - prec).
(** The operators available on floats; bitwise operators are a TypeError. *)
Definition fsem (prec emax : Z) (o : opname) : option (spec_float -> spec_float -> spec_float) :=
  match o with
  | OAdd => Some (SFadd prec emax)
  | OMul => Some (SFmul prec emax)
  | OMax => Some fmax
  | OMin => Some fmin
  | _ => None
  end.
Definition funit (prec emax : Z) (o : opname) : option spec_float :=
  match o with
  | OAdd => Some (S754_zero false)
  | OMul => Some (fone prec)
  | OMax => Some (finfo_min prec emax)
  | OMin => Some (finfo_max prec emax)
  | _ => None
  end.
