(** Model of communication/semi_traced_scalar.py. *)
From Coq Require Import List ZArith Bool.
From Verif Require Import Groups_model.
Import ListNotations.
Open Scope Z_scope.

(** Operators added to the class, l.120-133. *)
Inductive binop :=
| BAdd | BSub | BMul | BTruediv | BFloordiv | BMod | BPow | BLshift | BRshift | BAnd | BXor | BOr
| BLt | BLe | BEq | BNe | BGt | BGe.
Definition is_comparison (o : binop) : bool :=
  match o with BLt | BLe | BEq | BNe | BGt | BGe => true | _ => false end.
(** Python tries the mirrored comparison when the left operand is a plain
    number: [c < x] calls [x.__gt__(c)]. *)
Definition mirror (o : binop) : binop :=
  match o with BLt => BGt | BLe => BGe | BGt => BLt | BGe => BLe | _ => o end.

Section ST.
Context {V : Type}.
(** Python/numpy/jax scalar semantics of an operator (same function on host
    arrays and traced values) and truth value. *)
Variables (sem : binop -> V -> V -> V) (truth : V -> bool) (of_nat : nat -> V).

(** One device's object: class SemiTracedScalar, l.28-57. *)
Record st := ST { local : V; global_ : list V }.

(** numpy elementwise operation on arrays of equal length / array and scalar. *)
Definition map2 (f : V -> V -> V) (x y : list V) : list V :=
  map (fun ab : V * V => f (fst ab) (snd ab)) (combine x y).
Definition np_where (c x y : list V) : list V :=
  map (fun t : V * (V * V) => if truth (fst t) then fst (snd t) else snd (snd t)) (combine c (combine x y)).

(** [where], l.70-75 *)
Definition st_where (c x y : st) : st :=
  ST (if truth (local c) then local x else local y) (np_where (global_ c) (global_ x) (global_ y)).
(** [axis_index], l.77-82, on device [p] of [P] *)
Definition axis_index (P p : nat) : st := ST (of_nat p) (map of_nat (seq 0 P)).
(** [axis_size], l.84-88 *)
Definition axis_size (P : nat) : st := ST (of_nat P) (repeat (of_nat P) P).
(** [constant], l.90-94 *)
Definition constant (P : nat) (c : V) : st := ST c (repeat c P).

(** [_lift_op], l.100-110: the second operand is a SemiTracedScalar or a plain
    value. *)
Definition lift_st (f : V -> V -> V) (x y : st) : st :=
  ST (f (local x) (local y)) (map2 f (global_ x) (global_ y)).
Definition lift_c (f : V -> V -> V) (x : st) (c : V) : st :=
  ST (f (local x) c) (map (fun a => f a c) (global_ x)).

(** Python expressions over semi-traced scalars. *)
Inductive expr :=
| EIndex | ESize | EConst (c : V)
| EBin (o : binop) (x y : expr)      (* x op y *)
| EBinC (o : binop) (x : expr) (c : V)   (* x op c *)
| ECBin (o : binop) (c : V) (x : expr)   (* c op x: reflected method *)
| EWhere (c x y : expr).

(** Evaluation through the class: [_lift_ops] l.113-117, [_add_comparisons]
    l.120-124, [_add_ops] l.127-133. *)
Fixpoint run (P p : nat) (e : expr) : st :=
  match e with
  | EIndex => axis_index P p
  | ESize => axis_size P
  | EConst c => constant P c
  | EBin o x y => lift_st (sem o) (run P p x) (run P p y)
  | EBinC o x c => lift_c (sem o) (run P p x) c
  | ECBin o c x =>
      if is_comparison o then lift_c (sem (mirror o)) (run P p x) c
      else lift_c (fun a b => sem o b a) (run P p x) c
  | EWhere c x y => st_where (run P p c) (run P p x) (run P p y)
  end.
End ST.
Arguments st : clear implicits.
Arguments expr : clear implicits.

(** The integer/boolean values used by the schedules. *)
Definition zsem (o : binop) (a b : Z) : Z :=
  match o with
  | BAdd => a + b | BSub => a - b | BMul => a * b | BTruediv => a / b | BFloordiv => a / b
  | BMod => a mod b | BPow => a ^ b | BLshift => Z.shiftl a b | BRshift => Z.shiftr a b
  | BAnd => Z.land a b | BXor => Z.lxor a b | BOr => Z.lor a b
  | BLt => Z.b2z (a <? b) | BLe => Z.b2z (a <=? b) | BEq => Z.b2z (a =? b)
  | BNe => Z.b2z (negb (a =? b)) | BGt => Z.b2z (b <? a) | BGe => Z.b2z (b <=? a)
  end.
Definition ztruth (a : Z) : bool := negb (a =? 0).

(** The scheduling statements of the loops of crystal_router.py l.331-333,
    362-363 and pscan.py l.172-174, 182-183 on the semi-traced [n], [base_lo]. *)
Definition zlift (o : binop) := lift_st (zsem o).
Definition zliftc (o : binop) := lift_c (zsem o).
Definition sched_step (idx : st Z) (nb : st Z * st Z) : st Z * st Z :=
  let '(n, base_lo) := nb in
  let n_lo := zliftc BFloordiv (zliftc BAdd n 1) 2 in
  let base_hi := zlift BAdd base_lo n_lo in
  let is_lo := zlift BLt idx base_hi in
  (st_where ztruth is_lo n_lo (zlift BSub n n_lo), st_where ztruth is_lo base_lo base_hi).
Fixpoint sched_vars (P p k : nat) : st Z * st Z :=
  match k with
  | O => (axis_size Z.of_nat P, constant P 0)
  | S k' => sched_step (axis_index Z.of_nat P p) (sched_vars P p k')
  end.
