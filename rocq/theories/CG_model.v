(** Model of linalg/cg.py: preconditioned conjugate gradients.  Numbers are
    exact; a division by zero (inf or NaN from there on in the code) ends the
    model's run with the distinguished result [CGBroken]. *)
From mathcomp Require Import all_ssreflect all_algebra.
Set Implicit Arguments.
Unset Strict Implicit.
Unset Printing Implicit Defensive.
Import Order.TTheory GRing.Theory Num.Theory.
Local Open Scope ring_scope.

Section CG.
Variables (R : realFieldType) (T : Type).
(** [tree_map(operator.add, .)], [tree_map(operator.sub, .)],
    [tree_map(partial(operator.mul, a), .)] and [_vdot] *)
Variables (tadd tsub : T -> T -> T) (tscale : R -> T -> T) (tdot : T -> T -> R).

Record state := State { st_x : T; st_r : T; st_gamma : R; st_p : T; st_k : nat }.
Inductive result := CGDone of T & R & nat | CGBroken of nat.

Section Solve.
Variables (A M : T -> T) (atol2 : R) (maxiter : nat).
(** [cond_fun], l.69-74 *)
Definition cond (s : state) : bool := (st_gamma s > atol2) && (st_k s < maxiter)%N.
(** [body_fun], l.76-87.  The second division is by [gamma], positive whenever
    the body runs. *)
Definition body (s : state) : option state :=
  let Ap := A (st_p s) in
  let pAp := tdot (st_p s) Ap in
  if (pAp == 0) || (st_gamma s == 0) then None
  else
    let alpha := st_gamma s / pAp in
    let x' := tadd (st_x s) (tscale alpha (st_p s)) in
    let r' := tsub (st_r s) (tscale alpha Ap) in
    let z' := M r' in
    let gamma' := tdot r' z' in
    let beta := gamma' / st_gamma s in
    Some (State x' r' gamma' (tadd z' (tscale beta (st_p s))) (st_k s).+1).
(** [lax.while_loop], l.95.  The fuel is [maxiter]: [CG_proofs] shows the last case
    unreachable. *)
Fixpoint loop (fuel : nat) (s : state) : result :=
  if cond s then
    match fuel, body s with
    | fuel'.+1, Some s' => loop fuel' s'
    | _, None | 0%N, _ => CGBroken (st_k s)
    end
  else CGDone (st_x s) (st_gamma s) (st_k s).
End Solve.

(** l.64-66, 89-98 *)
Definition atol2_of (tol atol : R) (b : T) : R := Num.max (tol ^+ 2 * tdot b b) (atol ^+ 2).
Definition initial (A M : T -> T) (b x0 : T) : state :=
  let r0 := tsub b (A x0) in
  let z0 := M r0 in
  State x0 r0 (tdot r0 z0) z0 0.
Definition cg_run (A M : T -> T) (b x0 : T) (tol atol : R) (maxiter : nat) : result :=
  loop A M (atol2_of tol atol b) maxiter maxiter (initial A M b x0).
End CG.

(** ** Pytrees: the list of leaves, every leaf flattened. *)
Section Tree.
Variable R : realFieldType.
Definition tree : Type := seq (seq R).
Definition map2 (U V W : Type) (f : U -> V -> W) (s : seq U) (t : seq V) : seq W := [seq f xy.1 xy.2 | xy <- zip s t].
Definition tree_add : tree -> tree -> tree := map2 (map2 +%R).
Definition tree_sub : tree -> tree -> tree := map2 (map2 (fun x y => x - y)).
Definition tree_scale (a : R) : tree -> tree := map (map ( *%R a)).
Definition zeros_like : tree -> tree := map (map (fun=> 0)).
(** [_vdot], l.26-27; [dot_fn] is supplied by the caller *)
Definition tree_vdot (dot_fn : seq R -> seq R -> R) (a b : tree) : R :=
  foldr +%R 0 (map2 dot_fn a b).
(** the default [jnp.vdot] *)
Definition jnp_vdot (x y : seq R) : R := foldr +%R 0 (map2 *%R x y).

(** [cg], l.30-98 *)
Definition cg (A : tree -> tree) (b : tree) (x0 : option tree) (tol atol : R) (maxiter : option nat)
    (M : option (tree -> tree)) (dot_fn : seq R -> seq R -> R) : result R tree :=
  let x0 := if x0 is Some x0 then x0 else zeros_like b in
  let maxiter := if maxiter is Some n then n else (10 * sumn [seq size bi | bi <- b])%N in
  let M := if M is Some M then M else id in
  cg_run tree_add tree_sub tree_scale (tree_vdot dot_fn) A M b x0 tol atol maxiter.
End Tree.
