(** What an SDE solver of Euler-Heun type should do, stated without the code:
    the method as a recurrence, and derivatives as transposed maps. *)
From mathcomp Require Import all_ssreflect all_algebra.
Set Implicit Arguments. Unset Strict Implicit. Unset Printing Implicit Defensive.
Import GRing.Theory Num.Theory.
Local Open Scope ring_scope.

Section Spec.
Variables (R : realFieldType) (V : lmodType R) (W : Type).

(** One Euler-Heun step with step size [h] from time [t] for drift [mu] and
    diffusion term [sigma] (noise included). *)
Definition heun_step (mu sigma : V -> R -> W -> V) (h t : R) (w : W) (x : V) :=
  let predicted := x + sigma x t w in
  x + h *: mu x t w
    + 2%:R^-1 *: (sigma x t w + sigma predicted (t + h) w).

(** [xs] lists the states of the method from time [a] to time [b]: one
    step for every noise increment, at equally spaced times. *)
Definition is_path (mu sigma : V -> R -> W -> V) (a b : R) (ws : seq W)
    (xs : nat -> V) : Prop :=
  forall (w0 : W) (k : nat), (k < size ws)%N ->
    let h := (b - a) / (size ws)%:R in
    xs k.+1 = heun_step mu sigma h (a + k%:R * h) (nth w0 ws k) (xs k).

(** The result of the method started in [x]. *)
Definition solves (mu sigma : V -> R -> W -> V) (a b : R) (ws : seq W)
    (x y : V) : Prop :=
  exists xs, [/\ xs 0%N = x, xs (size ws) = y & is_path mu sigma a b ws xs].

End Spec.

Section Transpose.
Variables (R : realFieldType) (V A : lmodType R).

(** A scalar product on the states and on the arguments. *)
Record scalar_product (U : lmodType R) (dot : U -> U -> R) : Prop := {
  sp_addl : forall x y z, dot (x + y) z = dot x z + dot y z;
  sp_addr : forall x y z, dot x (y + z) = dot x y + dot x z;
  sp_scalel : forall a x y, dot (a *: x) y = a * dot x y;
  sp_scaler : forall a x y, dot x (a *: y) = a * dot x y;
  sp_sym : forall x y, dot x y = dot y x;
  sp_nondeg : forall x, (forall y, dot x y = 0) -> x = 0 }.

Variables (dot : V -> V -> R) (dotA : A -> A -> R).

(** [g] is affine: differences of values depend linearly on differences of
    the arguments. *)
Definition affine (g : V -> A -> V) : Prop :=
  exists (L : V -> V) (M : A -> V),
    [/\ (forall x y, L (x + y) = L x + L y),
        (forall a b, M (a + b) = M a + M b),
        (forall c x, L (c *: x) = c *: L x),
        (forall c a, M (c *: a) = c *: M a) &
        forall x y a b, g (x + y) (a + b) - g x a = L y + M b].

(** [(cy, ca)] is the transposed derivative of the affine map [g] applied to
    the cotangent [c]; the derivative of an affine map is the change of its
    value. *)
Definition transposed (g : V -> A -> V) (c cy : V) (ca : A) : Prop :=
  forall x y a b,
    dot c (g (x + y) (a + b) - g x a) = dot cy y + dotA ca b.

(** [vjp] transposes affine functions, as [jax.vjp] does. *)
Definition vjp_spec (vjp : (V -> A -> V) -> V -> A -> V -> V * A) : Prop :=
  forall g, affine g -> forall x a c,
    transposed g c (vjp g x a c).1 (vjp g x a c).2.

End Transpose.
