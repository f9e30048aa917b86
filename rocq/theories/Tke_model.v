(** Model of [get_tke] in niles/train.py, l.62-76, and of [tke_err], l.316-335.
    Arithmetic is exact; [w] stands for exp(-2 pi i / n), the theorems take any
    primitive root of unity.  [interpolate] stands for the method
    [uniform_mesh.interpolate] on one scalar field, which class [Mesh] does not have
    (l.65 silences the type checker), so that the code as it stands raises
    AttributeError; the model describes what follows it. *)
From Coq Require Import PeanoNat.
From mathcomp Require Import all_ssreflect all_algebra complex.
From Verif Require Import Spectrum_model.
Set Implicit Arguments.
Unset Strict Implicit.
Unset Printing Implicit Defensive.
Import Order.TTheory GRing.Theory Num.Theory.
Local Open Scope ring_scope.

Section Tke.
Variable R : rcfType.
Local Notation C := R[i].
Variable interpolate : seq R -> seq R.

(** [jnp.fft.fftn] of an [n] by [n] array *)
Definition fftn (w : C) (n : nat) (x : seq (seq R)) : seq (seq C) :=
  mkseq (fun k => mkseq (fun l =>
    \sum_(0 <= a < n) \sum_(0 <= b < n) real_complex R (nth 0 (nth [::] x a) b) * w ^+ (k * a + l * b)) n) n.
(** [jnp.fft.fftshift] without axes shifts all of them *)
Definition fftshift2 (T : Type) (s : seq (seq T)) : seq (seq T) := map (@fftshift T) (fftshift s).
(** l.71-72 *)
Definition get_fft (w : C) (n : nat) (x : seq (seq R)) : seq (seq R) :=
  map (map (@ComplexField.Normc.normc R)) (fftshift2 (fftn w n x)).
(** [reshape((n, n, ...))], rows first *)
Definition reshape (T : Type) (n : nat) (s : seq T) : seq (seq T) := mkseq (fun i => take n (drop (i * n) s)) n.
(** [u_flat[first_order_perm]]; indices past the end read the last entry *)
Definition gather (T : Type) (d : T) (s : seq T) (perm : seq nat) : seq T := [seq nth (last d s) s p | p <- perm].

(** l.62-76.  The velocity has two components per node.  None stands for the error of
    [reshape] when the number of points is not [n * n]. *)
Definition get_tke (w : C) (num_nodes : nat) (perm : seq nat) (u : seq (R * R)) : option (seq (seq R)) :=
  let n := Nat.sqrt num_nodes in
  let u_flat := zip (interpolate (map fst u)) (interpolate (map snd u)) in
  let u_flat := gather (0, 0) u_flat perm in
  if size u_flat == (n * n)%N then
    let u_hat0 := get_fft w n (reshape n (map fst u_flat)) in
    let u_hat1 := get_fft w n (reshape n (map snd u_flat)) in
    Some [seq [seq 2%:R^-1 * (xy.1 ^+ 2 + xy.2 ^+ 2) | xy <- zip rs.1 rs.2] | rs <- zip u_hat0 u_hat1]
  else None.

(** l.328-329, for one member of the batch: [tkes[steps // 2:].mean(axis=0)] *)
Definition add_arr (x y : seq (seq R)) : seq (seq R) :=
  [seq [seq ab.1 + ab.2 | ab <- zip rs.1 rs.2] | rs <- zip x y].
Definition zero_arr (n : nat) : seq (seq R) := nseq n (nseq n 0).
Definition mean_arr (n : nat) (xs : seq (seq (seq R))) : seq (seq R) :=
  [seq [seq x / (size xs)%:R | x <- r] | r <- foldr add_arr (zero_arr n) xs].
Definition last_half (n steps : nat) (tkes : seq (seq (seq R))) : seq (seq R) := mean_arr n (drop steps./2 tkes).
(** l.330-335; None also stands for the mean of no steps *)
Definition tke_error (log : R -> R) (n steps : nat) (pred target : seq (seq (seq R))) : option R :=
  if (steps./2 < size pred)%N && (steps./2 < size target)%N then
    if (get_energy_spectrum n (last_half n steps pred), get_energy_spectrum n (last_half n steps target))
      is (Some (_, sp), Some (_, st)) then
      Some (foldr +%R 0 [seq (log xy.1 - log xy.2) ^+ 2 | xy <- zip sp st])
    else None
  else None.
End Tke.
