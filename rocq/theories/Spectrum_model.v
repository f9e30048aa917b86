(** Model of [get_energy_spectrum] in niles/train.py, l.78-93.  Arithmetic is exact,
    [n] is the side of the grid. *)
From mathcomp Require Import all_ssreflect all_algebra.
Set Implicit Arguments.
Unset Strict Implicit.
Unset Printing Implicit Defensive.
Import Order.TTheory GRing.Theory Num.Theory.
Local Open Scope ring_scope.

(** [np.fft.fftfreq(n, 1 / n)], whose frequencies are integers, and [np.fft.fftshift] *)
Definition fftfreq (n : nat) : seq int :=
  [seq Posz i | i <- iota 0 (uphalf n)] ++ [seq Posz i - Posz n./2 | i <- iota 0 n./2].
Definition fftshift (T : Type) (s : seq T) : seq T := rotr (size s)./2 s.
Definition freqs (n : nat) : seq int := fftshift (fftfreq n).

Section Spectrum.
Variable R : rcfType.
(** [np.linspace(0, m, num=20)] *)
Definition linspace20 (m : R) : seq R := [seq i%:R * (m / 19%:R) | i <- iota 0 20].
(** [np.digitize(x, bins)] for nondecreasing bins: how many of them are at most [x] *)
Definition digitize (bins : seq R) (x : R) : nat := count (fun b => b <= x) bins.
(** [np.max] of nonnegative numbers *)
Definition maxl (s : seq R) : R := foldr Num.max 0 s.
(** l.82-84: [k[i][j]] belongs to row [i] ([ky]) and column [j] ([kx]) *)
Definition wavenumbers (n : nat) : seq (seq R) :=
  [seq [seq Num.sqrt ((kx ^+ 2 + ky ^+ 2)%:~R) | kx <- freqs n] | ky <- freqs n].
(** [(tke * mask).sum()] for arrays of one shape *)
Definition masked_sum (tke : seq (seq R)) (mask : seq (seq bool)) : R :=
  foldr +%R 0 [seq foldr +%R 0 [seq (if ab.2 then ab.1 else 0) | ab <- zip rs.1 rs.2] | rs <- zip tke mask].
(** The abscissae and the spectrum.  None stands for the division by zero of l.81
    and for arrays that are not [n] by [n]. *)
Definition get_energy_spectrum (n : nat) (tke : seq (seq R)) : option (seq R * seq R) :=
  if (0 < n)%N && (size tke == n) && all (fun r => size r == n) tke then
    let k := wavenumbers n in
    let bins := linspace20 (maxl (flatten k)) in
    let indices := [seq [seq digitize bins x | x <- r] | r <- k] in
    Some (take 18 (drop 1 bins),
      [seq masked_sum tke [seq [seq x == i | x <- r] | r <- indices] | i <- iota 1 18])
  else None.
End Spectrum.
