(** Model of the time-stepping coefficients, navier_stokes/navier_stokes.py
    l.49-70, on top of the interpolation model. *)
From mathcomp Require Import all_ssreflect all_algebra.
From Verif Require Import Interp_model.
Set Implicit Arguments.
Unset Strict Implicit.
Unset Printing Implicit Defensive.
Import Order.TTheory GRing.Theory Num.Theory.
Local Open Scope ring_scope.

Section Coefs.
Variable R : rcfType.
(** [extk_coeffs], l.49-58; [h = 2 / k] raises for [k = 0] *)
Definition extk_coeffs (k : nat) : ierror + seq R :=
  match nodes1d_create R k.+1 NEWTON_COTES with
  | inl e => inl e
  | inr gridpoints =>
      if k == 0%N then inl IZeroDivision
      else
        let h := 2%:R / k%:R in
        let evalpoints := single_point (1 + h) in
        match interpolation_matrix 1 gridpoints evalpoints with
        | inl e => inl e
        | inr m => inr (flatten m)
        end
  end.
(** [bdfk_coeffs], l.61-70.  The matrix has shape (1, k+1, 1). *)
Definition bdfk_coeffs (k : nat) : ierror + seq R :=
  match nodes1d_create R k.+1 NEWTON_COTES with
  | inl e => inl e
  | inr gridpoints =>
      let evalpoints := single_point 1 in
      if k == 0%N then inl IZeroDivision
      else
        let h := 2%:R / k%:R in
        match interpolation_matrix_grad 1 gridpoints evalpoints with
        | inl e => inl e
        | inr ms => inr [seq c * h | c <- flatten (flatten ms)]
        end
  end.
End Coefs.
