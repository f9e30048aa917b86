(** Model of core/interpolation.py.  Numbers are exact: an arbitrary real closed
    field (an ordered field where no square root is needed).  Infinities and NaN
    are explicit values, because [_interpolation_matrix_1d] divides by zero on
    purpose. *)
From mathcomp Require Import all_ssreflect all_algebra polyrcf.
Set Implicit Arguments.
Unset Strict Implicit.
Unset Printing Implicit Defensive.
Import Order.TTheory GRing.Theory Num.Theory.
Local Open Scope ring_scope.

(** [NodeType], l.29-34 *)
Inductive node_type := NEWTON_COTES | GAUSS_LEGENDRE | GAUSS_LOBATTO_LEGENDRE | SINGLE.
Definition node_type_eqb (a b : node_type) : bool :=
  match a, b with
  | NEWTON_COTES, NEWTON_COTES | GAUSS_LEGENDRE, GAUSS_LEGENDRE
  | GAUSS_LOBATTO_LEGENDRE, GAUSS_LOBATTO_LEGENDRE | SINGLE, SINGLE => true
  | _, _ => false
  end.

Inductive ierror := IValueError | IZeroDivision | ITypeError | IAssertion | INonFinite.

(** ** Lists as vectors, lists of rows as matrices *)
Section Lin.
Variable F : ringType.
Definition dot (a b : seq F) : F := foldr (fun xy s => xy.1 * xy.2 + s) 0 (zip a b).
Definition matvec (A : seq (seq F)) (x : seq F) : seq F := [seq dot row x | row <- A].
Definition column (A : seq (seq F)) (j : nat) : seq F := [seq nth 0 row j | row <- A].
(** [A @ B] for a matrix [B] with [n] columns *)
Definition matmul (n : nat) (A B : seq (seq F)) : seq (seq F) :=
  [seq [seq dot row (column B j) | j <- iota 0 n] | row <- A].
(** [np.outer(a, b).reshape(-1)] *)
Definition outer (a b : seq F) : seq F := [seq x * y | x <- a, y <- b].
(** [np.kron] *)
Definition kron (A B : seq (seq F)) : seq (seq F) := [seq outer ra rb | ra <- A, rb <- B].
(** [functools.reduce(f, l)] *)
Definition reduce (T : Type) (f : T -> T -> T) (l : seq T) : ierror + T :=
  if l is x :: l' then inr (foldl f x l') else inl ITypeError.
End Lin.

(** ** Floating-point special values *)
Section Ext.
Variable F : realFieldType.
Inductive ext := Fin of F | Inf of bool | NaN.    (* [Inf true] is +inf *)
Definition eadd (a b : ext) : ext :=
  match a, b with
  | NaN, _ | _, NaN => NaN
  | Fin x, Fin y => Fin (x + y)
  | Inf s, Fin _ | Fin _, Inf s => Inf s
  | Inf s, Inf t => if s == t then Inf s else NaN
  end.
(** [a / b] for doubles; a difference [x - x] is the positive zero, so the sign of
    the quotient by a zero is the sign of the dividend. *)
Definition ediv (a b : ext) : ext :=
  match a, b with
  | NaN, _ | _, NaN => NaN
  | Fin x, Fin y => if y == 0 then (if x == 0 then NaN else Inf (0 < x)) else Fin (x / y)
  | Fin _, Inf _ => Fin 0
  | Inf s, Fin y => Inf (s == (0 <= y))
  | Inf _, Inf _ => NaN
  end.
Definition fin_of (a : ext) : option F := if a is Fin x then Some x else None.
Fixpoint all_fin (s : seq ext) : option (seq F) :=
  if s is a :: s' then
    match fin_of a, all_fin s' with Some x, Some r => Some (x :: r) | _, _ => None end
  else Some [::].
Fixpoint all_fin_rows (m : seq (seq ext)) : option (seq (seq F)) :=
  if m is r :: m' then
    match all_fin r, all_fin_rows m' with Some x, Some s => Some (x :: s) | _, _ => None end
  else Some [::].

(** [evaluate], l.217-225; [sum] starts from 0 and adds from the left *)
Definition bary_terms (weights nodes : seq F) (x : F) : seq ext :=
  [seq ediv (Fin wx.1) (Fin (x - wx.2)) | wx <- zip weights nodes].
Definition evaluate (weights nodes : seq F) (x : F) (i : nat) : ext :=
  if x == nth 0 nodes i then Fin 1
  else let terms := bary_terms weights nodes x in
       ediv (nth NaN terms i) (foldl eadd (Fin 0) terms).
(** [_interpolation_matrix_1d], l.210-228; [np.vstack] of nothing raises.  A
    matrix with an infinite or NaN entry is reported as [INonFinite]: no claim is
    made about computations that go on with such a matrix. *)
Definition interpolation_matrix_1d_of (weights nodes evals : seq F) : ierror + seq (seq F) :=
  if evals is [::] then inl IValueError else
  match all_fin_rows [seq [seq evaluate weights nodes x i | i <- iota 0 (size nodes)] | x <- evals] with
  | Some m => inr m
  | None => inl INonFinite
  end.

(** [_differentiation_matrix_1d], l.230-244.  The diagonal is 0 when the row is
    summed. *)
Definition diff_off (weights nodes : seq F) (i j : nat) : F :=
  if i == j then 0
  else (nth 0 weights j / nth 0 weights i) / (nth 0 nodes i - nth 0 nodes j).
Definition differentiation_matrix_1d_of (weights nodes : seq F) : seq (seq F) :=
  let n := size nodes in
  [seq [seq if i == j then - foldr +%R 0 [seq diff_off weights nodes i k | k <- iota 0 n]
            else diff_off weights nodes i j | j <- iota 0 n] | i <- iota 0 n].

(** l.250, l.269-283 *)
Definition interpolation_matrix_of (d : nat) (m : seq (seq F)) : ierror + seq (seq F) :=
  reduce (@kron F) (nseq d m).
Definition grad_factors (d i : nat) (m g : seq (seq F)) : seq (seq (seq F)) :=
  [seq if i == j then g else m | j <- iota 0 d].
(** [interpolation_matrix_grad]: the list over the last axis; [np.stack] of
    nothing raises. *)
Fixpoint all_inr (T : Type) (l : seq (ierror + T)) : ierror + seq T :=
  match l with
  | [::] => inr [::]
  | inl e :: _ => inl e
  | inr x :: l' => match all_inr l' with inl e => inl e | inr r => inr (x :: r) end
  end.
Definition interpolation_matrix_grad_of (d : nat) (n : nat) (m dm : seq (seq F)) : ierror + seq (seq (seq F)) :=
  if d == 0%N then inl IValueError
  else all_inr [seq reduce (@kron F) (grad_factors d i m (matmul n m dm)) | i <- iota 0 d].

(** Newton-Cotes: [np.linspace(-1, 1, num=n)] (l.57; one point gives [-1]), the
    binomial weights of l.186-190 and the trapezoidal weights of l.117-119. *)
Definition nc_nodes (n : nat) : seq F := [seq -1 + i%:R * (2%:R / n.-1%:R) | i <- iota 0 n].
Definition nc_bary (n : nat) : seq F := [seq (-1) ^+ i * 'C(n.-1, i)%:R | i <- iota 0 n].
Definition nc_quad (n : nat) : seq F :=
  [seq (1 / (n%:R - 1)) * c | c <- 1 :: nseq (n - 2) 2%:R ++ [:: 1]].
End Ext.

(** ** Legendre and Jacobi polynomials (what numpy and scipy document) *)
Section Leg.
Variable F : fieldType.
(** Bonnet's recurrence, with [P 0 = 1] and [P 1 = X] *)
Fixpoint leg_pair (n : nat) : {poly F} * {poly F} :=
  if n is k.+1 then
    let: (p, q) := leg_pair k in
    (q, k.+2%:R^-1 *: ((k.*2 + 3)%:R *: ('X * q) - k.+1%:R *: p))
  else (1, 'X).
Definition legendre (n : nat) : {poly F} := (leg_pair n).1.
(** Jacobi polynomials with integer parameters, DLMF 18.9.1-2: for [n >= 2],
    [2n(n+a+b)(2n+a+b-2) P_n = (2n+a+b-1)((2n+a+b)(2n+a+b-2) x + a^2-b^2) P_(n-1)
     - 2(n+a-1)(n+b-1)(2n+a+b) P_(n-2)]. *)
Fixpoint jac_pair (a b n : nat) : {poly F} * {poly F} :=
  if n is k.+1 then
    let: (p, q) := jac_pair a b k in
    let m := k.+2 in
    let s := (m.*2 + a + b)%N in
    (q, (2 * m * (m + a + b) * (s - 2))%:R^-1 *:
        ((s - 1)%:R *: (((s * (s - 2))%:R *: 'X + (a%:R ^+ 2 - b%:R ^+ 2)%:P) * q)
         - (2 * (m + a - 1) * (m + b - 1) * s)%:R *: p))
  else (1, (a + 1)%:R%:P + ((a + b + 2)%:R / 2%:R) *: ('X - 1%:P)).
Definition jacobi (a b n : nat) : {poly F} := (jac_pair a b n).1.
End Leg.

Section Nodes.
Variable R : rcfType.

(** [np.polynomial.legendre.leggauss(n)]: the nodes are the roots of [P n] in
    increasing order, the weights are [c / (P n)'(x) / P (n-1)(x)], where [c]
    makes the weights add up to 2 (numpy documentation). *)
Definition leggauss_nodes (n : nat) : seq R := roots (legendre R n) (-1) 1.
Definition leggauss_raw (n : nat) (x : R) : R := 1 / ((legendre R n.-1).[x] * (legendre R n)^`().[x]).
Definition leggauss_weights (n : nat) : seq R :=
  let raw := [seq leggauss_raw n x | x <- leggauss_nodes n] in
  let s := foldr +%R 0 raw in
  [seq 2%:R / s * w | w <- raw].
(** [scipy.special.roots_jacobi(n, 1, 1)]: increasing roots *)
Definition roots_jacobi11 (n : nat) : seq R := roots (jacobi R 1 1 n) (-1) 1.

Record nodes1d := Nodes1D { nd_num_points : nat; nd_type : node_type; nd_values : seq R }.
(** [create_single_point], l.45-49 *)
Definition single_point (x : R) : nodes1d := Nodes1D 1 SINGLE [:: x].
(** [Nodes1D.create], l.52-76; [leggauss] raises for 0 points, [roots_jacobi] for
    fewer than one, [np.linspace] accepts 0. *)
Definition nodes1d_create (n : nat) (t : node_type) : ierror + nodes1d :=
  match t with
  | NEWTON_COTES => inr (Nodes1D n t (nc_nodes R n))
  | GAUSS_LEGENDRE => if n == 0%N then inl IValueError else inr (Nodes1D n t (leggauss_nodes n))
  | GAUSS_LOBATTO_LEGENDRE =>
      if n == 2%N then inr (Nodes1D n t [:: -1; 1])
      else if (n < 3)%N then inl IValueError
      else inr (Nodes1D n t (-1 :: roots_jacobi11 (n - 2) ++ [:: 1]))
  | SINGLE => inl IValueError
  end.
(** [is_continuous], l.78-81 (for at least one node) *)
Definition is_continuous (nd : nodes1d) : bool :=
  (nth 0 (nd_values nd) 0 == -1) && (last 0 (nd_values nd) == 1).
(** [__eq__], l.83-91; [eps] is the machine epsilon of the dtype *)
Definition nodes1d_eq (eps : R) (a b : nodes1d) : bool :=
  if ~~ node_type_eqb (nd_type a) (nd_type b) then false
  else if node_type_eqb (nd_type a) SINGLE
  then all (fun xy => `|xy.1 - xy.2| <= eps) (zip (nd_values a) (nd_values b))
  else node_type_eqb (nd_type a) (nd_type b) && (nd_num_points a == nd_num_points b).

Record quadrature1d := Quadrature1D { qd_num_points : nat; qd_type : node_type; qd_nodes : nodes1d; qd_weights : seq R }.
(** l.112-116 *)
Definition gll_weights (n : nat) (xs : seq R) : seq R :=
  [seq (2%:R / (n * (n - 1))%:R) / ((legendre R n.-1).[x]) ^+ 2 | x <- xs].
(** [create_from_nodes_1d], l.103-123 *)
Definition quadrature_from_nodes (nd : nodes1d) : ierror + quadrature1d :=
  let n := nd_num_points nd in
  match nd_type nd with
  | GAUSS_LEGENDRE => if n == 0%N then inl IValueError
                      else inr (Quadrature1D n (nd_type nd) nd (leggauss_weights n))
  | GAUSS_LOBATTO_LEGENDRE =>
      if (n * (n - 1) == 0)%N then inl IZeroDivision
      else inr (Quadrature1D n (nd_type nd) nd (gll_weights n (nd_values nd)))
  | NEWTON_COTES => if n == 1%N then inl IZeroDivision
                    else inr (Quadrature1D n (nd_type nd) nd (nc_quad R n))
  | SINGLE => inl IValueError
  end.
(** [Quadrature1D.create], l.125-140 *)
Definition quadrature_create (n : nat) (t : node_type) : ierror + quadrature1d :=
  match nodes1d_create n t with inl e => inl e | inr nd => quadrature_from_nodes nd end.
(** [weights_nd], l.142-144 *)
Definition weights_nd (q : quadrature1d) (d : nat) : ierror + seq R :=
  reduce (@outer R) (nseq d (qd_weights q)).

(** [_barycentric_weights], l.180-208 *)
Definition sqrt_weights (f : R -> R -> R) (q : quadrature1d) : seq R :=
  [seq (-1) ^+ ixw.1 * Num.sqrt (f ixw.2.1 ixw.2.2)
    | ixw <- zip (iota 0 (size (qd_weights q))) (zip (nd_values (qd_nodes q)) (qd_weights q))].
Definition barycentric_weights (grid : nodes1d) : ierror + seq R :=
  match nd_type grid with
  | NEWTON_COTES => inr (nc_bary R (nd_num_points grid))
  | GAUSS_LEGENDRE =>
      match quadrature_create (nd_num_points grid) GAUSS_LEGENDRE with
      | inl e => inl e
      | inr q => inr (sqrt_weights (fun x w => (1 - x ^+ 2) * w) q)
      end
  | GAUSS_LOBATTO_LEGENDRE =>
      match quadrature_create (nd_num_points grid) GAUSS_LOBATTO_LEGENDRE with
      | inl e => inl e
      | inr q => inr (sqrt_weights (fun x w => w) q)
      end
  | SINGLE => inl IValueError
  end.

(** [BarycentricInterpolator], l.147-290 *)
Definition interpolation_matrix_1d (grid evals : nodes1d) : ierror + seq (seq R) :=
  match barycentric_weights grid with
  | inl e => inl e
  | inr w => interpolation_matrix_1d_of w (nd_values grid) (nd_values evals)
  end.
Definition differentiation_matrix_1d (grid : nodes1d) : ierror + seq (seq R) :=
  match barycentric_weights grid with
  | inl e => inl e
  | inr w => inr (differentiation_matrix_1d_of w (nd_values grid))
  end.
Definition interpolation_matrix (d : nat) (grid evals : nodes1d) : ierror + seq (seq R) :=
  match interpolation_matrix_1d grid evals with
  | inl e => inl e
  | inr m => interpolation_matrix_of d m
  end.
(** l.254-263 *)
Definition interpolate (eps : R) (d : nat) (grid evals : nodes1d) (x : seq R) : ierror + seq R :=
  if size x != (nd_num_points grid ^ d)%N then inl IAssertion
  else if nodes1d_eq eps grid evals then inr x
  else match interpolation_matrix d grid evals with
       | inl e => inl e
       | inr m => inr (matvec m x)
       end.
(** l.265-284 *)
Definition interpolation_matrix_grad (d : nat) (grid evals : nodes1d) : ierror + seq (seq (seq R)) :=
  match interpolation_matrix_1d grid evals, differentiation_matrix_1d grid with
  | inr m, inr dm => interpolation_matrix_grad_of d (size (nd_values grid)) m dm
  | inl e, _ | _, inl e => inl e
  end.
(** l.286-290; the result is listed by component first *)
Definition interpolate_grad (d : nat) (grid evals : nodes1d) (x : seq R) : ierror + seq (seq R) :=
  if size x != (nd_num_points grid ^ d)%N then inl IAssertion
  else match interpolation_matrix_grad d grid evals with
       | inl e => inl e
       | inr ms => inr [seq matvec m x | m <- ms]
       end.
End Nodes.
