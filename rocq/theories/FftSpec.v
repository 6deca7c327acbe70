(** Specification: the discrete Fourier transform and linear convolution over the reals. *)
From Coq Require Import Reals List Arith Permutation.
From Coquelicot Require Import Complex.
Import ListNotations.
Open Scope R_scope.

(** e^(i a). *)
Definition cis (a : R) : C := (cos a, sin a).
Fixpoint csum (f : nat -> C) (n : nat) : C := match n with O => RtoC 0 | S n' => Cplus (csum f n') (f n') end.
Fixpoint rsum (f : nat -> R) (n : nat) : R := match n with O => 0 | S n' => rsum f n' + f n' end.

(** X_k = sum over m < n of x_m e^(-2 pi i k m / n). *)
Definition dft (x : list R) (k : nat) : C :=
  csum (fun m => Cmult (RtoC (nth m x 0)) (cis (- (2 * PI * INR k * INR m / INR (length x))))) (length x).

(** (x * h)_i = sum over j <= i of h_j x_(i-j), entries beyond the ends being zero. *)
Definition conv (x h : list R) (i : nat) : R := rsum (fun j => nth j h 0 * nth (i - j) x 0) (S i).

(** The user's choices, and which entries of the full convolution (indices) each mode returns for a series of length
    [n] and a kernel of length [k]. *)
Inductive ConvMode := FULL | SAME | LEFT | RIGHT | VALID.
Inductive ConvMethod := FFT | DIRECT.
Definition mode_range (n k : nat) (mode : ConvMode) : list nat :=
  match mode with
  | FULL => seq 0 (n + k - 1)
  | SAME => seq ((k - 1) / 2) n
  | LEFT => seq 0 n
  | RIGHT => seq (k - 1) n
  | VALID => seq (k - 1) (n - k + 1)
  end.

(** A schedule runs every window once. *)
Definition sched_ok (par : option (list nat)) (n : nat) : Prop := match par with Some s => Permutation s (seq 0 n) | None => True end.
