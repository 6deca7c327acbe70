(** C29, C30: convolution and the discrete Fourier transform, in exact real arithmetic. *)
From Coq Require Import Reals List Arith.
From Coquelicot Require Import Complex.
From Verif Require Import FftSpec FftModel FftProofs FftPropsLemmas.
Import ListNotations.
Open Scope R_scope.

(** C29.  For both methods, every mode, every parallel schedule and all series and kernels (finite part at least 2
    long and not longer than the series), the output is the mode's slice of the linear convolution. *)
Theorem C29_convolve : forall (x : list (option R)) fill kernel mode method par,
  let xx := map (fun o => match o with Some a => a | None => fill end) x in
  let h := flat_map (fun o => match o with Some a => [a] | None => [] end) kernel in
  (2 <= length h <= length xx)%nat -> (forall y, sched_ok (par y) (length y - length h + 1)) ->
  convolve x fill kernel mode method par = Some (map (conv xx h) (mode_range (length xx) (length h) mode)).
Proof. exact convolve_ok. Qed.
Print Assumptions C29_convolve.
(** Other kernel lengths are an error. *)
Theorem C29_convolve_error : forall x fill kernel mode method par,
  (let k := length (flat_map (fun o : option R => match o with Some a => [a] | None => [] end) kernel) in (k < 2 \/ length x < k)%nat) ->
  convolve x fill kernel mode method par = None.
Proof. exact convolve_err. Qed.
Print Assumptions C29_convolve_error.
(** Output lengths of the five modes. *)
Theorem C29_lengths : forall (x : list (option R)) fill kernel mode method par out,
  let k := length (flat_map (fun o : option R => match o with Some a => [a] | None => [] end) kernel) in
  (forall y, sched_ok (par y) (length y - k + 1)) ->
  convolve x fill kernel mode method par = Some out ->
  length out = match mode with FULL => length x + k - 1 | SAME | LEFT | RIGHT => length x | VALID => length x - k + 1 end%nat.
Proof. exact convolve_lengths. Qed.
Print Assumptions C29_lengths.
Example C29_case : forall method, convolve [Some 1; None; Some 3] 2 [Some 1; None; Some 10] FULL method (fun _ => None) = Some [1; 12; 23; 30].
Proof. exact conv_case. Qed.
Example C29_case_parallel : forall y : list R, sched_ok (Some (rev (seq 0 (length y - 2 + 1)))) (length y - 2 + 1).
Proof. exact sched_case. Qed.

(** C30.  [rfft] of a series without nulls is the transform of the series cropped or zero-padded to [n], its first
    n/2+1 terms by default and all [n] with [return_full]; a null is an error. *)
Theorem C30_rfft : forall v n full, (0 < match n with Some n => n | None => length v end)%nat ->
  let m := match n with Some n => n | None => length v end in
  rfft (map Some v) n full = Some (map (dft (map (fun i => nth i v 0) (seq 0 m))) (seq 0 (if full then m else m / 2 + 1))).
Proof. exact rfft_spec. Qed.
Print Assumptions C30_rfft.
Theorem C30_rfft_null : forall s n full, In None s -> rfft s n full = None.
Proof. exact rfft_null. Qed.
Print Assumptions C30_rfft_null.
Example C30_case : rfft [Some 1; Some 2; Some 4; Some 8] None true = Some [(15, 0); (-3, 6); (-5, 0); (-3, -6)].
Proof. exact rfft_case. Qed.
(** The transform determines the series (inverse transform). *)
Theorem C30_invertible : forall x i, (i < length x)%nat ->
  csum (fun k => Cmult (dft x k) (cis (2 * PI * INR k * INR i / INR (length x)))) (length x) = RtoC (INR (length x) * nth i x 0).
Proof. exact dft_inverse. Qed.
Print Assumptions C30_invertible.
