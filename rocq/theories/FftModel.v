(** Model of src/num_ext/fft.rs and src/num_ext/convolve.rs with their Python wrappers (num.py 754-809, 940-962), in
    exact real arithmetic.  The crate realfft is external: it is modelled by its documented result (forward: the
    first n/2+1 terms of the DFT; inverse: the unnormalised inverse DFT of the Hermitian extension). *)
From Coq Require Import Reals List Arith Bool.
From Coquelicot Require Import Complex.
From Verif Require Import PyKdModel FftSpec.
Import ListNotations.
Open Scope R_scope.

(** [r2c.process]: forward transform. *)
Definition r2c (x : list R) : list C := map (dft x) (seq 0 (length x / 2 + 1)).
(** [c2r.process]: entry k > n/2 is the conjugate of entry n - k.  The imaginary parts of entries 0 and n/2 do not
    contribute (real part below). *)
Definition hermitian (n : nat) (s : list C) (k : nat) : C :=
  if (k <=? n / 2)%nat then nth k s (RtoC 0) else Cconj (nth (n - k) s (RtoC 0)).
Definition c2r (n : nat) (s : list C) : list R :=
  map (fun m => Re (csum (fun k => Cmult (hermitian n s k) (cis (2 * PI * INR k * INR m / INR n))) n)) (seq 0 n).

(** fft.rs 15-73 pl_rfft; [None]: the error for nulls.  [n]: requested length ([None]: that of the series).
    Not modelled: an empty transform length (n = 0). *)
Definition fit_length (n : nat) (x : list R) : list R :=
  if (length x <? n)%nat then x ++ repeat 0 (n - length x) else firstn n x.
Fixpoint no_nulls (l : list (option R)) : option (list R) :=
  match l with
  | [] => Some []
  | None :: _ => None
  | Some a :: l' => match no_nulls l' with Some r => Some (a :: r) | None => None end
  end.
Definition abs_diff (a b : nat) : nat := (a - b) + (b - a).
Definition rfft (s : list (option R)) (n : option nat) (return_full : bool) : option (list C) :=
  match no_nulls s with
  | None => None
  | Some v =>
      let x := fit_length (match n with Some n => n | None => length v end) v in
      let input_len := length x in
      let spectrum := r2c x in
      Some (if return_full then
              spectrum ++
              (if (input_len mod 2 =? 0)%nat then map Cconj (firstn (abs_diff (input_len / 2) 1) (skipn 1 (rev spectrum)))
               else map Cconj (firstn (input_len / 2) (rev spectrum)))
            else spectrum)
  end.


(** [cfavml::dot] on slices of equal length. *)
Fixpoint dot (a b : list R) : R := match a, b with x :: a', y :: b' => x * y + dot a' b' | _, _ => 0 end.
(** [input.windows(k)]. *)
Definition windows (k : nat) (x : list R) : list (list R) :=
  map (fun i => firstn k (skipn i x)) (seq 0 (length x - k + 1)).

(** convolve.rs 169-187: the direct method; [par = Some sched]: [sched] is the order in which Rayon evaluates the windows (indexed
    collection: the result of window [i] is stored at [i]). *)
Definition valid_direct (par : option (list nat)) (x kernel : list R) : list R :=
  match par with
  | None => map (dot kernel) (windows (length kernel) x)
  | Some sched => match par_map sched (fun sl => Some (dot kernel sl)) (windows (length kernel) x) with Some out => out | None => [] end
  end.
(** convolve.rs 71-104 valid_fft_convolve and 131-140. *)
Definition valid_fft (x kernel : list R) : list R :=
  let n := length x in
  let spec_p := r2c x in
  let spec_q := r2c (kernel ++ repeat 0 (n - length kernel)) in
  let prod := map (fun pq => Cmult (fst pq) (snd pq)) (combine spec_p spec_q) in
  map (fun y => y / INR n) (skipn (length kernel - 1) (c2r n prod)).

(** convolve.rs 106-140 fft_convolve, 142-187 convolve: both reduce every mode to VALID on padded input. *)
Definition by_mode (valid : list R -> list R -> list R) (mode : ConvMode) (x kernel : list R) : list R :=
  let t := (length kernel - 1)%nat in
  let full := valid (repeat 0 t ++ x ++ repeat 0 t) kernel in
  match mode with
  | FULL => full
  | SAME => firstn (length x) (skipn (t / 2) full)
  | LEFT => firstn (length x) full
  | RIGHT => skipn t full
  | VALID => valid x kernel
  end.
(** convolve.rs 192-221 pl_convolve; [None]: the error.  [par y]: the schedule used for the (padded) input [y]. *)
Definition pl_convolve (x kernel : list R) (mode : ConvMode) (method : ConvMethod) (par : list R -> option (list nat)) : option (list R) :=
  if ((length x <? length kernel) || (length kernel <? 2))%nat then None
  else Some (match method with FFT => by_mode valid_fft mode x kernel | DIRECT => by_mode (fun y => valid_direct (par y) y) mode x kernel end).
(** num.py 754-809: nulls of [x] are filled, kernel entries that are not finite ([None]) are dropped, and the kernel is
    reversed for the direct method only. *)
Definition convolve (x : list (option R)) (fill_value : R) (kernel : list (option R)) (mode : ConvMode) (method : ConvMethod) (par : list R -> option (list nat)) : option (list R) :=
  let xx := map (fun o => match o with Some a => a | None => fill_value end) x in
  let f := flat_map (fun o => match o with Some a => [a] | None => [] end) kernel in
  pl_convolve xx (match method with DIRECT => rev f | FFT => f end) mode method par.
