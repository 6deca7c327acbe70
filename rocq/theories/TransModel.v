(** Model of python/polars_ds/exprs/num.py 64-185 (horizontal norms, is_increasing, is_decreasing, center, z_normalize, softmax)
    and 918-937 (detrend) over exact reals; the range of f64 is modelled for softmax. *)
From Coq Require Import Reals List Bool Arith.
From Verif Require Import WStatsSpec WStatsModel MetricSpec MetricModel.
Import ListNotations.
Open Scope R_scope.

(** num.py 64-79, 82-97, 100-115: the horizontal functions on one row; [max_horizontal] and [sum_horizontal] skip nulls, the
    former is null on a row of nulls. *)
Definition by_dim (normalize : bool) (row : list (option R)) (v : R) : R := if normalize then v / INR (length row) else v.
Definition l_inf_horizontal (row : list (option R)) (normalize : bool) : option R :=
  option_map (by_dim normalize row) (rmax (map Rabs (values row))).
Definition l2_sq_horizontal (row : list (option R)) (normalize : bool) : R := by_dim normalize row (Rsum (map (fun a => a ^ 2) (values row))).
Definition l1_horizontal (row : list (option R)) (normalize : bool) : R := by_dim normalize row (Rsum (map Rabs (values row))).

(** num.py 118-132 is_increasing, 135-150 is_decreasing: [all] ignores nulls. *)
Definition ltb (a b : R) : bool := if Rlt_dec a b then true else false.
Definition leb (a b : R) : bool := if Rle_dec a b then true else false.
Definition is_increasing (x : rcol) (strict : bool) : bool :=
  if strict then forallb (fun d => ltb 0 d) (values (diff_n 1 x)) else forallb (fun d => leb 0 d) (values (diff_n 1 x)).
Definition is_decreasing (x : rcol) (strict : bool) : bool :=
  if strict then forallb (fun d => ltb d 0) (values (diff_n 1 x)) else forallb (fun d => leb d 0) (values (diff_n 1 x)).

(** num.py 153-161 center. *)
Definition center (x : rcol) : rcol := lift1 (fun v => v - cmean x) x.
(** num.py 164-174 z_normalize: [std] is null with fewer than two values. *)
Definition cstd (x : rcol) : option R := if (length (values x) <? 2)%nat then None else Some (sqrt (var_of (values x))).
Definition z_normalize (x : rcol) : list (option xnum) :=
  match cstd x with
  | None => map (fun _ => None) x
  | Some s => map (option_map (fun v => xdiv (v - cmean x) s)) x
  end.

(** f64: the largest number, and the bound at or below which positive reals round to 0. *)
Definition f64_max : R := (2 - / 2 ^ 52) * 2 ^ 1023.
Definition f64_tiny : R := / 2 ^ 1075.
(** [exp] and sums of non-negative numbers with overflow and underflow; rounding inside the range is not modelled. *)
Definition clamp (r : R) : xnum := if Rle_dec r f64_tiny then Fin 0 else if Rle_dec r f64_max then Fin r else PInf.
Definition fexp (v : R) : xnum := clamp (exp v).
Definition fplus (a b : xnum) : xnum := match a, b with Fin a, Fin b => clamp (a + b) | _, _ => PInf end.
Definition fdiv (a b : xnum) : xnum :=
  match a, b with
  | Fin a, Fin b => xdiv a b
  | Fin _, PInf => Fin 0
  | PInf, Fin _ => PInf
  | _, _ => NaN
  end.
(** num.py 177-188 softmax. *)
Definition softmax (x : rcol) : list (option xnum) :=
  let e := map fexp (values x) in
  let s := fold_left fplus e (Fin 0) in
  map (option_map (fun v => fdiv (fexp v) s)) x.

(** num.py 918-937 detrend: [int_range(0, count)] must have the length of the column ([None]: error; a column with exactly one
    value and some nulls is not modelled beyond being treated as an error too). With one row [var] is null. *)
Definition ramp (n : nat) : list R := map INR (seq 0 n).
Definition cov_of (a b : list R) : R :=
  Rsum (map (fun p => (fst p - mean_of a) * (snd p - mean_of b)) (combine a b)) / (INR (length a) - 1).
Definition detrend_linear (ts : rcol) : option rcol :=
  let N := length (values ts) in
  if negb (N =? length ts)%nat then None
  else if (N <? 2)%nat then Some (map (fun _ => None) ts)
  else
    let x := ramp N in
    let coeff := cov_of (values ts) x / var_of x in
    let const := cmean ts - coeff * (INR N - 1) / 2 in
    Some (lift2 (fun t i => t - i * coeff - const) ts (map Some x)).
Inductive method := Linear | Mean | OtherMethod.
Definition detrend (ts : rcol) (m : method) : option rcol :=
  match m with Linear => detrend_linear ts | Mean => Some (lift1 (fun v => v - cmean ts) ts) | OtherMethod => None end.
