(** Model of python/polars_ds/exprs/metrics.py 41-342 and 560-658 in exact real arithmetic with the infinities and NaN
    that division by zero and the logarithm of zero produce ([xnum]).  Columns and null handling as in WStatsModel:
    arithmetic propagates nulls, [sum], [mean], [dot], [max] skip them, [count] counts the values that are not null.
    Simplifications: no rounding; a zero denominator is +0 (they are sums, counts and absolute values). *)
From Coq Require Import Reals List ZArith.
From Verif Require Import WStatsSpec WStatsModel MetricSpec.
Import ListNotations.
Open Scope R_scope.

Definition xdiv (a b : R) : xnum :=
  if Req_EM_T b 0 then if Req_EM_T a 0 then NaN else if Rlt_dec 0 a then PInf else NInf else Fin (a / b).
Definition xneg (x : xnum) : xnum := match x with Fin r => Fin (- r) | PInf => NInf | NInf => PInf | NaN => NaN end.
Definition xadd (x y : xnum) : xnum :=
  match x, y with
  | Fin a, Fin b => Fin (a + b)
  | NaN, _ | _, NaN | PInf, NInf | NInf, PInf => NaN
  | PInf, _ | _, PInf => PInf
  | NInf, _ | _, NInf => NInf
  end.
Definition xabs (x : xnum) : xnum := match x with Fin r => Fin (Rabs r) | NaN => NaN | _ => PInf end.
(** A real times an [xnum]. *)
Definition xscale (c : R) (x : xnum) : xnum :=
  match x with
  | Fin r => Fin (c * r)
  | NaN => NaN
  | _ => if Req_EM_T c 0 then NaN else if Rlt_dec 0 c then x else xneg x
  end.
(** An [xnum] divided by a real that is not negative. *)
Definition xover (x : xnum) (b : R) : xnum := match x with Fin r => xdiv r b | _ => x end.
Definition xsum (l : list xnum) : xnum := fold_left xadd l (Fin 0).
Definition xvalues (l : list (option xnum)) : list xnum := flat_map (fun o => match o with Some v => [v] | None => [] end) l.
(** Elementwise operation on two columns with an [xnum] result. *)
Definition xlift2 (f : R -> R -> xnum) (x y : rcol) : list (option xnum) :=
  map (fun p => match p with (Some a, Some b) => Some (f a b) | _ => None end) (combine x y).
(** [mean] of an [xnum] column: null when there is no value. *)
Definition xmean (l : list (option xnum)) : option xnum :=
  match xvalues l with [] => None | v => Some (xover (xsum v) (INR (length v))) end.
(** [mean] of a real column: null when there is no value. *)
Definition rmean (l : list R) : option R := match l with [] => None | _ => Some (Rsum l / INR (length l)) end.
(** [max]. *)
Definition rmax (l : list R) : option R := match l with [] => None | a :: l' => Some (fold_left Rmax l' a) end.

(** metrics.py 41-56 query_mad with [use_mean = True]. *)
Definition mad_mean (x : rcol) : option R := rmean (values (lift1 Rabs (lift1 (fun v => v - cmean x) x))).

(** metrics.py 59-76 query_r2. *)
Definition sum_res (a p : rcol) : R := let diff := lift2 Rminus a p in dot diff diff.
Definition sum_tot (a : rcol) : R := let diff2 := lift1 (fun v => v - cmean a) a in dot diff2 diff2.
Definition one_minus (x : xnum) : xnum := xadd (Fin 1) (xneg x).
Definition query_r2 (a p : rcol) : xnum := one_minus (xdiv (sum_res a p) (sum_tot a)).

(** metrics.py 79-100 query_adj_r2: [len()] is a u32 that also counts nulls, and [len() - p] wraps around; the final
    quotient of two [xnum]s. *)
Definition xquot (x y : xnum) : xnum :=
  match x, y with
  | Fin a, Fin b => xdiv a b
  | NaN, _ | _, NaN => NaN
  | Fin _, _ => Fin 0
  | _, Fin b => if Rlt_dec b 0 then xneg x else x
  | _, _ => NaN
  end.
Definition u32R (z : Z) : R := IZR (z mod 2 ^ 32).
Definition query_adj_r2 (a p : rcol) (k : Z) : xnum :=
  let n := Z.of_nat (length a) in
  one_minus (xquot (xdiv (sum_res a p) (u32R (n - k))) (xdiv (sum_tot a) (u32R (n - 1)))).

(** metrics.py 103-110 query_log_cosh. *)
Definition query_log_cosh (a p : rcol) (normalize : bool) : xnum :=
  let s := csum (lift1 (fun e => ln (cosh e)) (lift2 Rminus p a)) in
  if normalize then xdiv s (ccount a) else Fin s.
(** metrics.py 113-129 query_hubor_loss. *)
Definition query_hubor_loss (a p : rcol) (delta : R) : xnum :=
  let temp := lift1 Rabs (lift2 Rminus a p) in
  xdiv (csum (lift1 (fun t => if Rle_dec t delta then 0.5 * t ^ 2 else delta * (t - 0.5 * delta)) temp)) (ccount a).
(** metrics.py 132-150 query_l2. *)
Definition query_l2 (a p : rcol) (normalize : bool) : xnum :=
  let s := let diff := lift2 Rminus a p in dot diff diff in
  if normalize then xdiv s (ccount a) else Fin s.
(** metrics.py 153-170 query_l1. *)
Definition query_l1 (a p : rcol) (normalize : bool) : xnum :=
  let s := csum (lift1 Rabs (lift2 Rminus a p)) in
  if normalize then xdiv s (ccount a) else Fin s.
(** metrics.py 173-186 query_l_inf. *)
Definition query_l_inf (a p : rcol) : option R := rmax (values (lift1 Rabs (lift2 Rminus a p))).
(** metrics.py 325-342 query_msle (values above -1, so that log1p is finite). *)
Definition query_msle (a p : rcol) (normalize : bool) : xnum :=
  let log1p := lift1 (fun v => ln (1 + v)) in
  let s := let diff := lift2 Rminus (log1p a) (log1p p) in dot diff diff in
  if normalize then xdiv s (ccount a) else Fin s.

(** src/num_ext/float_extras.rs 23-29 xlogy and its logarithm. *)
Definition xln (y : R) : xnum := if Rlt_dec 0 y then Fin (ln y) else if Req_EM_T y 0 then NInf else NaN.
Definition xlogy (x y : R) : xnum := if Req_EM_T x 0 then Fin 0 else xscale x (xln y).
(** metrics.py 189-217 query_log_loss ([mean] of no value is null). *)
Definition log_terms (a p : rcol) : list (option xnum) :=
  xlift2 (fun x y => xadd (xlogy x y) (xlogy (1 - x) (1 - y))) a p.
Definition query_log_loss (a p : rcol) (normalize : bool) : option xnum :=
  if normalize then option_map xneg (xmean (log_terms a p)) else Some (xneg (xsum (xvalues (log_terms a p)))).

(** metrics.py 220-241 query_mape. *)
Definition query_mape (a p : rcol) (weighted : bool) : option xnum :=
  if weighted then Some (xdiv (csum (lift1 Rabs (lift2 Rminus a p))) (csum (lift1 Rabs a)))
  else xmean (xlift2 (fun x y => xabs (xadd (Fin 1) (xneg (xdiv y x)))) a p).
(** metrics.py 244-263 query_smape. *)
Definition query_smape (a p : rcol) : xnum :=
  xover (xsum (xvalues (xlift2 (fun x y => xdiv (Rabs (x - y)) (Rabs x + Rabs y)) a p))) (ccount a).

(** metrics.py 266-322 query_mase with [use_mean = True]; [diff(n)]: the first n rows are null.  [None]: null. *)
Definition shift_by (n : nat) (x : rcol) : rcol := firstn (length x) (repeat None n ++ x).
Definition diff_n (n : nat) (x : rcol) : rcol := lift2 Rminus x (shift_by n x).
Inductive train_arg := Precomputed (loss : R) | Train (col : rcol).
Definition query_mase (a p : rcol) (train : train_arg) (freq : nat) : option (option xnum) :=
  if (freq <? 1)%nat then None (* ValueError *)
  else Some (let numerator := rmean (values (lift1 Rabs (lift2 Rminus a p))) in
             let denom := match train with
                          | Precomputed l => Some l
                          | Train t => rmean (values (lift1 Rabs (diff_n freq t)))
                          end in
             match numerator, denom with Some n, Some d => Some (xdiv n d) | _, _ => None end).

(** metrics.py 560-587 query_cat_cross_entropy with [dense = True]: [p.list.get(a)] (out of bounds: error). *)
Fixpoint get_all (p : list (list R)) (a : list nat) : option (list R) :=
  match p, a with
  | q :: p', i :: a' => match nth_error q i, get_all p' a' with Some v, Some l => Some (v :: l) | _, _ => None end
  | _, _ => Some []
  end.
Definition query_cat_cross_entropy (a : list nat) (p : list (list R)) (normalize : bool) : option xnum :=
  option_map (fun y_prob =>
    let s := xneg (xsum (map xln y_prob)) in
    if normalize then xover s (INR (length a)) else s) (get_all p a).

(** Filter by a boolean column; a null condition keeps nothing, and so does its negation. *)
Definition cfilter {A} (x : list A) (c : list (option bool)) : list A :=
  map fst (filter (fun r => match snd r with Some b => b | None => false end) (combine x c)).
Definition cnot (c : list (option bool)) : list (option bool) := map (option_map negb) c.
Definition fmean (x : rcol) : option R := rmean (values x).
(** metrics.py 619-635 query_fairness. *)
Definition query_fairness (p : rcol) (c : list (option bool)) : option R :=
  match fmean (cfilter p c), fmean (cfilter p (cnot c)) with Some u, Some v => Some (Rabs (u - v)) | _, _ => None end.
(** metrics.py 638-658 query_p_pct_score: [min_horizontal(ratio, 1 / ratio)].  The minimum with a NaN is left open
    ([NaN] here stands for either); [1 / inf = 0]. *)
Definition xmin (x y : xnum) : xnum :=
  match x, y with
  | NaN, _ | _, NaN => NaN
  | NInf, _ | _, NInf => NInf
  | PInf, z | z, PInf => z
  | Fin a, Fin b => Fin (Rmin a b)
  end.
Definition query_p_pct_score (p : rcol) (c : list (option bool)) : option xnum :=
  match fmean (cfilter p c), fmean (cfilter p (cnot c)) with
  | Some u, Some v => let ratio := xdiv u v in Some (xmin ratio (xquot (Fin 1) ratio))
  | _, _ => None
  end.
