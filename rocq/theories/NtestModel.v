(** Model of normal_test: python/polars_ds/exprs/stats.py 457-484, src/stats/normal_test.rs, src/stats_utils/gamma.rs 32-44,
    over exact reals. Divisions, roots and logarithms are checked: [None] where floats would give NaN or an infinity. *)
From Coq Require Import Reals List Bool Arith.
From Verif Require Import WStatsSpec MetricSpec TtestModel.
Import ListNotations.
Open Scope R_scope.

Definition bind {A B} (o : option A) (k : A -> option B) : option B := match o with Some a => k a | None => None end.
Notation "'let?' x ':=' e 'in' k" := (bind e (fun x => k)) (at level 200, x name, e at level 100, k at level 200).
Definition cdiv (a b : R) : option R := if Req_EM_T b 0 then None else Some (a / b).
Definition csqrt (a : R) : option R := if Rlt_dec a 0 then None else Some (sqrt a).
Definition cln (a : R) : option R := if Rlt_dec 0 a then Some (ln a) else None.
(** f64::cbrt on a number that is not negative. *)
Definition cbrt (a : R) : R := if Req_EM_T a 0 then 0 else Rpower a (/ 3).

(** normal_test.rs 15-27 skew_test_statistic *)
Definition skew_stat (skew n : R) : option R :=
  let? q := cdiv ((n + 1) * (n + 3)) (6 * (n - 2)) in
  let? r := csqrt q in
  let y := skew * r in
  let? beta2 := cdiv (3 * (n ^ 2 + 27 * n - 70) * (n + 1) * (n + 3)) ((n - 2) * (n + 5) * (n + 7) * (n + 9)) in
  let? s := csqrt (2 * (beta2 - 1)) in
  let w2 := s - 1 in
  let? a2 := cdiv 2 (w2 - 1) in
  let? alpha := csqrt a2 in
  let? tmp := cdiv y alpha in
  let? t := csqrt (tmp ^ 2 + 1) in
  let? num := cln (tmp + t) in
  let? lw := cln w2 in
  let? den := csqrt (lw * / 2) in
  cdiv num den.
(** normal_test.rs 29-52 kurtosis_test_statistic; NaN where the code returns NaN by itself. *)
Definition kurtosis_stat (kur n : R) : option xnum :=
  let? e := cdiv (3 * (n - 1)) (n + 1) in
  let? var := cdiv (24 * n * (n - 2) * (n - 3)) ((n + 1) ^ 2 * (n + 3) * (n + 5)) in
  let? sd := csqrt var in
  let? x := cdiv (kur - e) sd in
  let? root_beta_1 := cdiv (6 * (n ^ 2 - 5 * n + 2)) ((n + 7) * (n + 9)) in
  let? q := cdiv (6 * (n + 3) * (n + 5)) (n * (n - 2) * (n - 3)) in
  let? root_beta_2 := csqrt q in
  let root_beta := root_beta_1 * root_beta_2 in
  let? u8 := cdiv 8 root_beta in
  let? u2 := cdiv 2 root_beta in
  let? u4 := cdiv 4 (root_beta ^ 2) in
  let? v := csqrt (1 + u4) in
  let a := 6 + u8 * (u2 + v) in
  let? tmp := cdiv 2 (9 * a) in
  let? a4 := cdiv 2 (a - 4) in
  let? r := csqrt a4 in
  let denom := 1 + x * r in
  if Req_EM_T denom 0 then Some NaN
  else
    let term1 := 1 - tmp in
    let? p := cdiv 2 a in
    let? t := cdiv (1 - p) (Rabs denom) in
    if Rlt_dec t 0 then None
    else
      let term2 := cbrt t in
      let? st := csqrt tmp in
      let? z := cdiv (term1 - term2) st in
      Some (Fin z).

Section G.
(** Upper regularized incomplete gamma function, computed in gamma.rs 165-235 by a continued fraction: an oracle. *)
Variable gamma_ur : R -> R -> R.
(** gamma.rs 32-44 for finite arguments. *)
Definition gamma_sf (x shape rate : R) : R := if Rle_dec x 0 then 1 else gamma_ur shape (x * rate).
(** normal_test.rs 54-81 pl_normal_test; undefined operations end in NaN. *)
Definition normal_test_rs (skew kur : option xnum) (n : nat) : res (xnum * xnum) :=
  match skew, kur with
  | None, _ | _, None => Panic
  | Some skew, Some kur =>
      if Nat.ltb n 20 then Err
      else match skew, kur with
           | Fin s, Fin k => match skew_stat s (INR n), kurtosis_stat k (INR n) with
                             | Some a, Some (Fin b) => let k2 := a * a + b * b in Ok (Fin k2, Fin (gamma_sf k2 1 (1 / 2)))
                             | _, _ => Ok (NaN, NaN)
                             end
           | _, _ => Ok (NaN, NaN)
           end
  end.
(** polars skew and kurtosis(fisher=False), biased: null without values, NaN when the variance is zero (polars compares it
    with a tiny multiple of the squared mean; here with zero). *)
Definition moment (k : nat) (l : list R) : R := Rsum (map (fun a => (a - mean_of l) ^ k) l) / INR (length l).
Definition pl_skew (l : list R) : option xnum :=
  match l with [] => None | _ => Some (if Req_EM_T (moment 2 l) 0 then NaN else Fin (moment 3 l / (moment 2 l * sqrt (moment 2 l)))) end.
Definition pl_kurtosis (l : list R) : option xnum :=
  match l with [] => None | _ => Some (if Req_EM_T (moment 2 l) 0 then NaN else Fin (moment 4 l / (moment 2 l) ^ 2)) end.
Definition finite_of (y : list (option xnum)) : list R := flat_map (fun v => match v with Some (Fin r) => [r] | _ => [] end) y.
(** stats.py 457-484 *)
Definition normal_test (y : list (option xnum)) : res (xnum * xnum) :=
  let valid := finite_of y in normal_test_rs (pl_skew valid) (pl_kurtosis valid) (length valid).
End G.
