(** Model of src/stats_utils/gamma.rs: the logarithm of the gamma function, the regularised incomplete gamma
    functions and the survival function from which [chi2] and [normal_test] take their p-values.

    Simplification: arithmetic is exact (real numbers), [ln], [exp] and [sin] are the real functions, the
    constants E and PI are the real numbers, and a decimal literal is the rational number it writes.  A loop
    without a bound takes a number of rounds it may use ([fuel]); [None] says that it used them all. *)
From Coq Require Import List QArith Reals.
From Verif Require Import NormModel.
Import ListNotations.
Local Open Scope R_scope.

(** src/stats_utils/mod.rs:21-24 *)
Definition PREC_ACC : R := Q2R 0.0000000000000011102230246251565.
Definition LN_PI : R := Q2R 1.1447298858494001741434273513530587116472948129153.
Definition LN_2_SQRT_E_OVER_PI : R := Q2R 0.6207822376352452223455184457816472122518527279025978.

(** gamma.rs:5  GAMMA_R *)
Definition GAMMA_R : R := Q2R 10.900511.

(** gamma.rs:7-19  GAMMA_DK: the first one, and the others *)
Definition GAMMA_D0 : Q := 0.0000248574089138753565546.
Definition GAMMA_DK : list Q :=
  [ 1.05142378581721974210;
    -3.45687097222016235469;
    4.51227709466894823700;
    -2.98285225323576655721;
    1.05639711577126713077;
    -0.195428773191645869583;
    0.0170970543404441224307;
    -0.000571926117404305781283;
    0.00000463399473359905636708;
    -0.00000000271994908488607703910 ]%Q.

(** gamma.rs:53-57, 65-69  the fold over the coefficients after the first; [den k] is the divisor of the
    coefficient with index k *)
Fixpoint dk_sum (den : R -> R) (k : R) (ds : list Q) (s : R) : R :=
  match ds with
  | [] => s
  | d :: ds' => dk_sum den (k + 1) ds' (s + Q2R d / den k)
  end.

(** gamma.rs:51-73  ln_gamma *)
Definition ln_gamma (x : R) : R :=
  if Rlt_dec x (Q2R 0.5) then
    let s := dk_sum (fun k => k - x) 1 GAMMA_DK (Q2R GAMMA_D0) in
    LN_PI - ln (sin (PI * x)) - ln s - LN_2_SQRT_E_OVER_PI
      - (Q2R 0.5 - x) * ln ((Q2R 0.5 - x + GAMMA_R) / exp 1)
  else
    let s := dk_sum (fun k => x + k - 1) 1 GAMMA_DK (Q2R GAMMA_D0) in
    ln s + LN_2_SQRT_E_OVER_PI + (x - Q2R 0.5) * ln ((x - Q2R 0.5 + GAMMA_R) / exp 1).

(** gamma.rs:86-88, 176-178  eps, big, big_inv *)
Definition eps : R := Q2R 0.000000000000001.
Definition big : R := 4503599627370496.
Definition big_inv : R := Q2R 2.22044604925031308085e-16.

(** gamma.rs:104-116  the power series *)
Fixpoint series (fuel : nat) (x r2 c2 ans2 : R) : option R :=
  match fuel with
  | O => None
  | S fuel' =>
      let r2 := r2 + 1 in
      let c2 := c2 * (x / r2) in
      let ans2 := ans2 + c2 in
      if Rle_dec (c2 / ans2) eps then Some ans2 else series fuel' x r2 c2 ans2
  end.

(** gamma.rs:130-160, 198-227  the continued fraction; the two copies in the code do the same *)
Fixpoint fraction (fuel : nat) (y z c p3 q3 p2 q2 ans : R) : option R :=
  match fuel with
  | O => None
  | S fuel' =>
      let y := y + 1 in
      let z := z + 2 in
      let c := c + 1 in
      let yc := y * c in
      let p := p2 * z - p3 * yc in
      let q := q2 * z - q3 * yc in
      let s := if Rlt_dec big (Rabs p) then big_inv else 1 in
      if Req_EM_T q 0 then fraction fuel' y z c (p2 * s) (q2 * s) (p * s) (q * s) ans
      else
        let nextans := p / q in
        let error := Rabs ((ans - nextans) / nextans) in
        if Rle_dec error eps then Some nextans
        else fraction fuel' y z c (p2 * s) (q2 * s) (p * s) (q * s) nextans
  end.

(** a call either gives a value or an error *)
Inductive outcome := Val (v : xr) | Fails.

(** gamma.rs:98, 185 *)
Definition ln_tiny : R := Q2R (-709.78271289338399).

(** gamma.rs:75-162  checked_gamma_lr at finite arguments *)
Definition gamma_lr (fuel : nat) (a x : R) : option outcome :=
  if Rle_dec a 0 then Some Fails
  else if Rle_dec x 0 then Some Fails
  else if Rlt_dec (Rabs a) PREC_ACC then Some (Val (Fin 1))
  else if Rlt_dec (Rabs x) PREC_ACC then Some (Val (Fin 0))
  else
    let ax := a * ln x - x - ln_gamma a in
    if Rlt_dec ax ln_tiny then
      Some (Val (Fin (if Rlt_dec a x then 1 else 0)))
    else if (if Rle_dec x 1 then true else if Rle_dec x a then true else false) then
      match series fuel x a 1 1 with
      | Some ans2 => Some (Val (Fin (exp ax * ans2 / a)))
      | None => None
      end
    else
      let y := 1 - a in
      let z := x + y + 1 in
      match fraction fuel y z 0 1 x (x + 1) (z * x) ((x + 1) / (z * x)) with
      | Some ans => Some (Val (Fin (1 - exp ax * ans)))
      | None => None
      end.

(** gamma.rs:165-229  checked_gamma_ur at finite arguments *)
Definition gamma_ur (fuel : nat) (a x : R) : option outcome :=
  if Rle_dec a 0 then Some Fails
  else if Rle_dec x 0 then Some Fails
  else if (if Rlt_dec x 1 then true else if Rle_dec x a then true else false) then
    match gamma_lr fuel a x with
    | Some (Val (Fin p)) => Some (Val (Fin (1 - p)))
    | other => other
    end
  else
    let ax := a * ln x - x - ln_gamma a in
    if Rlt_dec ax ln_tiny then
      Some (Val (Fin (if Rlt_dec a x then 0 else 1)))
    else
      let y := 1 - a in
      let z := x + y + 1 in
      match fraction fuel y z 0 1 x (x + 1) (z * x) ((x + 1) / (z * x)) with
      | Some ans => Some (Val (Fin (ans * exp ax)))
      | None => None
      end.

(** gamma.rs:32-44  sf, for a finite shape and a finite rate (every caller passes a finite shape and the
    rate 1/2) *)
Definition gamma_sf (fuel : nat) (x : xr) (shape rate : R) : option outcome :=
  match x with
  | NaN => Some (Val NaN)
  | NInf => Some (Val (Fin 1))
  | PInf => Some (Val (Fin 0))
  | Fin x => if Rle_dec x 0 then Some (Val (Fin 1)) else gamma_ur fuel shape (x * rate)
  end.

(** src/stats/chi2.rs:59-69  _chi2_pvalue *)
Definition chi2_pvalue (fuel : nat) (stats : xr) (dof : nat) : option outcome :=
  match stats with
  | NaN => Some (Val NaN)
  | _ => gamma_sf fuel stats (INR dof / 2) (Q2R 0.5)
  end.

(** src/stats/normal_test.rs:76-80  the p-value of [normal_test] *)
Definition k2_pvalue (fuel : nat) (k2 : xr) : option outcome := gamma_sf fuel k2 1 (Q2R 0.5).
