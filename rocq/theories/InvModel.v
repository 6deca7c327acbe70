(** The inverse of the incomplete beta function and Student's quantile, over the real numbers: src/stats_utils/beta.rs
    158-394.  [I] is the incomplete beta function the code calls ([beta_reg] of BetaModel.v).  The three nested loops of the
    code have no bound; here each takes a number of rounds and answers [Running] when it needs more. *)
From Coq Require Import Reals ZArith QArith Qreals.
From Verif Require Import MetricSpec GamModel TtestModel.
Local Open Scope R_scope.

Inductive run (A : Type) := Done (v : A) | Running | Panicked.
Arguments Done {A}. Arguments Running {A}. Arguments Panicked {A}.

(** beta.rs:164-170, for positive arguments *)
Definition ln_beta (a b : R) : R := ln_gamma a + ln_gamma b - ln_gamma (a + b).

(** beta.rs:263-295  the first guess, kept between 0.0001 and 0.9999; [a], [b], [x] after the exchange.  The radicand
    [h + r] is positive for a, b > 1 (h > 1, r >= -1/2). *)
Definition hastings (x : R) : R :=
  let p := sqrt (- ln (x * x)) in
  p - (Q2R 2.30753 + Q2R 0.27061 * p) / (1 + (Q2R 0.99229 + Q2R 0.04481 * p) * p).
(** beta.rs:282-292, the other branch of the test at 266 *)
Definition other_guess (a b x lnb q : R) : R :=
  let t := 1 / (9 * b) in
  let t := 2 * b * (1 - t + q * sqrt t) ^ 3 in
  if Rle_dec t 0 then 1 - exp ((ln ((1 - x) * b) + lnb) / b)
  else let t := 2 * (2 * a + b - 1) / t in
       if Rle_dec t 1 then exp ((ln (x * a) + lnb) / a) else 1 - 2 / (t + 1).
(** beta.rs:263-293 *)
Definition guess (a b x lnb : R) : R :=
  let q := hastings x in
  if andb (if Rlt_dec 1 a then true else false) (if Rlt_dec 1 b then true else false) then
    let r := (q * q - 3) / 6 in
    let s := 1 / (2 * a - 1) in
    let t := 1 / (2 * b - 1) in
    let h := 2 / (s + t) in
    let w := q * sqrt (h + r) / h - (t - s) * (r + 5 / 6 - 2 / (3 * h)) in
    a / (a + b * exp (2 * w))
  else other_guess a b x lnb q.
(** beta.rs:295 *)
Definition clamp (p : R) : R := Rmax (1 / 10000) (Rmin (9999 / 10000) p).

(** beta.rs:299-300  10^e with e the truncation of -5/a/a - 1/x^0.2 - 13, at least 10^-30 *)
Definition acu (a x : R) : R :=
  let k := Int_part (5 / a / a + 1 / Rpower x (1 / 5) + 13) in
  if (k <? 30)%Z then / 10 ^ Z.to_nat k else / 10 ^ 30.

(** beta.rs:323-334  the innermost loop: the step is cut to a third until it is short enough and stays in [0, 1] *)
Fixpoint cut (fuel : nat) (p q prev g : R) : option (R * R) :=
  match fuel with
  | O => None
  | S f =>
      let adj := g * q in
      if Rlt_dec (adj * adj) prev then
        if Rle_dec 0 (p - adj) then if Rle_dec (p - adj) 1 then Some (p - adj, g) else cut f p q prev (g / 3)
        else cut f p q prev (g / 3)
      else cut f p q prev (g / 3)
  end.
(** beta.rs:321-346  the loop around it: a step onto 0 or 1 is cut further, unless the search is over *)
Fixpoint move (fuel n : nat) (p q prev tol g : R) : option (bool * R * R) :=
  match fuel with
  | O => None
  | S f =>
      match cut n p q prev g with
      | None => None
      | Some (pn, g') =>
          if Rle_dec prev tol then Some (true, pn, g')
          else if Rle_dec (q * q) tol then Some (true, pn, g')
          else if Req_EM_T pn 0 then move f n p q prev tol (g' / 3)
          else if Req_EM_T pn 1 then move f n p q prev tol (g' / 3)
          else Some (false, pn, g')
      end
  end.

Section I.
Variable I : R -> R -> R -> R.
(** beta.rs:311  the Newton quotient at p *)
Definition slope_inv (a b lnb p : R) : R := exp (lnb + (1 - a) * ln p + (1 - b) * ln (1 - p)).
(** beta.rs:307-354  the outer loop *)
Fixpoint newton (fuel n : nat) (a b x lnb tol p qprev sq prev : R) : run R :=
  match fuel with
  | O => Running
  | S f =>
      match checked_beta_reg I a b p with
      | Ok v =>
          let q := (v - x) * slope_inv a b lnb p in
          let prev := if Rle_dec (q * qprev) 0 then if Rlt_dec (/ 10 ^ 30) sq then sq else / 10 ^ 30 else prev in
          match move n n p q prev tol 1 with
          | None => Running
          | Some (true, pn, _) => Done pn
          | Some (false, pn, g) =>
              if Req_EM_T pn p then Done p
              else newton f n a b x lnb tol pn q (g * q * (g * q)) prev
          end
      | _ => Panicked
      end
  end.
(** beta.rs:201-361 *)
Definition inv_beta_reg (fuel n : nat) (a b x : R) : run R :=
  let lnb := ln_beta a b in
  let solve a b x := newton fuel n a b x lnb (acu a x) (clamp (guess a b x lnb)) 0 1 1 in
  if Req_EM_T x 0 then Done 0
  else if Req_EM_T x 1 then Done 1
  else if Rlt_dec (1 / 2) x then match solve b a (1 - x) with Done p => Done (1 - p) | r => r end
  else solve a b x.
(** beta.rs:365-377; the quotient by 0 is infinite *)
Definition student_t_ppf (fuel n : nat) (x df : R) : run xnum :=
  if Rlt_dec x 0 then Panicked
  else if Rlt_dec 1 x then Panicked
  else
    let x1 := if Rle_dec (1 / 2) x then 1 - x else x in
    match inv_beta_reg fuel n (1 / 2 * df) (1 / 2) (2 * x1) with
    | Done y =>
        if Req_EM_T y 0 then Done (if Rle_dec (1 / 2) x then PInf else NInf)
        else let t := sqrt (df * (1 - y) / y) in Done (Fin (if Rle_dec (1 / 2) x then t else - t))
    | Running => Running
    | Panicked => Panicked
    end.
End I.
