(** Model of winsorize: python/polars_ds/exprs/stats.py 337-366, with polars' [quantile] and [clip] on the known values, over
    exact reals. *)
From Coq Require Import Reals List ZArith.
From Flocq Require Import Core.Raux.
From Verif Require Import WStatsSpec WStatsModel.
Import ListNotations.
Open Scope R_scope.

Inductive qmethod := Nearest | Higher | Lower | Midpoint | Linear.
Definition at_ (s : list R) (k : Z) : R := nth (Z.to_nat k) s 0.
(** Position (n-1) q in the sorted values; [f64::round] rounds half away from zero. *)
Definition position (n : nat) (q : R) : R := (INR n - 1) * q.
Definition quantile (l : list R) (q : R) (m : qmethod) : option R :=
  match l with
  | [] => None
  | _ =>
    let s := sort_R l in
    let r := position (length l) q in
    let lo := at_ s (Zfloor r) in
    let hi := at_ s (Zceil r) in
    Some match m with
         | Nearest => at_ s (Zfloor (r + / 2))
         | Lower => lo
         | Higher => hi
         | Midpoint => (lo + hi) / 2
         | Linear => lo + (r - IZR (Zfloor r)) * (hi - lo)
         end
  end.
Definition clip (lo hi v : R) : R := if Rlt_dec v lo then lo else if Rlt_dec hi v then hi else v.
(** stats.py 337-366; [None]: ValueError. A column without values stays as it is. *)
Definition winsorize (x : rcol) (q_low q_high : R) (m : qmethod) : option rcol :=
  if Rle_dec q_low 0 then None else if Rle_dec 1 q_low then None else if Rle_dec q_high 0 then None
  else if Rle_dec 1 q_high then None else if Rle_dec q_high q_low then None
  else Some match quantile (values x) q_low m, quantile (values x) q_high m with
            | Some lo, Some hi => lift1 (clip lo hi) x
            | _, _ => x
            end.
