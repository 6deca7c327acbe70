(** Model of the n-gram set similarities of src/str_ext: [str_set_sim_helper] (mod.rs),
    str_jaccard.rs, sorensen_dice.rs, overlap.rs, tversky.rs.  Strings are their UTF-8 bytes.
    Simplification: the final division is exact (reals) instead of f64; a zero divisor, for which
    the code computes 0.0 / 0.0, is kept as [NaN]. *)
From Coq Require Import Bool List Arith Reals.
From Verif Require Import StrSetSpec.
Import ListNotations.

Inductive outcome := Panics | NaN | Val (r : R).

(** [slice::windows(n)] for n >= 1: every start position with n bytes left. *)
Definition windows (n : nat) (w : bytes) : list bytes :=
  map (fun i => firstn n (skipn i w)) (seq 0 (length w + 1 - n)).

(** [HashSet::from_iter]: duplicates dropped. *)
Definition hashset (l : list bytes) : list bytes := nodup (list_eq_dec Nat.eq_dec) l.

(** mod.rs:34-46: the set of one word; [None] = [windows(0)] panics. *)
Definition gram_set (w : bytes) (ngram : nat) : option (list bytes) :=
  if length w <? ngram then Some (hashset [w])
  else if ngram =? 0 then None
  else Some (hashset (windows ngram w)).

(** mod.rs:22-51  str_set_sim_helper: (size of set 1, size of set 2, size of the intersection). *)
Definition str_set_sim_helper (w1 w2 : bytes) (ngram : nat) : option (nat * nat * nat) :=
  if (length w1 =? 0) || (length w2 =? 0) then Some (0, 0, 0)
  else match gram_set w1 ngram, gram_set w2 ngram with
       | Some s1, Some s2 =>
           let intersection :=
             filter (fun g => if in_dec (list_eq_dec Nat.eq_dec) g s2 then true else false) s1 in
           Some (length s1, length s2, length intersection)
       | _, _ => None
       end.

(** f64 division with numerator >= 0: 0/0 is NaN.  (A positive numerator over zero, i.e. infinity,
    cannot occur in the four similarities when alpha, beta >= 0.) *)
Definition fdiv (a b : R) : outcome := if Req_EM_T b 0 then NaN else Val (a / b).

(** str_jaccard.rs:16-20 *)
Definition str_jaccard (w1 w2 : bytes) (ngram : nat) : outcome :=
  match str_set_sim_helper w1 w2 ngram with
  | None => Panics
  | Some (s1, s2, i) => fdiv (INR i) (INR (s1 + s2 - i))
  end.

(** sorensen_dice.rs:15-19 *)
Definition sorensen_dice (w1 w2 : bytes) (ngram : nat) : outcome :=
  match str_set_sim_helper w1 w2 ngram with
  | None => Panics
  | Some (s1, s2, i) => fdiv (INR (2 * i)) (INR (s1 + s2))
  end.

(** overlap.rs:15-19 *)
Definition overlap_coeff (w1 w2 : bytes) (ngram : nat) : outcome :=
  match str_set_sim_helper w1 w2 ngram with
  | None => Panics
  | Some (s1, s2, i) => fdiv (INR i) (INR (Nat.min s1 s2))
  end.

(** [usize::abs_diff] *)
Definition abs_diff (a b : nat) : nat := (a - b) + (b - a).

(** tversky.rs:16-22 *)
Definition tversky_sim (w1 w2 : bytes) (ngram : nat) (alpha beta : R) : outcome :=
  match str_set_sim_helper w1 w2 ngram with
  | None => Panics
  | Some (s1, s2, i) =>
      let s1ms2 := INR (abs_diff s1 i) in
      let s2ms1 := INR (abs_diff s2 i) in
      fdiv (INR i) (INR i + alpha * s1ms2 + beta * s2ms1)
  end.
