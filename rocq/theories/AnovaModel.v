(** Model of src/stats/fstats.rs (F-test) and src/stats/chi2.rs (chi-squared test).
    Simplifications: exact rational arithmetic instead of f64; the p-values (incomplete beta and
    gamma functions) are not modelled.  [None] as a number: NaN or infinity (division by zero). *)
From Coq Require Import Bool List ZArith QArith Qabs.
From Verif Require Import PairSums QSum.
Import ListNotations.
Open Scope Q_scope.

Definition key_eqb (a b : option Z) : bool :=
  match a, b with Some x, Some y => (x =? y)%Z | None, None => true | _, _ => false end.
(** IEEE division as seen by an exact model: no value when the divisor is zero. *)
Definition qdiv (a b : Q) : option Q := if Qeq_bool b 0 then None else Some (a / b).
(** Sum of a column of such numbers: NaN/inf absorbs. *)
Definition osum (l : list (option Q)) : option Q :=
  fold_right (fun x acc => match x, acc with Some a, Some b => Some (a + b) | _, _ => None end) (Some 0) l.

(** ** F-test *)
Definition nonnull (l : list (option Q)) : list Q := flat_map (fun o => match o with Some x => [x] | None => [] end) l.
(** [col(i).var(0)] : population variance of the non-null values (null, skipped by [dot], when there is none). *)
Definition var0 (l : list Q) : Q :=
  match l with [] => 0 | _ => qsum (fun x => (x - qmean l) * (x - qmean l)) l / qlen l end.

Section GroupBy.
(** [uniq]: the distinct keys, in any order (Polars' hash-based [group_by] / [unique]). *)
Variable uniq : list (option Z) -> list (option Z).

(** fstats.rs:47-50 [df.group_by([col("0")]).agg(...)]: the values of the rows with key [g]. *)
Definition group_values (rows : list (option Z * option Q)) (g : option Z) : list (option Q) :=
  map snd (filter (fun r => key_eqb (fst r) g) rows).

(** fstats.rs:14-92  pl_f_test, one variable.  Outer [None]: ComputeError. *)
Definition f_test (keys : list (option Z)) (vals : list (option Q)) : option (option Q) :=
  let rows := combine keys vals in
  let groups := uniq (map fst rows) in
  let cnt g := qlen (group_values rows g) in
  let sum g := qsum (fun x => x) (nonnull (group_values rows g)) in
  let var g := var0 (nonnull (group_values rows g)) in
  let n_samples := qsum cnt groups in
  let n_classes := zlen (filter (fun g => match g with Some _ => true | None => false end) groups) in
  if (n_classes <=? 1)%Z || Qle_bool n_samples 1 then None
  else
    let total := qsum sum groups in
    let p1 := qsum (fun g => (sum g / cnt g - total / n_samples) * (sum g / cnt g - total / n_samples) * cnt g) groups in
    let p2 := qsum (fun g => var g * cnt g) groups in
    let df_btw := inject_Z (Z.abs (n_classes - 1)) in
    let df_in := Qabs (n_samples - inject_Z n_classes) in
    Some (option_map (fun q => q * (df_in / df_btw)) (qdiv p1 p2)).

(** ** Chi-squared test *)
Definition u64 (z : Z) : Z := z mod 2 ^ 64.

(** chi2.rs:17-57  _chi2_helper: one record (s1, s2, ob, ex) per cell of the cross join.
    Polars' left join never matches a null key, so such a cell has ob = 0 (fill_null). *)
Definition observed (rows : list (option Z * option Z)) (c : option Z * option Z) : Z :=
  match c with
  | (Some _, Some _) => zlen (filter (fun r => key_eqb (fst r) (fst c) && key_eqb (snd r) (snd c)) rows)
  | _ => 0
  end.
Definition chi2_frame (xs ys : list (option Z)) : list (option Z * option Z * Z * option Q) :=
  let rows := combine xs ys in
  let cells := list_prod (uniq xs) (uniq ys) in
  let ob := observed rows in
  let total := u64 (zsum ob cells) in
  map (fun c =>
         let over2 := u64 (zsum ob (filter (fun c' => key_eqb (snd c') (snd c)) cells)) in
         let over1 := u64 (zsum ob (filter (fun c' => key_eqb (fst c') (fst c)) cells)) in
         (c, ob c, qdiv (inject_Z (u64 (over2 * over1))) (inject_Z total))) cells.
(** chi2.rs:72-91  pl_chi2: statistic and degrees of freedom. *)
Definition chi2_term (r : option Z * option Z * Z * option Q) : option Q :=
  let '(_, ob, ex) := r in
  match ex with
  | None => None
  | Some e => qdiv ((inject_Z ob - e) * (inject_Z ob - e)) e
  end.
Definition abs_diff1 (n : nat) : nat := if (n <=? 1)%nat then (1 - n)%nat else (n - 1)%nat.
Definition chi2 (xs ys : list (option Z)) : option Q * nat :=
  (osum (map chi2_term (chi2_frame xs ys)), (abs_diff1 (length (uniq xs)) * abs_diff1 (length (uniq ys)))%nat).
End GroupBy.
