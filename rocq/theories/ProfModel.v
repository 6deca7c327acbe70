(** Model of python/polars_ds/eda/diagnosis.py: DIA.special_values_report (102-120), the histogram and the outliers of
    DIA.numeric_profile (122-236) and DIA.null_corr (342-398).  Arithmetic is exact; a float column is a list of optional [xnum]. *)
From Coq Require Import String Bool List Arith ZArith Reals.
From Verif Require Import WStatsSpec MetricSpec DiaModel DepModel.
Import ListNotations.
Open Scope nat_scope.
Open Scope list_scope.

Definition count {A} (p : A -> bool) (l : list A) : nat := length (filter p l).
Definition isnan (o : option xnum) : bool := match o with Some NaN => true | _ => false end.
Definition isinf (o : option xnum) : bool := match o with Some PInf | Some NInf => true | _ => false end.
(** diagnosis.py 102-120: null_count, NaN_count, inf_count. *)
Definition special_values (c : list (option xnum)) : nat * nat * nat := (count is_null c, count isnan c, count isinf c).

(** diagnosis.py 144-146: [cuts = [i / n_bins for i in range(n_bins)]; cuts[0] -= 1e-5; cuts[-1] += 1e-5]. *)
Definition eps5 : R := (1 / 100000)%R.
Definition cuts (n : nat) : list R :=
  map (fun i => (INR i / INR n - (if Nat.eqb i 0 then eps5 else 0) + (if Nat.eqb (S i) n then eps5 else 0))%R) (seq 0 n).
(** min() and max() of a float column: nulls and NaN are ignored. *)
Definition xleb (a b : xnum) : bool :=
  match a, b with
  | NInf, _ => true | _, PInf => true
  | Fin x, Fin y => if Rle_dec x y then true else false
  | _, _ => false
  end.
Definition ordered (c : list (option xnum)) : list xnum := flat_map (fun o => match o with Some NaN => [] | Some x => [x] | None => [] end) c.
Definition xmin (l : list xnum) : xnum := match l with [] => NaN | x :: r => fold_left (fun a b => if xleb a b then a else b) r x end.
Definition xmax (l : list xnum) : xnum := match l with [] => NaN | x :: r => fold_left (fun a b => if xleb a b then b else a) r x end.
(** [(x - min) / (max - min)] for a finite x: 0/0 is NaN, and so is infinity / infinity. *)
Definition scaled (lo hi : xnum) (x : R) : xnum :=
  match lo, hi with
  | Fin a, Fin b => if Req_EM_T a b then NaN else Fin ((x - a) / (b - a))
  | Fin a, PInf => Fin 0
  | _, _ => NaN
  end.
(** cut(left_closed=True): the bin is the number of breaks up to the value; NaN has no bin. *)
Definition bin (breaks : list R) (v : xnum) : option nat :=
  match v with Fin x => Some (count (fun c => if Rle_dec c x then true else false) breaks) | _ => None end.
Definition finites (c : list (option xnum)) : list R := flat_map (fun o => match o with Some (Fin x) => [x] | _ => [] end) c.
Definition obin_eqb (a b : option nat) : bool := match a, b with Some x, Some y => Nat.eqb x y | None, None => true | _, _ => false end.
(** diagnosis.py 175-186: value_counts only has the bins that occur; sorted by bin, null first. [None]: IndexError. *)
Definition histogram (n : nat) (c : list (option xnum)) : option (list nat) :=
  if Nat.eqb n 0 then None
  else
    let bins := map (fun x => bin (cuts n) (scaled (xmin (ordered c)) (xmax (ordered c)) x)) (finites c) in
    Some (filter (fun k => Nat.ltb 0 k) (map (fun b => count (obin_eqb b) bins) (None :: map Some (seq 0 (S n))))).
(** diagnosis.py 164-173: outlier_cnt of a column of numbers.  [k1], [k3]: the ranks which polars' quantile takes for 0.25 and 0.75
    of so many values (they differ between polars versions); [sort] is the sort inside quantile. *)
Definition present (c : list (option R)) : list R := flat_map (fun o => match o with Some x => [x] | None => [] end) c.
Definition outlier_cnt (sort : list R -> list R) (k1 k3 : nat -> nat) (m : R) (c : list (option R)) : nat :=
  let s := sort (present c) in
  let q1 := nth (k1 (length s)) s 0%R in let q3 := nth (k3 (length s)) s 0%R in
  count (fun o => match o with
    | Some x => (if Rlt_dec x (q1 - m * (q3 - q1)) then true else false) || (if Rlt_dec (q3 + m * (q3 - q1)) x then true else false)
    | None => false end) c.

(** ** null_corr.  pl.corr: Pearson correlation of two columns of numbers. *)
Definition mean (l : list R) : R := (Rsum l / INR (length l))%R.
Definition pearson (xs ys : list R) : R :=
  let mx := mean xs in let my := mean ys in
  (Rsum (map (fun p => (fst p - mx) * (snd p - my)) (combine xs ys)) /
   (sqrt (Rsum (map (fun x => (x - mx) * (x - mx)) xs)) * sqrt (Rsum (map (fun y => (y - my) * (y - my)) ys))))%R.
Section Null.
Context {V : Type}.
Definition null_ind (c : column V) : list R := map (fun o => if is_null o then 1%R else 0%R) (vals c).
(** diagnosis.py 369-374: a column without nulls, or with nulls only. *)
Definition invalid (c : column V) : bool := Nat.eqb (null_count c) 0 || Nat.eqb (null_count c) (length (vals c)).
(** diagnosis.py 376-398; [sort] by decreasing absolute value. *)
Definition null_corr (sort : list (string * string * R) -> list (string * string * R)) (f : frame V) : list (string * string * R) :=
  let ps := filter (fun p => negb (invalid (fst p) || invalid (snd p))) (pairs f) in
  if Nat.eqb (length ps) 0 then []
  else sort (map (fun p => (name (fst p), name (snd p), pearson (null_ind (fst p)) (null_ind (snd p)))) ps).
End Null.
