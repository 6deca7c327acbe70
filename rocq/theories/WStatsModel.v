(** Model of the weighted statistics of python/polars_ds/exprs/stats.py 704-1003 in exact real arithmetic.  A column is
    a list of optional reals (None = null).  Polars: arithmetic propagates nulls; sum, mean and dot skip them; count
    counts the values that are not null; a scalar is broadcast. *)
From Coq Require Import Reals List.
From Verif Require Import WStatsSpec.
Import ListNotations.
Open Scope R_scope.

Definition rcol := list (option R).
Definition lift1 (f : R -> R) (x : rcol) : rcol := map (option_map f) x.
Definition lift2 (f : R -> R -> R) (x y : rcol) : rcol :=
  map (fun p => match p with (Some a, Some b) => Some (f a b) | _ => None end) (combine x y).
Definition values (x : rcol) : list R := flat_map (fun o => match o with Some a => [a] | None => [] end) x.
Definition csum (x : rcol) : R := Rsum (values x).
Definition ccount (x : rcol) : R := INR (length (values x)).
Definition cmean (x : rcol) : R := csum x / ccount x.
Definition dot (x y : rcol) : R := csum (lift2 Rmult x y).

(** stats.py 704-714 hmean. *)
Definition hmean (x : rcol) : R := ccount x / csum (lift1 (fun a => 1 / a) x).
(** stats.py 717-738 weighted_hmean: [x.dot(1 / x)]; the weights only enter through their sum. *)
Definition weighted_hmean (x w : rcol) (is_normalized : bool) : R :=
  let d := dot x (lift1 (fun a => 1 / a) x) in
  if is_normalized then 1 / d else 1 / (d / csum w).
(** stats.py 741-750 gmean. *)
Definition gmean (x : rcol) : R := exp (cmean (lift1 ln x)).
(** stats.py 753-772 weighted_gmean. *)
Definition weighted_gmean (x w : rcol) (is_normalized : bool) : R :=
  if is_normalized then exp (dot (lift1 ln x) w) else exp (dot (lift1 ln x) w / csum w).
(** stats.py 775-797 weighted_mean. *)
Definition weighted_mean (x w : rcol) (is_normalized : bool) : R :=
  let out := dot x w in if is_normalized then out else out / csum w.
(** stats.py 800-826 weighted_var. *)
Definition weighted_var (x w : rcol) (freq_weights : bool) : R :=
  let wm := weighted_mean x w false in
  let summand := dot w (lift1 (fun a => (a - wm) ^ 2) x) in
  if freq_weights then summand / (csum w - 1) else summand / csum w.
(** stats.py 829-851 weighted_cov. *)
Definition weighted_cov (x y w : rcol) : R :=
  let wx := weighted_mean x w false in
  let wy := weighted_mean y w false in
  dot w (lift2 Rmult (lift1 (fun a => a - wx) x) (lift1 (fun a => a - wy) y)) / csum w.
(** stats.py 854-879 weighted_corr: [syy] is computed from [xx]. *)
Definition weighted_corr (x y w : rcol) : R :=
  let numerator := weighted_cov x y w in
  let sxx := dot w (lift1 (fun a => (a - weighted_mean x w false) ^ 2) x) in
  let syy := dot w (lift1 (fun a => (a - weighted_mean y w false) ^ 2) x) in
  numerator * csum w / sqrt (sxx * syy).
(** stats.py 882-896 cosine_sim: the product of the two norms is rooted once more. *)
Definition cosine_sim (x y : rcol) : R :=
  let x2 := sqrt (dot x x) in
  let y2 := sqrt (dot y y) in
  dot x y / sqrt (x2 * y2).
(** stats.py 899-924 weighted_cosine_sim. *)
Definition weighted_cosine_sim (x y w : rcol) : R :=
  let wx2 := dot (lift1 (fun a => a ^ 2) x) w in
  let wy2 := dot (lift1 (fun a => a ^ 2) y) w in
  dot (lift2 Rmult w x) y / sqrt (wx2 * wy2).

(** stats.py 949-984 bicor; [median] is Polars' median. *)
Section Bicor.
Variable median : rcol -> R.
Definition biweight (c : R) (x : rcol) : rcol :=
  let med := median x in
  let diff := lift1 (fun a => a - med) x in
  let scale := c * median (lift1 Rabs diff) in
  let u := lift1 (fun d => d / scale) diff in
  let w := lift1 (fun v => (1 - v ^ 2) ^ 2 * (if Rlt_dec 0 (1 - Rabs v) then 1 else 0)) u in
  lift2 Rmult diff w.
Definition bicor (x y : rcol) (c : R) : R :=
  let aa := biweight c x in
  let bb := biweight c y in
  dot aa bb / sqrt (dot aa aa * dot bb bb).
End Bicor.
