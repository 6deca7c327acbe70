(** One-way ANOVA and Pearson's chi-squared statistic by definition. *)
From Coq Require Import Bool List ZArith QArith.
From Verif Require Import PairSums QSum.
Import ListNotations.
Open Scope Q_scope.

(** [uniq] lists every distinct element of its argument once, in some order. *)
Definition uniq_ok {A} (uniq : list A -> list A) : Prop :=
  forall l, NoDup (uniq l) /\ forall x, In x (uniq l) <-> In x l.

Definition distinct (l : list Z) : list Z := nodup Z.eq_dec l.
(** The values of one group. *)
Definition of_group (rows : list (Z * Q)) (g : Z) : list Q :=
  map snd (filter (fun r => (fst r =? g)%Z) rows).

(** Sums of squares between and within the groups. *)
Definition ss_between (rows : list (Z * Q)) : Q :=
  qsum (fun g => qlen (of_group rows g) * ((qmean (of_group rows g) - qmean (map snd rows)) *
                                          (qmean (of_group rows g) - qmean (map snd rows))))
       (distinct (map fst rows)).
Definition ss_within (rows : list (Z * Q)) : Q :=
  qsum (fun r => (snd r - qmean (of_group rows (fst r))) * (snd r - qmean (of_group rows (fst r)))) rows.
Definition n_groups (rows : list (Z * Q)) : Q := qlen (distinct (map fst rows)).
Definition anova_F (rows : list (Z * Q)) : Q :=
  (ss_between rows / (n_groups rows - 1)) / (ss_within rows / (qlen rows - n_groups rows)).

(** Observed and expected frequencies of a contingency table given by its rows. *)
Definition freq (rows : list (Z * Z)) (a b : Z) : Q := qlen (filter (fun r => (fst r =? a)%Z && (snd r =? b)%Z) rows).
Definition freq1 (rows : list (Z * Z)) (a : Z) : Q := qlen (filter (fun r => (fst r =? a)%Z) rows).
Definition freq2 (rows : list (Z * Z)) (b : Z) : Q := qlen (filter (fun r => (snd r =? b)%Z) rows).
Definition expected (rows : list (Z * Z)) (a b : Z) : Q := freq1 rows a * freq2 rows b / qlen rows.
Definition pearson_chi2 (rows : list (Z * Z)) : Q :=
  qsum (fun a => qsum (fun b =>
      (freq rows a b - expected rows a b) * (freq rows a b - expected rows a b) / expected rows a b)
    (distinct (map snd rows))) (distinct (map fst rows)).
