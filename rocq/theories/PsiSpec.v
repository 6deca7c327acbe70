(** Specification of the population stability index: right-closed bins, shares and contributions. *)
From Coq Require Import Bool List ZArith Reals.
From Verif Require Import PairSums PsiModel.
Import ListNotations.
Open Scope Z_scope.

Section S.
Context {K : Type} (leb : K -> K -> bool).
(** [b_0 < b_1 < ...]. *)
Definition ascending (bp : list K) : Prop :=
  forall i j a b, (i < j)%nat -> nth_error bp i = Some a -> nth_error bp j = Some b -> leb a b = true /\ leb b a = false.
(** [x] is in bin [j]: at most the [j]-th breakpoint and above all earlier ones. *)
Definition in_bin (bp : list K) (j : nat) (x : K) : bool :=
  match nth_error bp j with
  | Some b => leb x b && forallb (fun a => negb (leb x a)) (firstn j bp)
  | None => false
  end.
(** Number of values in bin [j]. *)
Definition bin_count (bp : list K) (s : list K) (j : nat) : Z := zlen (filter (in_bin bp j) s).
End S.

(** Share of [c] rows out of [n], never below 0.0001; contribution of a bin. *)
Definition share (c n : Z) : R := Rmax (IZR c / IZR n) (1 / 10000).
Definition contribution (base new : R) : R := ((base - new) * ln (base / new))%R.

Section Report.
Context {K : Type} (leb : K -> K -> bool).
(** What a report over the breakpoints [bp] must contain. *)
Definition report_rows (bp base new : list K) (rep : list (psi_row K)) : Prop :=
  length rep = length bp /\
  forall j row, nth_error rep j = Some row ->
    let b := share (bin_count leb bp base j) (zlen base) in
    let a := share (bin_count leb bp new j) (zlen new) in
    nth_error bp j = Some (p_brk row) /\ p_base row = Some b /\ p_act row = Some a /\ p_psi row = Some (contribution b a).
End Report.
(** A report over categories (null is a category of its own): [cats] are the categories present on either side, each
    once, and every row holds its labels, shares and contribution. *)
Definition category_report {K} (dec : forall a b : option K, {a = b} + {a <> b}) (base new : list (option K)) (rep : list (psi_row (drow (K := K)))) : Prop :=
  exists cats, NoDup cats /\ (forall c, In c cats <-> In c base \/ In c new) /\ length rep = length cats /\
  forall j c row, nth_error cats j = Some c -> nth_error rep j = Some row ->
    let nb := Z.of_nat (count_occ dec base c) in let nn := Z.of_nat (count_occ dec new c) in
    let b := share nb (zlen base) in let a := share nn (zlen new) in
    d_base (p_brk row) = (if nb =? 0 then None else Some c) /\ d_act (p_brk row) = (if nn =? 0 then None else Some c) /\
    p_base row = Some b /\ p_act row = Some a /\ p_psi row = Some (contribution b a).
