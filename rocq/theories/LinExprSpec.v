(** Specification of the rows a regression expression uses under each null policy. *)
From mathcomp Require Import all_ssreflect all_algebra.
From Verif Require Import LinModel LinSpec.
Set Implicit Arguments.
Unset Strict Implicit.
Import GRing.Theory Num.Theory.
Local Open Scope ring_scope.

Section ExprSpec.
Variable R : realFieldType.
Variable p : nat.

(** The features and the target of a row without nulls. *)
Definition complete_row (r : lrow R p) : option ('rV[R]_p * R) :=
  if [forall j, isSome (feat r 0 j)]
  then omap (fun y => (\row_(j < p) odflt 0 (feat r 0 j), y)) (tgt r)
  else None.

(** The features, nulls replaced by [x], and the target of a row whose target is not null. *)
Definition filled_row (x : R) (r : lrow R p) : option ('rV[R]_p * R) :=
  omap (fun y => (\row_(j < p) odflt x (feat r 0 j), y)) (tgt r).

(** What each policy uses of a row: fill replaces null features, all others use complete rows. *)
Definition used (pol : policy R) (r : lrow R p) : option ('rV[R]_p * R) :=
  match pol with FILL x => filled_row x r | _ => complete_row r end.
Definition used_rows (pol : policy R) (rows : seq (lrow R p)) : seq ('rV[R]_p * R) := pmap (used pol) rows.

Definition no_null (rows : seq (lrow R p)) : bool := all (fun r => isSome (complete_row r)) rows.

(** skip and fill accept any rows, raise and ignore (in a meaningful way) only rows without nulls. *)
Definition accepts (pol : policy R) (rows : seq (lrow R p)) : bool :=
  match pol with
  | SKIP | FILL _ => true
  | RAISE | IGNORE => no_null rows
  | SKIP_WINDOW | FILL_WINDOW _ => false
  end.

(** A row of features with the constant 1 appended when there is a bias. *)
Definition features (b : bool) (x : 'rV[R]_p) : 'rV[R]_(p + b) := row_mx x (const_mx 1).

(** The rows a recursive regression has seen at row [i], and those in the window of [n] rows ending
    at row [i]. *)
Definition seen (pol : policy R) (rows : seq (lrow R p)) (i : nat) := used_rows pol (take i.+1 rows).
Definition window (pol : policy R) (rows : seq (lrow R p)) (n i : nat) :=
  used_rows pol (take n (drop (i.+1 - n) rows)).

(** Several targets: the rows for target [t] alone, and the rows that are accepted: no null target, and
    no null feature unless they are filled. *)
Definition one_target k (t : 'I_k) (r : mrow R k p) : lrow R p := @LRow R p (mtgt r 0 t) (mfeat r).
Definition multi_accepts k (pol : policy R) (rows : seq (mrow R k p)) : bool :=
  all (fun r => [forall t, isSome (mtgt r 0 t)]) rows &&
  (all (fun r => [forall j, isSome (mfeat r 0 j)]) rows || if pol is FILL _ then true else false).

Section History.
Variables (b : bool) (lambda : R).
(** The data held after a sequence of calls update(row, c): a row is added with c = 1, a row that is
    present is removed with c = -1 (as long as what remains determines the coefficients), a row with a
    NaN is ignored. *)
Inductive history : seq ('rV[R]_p * R) -> seq (nrow R p * R) -> seq ('rV[R]_p * R) -> Prop :=
| H_nil d : history d [::] d
| H_add d r cs d' : history (rcons d r) cs d' -> history d ((Some r, 1) :: cs) d'
| H_del d1 r d2 cs d' : identifiable (not_bias b) lambda (map fst (design b (d1 ++ d2))) ->
    history (d1 ++ d2) cs d' -> history (d1 ++ r :: d2) ((Some r, -1) :: cs) d'
| H_nan d c cs d' : history d cs d' -> history d ((None, c) :: cs) d'.

(** The calls, one after the other. *)
Definition run (st : option (online R (p + b))) (cs : seq (nrow R p * R)) : option (online R (p + b)) :=
  foldl (fun st (c : nrow R p * R) => online_update b st c.1 c.2) st cs.
End History.
End ExprSpec.
Arguments complete_row {R p} r.
Arguments filled_row {R p} x r.
Arguments used {R p} pol r.
Arguments used_rows {R p} pol rows.
Arguments no_null {R p} rows.
Arguments accepts {R p} pol rows.
Arguments features {R p} b x.
Arguments seen {R p} pol rows i.
Arguments window {R p} pol rows n i.
Arguments history {R p} b lambda _ _ _.
Arguments run {R p} b st cs.
Arguments one_target {R p k} t r.
Arguments multi_accepts {R p k} pol rows.
