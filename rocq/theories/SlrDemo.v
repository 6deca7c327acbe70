(** Concrete cases of simple_lin_reg. *)
From mathcomp Require Import all_ssreflect all_algebra.
From Verif Require Import SlrModel SlrSpec SlrProofs.
Set Implicit Arguments.
Unset Strict Implicit.
Import Order.TTheory GRing.Theory Num.Theory.
Local Open Scope ring_scope.

Notation Q := rat_realFieldType.
Definition is2 (c : seq (val Q)) (b a : Q) : bool := if c is [:: Val b'; Val a'] then (b' == b) && (a' == a) else false.
Lemma is2P c b a : is2 c b a -> c = [:: Val b; Val a].
Proof. by case: c => [|[||x] [|[||y] [|z c]]] //= /andP[/eqP -> /eqP ->]. Qed.

(** (0,0), (1,1), (2,null). *)
Definition null_y : seq (row Q) := [:: Row None (Some 0) (Some 0); Row None (Some 1) (Some 1); Row None (Some 2%:R) None].
Lemma null_y_run : coeffs true (xs null_y) (ys null_y) None = [:: Val (4%:R^-1); Val (4%:R^-1)].
Proof. by apply: is2P; vm_compute. Qed.
Lemma null_y_pts : points false null_y = [:: Pt 1 0 0; Pt 1 1 1].
Proof. by []. Qed.
Lemma two_spread (w x y w' x' y' : Q) : 0 < w -> 0 < w' -> x != x' -> spread [:: Pt w x y; Pt w' x' y'].
Proof. by move=> H H' N; exists (Pt w x y); rewrite ?mem_head //; exists (Pt w' x' y') => //; rewrite !inE eqxx orbT. Qed.
Lemma null_y_best : best_line (points false null_y) 1 0.
Proof.
have E : bw (points false null_y) = 1 /\ aw (points false null_y) = 0.
  by rewrite null_y_pts /aw /bw /Nw /Dw /ym /xm /W !big_cons !big_nil; split; apply/eqP; vm_compute.
have Sp : spread (points false null_y) by exact: two_spread.
by have := @best_bw Q (points false null_y) isT Sp; rewrite E.1 E.2.
Qed.

(** (0,1), (1,2) with weight 1 and a weight 1 on a row that is null otherwise. *)
Definition null_row : seq (row Q) := [:: Row (Some 1) (Some 0) (Some 1); Row (Some 1) (Some 1) (Some 2%:R); Row (Some 1) None None].
Lemma null_row_run : coeffs true (xs null_row) (ys null_row) (Some (ws null_row)) = [:: Val (6%:R / 5%:R); Val (3%:R / 5%:R)].
Proof. by apply: is2P; vm_compute. Qed.
Lemma null_row_best : best_line (points true null_row) 1 1.
Proof.
have E0 : points true null_row = [:: Pt 1 0 1; Pt 1 1 2%:R] by [].
have E : bw (points true null_row) = 1 /\ aw (points true null_row) = 1.
  by rewrite E0 /aw /bw /Nw /Dw /ym /xm /W !big_cons !big_nil; split; apply/eqP; vm_compute.
have Sp : spread (points true null_row) by exact: two_spread.
by have := @best_bw Q (points true null_row) isT Sp; rewrite E.1 E.2.
Qed.

(** (0,1), null, (1,3) with weights 2, null, 1. *)
Definition good : seq (row Q) := [:: Row (Some 2%:R) (Some 0) (Some 1); Row None None None; Row (Some 1) (Some 1) (Some 3%:R)].
Lemma good_ok : [/\ all (together true) good, all (weight_ok true) good, spread (points true good) & coeffs true (xs good) (ys good) (Some (ws good)) = [:: Val 2%:R; Val 1]].
Proof. by split; [| |exact: two_spread|apply: is2P; vm_compute]. Qed.
Lemma good_pred : pred_resid true (xs good) (ys good) (Some (ws good)) = [:: (Val 1, Val 0); (Null, Null); (Val 3%:R, Val 0)].
Proof.
have [_ _ _ E] := good_ok; rewrite (pred_thm (bias := true) E) /=.
by rewrite mulr0 add0r mulr1 subrr (_ : 2%:R + 1 = 3%:R) ?subrr.
Qed.
Lemma good_away : all (target_known true) good /\ away (points true good).
Proof. by split=> //; exists (Pt 1 1 3%:R). Qed.
(** (1,1), (1,null): the slope is 1/2 instead of 1. *)
Definition half : seq (row Q) := [:: Row None (Some 1) (Some 1); Row None (Some 1) None].
Lemma half_best : best_slope (points false half) 1.
Proof.
have E0 : points false half = [:: Pt 1 1 1] by [].
have E : N0 (points false half) / D0 (points false half) = 1 by rewrite E0 /N0 /D0 !big_cons !big_nil; apply/eqP; vm_compute.
by rewrite -E; apply: best_b0 => //; exists (Pt 1 1 1).
Qed.
