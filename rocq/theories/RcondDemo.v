(** Concrete cases of least squares with a cut-off for singular values. *)
From mathcomp Require Import all_ssreflect all_algebra.
From Verif Require Import LinModel LinSpec LinCore LinProofs LinExprSpec LinExpr LinDemos RcondModel RcondSpec RcondProofs.
Set Implicit Arguments.
Unset Strict Implicit.
Import Order.TTheory GRing.Theory Num.Theory.
Local Open Scope ring_scope.

Section Demo.
Variable R : rcfType.

(** A decomposition of the diagonal matrices with descending nonnegative entries. *)
Definition diag_svd : svd_of R := fun m M =>
  let s := \row_i M i i in
  if [&& M == diag_mx s, [forall i, 0 <= s 0 i] & [forall i : 'I_m, [forall j : 'I_m, (i <= j)%N ==> (s 0 j <= s 0 i)]]]
  then Some (1%:M, s, 1%:M) else None.
Lemma diag_svd_ok : svd3_ok diag_svd.
Proof.
move=> m M U s V; rewrite /diag_svd; case: ifP => // /and3P[/eqP E1 /forallP E2 /forallP E3] [<- <- <-]; split.
- by rewrite mul1mx trmx1 mulmx1.
- by rewrite trmx1 mulmx1.
- by rewrite trmx1 mulmx1.
- by [].
by move=> i j H; have /forallP /(_ j) /implyP := E3 i; apply.
Qed.

(** One row with one feature. *)
Definition one_row (x y : R) : seq (lrow R 1) := [:: mk1 (Some x) (Some y)].
Lemma one_used x y : used_rows (SKIP R) (one_row x y) = [:: (f1 x, y)].
Proof. by rewrite /used_rows /= complete_mk1. Qed.

Lemma one_run (eps x y l2 rcond : R) : 0 <= l2 -> 0 <= x -> exists out,
  lin_reg_w_rcond diag_svd eps false l2 rcond (SKIP R) (one_row x y) = Ok (Some out) /\
  forall i, o_sv out i = Num.sqrt (x ^+ 2 + l2).
Proof.
move=> Hl Hx.
have [df [mask [E1 E2 _]]] := @series_ok R 1 false (SKIP R) (one_row x y) isT isT ltac:(by rewrite one_used).
rewrite /lin_reg_w_rcond E1 E2 all_some_map /faer_solve_lstsq_rcond xtxE.
have ME (i j : 'I_(1 + false)) : amat (not_bias false) (Num.max 0 l2) (ones (design false (used_rows (SKIP R) (one_row x y)))) i j = x ^+ 2 + l2.
  have E0 (k : 'I_(1 + false)) : k = ord0 by apply: val_inj => /=; case: k => -[].
  rewrite one_used (E0 i) (E0 j) /amat /gram /ones big_seq1 scale1r !mxE big_ord1 !mxE /= (max_idPr Hl) expr2.
  by case: split_ordP => [k _|[]//]; rewrite mxE.
rewrite /diag_svd; move: (amat _ _ _) ME => M ME.
rewrite ifT; last first.
  apply/and3P; split.
  - apply/eqP/matrixP => i j; have -> : i = j by apply: val_inj => /=; case: i j => -[] // ? [[]].
    by rewrite !mxE eqxx mulr1n.
  - by apply/forallP => i; rewrite mxE ME addr_ge0 ?sqr_ge0.
  - by apply/forallP => i; apply/forallP => j; rewrite !mxE !ME lexx implybT.
by eexists; split; first by []; move=> i /=; rewrite mxE ME.
Qed.

Definition q4 : R := 4%:R^-1.
Lemma q4_gt0 : 0 < q4. Proof. by rewrite invr_gt0 ltr0n. Qed.

(** The feature 1/4, the target 1/4, the ratio 1/2: the only singular value is cut off. *)
Lemma cut_demo (eps : R) : 0 < eps -> exists out,
  lin_reg_w_rcond diag_svd eps false 0 (2%:R^-1) (SKIP R) (one_row q4 q4) = Ok (Some out) /\
  (forall i, o_sv out i = q4) /\ o_coeffs out = Some 0 /\ (forall i, documented (2%:R^-1) (o_sv out) i) /\
  unique_min (sq_err (design false (used_rows (SKIP R) (one_row q4 q4)))) (v1 1).
Proof.
move=> He; have [out [E1 E2]] := @one_run eps q4 q4 0 2%:R^-1 (lexx 0) (ltW q4_gt0).
have Es i : o_sv out i = q4 by rewrite E2 addr0 sqrtr_sqr ger0_norm // ltW // q4_gt0.
have q42 : q4 < 2%:R^-1 by rewrite ltf_pinv ?posrE ?ltr0n // ltr_nat.
have Sz : (1 <= size (used_rows (SKIP R) (one_row q4 q4)))%N by rewrite one_used.
exists out; split=> //; split=> //; split.
  apply: (rcond_all_cut diag_svd_ok He (isT : (0 < size (one_row q4 q4))%N) (isT : accepts (SKIP R) (one_row q4 q4)) Sz E1).
    by exists ord0; rewrite Es gt_eqF ?q4_gt0.
  move=> i; rewrite Es /rcond_of lt_maxr ger0_norm ?q42 // invr_ge0 ler0n //.
split.
  move=> i; apply/forallP => j; rewrite !Es; apply: ler_pimull; first by rewrite ltW ?q4_gt0.
  by rewrite invf_le1 ?ltr0n // ler1n.
rewrite one_used => h Hh; rewrite /sq_err !big_map !big_seq1 /= ![predict _ _]predict0 v1E mulr1 subrr expr0n /=.
rewrite lt_def sqr_ge0 andbT sqrf_eq0 -{1}[q4]mulr1 -mulrBr mulf_eq0 gt_eqF ?q4_gt0 //= subr_eq0.
apply: contraNN Hh => /eqP E; apply/eqP/matrixP => i j; rewrite (ord1 j) mxE E; congr (h _ 0).
by apply: val_inj => /=; case: i => -[].
Qed.

(** The feature 1 and the penalty 3: the value returned is 2. *)
Lemma ridge_demo (eps : R) : 0 < eps -> exists out,
  lin_reg_w_rcond diag_svd eps false 3%:R 0 (SKIP R) (one_row 1 1) = Ok (Some out) /\ (forall i, o_sv out i = 2%:R).
Proof.
move=> He; have [out [E1 E2]] := @one_run eps 1 1 3%:R 0 (ler0n _ _) (ler01).
exists out; split=> // i; rewrite E2 expr1n -(natrD _ 1) (_ : (1 + 3)%:R = 2%:R ^+ 2) ?sqrtr_sqr ?ger0_norm ?ler0n // -natrX //.
Qed.

(** The feature 1: nothing is cut off when the ratio is at most 1. *)
Lemma full_demo : exists out,
  lin_reg_w_rcond diag_svd (2%:R^-1) false 0 1 (SKIP R) (one_row 1 1) = Ok (Some out) /\ (forall i, o_sv out i = 1) /\
  let d := design false (used_rows (SKIP R) (one_row 1 1)) in
  forall i j, rcond_of (2%:R^-1) `|1| (size d) 1 false * o_sv out j <= o_sv out i ^+ 2.
Proof.
have [out [E1 E2]] := @one_run 2%:R^-1 1 1 0 1 (lexx 0) (ler01).
have Es i : o_sv out i = 1 by rewrite E2 addr0 expr1n sqrtr1.
exists out; split=> //; split=> // d i j; rewrite !Es expr1n mulr1 /rcond_of normr1 le_maxl lexx /d one_used /= mulVf ?pnatr_eq0 //.
Qed.

(** The feature 0. *)
Lemma zero_demo (eps : R) : exists out,
  lin_reg_w_rcond diag_svd eps false 0 0 (SKIP R) (one_row 0 1) = Ok (Some out) /\ (forall i, o_sv out i = 0).
Proof.
have [out [E1 E2]] := @one_run eps 0 1 0 0 (lexx 0) (lexx 0).
by exists out; split=> // i; rewrite E2 expr0n addr0 sqrtr0.
Qed.

(** A feature between the documented floor and the one used. *)
Lemma floor_demo (eps : R) : 0 < eps -> forall x, eps * (maxn 1 1)%:R < x -> x < eps * 2%:R -> exists out,
  lin_reg_w_rcond diag_svd eps false 0 0 (SKIP R) (one_row x x) = Ok (Some out) /\ (forall i, o_sv out i = x) /\
  (forall i j : 'I_(1 + false), eps * (maxn 1 1)%:R * o_sv out j <= o_sv out i ^+ 2) /\ o_coeffs out = Some 0.
Proof.
move=> He x Hx Hx2; have x0 : 0 < x by apply: lt_trans Hx; rewrite mulr_gt0 ?ltr0n.
have [out [E1 E2]] := @one_run eps x x 0 0 (lexx 0) (ltW x0).
have Es i : o_sv out i = x by rewrite E2 addr0 sqrtr_sqr ger0_norm // ltW.
have Sz : (1 <= size (used_rows (SKIP R) (one_row x x)))%N by rewrite one_used.
exists out; split=> //; split=> //; split.
  by move=> i j; rewrite !Es expr2 ler_pmul2r // ltW.
apply: (rcond_all_cut diag_svd_ok He (isT : (0 < size (one_row x x))%N) (isT : accepts (SKIP R) (one_row x x)) Sz E1).
  by exists ord0; rewrite Es gt_eqF.
by move=> i; rewrite Es /rcond_of lt_maxr one_used /= Hx2 orbT.
Qed.
Lemma half_gt0 : 0 < 2%:R^-1 :> R.
Proof. by rewrite invr_gt0 ltr0n. Qed.
End Demo.
