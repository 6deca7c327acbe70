(** Concrete objects of the regression classes. *)
From mathcomp Require Import all_ssreflect all_algebra.
From Verif Require Import LinModel LinSpec LinCore LinProofs LinExprSpec LinMore LinDemos ClsModel ClsSpec ClsProofs ClsOnline.
Set Implicit Arguments.
Unset Strict Implicit.
Import Order.TTheory GRing.Theory Num.Theory.
Local Open Scope ring_scope.

(** Columns 0 and 1 hold features, column 2 the target. *)
Definition cols3 (R : realFieldType) (h : nat) (a b y : seq (option R)) : frame R nat_eqType :=
  Frame h (fun n : nat => match n with 0 => Some a | 1 => Some b | 2 => Some y | _ => None end%N).
Definition one_line (R : realFieldType) (a b y : R) := cols3 1 [:: Some a] [:: Some b] [:: Some y].
Definition no_lines (R : realFieldType) : frame R nat_eqType := cols3 0 [::] [::] [::].
Definition two_lines (R : realFieldType) : frame R nat_eqType :=
  cols3 2 [:: Some 1; Some 2%:R] [:: Some 5%:R; Some 5%:R] [:: Some 3%:R; Some 5%:R].

Section Demo.
Variable R : realFieldType.
Variable eps : R.
Hypothesis Heps : 0 <= eps.

Lemma line1 (c b x : R) : line [:: c] b [:: x] = c * x + b.
Proof. by rewrite /line big_ord1. Qed.

Lemma failed_fit_df (F : faer R) (lambda : R) (s : solver_name) :
  exists m df target m' df',
    py_fit_df (lr_solver F lambda s) m df (Names [:: 1%N]) target (SKIP R) = (Raised, m') /\
    coeffs m' = coeffs m /\
    predict_df m df' = Ok [:: Some 2%:R] /\ predict_df m' df' = Ok [:: Some 10%:R].
Proof.
set m : model R nat_eqType := from_values eps [:: Some 2%:R] (Some 0) [:: 0%N].
have Hm : m = Model false (Some [:: Some 2%:R]) [:: 0%N].
  by rewrite /m /from_values /set_coeffs_and_bias big_zero.
exists m, (no_lines R), 2%N, (Model false (Some [:: Some 2%:R]) [:: 1%N]), (one_line 1 5%:R 0).
split; first by rewrite Hm.
split; first by rewrite Hm.
have Hc n : coeffs (@Model R nat_eqType false (Some [:: Some 2%:R]) n) = Ok (map Some [:: 2%:R : R]) by [].
have Hb n : bias (@Model R nat_eqType false (Some [:: Some 2%:R]) n) = Ok (Some 0) by [].
split.
  rewrite Hm (@predict_df_ok R nat_eqType _ _ _ (one_line 1 5%:R 0) [:: [:: Some 1]] (Hc _) (Hb _)) //=.
  by rewrite line1 addr0 mulr1.
rewrite (@predict_df_ok R nat_eqType _ _ _ (one_line 1 5%:R 0) [:: [:: Some 5%:R]] (Hc _) (Hb _)) //=.
by rewrite line1 addr0 -natrM.
Qed.

Lemma truncated : exists (m : model R nat_eqType) df, m = from_values eps [:: Some 2%:R; Some 3%:R] (Some 0) [:: 0%N] /\
  coeffs m = Ok [:: Some 2%:R; Some 3%:R] /\ predict_df m df = Ok [:: Some 2%:R].
Proof.
exists (from_values eps [:: Some 2%:R; Some 3%:R] (Some 0) [:: 0%N]), (one_line 1 5%:R 0); split=> //.
have -> : from_values eps [:: Some 2%:R; Some 3%:R] (Some 0) [:: 0%N] = Model false (Some [:: Some 2%:R; Some 3%:R]) [:: 0%N].
  by rewrite /from_values /set_coeffs_and_bias big_zero.
split=> //.
rewrite (@predict_df_any R nat_eqType _ [:: 2%:R; 3%:R] 0 (one_line 1 5%:R 0) [:: [:: Some 1]]) //=.
by rewrite line1 addr0 mulr1.
Qed.

Lemma null_as_zero : exists (m : model R nat_eqType) df, m = from_values eps [:: Some 2%:R] (Some 0) [:: 0%N] /\
  col_of df 0%N = Some [:: None] /\ predict_df m df = Ok [:: Some 0].
Proof.
exists (from_values eps [:: Some 2%:R] (Some 0) [:: 0%N]), (cols3 1 [:: None] [:: None] [:: None]); split=> //; split=> //.
have -> : from_values eps [:: Some 2%:R] (Some 0) [:: 0%N] = Model false (Some [:: Some 2%:R]) [:: 0%N].
  by rewrite /from_values /set_coeffs_and_bias big_zero.
by rewrite /predict_df /= eqxx.
Qed.

Lemma own_fit (F : faer R) (lambda : R) (s : solver_name) (b : bool) :
  exists m', py_fit_df (lr_solver F lambda s) (@new R nat_eqType b [:: 0%N]) (two_lines R) (Own nat_eqType) 2%N (IGNORE R) = (Done, m').
Proof. by eexists. Qed.

(** The rows of [two_lines] with the first feature. *)
Definition two_rows : seq (lrow R 1) := [:: mk1 (Some 1) (Some 3%:R); mk1 (Some 2%:R) (Some 5%:R)].
Lemma two_table : table (two_lines R) [:: 0%N] 2%N two_rows.
Proof.
split=> //; split.
  exists [:: Some 3%:R; Some 5%:R]; split=> // i r.
  by case: i => [|[|i]] /=; [case=> <-|case=> <-|case: i].
move=> j; rewrite (ord1 j); exists [:: Some 1; Some 2%:R]; split=> // i r.
by case: i => [|[|i]] /=; [case=> <-; rewrite mxE|case=> <-; rewrite mxE|case: i].
Qed.
Lemma two_used : used_rows (SKIP R) two_rows = [:: (f1 1, 3%:R); (f1 2%:R, 5%:R)].
Proof. by rewrite /used_rows /= !complete_mk1. Qed.
Lemma two_ident (b : bool) lambda : identifiable (not_bias b) lambda (map fst (design b (used_rows (SKIP R) two_rows))).
Proof.
rewrite two_used; case: b.
  apply: (@ident_b1 R _ _ _ 1 3%:R 2%:R 5%:R); rewrite ?mem_head ?inE ?eqxx ?orbT //.
  by rewrite lt_eqF // ltr1n.
by apply: (@ident_b0 R _ _ _ 1 3%:R); rewrite ?mem_head ?oner_neq0.
Qed.
Lemma two_fits : accepts (SKIP R) two_rows /\ (1 <= size (used_rows (SKIP R) two_rows))%N /\ (0 < size (used_rows (SKIP R) two_rows))%N.
Proof. by rewrite two_used. Qed.
End Demo.
