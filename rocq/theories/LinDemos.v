(** One-feature data: the concrete cases of the regression theorems, and the counterexamples. *)
From Coq Require Import Ring Field.
From mathcomp Require Import all_ssreflect all_algebra.
From Verif Require Import LinModel LinSpec LinCore LinProofs LinOnline LinExprSpec LinExpr LinExpr2 LinRolling LinHist LinCd LinMore LinMore2.
Set Implicit Arguments.
Unset Strict Implicit.
Import Order.TTheory GRing.Theory Num.Theory.
Local Open Scope ring_scope.

(** A row with one feature. *)
Definition mk1 (R : realFieldType) (x y : option R) : lrow R 1 := @LRow R 1 y (const_mx x).
(** The row of features of such a row, coefficients without and with a bias. *)
Definition f1 (R : realFieldType) (x : R) : 'rV[R]_1 := const_mx x.
Definition v1 (R : realFieldType) (a : R) : 'cV[R]_(1 + false) := const_mx a.
Definition v2 (R : realFieldType) (a c : R) : 'cV[R]_(1 + true) := col_mx (const_mx a) (const_mx c).

Section Demo.
Variable R : realFieldType.

Lemma complete_mk1 (x y : R) : complete_row (mk1 (Some x) (Some y)) = Some (f1 x, y).
Proof.
rewrite /complete_row; case: ifP => [_|/negbT].
  by congr (Some (_, _)); apply/matrixP => i j; rewrite !mxE.
by rewrite negb_forall => /existsP[j]; rewrite /= mxE.
Qed.
Lemma complete_mk1_none (y : option R) : complete_row (mk1 None y) = None.
Proof.
rewrite /complete_row; case: ifP => // /forallP /(_ ord0).
by rewrite /= mxE.
Qed.

Lemma predict0 (x : R) (h : 'cV[R]_(1 + false)) : predict (features false (f1 x)) h = x * h (lshift false ord0) 0.
Proof. by rewrite predict_features big_ord0 addr0 /predict big_ord1 !mxE. Qed.
Lemma predict1 (x : R) (h : 'cV[R]_(1 + true)) :
  predict (features true (f1 x)) h = x * h (lshift true ord0) 0 + h (rshift 1 ord0) 0.
Proof. by rewrite predict_features big_ord1 /predict big_ord1 !mxE. Qed.
Lemma v1E (a : R) : v1 a (lshift false ord0) 0 = a. Proof. by rewrite mxE. Qed.
Lemma v2E0 (a c : R) : v2 a c (lshift true ord0) 0 = a. Proof. by rewrite col_mxEu mxE. Qed.
Lemma v2E1 (a c : R) : v2 a c (rshift 1 ord0) 0 = c. Proof. by rewrite col_mxEd mxE. Qed.

Lemma vec0 (h : 'cV[R]_(1 + false)) : h (lshift false ord0) 0 = 0 -> h = 0.
Proof.
move=> H; apply/matrixP => i j; rewrite (ord1 j) [RHS]mxE -H; congr (h _ 0).
by apply: val_inj => /=; case: i => -[].
Qed.
Lemma vec1 (h : 'cV[R]_(1 + true)) : h (lshift true ord0) 0 = 0 -> h (rshift 1 ord0) 0 = 0 -> h = 0.
Proof.
move=> H0 H1; apply/matrixP => i j; rewrite (ord1 j) [RHS]mxE.
by case: (split_ordP i) => k ->; rewrite (ord1 k).
Qed.

Lemma ident_b0 pen lambda (d : seq ('rV[R]_1 * R)) (x y : R) : (f1 x, y) \in d -> x != 0 ->
  identifiable pen lambda (map fst (design false d)).
Proof.
move=> Hd Hx h H _; apply: vec0.
have : predict (features false (f1 x)) h = 0 by apply: H; rewrite designE -map_comp; apply: (map_f _ Hd).
by rewrite predict0 => /eqP; rewrite mulf_eq0 (negbTE Hx) => /eqP.
Qed.

Lemma ident_b1 pen lambda (d : seq ('rV[R]_1 * R)) (x y x' y' : R) : (f1 x, y) \in d -> (f1 x', y') \in d -> x != x' ->
  identifiable pen lambda (map fst (design true d)).
Proof.
move=> Hd Hd' Hx h H _.
have E1 : predict (features true (f1 x)) h = 0 by apply: H; rewrite designE -map_comp; apply: (map_f _ Hd).
have E2 : predict (features true (f1 x')) h = 0 by apply: H; rewrite designE -map_comp; apply: (map_f _ Hd').
rewrite predict1 in E1; rewrite predict1 in E2.
have H0 : h (lshift true ord0) 0 = 0.
  have : (x - x') * h (lshift true ord0) 0 = 0.
    by rewrite mulrBl; move: E1 E2; set a := x * _; set c := x' * _; set t := h _ _ => A C; rewrite -(addrK t a) A -(addrK t c) C subrr.
  by move=> /eqP; rewrite mulf_eq0 subr_eq0 (negbTE Hx) => /eqP.
by apply: vec1 => //; move: E1; rewrite H0 mulr0 add0r.
Qed.

Lemma sq_err1 p (b : bool) (x : 'rV[R]_p) y h : sq_err (design b [:: (x, y)]) h = (y - predict (features b x) h) ^+ 2.
Proof. by rewrite /sq_err big_map big_seq1. Qed.

(** Coefficients that fit every row exactly are the least squares coefficients. *)
Lemma exact_fit m pen (d : data R m) w v : unique_min (ridge_err pen 0 d) w ->
  (forall r, r \in d -> r.2 = predict r.1 v) -> v = w.
Proof.
move=> Hw H; apply: (unique_min_eq Hw).
have E0 : sq_err d v = 0 by rewrite /sq_err big_seq big1 // => r Hr; rewrite H // subrr expr0n.
rewrite /ridge_err !mul0r !addr0 E0; apply: sumr_ge0 => r _; exact: sqr_ge0.
Qed.
End Demo.

Section Refute.
Variable R : realFieldType.
Variable F : faer R.
Hypothesis HF : faer_ok F.
(** Coq's [ring] and [field] for the field [R]. *)
Add Ring Rring : (@Rrt R).
Add Field Rfield : (@Rft R).
Notation K := (@K R). Notation kadd := (@kadd R). Notation kmul := (@kmul R). Notation kopp := (@kopp R).
Notation kinv := (@kinv R). Notation k0 := (k0 R). Notation k1 := (k1 R).
Ltac tok := rewrite ?exprS ?expr0 ?mulrS ?mulr0n;
  repeat match goal with
  | |- context[@GRing.add _ ?a ?b] => change (@GRing.add _ a b) with (kadd a b)
  | |- context[@GRing.mul _ ?a ?b] => change (@GRing.mul _ a b) with (kmul a b)
  | |- context[@GRing.opp _ ?a] => change (@GRing.opp _ a) with (kopp a)
  | |- context[@GRing.inv _ ?a] => change (@GRing.inv _ a) with (kinv a)
  | |- context[@GRing.zero _] => change (@GRing.zero _) with k0
  | |- context[@GRing.one _] => change (@GRing.one _) with k1
  end; match goal with |- @eq _ ?a ?b => change (@eq K a b) end.
Ltac rg := tok; ring.
Ltac fd := tok; field.


(** *** Closed form *)
Definition args (b : bool) (l1 l2 tol : R) := LrArgs b (SKIP R) Nqr l1 l2 tol None.
Definition rows14 : seq (lrow R 1) := [:: mk1 (Some 0) (Some 1); mk1 None (Some 7%:R); mk1 (Some 1) (Some 3%:R); mk1 (Some 2%:R) (Some 5%:R)].
Definition used14 : seq ('rV[R]_1 * R) := [:: (f1 0, 1); (f1 1, 3%:R); (f1 2%:R, 5%:R)].
Lemma used14E : used_rows (SKIP R) rows14 = used14.
Proof. by rewrite /used_rows /= !complete_mk1 complete_mk1_none. Qed.

Lemma demo14 : pl_lstsq F (args true 0 0 1) rows14 = Ok (Some (v2 2%:R 1)).
Proof.
have [||||||w [E H]] := @lstsq_ok R F HF 1 (args true 0 0 1) rows14 => //.
- by rewrite used14E.
- rewrite used14E; apply: (@ident_b1 R _ _ _ 0 1 1 3%:R); rewrite ?inE ?eqxx ?orbT //.
  by rewrite eq_sym oner_eq0.
rewrite E; congr (Ok (Some _)).
change (unique_min (ridge_err (not_bias true) (Num.max 0 0) (design true (used_rows (SKIP R) rows14))) w) in H.
rewrite maxxx used14E in H.
apply/esym; apply: (exact_fit H) => r; rewrite !inE => /orP[|/orP[|]] /eqP -> /=; rewrite [RHS]predict1 v2E0 v2E1.
- by rewrite mul0r add0r.
- by rewrite mul1r -mulrSr.
- by rewrite -natrM -mulrSr.
Qed.

(** *** Rolling with as many coefficients as rows *)
Definition rows16 : seq (lrow R 1) := [:: mk1 (Some 0) (Some 1); mk1 (Some 1) (Some 2%:R); mk1 (Some 0) (Some 1)].
Lemma demo16 : exists out,
  pl_rolling_lstsq F 2 1 true 0 (SKIP R) rows16 = Ok out /\ nth None out 2 = Some (None, None).
Proof.
have [|||||||out [O1 O2 O3]] := @rolling_square R F HF 1 (SKIP R) 2 1 true rows16 => //.
- by rewrite /= !complete_mk1.
- rewrite /used_rows /= !complete_mk1; apply: (@ident_b1 R _ _ _ 0 1 1 2%:R); rewrite ?inE ?eqxx ?orbT //.
  by rewrite eq_sym oner_eq0.
by exists out; split=> //; apply: O3.
Qed.
Lemma windows16 i : (1 <= i < 3)%N -> identifiable everything 0 (map fst (design true (window (SKIP R) rows16 2 i))).
Proof.
have H01 : (0 : R) != 1 by rewrite eq_sym oner_eq0.
case: i => [//|[|[|//]]] _; rewrite /window /used_rows /= !complete_mk1.
- by apply: (@ident_b1 R _ _ _ 0 1 1 2%:R) => //; rewrite !inE eqxx ?orbT.
- by apply: (@ident_b1 R _ _ _ 0 1 1 2%:R) => //; rewrite !inE eqxx ?orbT.
Qed.

(** *** Rolling over a window of nulls *)
Definition one1 : lrow R 1 := mk1 (Some 1) (Some 1).
Definition nul1 : lrow R 1 := mk1 None (Some 1).
Definition rows_gap : seq (lrow R 1) := [:: one1; nul1; nul1; one1; one1].
Lemma demo_gap : exists out, pl_rolling_lstsq F 2 1 false 0 (SKIP R) rows_gap = Ok out /\
  nth None out 3 = Some (None, None) /\ nth None out 4 = Some (None, None).
Proof.
have [|||df [mask [E1 E2 [E3 E4]]]] := @series_window R 1 false (SKIP R) rows_gap => //.
rewrite /pl_rolling_lstsq E1 E2.
have Eu : map (fun r => omap (@biased R 1 false) (used (SKIP R) r)) rows_gap
          = [:: Some (features false (f1 1), 1); None; None; Some (features false (f1 1), 1); Some (features false (f1 1), 1)].
  by rewrite /= !complete_mk1 complete_mk1_none.
rewrite Eu.
have -> : has negb mask = true by rewrite E3 /= !complete_mk1 complete_mk1_none.
rewrite /= /faer_rolling_skipping_lstsq /=.
set d1 := [:: (features false (f1 1), 1)].
set st := faer_qr_lstsq_with_inv F _ 0 false.
have Hd1 : amat everything 0 (ones (d1 : data R (1 + false))) \in unitmx.
  apply: ident_unit => //; have -> : d1 = design false [:: (f1 1, 1)] by [].
  by apply: (@ident_b0 R _ _ _ 1 1); rewrite ?mem_head ?oner_eq0.
have Hst : fitted everything 0 (d1 : data R (1 + false)) st by apply: fit_good.
have Hno : ~~ (amat everything 0 (ones ([::] : data R (1 + false))) \in unitmx).
  apply/negP => /unit_ident /ident_size; by [].
have -> : woodbury_step st (features false (f1 1)) 1 (-1) = None.
  exact: (@step_rem_none R (1 + false) everything 0 [::] d1 st (features false (f1 1)) 1 (perm_refl _) Hst Hno).
by eexists; split.
Qed.
Lemma windows_gap i : (3 <= i < 5)%N -> (1 <= size (window (SKIP R) rows_gap 2 i))%N /\
  identifiable everything 0 (map fst (design false (window (SKIP R) rows_gap 2 i))).
Proof.
have W3 : window (SKIP R) rows_gap 2 3 = [:: (f1 1, 1)] by rewrite /window /used_rows /= complete_mk1 complete_mk1_none.
have W4 : window (SKIP R) rows_gap 2 4 = [:: (f1 1, 1); (f1 1, 1)] by rewrite /window /used_rows /= complete_mk1.
by case: i => [//|[//|[//|[|[|//]]]]] _; rewrite ?W3 ?W4; (split; first by []);
  apply: (@ident_b0 R _ _ _ 1 1); rewrite ?mem_head ?oner_eq0.
Qed.

(** *** Recursive predictions with a skipped row *)
Definition rows19 : seq (lrow R 1) := [:: mk1 (Some 1) (Some 1); mk1 (Some 2%:R) (Some 2%:R); mk1 None (Some 1)].
Lemma used19E : used_rows (SKIP R) rows19 = [:: (f1 1, 1); (f1 2%:R, 2%:R)].
Proof. by rewrite /used_rows /= !complete_mk1 complete_mk1_none. Qed.
Lemma demo19 : exists out, pl_recursive_lstsq F 2 false 0 (SKIP R) rows19 = Ok out /\
  nth None out 1 = Some (Some (v1 1), Some 1).
Proof.
have [|||||||out [O1 O2 O3]] := @recursive_ok R F HF 1 (SKIP R) 2 false 0 rows19 (mk1 None None) => //.
- by rewrite used19E.
- by rewrite used19E.
- rewrite used19E; apply: (@ident_b0 R _ _ _ 1 1); rewrite ?mem_head ?oner_eq0 //.
exists out; split=> //.
rewrite used19E in O3; have := O3 1%N isT; cbv zeta.
have -> : nth (mk1 None None) rows19 1 = mk1 (Some 2%:R) (Some 2%:R) by [].
rewrite /used complete_mk1 /=.
have -> : seen (SKIP R) rows19 1 = [:: (f1 1, 1); (f1 2%:R, 2%:R)] by rewrite /seen /used_rows /= !complete_mk1.
rewrite /=; move=> [w [pr [H1 H2 H3]]].
have Ew : v1 1 = w.
  apply: (exact_fit H2) => r; rewrite !inE => /orP[|] /eqP -> /=; by rewrite [RHS]predict0 v1E mulr1.
rewrite H1 -Ew; congr (Some (_, _)).
rewrite (H3 _ _ (erefl _)) complete_mk1_none !andbF /= [predict _ _]predict0 -Ew v1E mulr1.
by [].
Qed.

(** *** The bias in ridge regression *)
Definition rows_b : seq (lrow R 1) := [:: mk1 (Some 0) (Some 1)].
Lemma demo_bias_lin : pl_lstsq F (args true 0 1 1) rows_b = Ok (Some (v2 0 1)).
Proof.
have Eu : used_rows (SKIP R) rows_b = [:: (f1 0, 1)] by rewrite /used_rows /= complete_mk1.
have [||||||w [E H]] := @lstsq_ok R F HF 1 (args true 0 1 1) rows_b => //.
- by rewrite Eu.
- by rewrite Eu; apply: ident_ridge_bias => //=; rewrite (max_idPr _) ?ltr01 ?ler01.
rewrite E; congr (Ok (Some _)); change (unique_min (ridge_err (not_bias true) (Num.max 0 1) (design true (used_rows (SKIP R) rows_b))) w) in H.
rewrite (max_idPr ler01) Eu in H; apply/esym; apply: (unique_min_eq H).
have -> : ridge_err (not_bias true) 1 (design true [:: (f1 (0 : R), 1)]) (v2 0 1) = 0.
  rewrite /ridge_err sq_err1 predict1 v2E0 v2E1 mul0r add0r subrr expr0n add0r.
  rewrite big1 ?mulr0 // => j; rewrite /not_bias => Hj.
  have -> : j = lshift true ord0 by apply: val_inj => /=; case: (val j) Hj.
  by rewrite v2E0 expr0n.
apply: addr_ge0; first by apply: sumr_ge0 => r _; apply: sqr_ge0.
by apply: mulr_ge0 => //; apply: sumr_ge0 => j _; apply: sqr_ge0.
Qed.

Lemma pen_v2 (a c : R) : \sum_(j < 1 + true | everything j) (v2 a c j 0) ^+ 2 = a ^+ 2 + c ^+ 2.
Proof. by rewrite big_split_ord /= !big_ord1 v2E0 v2E1. Qed.
Lemma pen_v1 (h : 'cV[R]_(1 + false)) : \sum_(j < 1 + false | not_bias false j) (h j 0) ^+ 2 = h (lshift false ord0) 0 ^+ 2.
Proof. by rewrite big_mkcond big_split_ord /= big_ord1 big_ord0 addr0. Qed.

Lemma demo_bias_rec : exists out w pr, pl_recursive_lstsq F 1 true 1 (SKIP R) rows_b = Ok out /\
  nth None out 0 = Some (Some w, pr) /\ w != v2 0 1.
Proof.
have Eu : used_rows (SKIP R) rows_b = [:: (f1 0, 1)] by rewrite /used_rows /= complete_mk1.
have [|||||||out [O1 O2 O3]] := @recursive_ok R F HF 1 (SKIP R) 1 true 1 rows_b (mk1 None None) => //.
- by rewrite Eu.
- by rewrite Eu.
- by apply: ident_ridge; apply: ltr01.
have := O3 0%N isT; cbv zeta.
have -> : nth (mk1 None None) rows_b 0 = mk1 (Some 0) (Some 1) by [].
rewrite /used complete_mk1 /=.
have -> : seen (SKIP R) rows_b 0 = [:: (f1 0, 1)] by rewrite /seen /used_rows /= !complete_mk1.
rewrite /=; move=> [w [pr [H1 H2 _]]]; exists out, w, pr; split=> //; split=> //.
apply/eqP => Ew; rewrite Ew in H2.
have L (a : R) : ridge_err everything 1 (design true [:: (f1 0, 1)]) (v2 0 a) = (1 - a) ^+ 2 + a ^+ 2.
  rewrite /ridge_err sq_err1 predict1 v2E0 v2E1 mul0r add0r mul1r.
  by rewrite -[RHS]/((1 - a) ^+ 2 + a ^+ 2) pen_v2 expr0n /= add0r.
have Hne : v2 (0 : R) (1 / 2%:R) != v2 0 1.
  apply/eqP => /(congr1 (fun M : 'cV[R]_(1 + true) => M (rshift 1 ord0) 0)); rewrite !v2E1 => /eqP.
  by rewrite div1r invr_eq1 pnatr_eq1.
have := H2 _ Hne; rewrite !L subrr expr0n /= add0r expr1n.
have -> : (1 - 1 / 2%:R) ^+ 2 + (1 / 2%:R) ^+ 2 = 1 / 2%:R :> R.
  have H2n : (2%:R : R) != 0 by rewrite pnatr_eq0.
  have -> : 1 - 1 / 2%:R = 1 / 2%:R :> R by apply: (mulIf H2n); rewrite mulrBl divfK // mul1r -[2%:R]/(1 + 1) addrK.
  by rewrite -mulr2n expr2 -mulr_natr -mulrA divfK // mulr1.
by rewrite div1r ltNge invf_le1 ?ler1n ?ltr0n.
Qed.

(** *** update with c = 2 *)
Lemma demo17 st : let d := [:: (f1 (0 : R), 0)] in
  online_update false (Some (online_fit F false 1 d)) (Some (f1 1, 3%:R)) 2%:R = Some st ->
  o_coef st = v1 1 /\
  ~ unique_min (fun w => ridge_err (not_bias false) 1 (design false d) w
                         + 2%:R * (3%:R - predict (features false (f1 1)) w) ^+ 2) (o_coef st).
Proof.
move=> d Est.
have Hi : identifiable (not_bias false) 1 (map fst (design false d)) by apply: ident_ridge_bias; rewrite ?ltr01.
have H2 : (0 : R) < 2%:R by rewrite ltr0n.
have [st' [Est' H]] := @update_weight R F HF 1 false 1 ler01 d (f1 1) 3%:R 2%:R Hi H2.
have Es : st' = st by move: Est'; rewrite Est => -[].
rewrite Es in H.
have L (c : R) (h : 'cV[R]_(1 + false)) : ridge_err (not_bias false) 1 (design false d) h + c * (3%:R - predict (features false (f1 1)) h) ^+ 2
  = h (lshift false ord0) 0 ^+ 2 + c * (3%:R - h (lshift false ord0) 0) ^+ 2.
  rewrite /ridge_err sq_err1 !predict0 mul0r subr0 expr0n add0r mul1r mul1r pen_v1.
  by [].
have Ew : v1 1 = o_coef st.
  apply: (unique_min_eq H); rewrite !L v1E; set t := o_coef st _ _.
  rewrite -subr_ge0.
  have -> : t ^+ 2 + 2%:R^-1 * (3%:R - t) ^+ 2 - (1 ^+ 2 + 2%:R^-1 * (3%:R - 1) ^+ 2) = (1 + 2%:R^-1) * (t - 1) ^+ 2.
    have Hn : (2%:R : R) != 0 by rewrite gt_eqF.
    have Hs : 2%:R^-1 + 2%:R^-1 = 1 :> R by have := mulVf Hn; rewrite -[X in _ * X]/(1 + 1) mulrDr mulr1.
    set s := 2%:R^-1 in Hs *; clearbody t s.
    apply/eqP; rewrite -subr_eq0; apply/eqP.
    transitivity ((s + s - 1) * ((1 - t) + (1 - t))); first by rg.
    by rewrite Hs subrr mul0r.
  apply: mulr_ge0; last exact: sqr_ge0.
  by apply: addr_ge0; rewrite ?ler01 // invr_ge0 ltW.
split=> // Hm.
have Hne : v1 2%:R != o_coef st.
  rewrite -Ew; apply/eqP => /(congr1 (fun M : 'cV[R]_(1 + false) => M (lshift false ord0) 0)); rewrite !v1E => /eqP.
  by rewrite pnatr_eq1.
have := Hm _ Hne; rewrite !L -Ew !v1E.
have -> : 1 ^+ 2 + 2%:R * (3%:R - 1) ^+ 2 = 9%:R :> R by rg.
have -> : 2%:R ^+ 2 + 2%:R * (3%:R - 2%:R) ^+ 2 = 6%:R :> R by rg.
by rewrite ltr_nat.
Qed.

(** *** Elastic net *)
Lemma natr_neq0 n : (n.+1%:R : R) != 0. Proof. by rewrite pnatr_eq0. Qed.
Definition rows20 : seq (lrow R 1) := [:: mk1 (Some 0) (Some 1); mk1 (Some 1) (Some 0)].
Lemma used20E : used_rows (SKIP R) rows20 = [:: (f1 0, 1); (f1 1, 0)].
Proof. by rewrite /used_rows /= !complete_mk1. Qed.
Lemma ord_p1 (j : 'I_(1 + true)) : (j < 1)%N -> j = lshift true ord0.
Proof. by move=> Hj; apply: val_inj => /=; case: (val j) Hj. Qed.
Lemma err20 (a c : R) : elastic_err (not_bias true) (1 / 10%:R) 0 (design true [:: (f1 0, 1); (f1 1, 0)]) (v2 a c)
  = (1 - c) ^+ 2 + (a + c) ^+ 2 + 2%:R * (2%:R * (1 / 10%:R) * `|a|).
Proof.
rewrite /elastic_err /sq_err big_cons big_seq1 /= [predict _ _]predict1 [predict (row_mx (f1 1) _) _]predict1 !v2E0 !v2E1.
have -> : \sum_(j < 1 + true | not_bias true j) `|v2 a c j 0| = `|a|.
  by rewrite big_mkcond big_split_ord /= !big_ord1 v2E0 addr0.
by rewrite mul0r !add0r !mul1r mul0r addr0 sqrrN.
Qed.
Lemma demo20_stop (tol : R) : 0 < tol ->
  pl_lstsq F (args true (1 / 10%:R) 0 tol) rows20 = Ok (Some (v2 0 (1 / 2%:R))) /\
  elastic_err (not_bias true) (1 / 10%:R) 0 (design true (used_rows (SKIP R) rows20)) (v2 (-1) 1) <
  elastic_err (not_bias true) (1 / 10%:R) 0 (design true (used_rows (SKIP R) rows20)) (v2 0 (1 / 2%:R)).
Proof.
have H10 : (0 : R) < 10%:R by rewrite ltr0n.
move=> Ht; split.
  rewrite (@elastic_stops R F 1 (args true (1 / 10%:R) 0 tol) rows20); rewrite -?[a_policy _]/(SKIP R) ?used20E //=.
  - congr (Ok (Some _)).
    apply/matrixP => i k; rewrite (ord1 k) mxE; case: (split_ordP i) => q ->; rewrite (ord1 q) ?v2E0 ?v2E1 //=.
    by rewrite big_cons big_seq1 /= addr0.
  - by rewrite divr_gt0 // ltr01.
  - move=> j /ord_p1 ->; rewrite big_cons big_seq1 /= !row_mxEl !mxE mulr0 addr0 expr0n expr1n add0r.
    exact: ltr01.
  - move=> j /ord_p1 ->; rewrite big_cons big_seq1 /= !row_mxEl !mxE mulr0 mul0r addr0 normr0.
    by rewrite mulr_ge0 // ?ler0n // divr_ge0 // ?ler01 // ltW.
rewrite used20E !err20 normrN normr1 normr0.
have -> : (1 - 1) ^+ 2 + (-1 + 1) ^+ 2 + 2%:R * (2%:R * (1 / 10%:R) * 1) = 4%:R / 10%:R :> R.
  by have H := natr_neq0 9; move: H; set t := 10%:R => H; clearbody t; fd; apply/eqP.
have -> : (1 - 1 / 2%:R) ^+ 2 + (0 + 1 / 2%:R) ^+ 2 + 2%:R * (2%:R * (1 / 10%:R) * 0) = 1 / 2%:R :> R.
  have Hs : 2%:R^-1 + 2%:R^-1 = 1 :> R by have := mulVf (natr_neq0 1); rewrite -[X in _ * X]/(1 + 1) mulrDr mulr1.
  by rewrite !mulr0 addr0 add0r !mul1r; move: Hs; set h := _^-1 => Hs; rewrite -{1}Hs addrK -mulr2n expr2 -mulrnAr mulr2n Hs mulr1.
rewrite ltr_pdivr_mulr // mul1r mulrC ltr_pdivl_mulr ?ltr0n //.
by rewrite -natrM ltr_nat.
Qed.

Definition rows_z : seq (lrow R 1) := [:: mk1 (Some 0) (Some 1)].
Lemma demo20_zero tol : pl_lstsq F (args false 1 0 tol) rows_z = Ok None.
Proof.
have Eu : used_rows (SKIP R) rows_z = [:: (f1 0, 1)] by rewrite /used_rows /= complete_mk1.
apply: (@elastic_zero_column R F 1 (args false 1 0 tol) rows_z ord0); rewrite -?[a_policy _]/(SKIP R) ?Eu //=.
- exact: ltr01.
- by move=> r; rewrite inE => /eqP -> /=; rewrite mxE.
Qed.

(** y = x = 1 without a bias, l1 = 1/10, tol = 1/10: the minimiser is 9/10. *)
Definition rows_c : seq (lrow R 1) := [:: mk1 (Some 1) (Some 1)].
Lemma demo20_conv : let a := args false (1 / 10%:R) 0 (1 / 10%:R) in
  let us := used_rows (a_policy a) rows_c in
  [/\ (0 < size us)%N, accepts (a_policy a) rows_c, (1 <= size us)%N, 0 < a_l1 a & 0 < a_tol a] /\
  [/\ (forall j : 'I_(1 + a_bias a), (j < 1)%N -> 1 <= \sum_(r <- design (a_bias a) us) (r.1 0 j) ^+ 2 + (size us)%:R * a_l2 a) &
  \sum_(r <- us) r.2 ^+ 2 < 2000%:R * (1 * a_tol a ^+ 2)].
Proof.
have Eu : used_rows (SKIP R) rows_c = [:: (f1 1, 1)] by rewrite /used_rows /= complete_mk1.
have H10 : (0 : R) < 10%:R by rewrite ltr0n.
cbv zeta; rewrite -?[a_policy _]/(SKIP R) ?Eu; split; split=> //=; try by rewrite divr_gt0 // ltr01.
  move=> j Hj; have -> : j = lshift false ord0 by apply: val_inj => /=; case: (val j) Hj.
  by rewrite big_seq1 /= row_mxEl mxE expr1n mulr0 addr0.
rewrite big_seq1 /= expr1n mul1r expr_div_n expr1n -natrX mulrA mulr1 ltr_pdivl_mulr ?ltr0n // mul1r ltr_nat.
by [].
Qed.

(** *** Hypotheses of the other theorems *)
Lemma demo14_weighted : let a := LrArgs false (SKIP R) Nqr 0 0 1 (Some [:: 2%:R]) in
  [/\ accepts (a_policy a) rows_c, (1 <= size (used_rows (a_policy a) rows_c))%N,
      (forall o : R, o \in [:: 2%:R : R] -> 0 <= o) &
      identifiable everything 0 [seq r.1.1 | r <- zip (design false (used_rows (a_policy a) rows_c)) [:: (2%:R : R)] & 0 < r.2]].
Proof.
have Eu : used_rows (SKIP R) rows_c = [:: (f1 1, 1)] by rewrite /used_rows /= complete_mk1.
cbv zeta; rewrite -?[a_policy _]/(SKIP R) ?Eu; split=> //=.
  by move=> o; rewrite inE => /eqP ->; rewrite ler0n.
rewrite ltr0n /=; have := @ident_b0 R everything 0 [:: (f1 1, 1)] 1 1; apply; rewrite ?mem_head ?oner_eq0 //.
Qed.

Lemma demo18 : pl_lstsq_pred F (args true 0 0 1) rows14 = Ok [:: Some (1, 0); None; Some (3%:R, 0); Some (5%:R, 0)].
Proof.
rewrite (@pred_ok R F 1 (args true 0 0 1) rows14 (v2 2%:R 1)) //; last exact: demo14; last by rewrite -?[a_policy _]/(SKIP R) used14E.
rewrite /= !complete_mk1 complete_mk1_none.
have E (x : R) : predict (features true (f1 x)) (v2 2%:R 1) = x * 2%:R + 1 by rewrite predict1 v2E0 v2E1.
cbv zeta iota beta; rewrite !E mul0r add0r mul1r subrr.
have -> : 2%:R + 1 = 3%:R :> R by rewrite -mulrSr.
have -> : 2%:R * 2%:R + 1 = 5%:R :> R by rewrite -natrM -mulrSr.
by rewrite !subrr.
Qed.

Lemma demo17_history : history false 0 [:: (f1 (1 : R), 2%:R)]
  [:: (Some (f1 2%:R, 1), 1); (None, 5%:R); (Some (f1 1, 2%:R), -1)] [:: (f1 2%:R, 1)] /\
  identifiable (not_bias false) 0 (map fst (design false [:: (f1 (1 : R), 2%:R)])).
Proof.
split; last by apply: (@ident_b0 R _ _ _ 1 2%:R); rewrite ?mem_head ?oner_eq0.
apply: H_add; apply: H_nan; apply: (@H_del R 1 false 0 [::]); last exact: H_nil.
by apply: (@ident_b0 R _ _ _ 2%:R 1); rewrite ?mem_head ?pnatr_eq0.
Qed.

Definition rows_3 : seq (lrow R 1) := [:: mk1 (Some 1) (Some 1); mk1 (Some 2%:R) (Some 1); mk1 (Some 1) (Some 0)].
Lemma demo16_ok j : (j < 3)%N -> forall n, (0 < n)%N ->
  identifiable everything 0 (map fst (design false (used_rows (SKIP R) (take n (drop j rows_3))))).
Proof.
case: j => [|[|[|//]]] _ [//|n] _; rewrite /rows_3 /= /used_rows /= !complete_mk1.
- by apply: (@ident_b0 R _ _ _ 1 1); rewrite ?mem_head ?oner_eq0.
- by apply: (@ident_b0 R _ _ _ 2%:R 1); rewrite ?mem_head ?pnatr_eq0.
- by apply: (@ident_b0 R _ _ _ 1 0); rewrite ?mem_head ?oner_eq0.
Qed.

(** Two targets and a null feature, filled. *)
Definition rows_m : seq (mrow R 2 1) :=
  [:: MRow (\row_t (if t == 0 then Some 1 else Some 3%:R)) (const_mx None); MRow (const_mx (Some 2%:R)) (const_mx (Some 1))].
Lemma demo_multi : multi_accepts (@FILL R 1) rows_m /\
  (forall t, identifiable (not_bias false) 0 (map fst (design false (used_rows (@FILL R 1) (map (one_target t) rows_m))))) /\
  ~~ multi_accepts (SKIP R) rows_m.
Proof.
have T1 : [forall t : 'I_2, isSome ((\row_t (if t == 0 then Some (1 : R) else Some 3%:R)) 0 t)].
  by apply/forallP => t; rewrite mxE; case: ifP.
have T2 : [forall t : 'I_2, isSome ((const_mx (Some (2%:R : R)) : 'rV_2) 0 t)] by apply/forallP => t; rewrite mxE.
have N : [forall j : 'I_1, isSome ((const_mx None : 'rV[option R]_1) 0 j)] = false.
  by apply/negbTE; rewrite negb_forall; apply/existsP; exists ord0; rewrite mxE.
split; last split.
- by rewrite /multi_accepts /= T1 T2 orbT.
- move=> t; apply: (@ident_b0 R _ _ _ 1 2%:R); rewrite ?oner_eq0 //.
  rewrite /used_rows /= /filled_row /= ![(\row__ _) _ _]mxE ![(const_mx (Some 2%:R)) _ _]mxE; case: (t == 0) => /=; rewrite !inE;
    apply/orP; right; apply/eqP; congr (_, _); apply/matrixP => i j; by rewrite !mxE.
- by rewrite /multi_accepts /= N !andbF.
Qed.
End Refute.
