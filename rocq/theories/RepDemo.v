(** The r2 of the regression report, and concrete cases. *)
From Coq Require Import Ring Field.
From mathcomp Require Import all_ssreflect all_algebra.
From Verif Require Import LinModel LinSpec LinCore LinProofs LinExprSpec LinExpr LinDemos RepModel RepSpec RepProofs.
Set Implicit Arguments.
Unset Strict Implicit.
Import Order.TTheory GRing.Theory Num.Theory.
Local Open Scope ring_scope.

Section Scalar.
Variable R : realFieldType.
Add Ring Rring : (@Rrt R).
Add Field Rfield : (@Rft R).
Notation K := (@K R). Notation kadd := (@kadd R). Notation kmul := (@kmul R). Notation kopp := (@kopp R).
Notation kinv := (@kinv R). Notation k0 := (k0 R). Notation k1 := (k1 R).
Ltac tok := rewrite ?exprS ?expr0 ?mulrS ?mulr0n;
  repeat match goal with
  | |- context[@GRing.add _ ?a ?b] => change (@GRing.add _ a b) with (kadd a b)
  | |- context[@GRing.mul _ ?a ?b] => change (@GRing.mul _ a b) with (kmul a b)
  | |- context[@GRing.opp _ ?a] => change (@GRing.opp _ a) with (kopp a)
  | |- context[@GRing.inv _ ?a] => change (@GRing.inv _ a) with (kinv a)
  | |- context[@GRing.zero _] => change (@GRing.zero _) with k0
  | |- context[@GRing.one _] => change (@GRing.one _) with k1
  end; match goal with |- @eq _ ?a ?b => change (@eq K a b) end.
Ltac rg := tok; ring.
Ltac fd := tok; field.

Lemma sc_r2 (a q : R) : 1 - (1 - a) * (1 - q) - a = (1 - a) * q.
Proof. rg. Qed.
Lemma sc_adj (n p : R) : n != 0 -> n - p - 1 != 0 -> n - (p + 1) - 1 != 0 ->
  (1 - n^-1) * ((n - 1) / (n - (p + 1) - 1)) - (n - 1) / (n - p - 1)
  = (n - 1) * (p + 1) / (n * (n - p - 1) * (n - (p + 1) - 1)).
Proof.
move=> /eqP A0 /eqP A1 /eqP A2; tok; field; by repeat split.
Qed.
Lemma sc_min2 (a1 a2 t1 t2 a x : R) :
  (t1 - a1 * x) ^+ 2 + (t2 - a2 * x) ^+ 2 = (a1 ^+ 2 + a2 ^+ 2) * (x - a) ^+ 2
    + (t1 ^+ 2 + t2 ^+ 2 - (a1 ^+ 2 + a2 ^+ 2) * a ^+ 2)
    + (1 + 1) * x * ((a1 ^+ 2 + a2 ^+ 2) * a - (a1 * t1 + a2 * t2)).
Proof. rg. Qed.
Lemma sc_four (a c : R) : (0 - (0 * a + c)) ^+ 2 + ((1 + 1 - (0 * a + c)) ^+ 2 + ((0 - (1 * a + c)) ^+ 2 + (1 + 1 - (1 * a + c)) ^+ 2))
  = 2%:R * (c - 1) ^+ 2 + 2%:R * (a + c - 1) ^+ 2 + 4%:R.
Proof. rg. Qed.
Lemma sc_f1 (t : R) : t != 0 -> (0 - 1 * (8%:R / t)) ^+ 2 + (4%:R - 2%:R * (8%:R / t)) ^+ 2 = (80%:R + 16%:R * (t - 5%:R) * (t - 3%:R)) / t ^+ 2.
Proof. move=> /eqP H; tok; field; exact: H. Qed.
Lemma sc_min1 (a1 t1 a x : R) :
  (t1 - a1 * x) ^+ 2 = a1 ^+ 2 * (x - a) ^+ 2 + (t1 ^+ 2 - a1 ^+ 2 * a ^+ 2) + (1 + 1) * x * (a1 ^+ 2 * a - a1 * t1).
Proof. rg. Qed.
End Scalar.

Section R2.
Variable R : rcfType.
Variable F : faer R.
Hypothesis HF : faer_ok F.
Variable T : student R.
Variables (p : nat) (b : bool) (pol : policy R) (rows : seq (lrow R p)).
Let d := design b (used_rows pol rows).
Hypotheses (H2 : accepts pol rows) (H3 : (p + b < size (used_rows pol rows))%N).
Hypotheses (H4 : identifiable everything 0 (map fst d)) (N : no_null rows) (Hs : (1 < size rows)%N).
Hypothesis Ht : tss (map snd d) != 0.
Variable w : 'cV[R]_(p + b).
Hypotheses (Hw : unique_min (sq_err d) w) (He : sq_err d w != 0).

Lemma tss_gt0 : 0 < tss (map snd d).
Proof. by rewrite lt_def Ht sumr_ge0 // => k _; rewrite sqr_ge0. Qed.

Lemma one_R2 : 0 < 1 - R2 d w.
Proof. by rewrite /R2 opprB addrC subrK divr_gt0 ?tss_gt0 // lt_def He sq_ge0. Qed.

Lemma d2 : (1 < size d)%N.
Proof. by rewrite /d size_d. Qed.

Lemma nR : 0 < (size d)%:R :> R.
Proof. by rewrite ltr0n ltnW // d2. Qed.

Lemma r2_over kind : exists rep x, lin_reg_report F T kind b pol rows = Ok (Some rep) /\
  r_r2 rep = Some x /\ R2 d w < x.
Proof.
have [rep [E1 [E2 _]]] := r2_value HF T (ltnW Hs) H2 H3 H4 kind N Hs Ht Hw.
exists rep; eexists; split; [exact: E1|split; [exact: E2|]].
rewrite -subr_gt0.
have -> : 1 - (1 - R2 d w) * (1 - (size d)%:R^-1) - R2 d w = (1 - R2 d w) / (size d)%:R.
  exact: sc_r2.
by rewrite divr_gt0 ?one_R2 ?nR.
Qed.
End R2.

Section Adj.
Variable R : rcfType.
Variable F : faer R.
Hypothesis HF : faer_ok F.
Variable T : student R.
Variables (p : nat) (pol : policy R) (rows : seq (lrow R p)).
Let d := design true (used_rows pol rows).
Hypotheses (H2 : accepts pol rows) (H3 : (p + true < size (used_rows pol rows))%N).
Hypotheses (H4 : identifiable everything 0 (map fst d)) (N : no_null rows) (Hs : (p + 2 < size rows)%N).
Hypothesis Ht : tss (map snd d) != 0.
Variable w : 'cV[R]_(p + true).
Hypotheses (Hw : unique_min (sq_err d) w) (He : sq_err d w != 0).

Lemma adj_under kind : exists rep x, lin_reg_report F T kind true pol rows = Ok (Some rep) /\
  r_adj rep = Some x /\ x < adj_R2 p d w.
Proof.
have Hs1 : (1 < size rows)%N by apply: leq_ltn_trans Hs; rewrite addn2.
have [rep [E1 [_ E2]]] := r2_value HF T (ltnW Hs1) H2 H3 H4 kind N Hs1 Ht Hw.
have Sd : size d = size rows by rewrite /d size_d.
have G1 : 0 < (size d)%:R - (p + true)%:R - 1 :> R.
  by rewrite subr_gt0 ltr_subr_addr -(natrD _ 1) ltr_nat Sd addnC -addnA.
have G0 : 0 < (size d)%:R - p%:R - 1 :> R.
  apply: lt_trans G1 _; by rewrite ltr_add2r ltr_add2l ltr_opp2 ltr_nat addn1.
exists rep; eexists; split; [exact: E1|split; [apply: E2|]].
  by rewrite /dof -subr_eq0 gt_eqF.
rewrite /adj_R2 ltr_add2l ltr_opp2 -mulrA ltr_pmul2l; last exact: one_R2.
have n0 : 0 < (size d)%:R :> R by rewrite ltr0n Sd ltnW.
have n1 : 0 < (size d)%:R - 1 :> R by rewrite subr_gt0 ltr1n Sd.
rewrite -subr_gt0.
have -> : (p + true)%:R = p%:R + 1 :> R by rewrite natrD.
rewrite natrD in G1; rewrite sc_adj ?gt_eqF //.
by rewrite divr_gt0 ?mulr_gt0 // -(natrD _ p 1) ltr0n addn1.
Qed.
End Adj.

(** ** A concrete case: the constant feature 1, targets 0 and 2 *)
Section Case.
Variable R : rcfType.
Variable F : faer R.
Hypothesis HF : faer_ok F.
Variable T : student R.

Definition rep_rows : seq (lrow R 1) := [:: mk1 (Some 1) (Some 0); mk1 (Some 1) (Some 2%:R)].
Definition rep_gap : seq (lrow R 1) := rep_rows ++ [:: mk1 None (Some 10%:R)].
Let u : seq ('rV[R]_1 * R) := [:: (f1 1, 0); (f1 1, 2%:R)].

Lemma rep_used : used_rows (SKIP R) rep_rows = u.
Proof. by rewrite /used_rows /= !complete_mk1. Qed.
Lemma rep_gap_used : used_rows (SKIP R) rep_gap = u.
Proof. by rewrite /used_rows /= !complete_mk1 complete_mk1_none. Qed.
Lemma rep_no_null : no_null rep_rows.
Proof. by rewrite /no_null /= !complete_mk1. Qed.

Lemma one_feature_min (l : seq ('rV[R]_1 * R)) (a : R) (e : R) :
  (exists2 c, 0 < c & forall h, sq_err (design false l) h = c * (h (lshift false ord0) 0 - a) ^+ 2 + e) ->
  unique_min (sq_err (design false l)) (v1 a).
Proof.
move=> [c Hc H] h Hh; rewrite !H v1E subrr expr0n mulr0 add0r ltr_addr mulr_gt0 //.
rewrite lt_def sqr_ge0 andbT expf_eq0 /= subr_eq0; apply: contraNN Hh => /eqP E; apply/eqP.
apply/matrixP => i j; rewrite (ord1 j) mxE -E; congr (h _ 0).
by apply: val_inj => /=; case: i => -[].
Qed.

Lemma min2 (a1 a2 t1 t2 a : R) : a1 != 0 -> (a1 ^+ 2 + a2 ^+ 2) * a = a1 * t1 + a2 * t2 ->
  unique_min (sq_err (design false [:: (f1 a1, t1); (f1 a2, t2)])) (v1 a).
Proof.
move=> H0 H; apply: (one_feature_min (e := t1 ^+ 2 + t2 ^+ 2 - (a1 ^+ 2 + a2 ^+ 2) * a ^+ 2)).
exists (a1 ^+ 2 + a2 ^+ 2); first by rewrite ltr_paddr ?sqr_ge0 // lt_def sqr_ge0 expf_neq0.
move=> h; rewrite /sq_err big_map big_cons big_seq1 /= [predict _ _]predict0 [predict (row_mx (f1 a2) _) _]predict0.
by rewrite (sc_min2 _ _ _ _ a) H subrr mulr0 addr0.
Qed.

Lemma min1 (a1 t1 a : R) : a1 != 0 -> a1 ^+ 2 * a = a1 * t1 ->
  unique_min (sq_err (design false [:: (f1 a1, t1)])) (v1 a).
Proof.
move=> H0 H; apply: (one_feature_min (e := t1 ^+ 2 - a1 ^+ 2 * a ^+ 2)).
exists (a1 ^+ 2); first by rewrite lt_def sqr_ge0 expf_neq0.
move=> h; rewrite /sq_err big_map big_seq1 /= [predict _ _]predict0.
by rewrite (sc_min1 _ _ a) H subrr mulr0 addr0.
Qed.

Lemma rep_ident (l : seq ('rV[R]_1 * R)) y : (f1 1, y) \in l -> identifiable everything 0 (map fst (design false l)).
Proof. move=> H; exact: ident_b0 H (oner_neq0 _). Qed.

Definition half : R := 2%:R^-1.
Lemma half2 : 2%:R * half = 1. Proof. by rewrite mulfV // pnatr_eq0. Qed.
Definition rep_S : nat -> 'cV[R]_(1 + false) := fun=> v1 half.
Definition rep_L : nat -> 'cV[R]_(1 + false) := fun k => v1 (if k == 0%N then 2%:R else 0).
Notation d := (design false (used_rows (SKIP R) rep_rows)).

Lemma rep_fits : fits d (v1 1) rep_S.
Proof.
rewrite rep_used; split.
  by apply: min2; rewrite ?oner_neq0 // !expr1n mulr1 mulr0 mul1r add0r.
move=> [|[|k]] //= _; rewrite /sensitivity /with_targets /=.
- apply: (@min2 1 1 1 0); rewrite ?oner_neq0 // !expr1n mulr1 mulr0 addr0; exact: half2.
- apply: (@min2 1 1 0 1); rewrite ?oner_neq0 // !expr1n mulr1 mulr0 add0r; exact: half2.
Qed.

Lemma rep_loo k : (k < size d)%N -> identifiable everything 0 (map fst (without d k)) /\
  unique_min (sq_err (without d k)) (rep_L k).
Proof.
rewrite rep_used; case: k => [|[|k]] //= _; rewrite /without /=; split.
- by apply: (@rep_ident [:: (f1 1, 2%:R)] 2%:R); rewrite inE.
- by apply: (@min1 1 2%:R); rewrite ?oner_neq0 // expr1n !mul1r.
- by apply: (@rep_ident [:: (f1 1, 0)] 0); rewrite inE.
- by apply: (@min1 1 0); rewrite ?oner_neq0 // expr1n !mul1r.
Qed.

Lemma rep_id : identifiable everything 0 (map fst d).
Proof. by rewrite rep_used; apply: (@rep_ident _ 0); rewrite inE eqxx. Qed.

Lemma rep_sq : sq_err d (v1 1) = 2%:R.
Proof.
rewrite rep_used /sq_err big_map big_cons big_seq1 /= [predict _ _]predict0 v1E.
by rewrite !mul1r sub0r sqrrN expr1n [2%:R in X in _ + X]mulrS addrK expr1n.
Qed.

Lemma two1 : 2%:R - 1 = 1 :> R. Proof. by rewrite -(natrB _ (isT : (1 <= 2)%N)). Qed.

Lemma rep_sum1 : \sum_(k < size d) (rep_S k ord0 0) ^+ 2 = half.
Proof.
rewrite rep_used /= big_ord_recl big_ord1 /rep_S !mxE expr2 -mulr2n -mulrnAl -mulr_natl half2 mul1r //.
Qed.

Lemma rep_dof : dof d = 1.
Proof. by rewrite rep_used /dof /=; exact: two1. Qed.

Lemma rep_tss : tss (map snd d) = 2%:R.
Proof.
rewrite rep_used /tss /=.
have -> : avg [:: 0; 2%:R] = 1 :> R by rewrite /avg !big_cons big_nil addr0 add0r mulfV ?pnatr_eq0.
rewrite !big_cons big_nil addr0.
by rewrite sub0r sqrrN two1 !expr1n.
Qed.

Lemma rep_R2 : R2 d (v1 1) = 0.
Proof. by rewrite /R2 rep_sq rep_tss mulfV ?pnatr_eq0 // subrr. Qed.

Lemma rep_size : (1 + false < size (used_rows (SKIP R) rep_rows))%N.
Proof. by rewrite rep_used. Qed.

Lemma rep_case : exists rep, lin_reg_report F T SE false (SKIP R) rep_rows = Ok (Some rep) /\
  r_beta (r_rows rep ord0) = 1 /\ r_se (r_rows rep ord0) = Some 1 /\ r_r2 rep = Some half /\ R2 d (v1 1) = 0.
Proof.
have [|//|rep [E1 E2]] := facts_ok HF T (isT : (0 < size rep_rows)%N) (isT : accepts (SKIP R) rep_rows) rep_size rep_id (kind := SE) (L := rep_L) rep_fits.
  by rewrite rep_used.
have [B [s [S1 [S2 S3]]]] := E2 ord0; exists rep; split=> //; split; first by rewrite B mxE.
split.
  rewrite S1; congr Some; move: S3; rewrite /var_se rep_sum1 rep_sq rep_dof divr1 mulrC half2 => /eqP.
  by rewrite sqrf_eq1 => /orP[/eqP //|/eqP E]; move: S2; rewrite E oppr_ge0 ler10.
split; last exact: rep_R2.
have [|rep' [E1' [E2' _]]] := r2_value HF T (isT : (0 < size rep_rows)%N) (isT : accepts (SKIP R) rep_rows) rep_size rep_id SE rep_no_null isT _ rep_fits.1.
  by rewrite rep_tss pnatr_eq0.
move: E1'; rewrite E1 => -[->]; rewrite E2' rep_R2 subr0 mul1r opprB addrC subrK.
by rewrite rep_used.
Qed.

(** A row that is not used changes r2. *)
Lemma rep_gap_r2 : exists rep, lin_reg_report F T SE false (SKIP R) rep_gap = Ok (Some rep) /\
  r_r2 rep = Some (27%:R / 28%:R).
Proof.
have Sz : (1 + false < size (used_rows (SKIP R) rep_gap))%N by rewrite rep_gap_used.
have Id : identifiable everything 0 (map fst (design false (used_rows (SKIP R) rep_gap))).
  by rewrite rep_gap_used -rep_used; exact: rep_id.
have Mn : unique_min (sq_err (design false (used_rows (SKIP R) rep_gap))) (v1 1).
  by rewrite rep_gap_used -rep_used; exact: rep_fits.1.
have [|rep [E1 E2]] := r2_general HF T (isT : (0 < size rep_gap)%N) (isT : accepts (SKIP R) rep_gap) Sz Id SE _ Mn.
  by rewrite rep_gap_used.
exists rep; split=> //.
have V : pl_var (map (@tgt R 1) rep_gap) = Some 28%:R.
  rewrite /pl_var /=; congr Some.
  have -> : mean_seq [:: 0; 2%:R; 10%:R] = 4%:R :> R.
    rewrite /mean_seq !big_cons big_nil addr0 add0r -natrD.
    by apply: (@mulIf _ 3%:R); rewrite ?pnatr_eq0 // mulfVK ?pnatr_eq0 // -natrM.
  rewrite !big_cons big_nil addr0.
  rewrite sub0r sqrrN -[2%:R - _]opprB sqrrN -!natrB // -!natrX -!natrD.
  by apply: (@mulIf _ 2%:R); rewrite ?pnatr_eq0 // mulfVK ?pnatr_eq0 // -natrM.
have [|-> _] := E2 _ V; first by rewrite pnatr_eq0.
rewrite rep_gap_used -rep_used rep_sq rep_used /=; congr Some.
rewrite -natrM; apply: (@mulIf _ (28 * 2)%:R); rewrite ?pnatr_eq0 // mulrBl mul1r mulfVK ?pnatr_eq0 //.
by rewrite natrM mulrA mulfVK ?pnatr_eq0 // -!natrM -natrB.
Qed.

Lemma r2_skip : exists (rows rows' : seq (lrow R 1)) rep rep',
    used_rows (SKIP R) rows = used_rows (SKIP R) rows' /\
    lin_reg_report F T SE false (SKIP R) rows = Ok (Some rep) /\
    lin_reg_report F T SE false (SKIP R) rows' = Ok (Some rep') /\
    r_r2 rep = Some (2%:R^-1) /\ r_r2 rep' = Some (27%:R / 28%:R).
Proof.
have [rep [E1 [_ [_ [E2 _]]]]] := rep_case; have [rep' [E3 E4]] := rep_gap_r2.
by exists rep_rows, rep_gap, rep, rep'; rewrite rep_used rep_gap_used.
Qed.

(** Weights 1 and 4. *)
Definition rep_w : seq R := [:: 1; 4%:R].
Lemma sqrt4 : Num.sqrt 4%:R = 2%:R :> R.
Proof. by rewrite (_ : 4%:R = 2%:R ^+ 2) ?sqrtr_sqr ?ger0_norm ?ler0n // -natrX. Qed.

Lemma rep_scaled : scaled d rep_w = design false [:: (f1 1, 0); (f1 2%:R, 4%:R)].
Proof.
rewrite rep_used /scaled /= sqrtr1 sqrt4 scale1r mul1r -natrM /design /=.
congr [:: _; (_, _)]; apply/matrixP => i j; rewrite !mxE; case: split_ordP => k _; rewrite ?mxE ?mulr1 //.
by case: k.
Qed.

Definition rep_S4 : nat -> 'cV[R]_(1 + false) := fun k => v1 (k.+1%:R / 5%:R).
Lemma rep_fits4 : fits (scaled d rep_w) (v1 (8%:R / 5%:R)) rep_S4.
Proof.
have five (a : R) : (1 ^+ 2 + 2%:R ^+ 2) * (a / 5%:R) = a.
  by rewrite expr1n -natrX -(natrD _ 1) mulrC mulfVK // pnatr_eq0.
rewrite rep_scaled; split.
  by apply: min2; rewrite ?oner_neq0 // five mulr0 add0r -natrM.
move=> [|[|k]] //= _; rewrite /sensitivity /with_targets /=.
- by apply: (@min2 1 2%:R 1 0); rewrite ?oner_neq0 // five mulr0 addr0 mulr1.
- by apply: (@min2 1 2%:R 0 1); rewrite ?oner_neq0 // five mulr0 add0r mulr1.
Qed.

Lemma rep_id4 : identifiable everything 0 (map fst (scaled d rep_w)).
Proof. by rewrite rep_scaled; apply: (@rep_ident _ 0); rewrite inE eqxx. Qed.

Lemma rep_w_ge0 o : o \in rep_w -> 0 <= o.
Proof. by rewrite !inE => /orP[] /eqP ->; rewrite ?ler0n ?ler01. Qed.

Lemma rep_w_size : size rep_w = size d.
Proof. by rewrite rep_used. Qed.

Lemma rep_case4 : exists rep, lin_reg_report_w F T false (SKIP R) (map Some rep_w) rep_rows = Ok (Some rep) /\
  r_beta (r_rows rep ord0) = 8%:R / 5%:R /\ r_se (r_rows rep ord0) = Some (4%:R / 5%:R).
Proof.
have [|rep [E1 E2]] := weighted_ok HF T (isT : (0 < size rep_rows)%N) (isT : accepts (SKIP R) rep_rows) rep_size rep_w_size rep_w_ge0 rep_id4 _ rep_fits4.
  by rewrite rep_used.
have [B [s [S1 [S2 S3]]]] := E2 ord0; exists rep; split=> //; split; first by rewrite B mxE.
rewrite S1; congr Some; apply/eqP.
have n5 : 5%:R != 0 :> R by rewrite pnatr_eq0.
rewrite -(eqr_expn2 (n := 2)) // ?divr_ge0 ?ler0n // S3 /var_se rep_scaled /dof /sq_err big_map big_cons big_seq1 /=.
rewrite [predict _ _]predict0 [predict (row_mx (f1 2%:R) _) _]predict0 v1E sc_f1 // subrr mulr0 mul0r addr0.
rewrite big_ord_recl big_ord1 !mxE /= two1 divr1 !expr_div_n expr1n -mulrDl.
rewrite -natrX -(natrD _ 1) -!natrX; apply/eqP.
rewrite mulrAC mulrA -natrM (_ : (_ * 80)%N = (4 ^ 2 * 5 ^ 2)%N) // natrM mulfK //; rewrite ?pnatr_eq0 //.
Qed.

Lemma rep_panic : lin_reg_report_w F T false (SKIP R) [:: Some 1; Some 1; Some 1] rep_gap = Panic.
Proof. by apply: weighted_skip_panic; rewrite ?rep_gap_used. Qed.

(** With a bias: features 0, 0, 1, 1 and targets 0, 2, 0, 2. *)
Definition rep_rows4 : seq (lrow R 1) :=
  [:: mk1 (Some 0) (Some 0); mk1 (Some 0) (Some 2%:R); mk1 (Some 1) (Some 0); mk1 (Some 1) (Some 2%:R)].
Notation d4 := (design true (used_rows (SKIP R) rep_rows4)).
Lemma rep4_used : used_rows (SKIP R) rep_rows4 = [:: (f1 0, 0); (f1 0, 2%:R); (f1 1, 0); (f1 1, 2%:R)].
Proof. by rewrite /used_rows /= !complete_mk1. Qed.
Lemma rep4_sq h : sq_err d4 h = 2%:R * (h (rshift 1 ord0) 0 - 1) ^+ 2 + 2%:R * (h (lshift true ord0) 0 + h (rshift 1 ord0) 0 - 1) ^+ 2 + 4%:R.
Proof.
rewrite rep4_used /sq_err big_map !big_cons big_nil /= addr0 ![predict (row_mx (f1 0) _) _]predict1 ![predict (row_mx (f1 1) _) _]predict1.
exact: sc_four.
Qed.
Lemma rep4_v : sq_err d4 (v2 0 1) = 4%:R.
Proof. by rewrite rep4_sq v2E0 v2E1 add0r subrr expr0n mulr0 !add0r. Qed.
Lemma rep4_min : unique_min (sq_err d4) (v2 0 1).
Proof.
move=> h Hh; rewrite rep4_v rep4_sq ltr_addr lt_def.
have Pos : 0 <= 2%:R * (h (rshift 1 ord0) 0 - 1) ^+ 2 + 2%:R * (h (lshift true ord0) 0 + h (rshift 1 ord0) 0 - 1) ^+ 2.
  by apply: addr_ge0; apply: mulr_ge0; rewrite ?sqr_ge0 ?ler0n.
rewrite Pos andbT paddr_eq0; try by apply: mulr_ge0; rewrite ?sqr_ge0 ?ler0n.
rewrite !(mulf_eq0 2%:R) !pnatr_eq0 /= !sqrf_eq0 negb_and; apply/orP.
case: (altP (h (rshift 1 ord0) 0 - 1 =P 0)) => [E|]; [right|by left].
apply: contraNN Hh => /eqP E'; apply/eqP.
have E1 : h (rshift 1 ord0) 0 = 1 by apply/eqP; rewrite -subr_eq0 E.
have E0 : h (lshift true ord0) 0 = 0 by move: E'; rewrite E1 addrK.
by apply/matrixP => i j; rewrite (ord1 j); case: (split_ordP i) => k ->; rewrite (ord1 k) ?v2E0 ?v2E1.
Qed.
Lemma rep4_case : accepts (SKIP R) rep_rows4 /\ identifiable everything 0 (map fst d4) /\ no_null rep_rows4 /\
  tss (map snd d4) = 4%:R /\ unique_min (sq_err d4) (v2 0 1) /\ sq_err d4 (v2 0 1) = 4%:R.
Proof.
split=> //; split.
  rewrite rep4_used; apply: (@ident_b1 R everything 0 _ 0 0 1 0); rewrite ?inE ?eqxx ?orbT // eq_sym oner_neq0 //.
split; first by rewrite /no_null /= !complete_mk1.
split.
  rewrite rep4_used /tss /=.
  have -> : avg [:: 0; 2%:R; 0; 2%:R] = 1 :> R by rewrite /avg !big_cons big_nil addr0 !add0r -natrD mulfV ?pnatr_eq0.
  by rewrite !big_cons big_nil addr0 sub0r sqrrN two1 !expr1n.
by split; [exact: rep4_min|exact: rep4_v].
Qed.
End Case.
