(** Histories of the class OnlineLR. *)
From mathcomp Require Import all_ssreflect all_algebra.
From Verif Require Import LinModel LinSpec LinCore LinProofs LinOnline LinExprSpec LinExpr LinExpr2.
Set Implicit Arguments.
Unset Strict Implicit.
Import Order.TTheory GRing.Theory Num.Theory.
Local Open Scope ring_scope.

Section Hist.
Variable R : realFieldType.
Variable F : faer R.
Hypothesis HF : faer_ok F.
Variable p : nat.
Variable b : bool.
Variable lambda : R.
Hypothesis Hl : 0 <= lambda.

Lemma not_bias_lt : not_bias b =1 (fun j : 'I_(p + b) => (j < abs_diff (p + b) b)%N).
Proof. by move=> j; rewrite abs_diff_bias. Qed.

Lemma online_fit_ok (d : data R p) : identifiable (not_bias b) lambda (map fst (design b d)) ->
  fitted (not_bias b) lambda (design b d) (online_fit F b lambda d).
Proof.
move=> Hi; have U := ident_unit Hl Hi; split=> //.
exact: (@qr_with_inv_ok R F HF _ _ b (not_bias b) (design b d) lambda (erefl _) not_bias_lt Hl U).
Qed.

Lemma fitted_is_fit (d : data R p) st : fitted (not_bias b) lambda (design b d) st -> st = online_fit F b lambda d.
Proof.
move=> H; apply: (fitted_unique H); apply: online_fit_ok.
by apply: unit_ident; case: H.
Qed.

Lemma history_fitted (d : seq ('rV[R]_p * R)) cs d' st : history b lambda d cs d' -> fitted (not_bias b) lambda (design b d) st ->
  exists st', run b (Some st) cs = Some st' /\ fitted (not_bias b) lambda (design b d') st'.
Proof.
move=> H; elim: H st => {d cs d'} [d st Hst|d [x y] cs d' _ IH st Hst|d1 [x y] d2 cs d' Hi _ IH st Hst|d c cs d' _ IH st Hst].
- by exists st.
- have [st' [E H']] := step_add Hl (features b x) y Hst.
  have [|st2 [E2 H2]] := IH st'; first by move: H'; rewrite !designE map_rcons.
  by exists st2; split=> //; rewrite /run /= -E2 /run -E.
- have Hp : perm_eq (design b (d1 ++ (x, y) :: d2)) ((features b x, y) :: design b (d1 ++ d2)).
    by rewrite !designE !map_cat /= perm_sym -cat1s perm_catCA.
  have [st' [E H']] := step_rem Hp Hst (ident_unit Hl Hi).
  have [st2 [E2 H2]] := IH st' H'.
  by exists st2; split=> //; rewrite /run /= -E2 /run -E.
- exact: IH.
Qed.

Theorem history_refit (d : seq ('rV[R]_p * R)) cs d' : identifiable (not_bias b) lambda (map fst (design b d)) -> history b lambda d cs d' ->
  run b (Some (online_fit F b lambda d)) cs = Some (online_fit F b lambda d') /\
  unique_min (ridge_err (not_bias b) lambda (design b d')) (o_coef (online_fit F b lambda d')).
Proof.
move=> Hi H; have [st' [E H']] := history_fitted H (online_fit_ok Hi).
have <- := fitted_is_fit H'; split=> //; exact: (fitted_min Hl H').
Qed.

(** An update with another c weighs the row by 1/c. *)
Theorem update_weight (d : seq ('rV[R]_p * R)) (x : 'rV[R]_p) y c : identifiable (not_bias b) lambda (map fst (design b d)) -> 0 < c ->
  exists st, online_update b (Some (online_fit F b lambda d)) (Some (x, y)) c = Some st /\
    unique_min (fun w => ridge_err (not_bias b) lambda (design b d) w
                         + c^-1 * (y - predict (features b x) w) ^+ 2) (o_coef st).
Proof.
move=> Hi Hc; have [U Hst] := online_fit_ok Hi.
have Hc0 : c != 0 by rewrite gt_eqF.
have N1 : nonneg [:: ((features b x, y), c^-1)].
  by move=> r; rewrite inE => /eqP -> /=; rewrite invr_ge0 ltW.
have U' : amat (not_bias b) lambda (rcons (ones (design b d)) ((features b x, y), c^-1)) \in unitmx.
  by rewrite -cats1; apply: unit_mono => //; apply: nonneg_ones.
have [st [E [H1 H2]]] := woodbury_ok U Hst Hc0 U'.
exists st; split=> //.
have Hn : nonneg (rcons (ones (design b d)) ((features b x, y), c^-1)).
  by rewrite -cats1; apply/nonneg_cat; split=> //; apply: nonneg_ones.
have Hm : amat (not_bias b) lambda (rcons (ones (design b d)) ((features b x, y), c^-1)) *m o_coef st
          = moment (rcons (ones (design b d)) ((features b x, y), c^-1)) by rewrite H2 mulKVmx.
have := normal_eq_min Hn Hl U' Hm.
have E' : forall w, full_err (not_bias b) lambda (rcons (ones (design b d)) ((features b x, y), c^-1)) w
  = ridge_err (not_bias b) lambda (design b d) w + c^-1 * (y - predict (features b x) w) ^+ 2.
  move=> w; rewrite -full_ridge /full_err /weighted_err -cats1 big_cat big_seq1 /=.
  by rewrite -!addrA; congr (_ + _); rewrite addrC.
by move=> H v Hv; rewrite -!E'; apply: H.
Qed.
End Hist.
