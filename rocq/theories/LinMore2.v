(** Corollaries of the regression theorems in the form of the properties: penalty without any rank
    assumption, the class LR, several targets, failures. *)
From mathcomp Require Import all_ssreflect all_algebra.
From Verif Require Import LinModel LinSpec LinCore LinProofs LinOnline LinExprSpec LinExpr LinExpr2 LinRolling LinHist LinCd LinMore.
Set Implicit Arguments.
Unset Strict Implicit.
Import Order.TTheory GRing.Theory Num.Theory.
Local Open Scope ring_scope.

Section More2.
Variable R : realFieldType.
Variable F : faer R.
Hypothesis HF : faer_ok F.
Variable p : nat.

Lemma lstsq_ridge (a : lr_args R) (rows : seq (lrow R p)) :
  accepts (a_policy a) rows -> (0 < size (used_rows (a_policy a) rows))%N ->
  (p <= size (used_rows (a_policy a) rows))%N ->
  a_weights a = None -> a_l1 a <= 0 -> 0 < a_l2 a ->
  exists w, pl_lstsq F a rows = Ok (Some w) /\
    unique_min (ridge_err (not_bias (a_bias a)) (a_l2 a) (design (a_bias a) (used_rows (a_policy a) rows))) w.
Proof.
move=> Hacc Hs Hp Hw Hl1 Hl2.
have Hm : Num.max 0 (a_l2 a) = a_l2 a by apply/max_idPr; apply: ltW.
have [||||||w [E H]] := @lstsq_ok R F HF p a rows => //.
- by apply: leq_trans Hs _; rewrite size_pmap count_size.
- by rewrite Hm; apply: ident_ridge_bias.
by exists w; rewrite Hm in H.
Qed.

Lemma lr_fit_ok (b : bool) lambda s (d : seq ('rV[R]_p * R)) : (p <= size d)%N -> (0 < size d)%N -> 0 <= lambda ->
  identifiable (not_bias b) lambda (map fst (design b d)) ->
  exists w, lr_fit F b lambda s d = Ok w /\ unique_min (ridge_err (not_bias b) lambda (design b d)) w.
Proof.
move=> Hp Hs Hl Hid; rewrite /lr_fit ltnNge Hp eqn0Ngt Hs /=.
have Hm : Num.max 0 lambda = lambda by apply/max_idPr.
eexists; split; first by [].
rewrite -[design b d]/[seq (with_one b r.1, r.2) | r <- d] in Hid *.
by have := @solve_lstsq_min R F HF p b [seq (with_one b r.1, r.2) | r <- d] lambda (how_of s); rewrite Hm; apply.
Qed.

(** *** Several targets *)
Section Multi.
Variables (k : nat) (b : bool) (lambda : R) (s : solver_name).
Notation one := one_target.

Definition colrow (t : 'I_k) (r : 'rV[R]_(p + b) * 'rV[R]_k) : 'rV[R]_(p + b) * R := (r.1, r.2 0 t).

Lemma gram_multi t (d : seq ('rV[R]_(p + b) * 'rV[R]_k)) :
  (Xmulti d)^T *m Xmulti d = gram (ones (map (colrow t) d)).
Proof.
apply/matrixP => i j; rewrite mxE /gram summxE !big_map (big_nth (0, 0)) big_mkord.
by apply: eq_bigr => q _; rewrite !mxE big_ord1 !mxE mul1r.
Qed.
Lemma moment_multi t (d : seq ('rV[R]_(p + b) * 'rV[R]_k)) :
  col t ((Xmulti d)^T *m Ymulti d) = moment (ones (map (colrow t) d)).
Proof.
apply/matrixP => i j; rewrite !mxE /moment summxE !big_map (big_nth (0, 0)) big_mkord.
by apply: eq_bigr => q _; rewrite !mxE mul1r mulrC (ord1 j).
Qed.

Lemma multi_solve t (d : seq ('rV[R]_(p + b) * 'rV[R]_k)) h :
  identifiable (not_bias b) (Num.max 0 lambda) (map fst d) ->
  unique_min (ridge_err (not_bias b) (Num.max 0 lambda) (map (colrow t) d))
    (col t (faer_solve_lstsq F (Xmulti d) (Ymulti d) lambda b h)).
Proof.
move=> Hi; have Hl : 0 <= Num.max 0 lambda by rewrite le_maxr lexx.
have Hi' : identifiable (not_bias b) (Num.max 0 lambda) (map fst (map (colrow t) d)) by rewrite -map_comp.
have U := ident_unit Hl Hi'.
suff -> : col t (faer_solve_lstsq F (Xmulti d) (Ymulti d) lambda b h)
          = faer_solve_lstsq F (Xmat (map (colrow t) d)) (Ymat (map (colrow t) d)) lambda b h.
  exact: solve_lstsq_min.
have U2 : (if (0 <= lambda) && (0 < p)%N then add_ridge p lambda (gram (ones (map (colrow t) d)))
           else gram (ones (map (colrow t) d))) \in unitmx.
  have <- : amat (not_bias b) (Num.max 0 lambda) (ones (map (colrow t) d)) =
    (if (0 <= lambda) && (0 < p)%N then add_ridge p lambda (gram (ones (map (colrow t) d)))
           else gram (ones (map (colrow t) d))); last by [].
  rewrite /amat; case: ifP => [/andP[H1 H2]|].
    by rewrite (max_idPr H1) add_ridgeE.
  case: (leP 0 lambda) => [H1 /= Hp|H1 _]; last by rewrite ridge0 addr0.
  suff -> : ridge (not_bias b) lambda = 0 :> 'M[R]_(p + b) by rewrite addr0.
  apply/matrixP => i j; rewrite !mxE /not_bias.
  have -> : (i < p)%N = false by move/negbT: Hp; rewrite -leqNgt => Hp; apply/negbTE; rewrite -leqNgt; apply: leq_trans Hp (leq0n _).
  by rewrite andbF.
rewrite /faer_solve_lstsq abs_diff_bias (gram_multi t) gram_ones moment_ones solve_how_col //.
by rewrite moment_multi.
Qed.

Lemma mtgt_nullE (r : mrow R k p) : [forall t, isSome (mtgt r 0 t)] = ~~ mtgt_null r.
Proof. by rewrite negb_exists; apply: eq_forallb => t; case: (mtgt r 0 t). Qed.
Lemma mfeat_nullE (r : mrow R k p) : [forall j, isSome (mfeat r 0 j)] = ~~ mfeat_null r.
Proof. by rewrite negb_exists; apply: eq_forallb => t; case: (mfeat r 0 t). Qed.
Lemma multi_acceptsE pol (rows : seq (mrow R k p)) : multi_accepts pol rows =
  all (fun r => ~~ mtgt_null r) rows && (~~ has mfeat_null rows || if pol is FILL _ then true else false).
Proof.
rewrite /multi_accepts (eq_all mtgt_nullE); congr (_ && (_ || _)).
by rewrite -all_predC; apply: eq_all => r; apply: mfeat_nullE.
Qed.

Lemma mtgt_some (r : mrow R k p) t : ~~ mtgt_null r -> mtgt r 0 t = Some (odflt 0 (mtgt r 0 t)).
Proof. by rewrite negb_exists => /forallP /(_ t); case: (mtgt r 0 t). Qed.

Lemma mrow_plain pol (r : mrow R k p) t : ~~ mtgt_null r -> ~~ mfeat_null r ->
  Some (colrow t (mnum b r)) = omap (@biased R p b) (used pol (one t r)).
Proof.
move=> Ht Hf.
have -> : used pol (one t r) = Some (map_mx (odflt 0) (mfeat r), odflt 0 (mtgt r 0 t)).
  apply: complete_used; rewrite /complete_row /=.
  have -> : [forall j, isSome (mfeat r 0 j)].
    by move: Hf; rewrite negb_exists; apply: contraLR; rewrite !negb_forall => /existsP[j Hj]; apply/existsP; exists j; case: (mfeat r 0 j) Hj.
  rewrite (mtgt_some t Ht) /=; congr (Some (_, _)).
  by apply/matrixP => i j; rewrite !mxE (ord1 i).
by rewrite /= /colrow /mnum /biased /features /with_one /= !mxE.
Qed.
Lemma mrow_fill x (r : mrow R k p) t : ~~ mtgt_null r ->
  Some (colrow t (mnum b (fill_mrow x r))) = omap (@biased R p b) (used (@FILL R x) (one t r)).
Proof.
move=> Ht; rewrite /used /filled_row /= (mtgt_some t Ht) /=.
rewrite /colrow /mnum /biased /features /with_one /= !mxE; congr (Some (row_mx _ _, _)).
by apply/matrixP => i j; rewrite !mxE (ord1 i).
Qed.

Lemma multi_data pol (rows : seq (mrow R k p)) : multi_accepts pol rows -> (0 < size rows)%N ->
  exists d, [/\ series_to_mat_multi b pol rows = Ok d, size d = size rows &
    forall t, map Some (map (colrow t) d) = map (fun r => omap (@biased R p b) (used pol (one t r))) rows].
Proof.
rewrite multi_acceptsE => /andP[Ht Hf] Hs.
have Ht0 : has mtgt_null rows = false by apply/negbTE; rewrite -all_predC.
have Hs0 : (size rows == 0)%N = false by rewrite eqn0Ngt Hs.
rewrite /series_to_mat_multi Ht0 orbF.
case Hx: (has _ rows) Hf => /= Hf.
  case: pol Hf => // x _; rewrite size_map Hs0; eexists; split; first by []; first by rewrite !size_map.
  move=> t; rewrite -!map_comp; clear -Ht; elim: rows Ht => //= r rows IH /andP[H1 H2].
  by rewrite -(mrow_fill x t H1) IH.
rewrite Hs0; eexists; split; first by []; first by rewrite !size_map.
move=> t; rewrite -!map_comp; clear -Ht Hx; elim: rows Ht Hx => //= r rows IH /andP[H1 H2] /norP[H3 H4].
by rewrite -(mrow_plain pol t H1 H3) IH // (negbTE H4).
Qed.

Lemma multi_rows pol (rows : seq (mrow R k p)) t (d : seq ('rV[R]_(p + b) * 'rV[R]_k)) :
  map Some (map (colrow t) d) = map (fun r => omap (@biased R p b) (used pol (one t r))) rows ->
  map (colrow t) d = design b (used_rows pol (map (one t) rows)).
Proof.
move=> H; rewrite designE /used_rows.
have E : pmap id (map Some (map (colrow t) d)) = map (colrow t) d by elim: (map _ d) => //= r l ->.
rewrite -E H; clear; elim: rows => //= r rows IH.
by case: (used pol _) => [v|] /=; rewrite IH.
Qed.

Theorem multi_ok pol (rows : seq (mrow R k p)) r0 : multi_accepts pol rows -> (0 < size rows)%N ->
  (forall t, identifiable (not_bias b) (Num.max 0 lambda) (map fst (design b (used_rows pol (map (one t) rows))))) ->
  exists W preds, [/\ pl_lstsq_multi F b lambda s pol rows = Ok W,
    pl_lstsq_multi_pred F b lambda s pol rows = Ok preds, size preds = size rows &
    forall t : 'I_k,
      unique_min (ridge_err (not_bias b) (Num.max 0 lambda) (design b (used_rows pol (map (one t) rows)))) (col t W) /\
      forall i, (i < size rows)%N ->
        exists x y, [/\ used pol (one t (nth r0 rows i)) = Some (x, y),
          (nth (0, 0) preds i).1 0 t = predict (features b x) (col t W) &
          (nth (0, 0) preds i).2 0 t = y - predict (features b x) (col t W)]].
Proof.
move=> Hacc Hs Hid; have [d [E1 E2 E3]] := multi_data Hacc Hs.
rewrite /pl_lstsq_multi /pl_lstsq_multi_pred E1.
set W := faer_solve_lstsq _ _ _ _ _ _.
eexists; eexists; split; first by []; first by [].
  by rewrite size_map size_enum_ord.
move=> t; have Hd := multi_rows (E3 t); split.
  by rewrite -Hd; apply: multi_solve; move: (Hid t); rewrite -Hd -map_comp.
move=> i Hi; have Hid' : (i < size d)%N by rewrite E2.
have := congr1 (fun l => nth None l i) (E3 t).
rewrite -map_comp (nth_map (0, 0)) // (nth_map r0) //=.
case Eu: (used pol _) => [[x y]|] //= [Ex Ey].
have Hp : (Xmulti d *m W) (Ordinal Hid') t = predict (features b x) (col t W).
  by rewrite -Ex mxE; apply: eq_bigr => j _; rewrite !mxE.
exists x, y; rewrite (nth_map (Ordinal Hid')) ?size_enum_ord //.
have -> : nth (Ordinal Hid') (enum 'I_(size d)) i = Ordinal Hid' by apply: val_inj; rewrite /= nth_enum_ord.
split=> //=; first by rewrite mxE Hp.
by rewrite !mxE -/W Ey; congr (_ - _); rewrite -Hp mxE.
Qed.

Lemma multi_reject pol (rows : seq (mrow R k p)) : ~~ multi_accepts pol rows ->
  pl_lstsq_multi F b lambda s pol rows = Err /\ pl_lstsq_multi_pred F b lambda s pol rows = Err.
Proof.
move=> H; suff E : series_to_mat_multi b pol rows = Err by rewrite /pl_lstsq_multi /pl_lstsq_multi_pred E.
rewrite /series_to_mat_multi; move: H; rewrite multi_acceptsE -[X in X && _]/(all (predC mtgt_null) rows) all_predC.
case: (has mtgt_null rows); rewrite ?orbT ?orbF /=; first by case: pol.
by case: (has _ rows) => //=; case: pol.
Qed.
End Multi.

(** *** Failures *)
Lemma recursive_short pol n (b : bool) lambda (rows : seq (lrow R p)) :
  (0 < size rows)%N -> accepts pol rows -> (p <= size (used_rows pol rows))%N -> (size (used_rows pol rows) < n)%N ->
  pl_recursive_lstsq F n b lambda pol rows = Panic.
Proof.
move=> H1 H2 H3 H4; have [df [mask [E1 E2 _]]] := series_ok b H1 H2 H3.
by rewrite /pl_recursive_lstsq E1 E2 /faer_recursive_lstsq !size_map H4.
Qed.

Lemma rolling_short pol n ms (b : bool) lambda (rows : seq (lrow R p)) :
  (0 < size rows)%N -> accepts pol rows -> (p <= size rows)%N -> (size rows + 1 < n)%N ->
  pl_rolling_lstsq F n ms b lambda pol rows = Panic.
Proof.
move=> H1 H2 H3 H4; have [df [mask [E1 E2 _]]] := series_window b H1 H2 H3.
rewrite /pl_rolling_lstsq E1 E2 /faer_rolling_skipping_lstsq /faer_rolling_lstsq !size_map H4.
have -> : (size rows < n)%N by apply: leq_ltn_trans H4; rewrite leq_addr.
by case: (window_policy pol) => [||||x|x] //; case: (has negb mask).
Qed.

(** A feature that is zero on every row. *)
Lemma coords_none (m : nat) (D : data R m) l1 l2 (js : seq 'I_m) j be : j \in js -> cd_norm (Xmat D) l2 j = 0 ->
  cd_coords (Xmat D) (Ymat D) l1 l2 js be = None.
Proof.
move=> + Hj; elim: js be => //= k js IH be; rewrite inE => /orP[/eqP <-|H].
  by rewrite /cd_coord Hj eqxx.
by case: (cd_coord _ _ _ _ _ _) => // st; apply: IH.
Qed.
Lemma elastic_zero_column (a : lr_args R) (rows : seq (lrow R p)) j :
  let us := used_rows (a_policy a) rows in
  (0 < size us)%N -> accepts (a_policy a) rows -> (p <= size us)%N ->
  a_weights a = None -> 0 < a_l1 a -> a_l2 a = 0 -> (forall r, r \in us -> r.1 0 j = 0) ->
  pl_lstsq F a rows = Ok None.
Proof.
move=> us Hs Hacc Hp Hw Hl1 Hl2 H0.
have Hne : (0 < size rows)%N by apply: leq_trans Hs _; rewrite size_pmap count_size.
rewrite (elastic_pl F Hne Hacc Hp Hw Hl1) -/us; congr Ok.
suff L it : cd_loop (Xmat (design (a_bias a) us)) (Ymat (design (a_bias a) us)) (a_l1 a) (a_l2 a) (a_bias a) (a_tol a) it.+1 0 = None.
  exact: (L 1999%N).
rewrite [cd_loop _ _ _ _ _ _ _ _]/= /cd_sweep.
rewrite (@coords_none _ _ _ _ _ (lshift (a_bias a) j)) //.
  by rewrite mem_filter mem_enum andbT /= abs_diff_bias.
rewrite /cd_norm Hl2 mulr0 addr0 big1 // => i _; rewrite mxE.
have Hi : (i < size us)%N by rewrite -(size_map (fun r => (row_mx r.1 (const_mx 1 : 'rV[R]_(a_bias a)), r.2)) us).
rewrite (nth_map (0, 0)) //= row_mxEl H0 ?expr0n //; exact: mem_nth.
Qed.
End More2.
