(** The regression report: coefficients, standard errors, tests and r2. *)
From Coq Require Import Ring Field.
From mathcomp Require Import all_ssreflect all_algebra.
From Verif Require Import LinModel LinSpec LinCore LinProofs LinExprSpec LinExpr RepModel RepSpec.
Set Implicit Arguments.
Unset Strict Implicit.
Import Order.TTheory GRing.Theory Num.Theory.
Local Open Scope ring_scope.

(** ** Fits of the same features to several targets *)
Section Fits.
Variable R : realFieldType.
Variable m : nat.
Implicit Types (d : seq ('rV[R]_m * R)) (w : 'cV[R]_m).

Definition A d : 'M[R]_m := gram (ones d).
Definition feat d k : 'rV[R]_m := (nth (0, 0) d k).1.

Lemma A_amat d : amat everything 0 (ones d) = A d.
Proof. by rewrite /amat ridge0 addr0. Qed.

Lemma A_unit d : identifiable everything 0 (map fst d) -> A d \in unitmx.
Proof. by move=> H; rewrite -A_amat; apply: ident_unit. Qed.

Lemma A_sum d : A d = \sum_(k < size d) (feat d k)^T *m feat d k.
Proof.
rewrite /A /gram big_map (big_nth (0, 0)) big_mkord; apply: eq_bigr => k _ /=; by rewrite scale1r.
Qed.

Lemma A_sym d : (A d)^T = A d.
Proof. by rewrite -A_amat amat_sym. Qed.

Lemma inv_sym d : (invmx (A d))^T = invmx (A d).
Proof. by rewrite trmx_inv A_sym. Qed.

Lemma sq_full d w : sq_err d w = full_err everything 0 (ones d) w.
Proof. by rewrite full_ridge /ridge_err mul0r addr0. Qed.

Lemma fit_min d : A d \in unitmx -> unique_min (sq_err d) (invmx (A d) *m moment (ones d)).
Proof.
move=> U v Hv; rewrite !sq_full; apply: normal_eq_min => //; first exact: nonneg_ones.
  by rewrite A_amat.
by rewrite A_amat mulKVmx.
Qed.

Lemma fit_uniq d w : A d \in unitmx -> unique_min (sq_err d) w -> w = invmx (A d) *m moment (ones d).
Proof. by move=> U H; apply: min_is_unique H (fit_min U). Qed.

Lemma size_wt d g : size (with_targets d g) = size d.
Proof. by rewrite size_mkseq. Qed.

Lemma nth_wt d g k : (k < size d)%N -> nth (0, 0) (with_targets d g) k = (feat d k, g k).
Proof. by move=> H; rewrite nth_mkseq. Qed.

Lemma A_wt d g : A (with_targets d g) = A d.
Proof.
rewrite !A_sum size_wt; apply: eq_bigr => k _; by rewrite /feat nth_wt.
Qed.

Lemma moment_sum d : moment (ones d) = \sum_(k < size d) (nth (0, 0) d k).2 *: (feat d k)^T.
Proof.
rewrite /moment big_map (big_nth (0, 0)) big_mkord; apply: eq_bigr => k _ /=; by rewrite mul1r.
Qed.

Lemma moment_wt d g : moment (ones (with_targets d g)) = \sum_(k < size d) g k *: (feat d k)^T.
Proof.
rewrite moment_sum size_wt; apply: eq_bigr => k _; by rewrite /feat nth_wt.
Qed.

Lemma moment_indicator d k : (k < size d)%N ->
  moment (ones (with_targets d (fun i => (i == k)%:R))) = (feat d k)^T.
Proof.
move=> H; rewrite moment_wt (bigD1 (Ordinal H)) //= eqxx scale1r big1 ?addr0 // => i Hi.
have -> : (i == k :> nat) = false by apply/negbTE; apply: contra Hi => /eqP E; apply/eqP/val_inj.
by rewrite scale0r.
Qed.

Lemma sens_ok d k : A d \in unitmx -> (k < size d)%N -> sensitivity d k (invmx (A d) *m (feat d k)^T).
Proof.
move=> U H; rewrite /sensitivity -(moment_indicator H) -(A_wt d (fun i => (i == k)%:R)).
by apply: fit_min; rewrite A_wt.
Qed.

Lemma sensE d k s : A d \in unitmx -> (k < size d)%N -> sensitivity d k s -> s = invmx (A d) *m (feat d k)^T.
Proof. by move=> U H Hs; apply: min_is_unique Hs (sens_ok U H). Qed.

(** A sensitivity is what its name says: adding [t] to the target of row [k] adds [t] times it to the fit. *)
Lemma sens_meaning d w k s t : A d \in unitmx -> (k < size d)%N -> unique_min (sq_err d) w -> sensitivity d k s ->
  unique_min (sq_err (with_targets d (fun i => (nth (0, 0) d i).2 + t * (i == k)%:R))) (w + t *: s).
Proof.
move=> U H Hw Hs.
rewrite (fit_uniq U Hw) (sensE U H Hs).
set g := fun i => _.
have -> : invmx (A d) *m moment (ones d) + t *: (invmx (A d) *m (feat d k)^T)
        = invmx (A (with_targets d g)) *m moment (ones (with_targets d g)).
  rewrite A_wt moment_wt scalemxAr -mulmxDr; congr (_ *m _).
  rewrite -(moment_indicator H) moment_sum moment_wt scaler_sumr -big_split /=; apply: eq_bigr => i _.
  by rewrite /g scalerA -scalerDl.
by apply: fit_min; rewrite A_wt.
Qed.

(** Diagonal of the inverse: the sum of the squared sensitivities. *)
Lemma inv_diag d (j : 'I_m) : A d \in unitmx ->
  invmx (A d) j j = \sum_(k < size d) ((invmx (A d) *m (feat d k)^T) j 0) ^+ 2.
Proof.
move=> U.
have E : invmx (A d) = \sum_(k < size d) (invmx (A d) *m (feat d k)^T) *m (invmx (A d) *m (feat d k)^T)^T.
  rewrite -[LHS](mulmx1) -(mulmxV U); move: (invmx (A d)) (inv_sym d) => G SG.
  rewrite A_sum mulmx_suml mulmx_sumr; apply: eq_bigr => k _.
  by rewrite trmx_mul trmxK SG !mulmxA.
rewrite {1}E summxE; apply: eq_bigr => k _.
by rewrite [LHS]mxE big_ord1 [X in _ * X]mxE expr2.
Qed.

(** ** Leaving a row out *)
Lemma without_split d k : (k < size d)%N -> d = take k d ++ nth (0, 0) d k :: drop k.+1 d.
Proof. by move=> H; rewrite -drop_nth // cat_take_drop. Qed.

Lemma gram_without d k : (k < size d)%N -> A (without d k) = A d - (feat d k)^T *m feat d k.
Proof.
move=> H; rewrite {2}(without_split H) /A /without /ones !map_cat /= -cat1s !gram_cat.
rewrite [X in _ + (X + _)]/gram big_seq1 /= scale1r /feat.
by rewrite [X in _ + X - _]addrC addrA addrK.
Qed.

Lemma moment_without d k : (k < size d)%N ->
  moment (ones (without d k)) = moment (ones d) - (nth (0, 0) d k).2 *: (feat d k)^T.
Proof.
move=> H; rewrite {2}(without_split H) /without /ones !map_cat /= -cat1s !moment_cat.
rewrite [X in _ + (X + _)]/moment big_seq1 /= mul1r /feat.
by rewrite [X in _ + X - _]addrC addrA addrK.
Qed.

Definition lev d k : R := (feat d k *m (invmx (A d) *m (feat d k)^T)) 0 0.

Lemma loo d k : (k < size d)%N -> A d \in unitmx -> A (without d k) \in unitmx ->
  let w := invmx (A d) *m moment (ones d) in
  1 - lev d k != 0 /\
  w - invmx (A (without d k)) *m moment (ones (without d k))
    = (resid d w k / (1 - lev d k)) *: (invmx (A d) *m (feat d k)^T).
Proof.
move=> H U U' w; rewrite gram_without // moment_without //.
have E : A d - (feat d k)^T *m feat d k = A d + (-1)^-1 *: ((feat d k)^T *m feat d k).
  by rewrite invrN1 scaleN1r.
have E2 : moment (ones d) - (nth (0, 0) d k).2 *: (feat d k)^T
        = moment (ones d) + ((-1)^-1 * (nth (0, 0) d k).2) *: (feat d k)^T.
  by rewrite invrN1 mulN1r scaleNr.
have U2 : A d + (-1)^-1 *: ((feat d k)^T *m feat d k) \in unitmx by rewrite -E -gram_without.
have N1 : (-1 : R) != 0 by rewrite oppr_eq0 oner_neq0.
have [D _ W] := @woodbury _ _ (A d) (moment (ones d)) (feat d k) (nth (0, 0) d k).2 (-1) U (A_sym d) N1 U2.
rewrite -/(lev d k) in D W.
have D' : 1 - lev d k != 0 by rewrite -oppr_eq0 opprB addrC.
split=> //; rewrite E E2 -W opprD addrA -/w subrr add0r -scaleNr; congr (_ *: _).
rewrite /resid predictE -/(feat d k) -/w mulrC -mulrN; congr (_ * _).
by rewrite -invrN opprD opprK.
Qed.
End Fits.
Arguments A {R m} d.
Arguments feat {R m} d k.
Arguments lev {R m} d k.

(** ** The report of the model *)
Section Report.
Variable R : rcfType.
Variable F : faer R.
Hypothesis HF : faer_ok F.
Variable T : student R.
Variable m : nat.
Variable d : seq ('rV[R]_m * R).
Hypothesis U : A d \in unitmx.
Notation n := (size d).

Definition w0 : 'cV[R]_m := invmx (A d) *m moment (ones d).
Definition s0 k : 'cV[R]_m := invmx (A d) *m (feat d k)^T.

Lemma w0_min : unique_min (sq_err d) w0.
Proof. exact: fit_min. Qed.

Lemma fits0 : fits d w0 s0.
Proof. by split; [exact: w0_min|move=> k Hk; apply: sens_ok]. Qed.

Lemma rowX k : row k (Xmat d) = feat d k.
Proof. by apply/rowP => j; rewrite !mxE. Qed.

Lemma invxt k : col k (invmx (A d) *m (Xmat d)^T) = s0 k.
Proof. by rewrite colE -mulmxA -colE -tr_row rowX. Qed.

Lemma invxtE i k : (invmx (A d) *m (Xmat d)^T) i k = s0 k i 0.
Proof. by rewrite -invxt [RHS]mxE. Qed.

Lemma coeffsE : invmx (A d) *m (Xmat d)^T *m Ymat d = w0.
Proof. by rewrite -mulmxA moment_ones. Qed.

Lemma res_k (w : 'cV[R]_m) k : (Ymat d - Xmat d *m w) k 0 = resid d w k.
Proof. by rewrite /resid predictE -/(feat d k) -rowX -row_mul !mxE. Qed.

Lemma sum_res w : \sum_k ((Ymat d - Xmat d *m w) k 0) ^+ 2 = sq_err d w.
Proof.
rewrite /sq_err (big_nth (0, 0)) big_mkord; apply: eq_bigr => k _; by rewrite res_k.
Qed.

Lemma norm_res w : ((Ymat d - Xmat d *m w)^T *m (Ymat d - Xmat d *m w)) 0 0 = sq_err d w.
Proof. by rewrite -sum_res mxE; apply: eq_bigr => k _; rewrite [X in X * _]mxE expr2. Qed.

Lemma quad_diag N (B : 'M[R]_(m, N)) (v : 'rV[R]_N) i :
  (B *m diag_mx v *m B^T) i i = \sum_k (B i k) ^+ 2 * v 0 k.
Proof.
rewrite mul_mx_diag mxE; apply: eq_bigr => k _; rewrite !mxE.
by rewrite mulrAC expr2.
Qed.

Lemma diag_sq N (v : 'cV[R]_N) : diag_mx v^T *m diag_mx v^T = diag_mx (\row_k (v k 0) ^+ 2).
Proof.
rewrite mulmx_diag; congr diag_mx; apply/rowP => k; by rewrite !mxE expr2.
Qed.

Lemma diag_sq_scaled N (v : 'cV[R]_N) (f : 'I_N -> R) :
  diag_mx v^T *m diag_mx v^T *m diag_mx (\row_k f k) = diag_mx (\row_k ((v k 0) ^+ 2 * f k)).
Proof.
rewrite diag_sq mulmx_diag; congr diag_mx; apply/rowP => k; by rewrite !mxE.
Qed.

Lemma fsqrt_ok (a : R) : 0 <= a -> fsqrt a = Some (Num.sqrt a) /\ 0 <= Num.sqrt a /\ (Num.sqrt a) ^+ 2 = a.
Proof. by move=> H; rewrite /fsqrt ltNge H /= sqrtr_ge0 sqr_sqrtr. Qed.

Definition errs se i := std_errs se (Xmat d) (invmx (A d)) (invmx (A d) *m (Xmat d)^T)
                          (Ymat d - Xmat d *m w0) i.

Lemma dofE : (m < n)%N -> dof d = (n - m)%:R /\ 0 < dof d.
Proof. by move=> H; rewrite /dof natrB ?(ltnW H) // -natrB ?(ltnW H) // ltr0n subn_gt0. Qed.

Lemma sq_ge0 w : 0 <= sq_err d w.
Proof. by rewrite /sq_err sumr_ge0 // => r _; rewrite sqr_ge0. Qed.

Lemma se_ok i : (m < n)%N -> exists s, errs (SE) i = Some s /\ 0 <= s /\ s ^+ 2 = var_se d w0 s0 i.
Proof.
move=> Hm; have [_ Hd] := dofE Hm.
rewrite /errs /std_errs norm_res /fdiv -/(dof d) (gt_eqF Hd) /=.
have E : sq_err d w0 / dof d * invmx (A d) i i = var_se d w0 s0 i by rewrite inv_diag // mulrC.
have P : 0 <= sq_err d w0 / dof d * invmx (A d) i i.
  rewrite E; apply: mulr_ge0; first by apply: sumr_ge0 => k _; rewrite sqr_ge0.
  by rewrite divr_ge0 ?sq_ge0 ?ltW.
have [H1 [H2 H3]] := fsqrt_ok P; rewrite H1; eexists; split; [by []|split=> //]; by rewrite H3.
Qed.

Lemma hc0_diag i : (invmx (A d) *m (Xmat d)^T
    *m (diag_mx (Ymat d - Xmat d *m w0)^T *m diag_mx (Ymat d - Xmat d *m w0)^T)
    *m (invmx (A d) *m (Xmat d)^T)^T) i i = var_hc0 d w0 s0 i.
Proof.
rewrite diag_sq quad_diag; apply: eq_bigr => k _; by rewrite invxtE [(\row__ _) 0 k]mxE res_k.
Qed.

Lemma hc0_ge0 i : 0 <= var_hc0 d w0 s0 i.
Proof. by apply: sumr_ge0 => k _; rewrite mulr_ge0 ?sqr_ge0. Qed.

Lemma hc0_ok i : exists s, errs (HC0) i = Some s /\ 0 <= s /\ s ^+ 2 = var_hc0 d w0 s0 i.
Proof.
rewrite /errs /std_errs hc0_diag /= mulr1.
have [H1 [H2 H3]] := fsqrt_ok (hc0_ge0 i); rewrite H1; by eexists.
Qed.

Lemma hc1_ok i : (m < n)%N -> exists s, errs (HC1) i = Some s /\ 0 <= s /\ s ^+ 2 = var_hc1 d w0 s0 i.
Proof.
move=> Hm; have [Ed Hd] := dofE Hm.
rewrite /errs /std_errs hc0_diag /fdiv -Ed (gt_eqF Hd) /= mulrC.
have P : 0 <= var_hc1 d w0 s0 i by rewrite mulr_ge0 ?hc0_ge0 // divr_ge0 ?ler0n ?ltW.
have [H1 [H2 H3]] := fsqrt_ok P; rewrite H1; by eexists.
Qed.

Lemma leverageE k : leverage d s0 k = lev d k.
Proof. by rewrite /leverage predictE. Qed.

Lemma lev_code (k : 'I_n) : (row k (Xmat d) *m col k (invmx (A d) *m (Xmat d)^T)) 0 0 = lev d k.
Proof. by rewrite rowX invxt. Qed.

Lemma exists_lev : (forall k, (k < n)%N -> 1 - lev d k != 0) ->
  [exists k : 'I_n, 1 - (row k (Xmat d) *m col k (invmx (A d) *m (Xmat d)^T)) 0 0 == 0] = false.
Proof.
move=> H; apply/existsP => -[k]; rewrite lev_code; apply/negP; exact: H.
Qed.

(** The leverage is at most one. *)
Lemma lev_le1 k : (k < n)%N -> lev d k <= 1.
Proof.
move=> Hk.
have E : lev d k = \sum_(i < n) ((feat d i *m s0 k) 0 0) ^+ 2.
  have -> : lev d k = ((s0 k)^T *m A d *m s0 k) 0 0.
    by rewrite /s0 /lev trmx_mul trmxK inv_sym -[_ *m A d]mulmxA mulVmx // mulmx1.
  move: (s0 k) => v; rewrite A_sum mulmx_sumr mulmx_suml summxE; apply: eq_bigr => i _.
  have -> : v^T *m ((feat d i)^T *m feat d i) *m v = (feat d i *m v)^T *m (feat d i *m v).
    by rewrite trmx_mul !mulmxA.
  by rewrite [LHS]mxE big_ord1 [X in X * _]mxE expr2.
have : lev d k ^+ 2 <= lev d k.
  rewrite [leRHS]E (bigD1 (Ordinal Hk)) //= ler_addl; apply: sumr_ge0 => i _; exact: sqr_ge0.
rewrite expr2 => H; rewrite leNgt; apply/negP => L.
have P : 0 < lev d k by apply: lt_trans L; exact: ltr01.
by move: H; rewrite -[leRHS]mulr1 ler_pmul2l // leNgt L.
Qed.

Lemma hc2_ok i : (forall k, (k < n)%N -> 1 - lev d k != 0) ->
  exists s, errs (HC2) i = Some s /\ 0 <= s /\ s ^+ 2 = var_hc2 d w0 s0 i.
Proof.
move=> H; rewrite /errs /std_errs exists_lev // diag_sq_scaled quad_diag.
have -> : \sum_k (invmx (A d) *m (Xmat d)^T) i k ^+ 2 *
    (\row_k0 ((Ymat d - Xmat d *m w0) k0 0 ^+ 2 *
        (1 / (1 - (row k0 (Xmat d) *m col k0 (invmx (A d) *m (Xmat d)^T)) 0 0)))) 0 k = var_hc2 d w0 s0 i.
  apply: eq_bigr => k _; by rewrite invxtE [(\row__ _) 0 k]mxE res_k lev_code leverageE mul1r.
have P : 0 <= var_hc2 d w0 s0 i.
  apply: sumr_ge0 => k _; rewrite mulr_ge0 ?sqr_ge0 // divr_ge0 ?sqr_ge0 // leverageE subr_ge0.
  exact: lev_le1.
have [H1 [H2 H3]] := fsqrt_ok P; rewrite H1; by eexists.
Qed.

Lemma hc3_ok i (L : nat -> 'cV[R]_m) :
  (forall k, (k < n)%N -> A (without d k) \in unitmx) ->
  (forall k, (k < n)%N -> unique_min (sq_err (without d k)) (L k)) ->
  exists s, errs (HC3) i = Some s /\ 0 <= s /\ s ^+ 2 = jackknife d w0 L i.
Proof.
move=> H HL; rewrite /errs /std_errs exists_lev; last by move=> k Hk; have [] := loo Hk U (H k Hk).
rewrite diag_sq_scaled quad_diag.
have -> : \sum_k (invmx (A d) *m (Xmat d)^T) i k ^+ 2 *
    (\row_k0 ((Ymat d - Xmat d *m w0) k0 0 ^+ 2 *
        (1 / (1 - (row k0 (Xmat d) *m col k0 (invmx (A d) *m (Xmat d)^T)) 0 0) ^+ 2))) 0 k = jackknife d w0 L i.
  apply: eq_bigr => k _; have Hk := ltn_ord k; rewrite invxtE [(\row__ _) 0 k]mxE res_k lev_code mul1r.
  rewrite (fit_uniq (H k Hk) (HL k Hk)).
  have [_ E] := loo Hk U (H k Hk).
  have -> : forall a b : 'cV[R]_m, a i 0 - b i 0 = (a - b) i 0 by move=> a b; rewrite !mxE.
  by rewrite E -/(s0 k) -/w0 [(_ *: s0 k) i 0]mxE exprMn expr_div_n mulrC.
have P : 0 <= jackknife d w0 L i by apply: sumr_ge0 => k _; rewrite sqr_ge0.
have [H1 [H2 H3]] := fsqrt_ok P; rewrite H1; by eexists.
Qed.

Lemma report_matE se yv : report_mat F T se (Xmat d) (Ymat d) yv
  = Report (fun i => row_of T (dof d) (w0 i 0) (errs se i))
           (r2_of (ratio_of yv (Ymat d - Xmat d *m w0)))
           (adj_of n (dof d) (ratio_of yv (Ymat d - Xmat d *m w0))).
Proof. by rewrite /report_mat gram_ones qr_inverseE // coeffsE. Qed.
End Report.

(** ** The expressions *)
Section Expr.
Variable R : rcfType.
Variable F : faer R.
Hypothesis HF : faer_ok F.
Variable T : student R.
Variables (p : nat) (b : bool) (pol : policy R) (rows : seq (lrow R p)).
Let d := design b (used_rows pol rows).
Hypotheses (H1 : (0 < size rows)%N) (H2 : accepts pol rows) (H3 : (p + b < size (used_rows pol rows))%N).
Hypothesis H4 : identifiable everything 0 (map fst d).

Lemma U_d : A d \in unitmx.
Proof. exact: A_unit. Qed.

Lemma reportE se : lin_reg_report F T se b pol rows
  = Ok (Some (report_mat F T se (Xmat d) (Ymat d) (pl_var (map (@tgt R p) rows)))).
Proof.
have [df [mask [E1 E2 _]]] := series_ok b H1 H2 (ltnW (leq_ltn_trans (leq_addr b p) H3)).
have E3 : size df = size (used_rows pol rows) by rewrite -[size df](size_map (@num_row R (p + b))) E2 !size_map.
by rewrite /lin_reg_report E1 E2 all_some_map E3 leqNgt H3.
Qed.

Definition coeff_facts (kind : std_error) (j : 'I_(p + b)) (r : report_row R) (w : 'cV[R]_(p + b))
    (S L : nat -> 'cV[R]_(p + b)) : Prop :=
  r_beta r = w j 0 /\ exists s, r_se r = Some s /\ 0 <= s /\
  s ^+ 2 = match kind with
           | SE => var_se d w S j | HC0 => var_hc0 d w S j | HC1 => var_hc1 d w S j
           | HC2 => var_hc2 d w S j | HC3 => jackknife d w L j
           end.

Lemma fitsE w S : fits d w S -> w = w0 d /\ forall k, (k < size d)%N -> S k = s0 d k.
Proof. by move=> [Hw HS]; split; [exact: fit_uniq U_d Hw|move=> k Hk; apply: sensE U_d Hk (HS k Hk)]. Qed.

Lemma facts_ok kind (L : nat -> 'cV[R]_(p + b)) w S : fits d w S ->
  (p + b < size d)%N ->
  (if kind is (HC2 | HC3) then forall k, (k < size d)%N ->
     identifiable everything 0 (map fst (without d k)) /\ unique_min (sq_err (without d k)) (L k) else True) ->
  exists rep, lin_reg_report F T kind b pol rows = Ok (Some rep) /\
    forall j, coeff_facts kind j (r_rows rep j) w S L.
Proof.
move=> Hf Hn HL; have [Ew ES] := fitsE Hf.
rewrite reportE report_matE //; last exact: U_d.
eexists; split; first by [].
move=> j; rewrite Ew; split=> //=.
case: kind HL => /= HL.
- have [s [Q1 [Q2 Q3]]] := se_ok U_d j Hn; exists s; split=> //; split=> //.
  by rewrite Q3; congr (_ * _); apply: eq_bigr => k _; rewrite ES.
- have [s [Q1 [Q2 Q3]]] := hc0_ok d j; exists s; split=> //; split=> //.
  by rewrite Q3; apply: eq_bigr => k _; rewrite ES.
- have [s [Q1 [Q2 Q3]]] := hc1_ok j Hn; exists s; split=> //; split=> //.
  by rewrite Q3; congr (_ * _); apply: eq_bigr => k _; rewrite ES.
- have N : forall k, (k < size d)%N -> 1 - lev d k != 0.
    by move=> k Hk; have [I _] := HL k Hk; have [] := loo Hk U_d (A_unit I).
  have [s [Q1 [Q2 Q3]]] := hc2_ok U_d j N; exists s; split=> //; split=> //.
  rewrite Q3 /var_hc2; apply: eq_bigr => k _; by rewrite /leverage ES.
- have [s [Q1 [Q2 Q3]]] := hc3_ok U_d j (fun k Hk => A_unit (HL k Hk).1) (fun k Hk => (HL k Hk).2).
  by exists s.
Qed.

Lemma tests_ok kind rep j s : lin_reg_report F T kind b pol rows = Ok (Some rep) ->
  r_se (r_rows rep j) = Some s -> s != 0 ->
  let r := r_rows rep j in
  let q := t_ppf T (39%:R / 40%:R) (dof d) in
  r_t r = Some (r_beta r / s) /\
  r_p r = omap (fun x => 2%:R * x) (t_sf T `|r_beta r / s| (dof d)) /\
  r_lower r = Some (r_beta r - q * s) /\ r_upper r = Some (r_beta r + q * s).
Proof.
rewrite reportE report_matE //; last exact: U_d.
move=> [<-] /= -> Hs; by rewrite /= /fdiv (negbTE Hs) /=.
Qed.

Lemma r2_general kind w : (0 < size d)%N -> unique_min (sq_err d) w ->
  exists rep, lin_reg_report F T kind b pol rows = Ok (Some rep) /\
   forall v, pl_var (map (@tgt R p) rows) = Some v -> v != 0 ->
    r_r2 rep = Some (1 - sq_err d w / (v * (size d)%:R)) /\
    (dof d != 1 -> r_adj rep = Some (1 - sq_err d w / (v * (size d)%:R) * ((size d - 1)%:R / (dof d - 1)))).
Proof.
move=> Hn Hw; have Ew := fit_uniq U_d Hw.
rewrite reportE report_matE //; last exact: U_d.
eexists; split; first by [].
move=> v -> Hv /=; rewrite sum_res -[w0 d]Ew /fdiv mulf_eq0 (negbTE Hv) /=.
rewrite pnatr_eq0 (gtn_eqF Hn) /=; split=> // Hd; by rewrite /adj_of /= /fdiv subr_eq0 (negbTE Hd).
Qed.

Lemma targets_complete : no_null rows -> pmap id (map (@tgt R p) rows) = map snd d.
Proof.
move=> N; rewrite /d /design -map_comp (no_null_used_rows pol N).
elim: (rows) N => //= r l IH /andP[]; rewrite /complete_row; case: ifP => // _.
by case: (tgt r) => //= y _ /IH ->.
Qed.

Lemma size_d : no_null rows -> size d = size rows.
Proof.
move=> N; rewrite /d size_map (no_null_used_rows pol N).
by elim: (rows) N => //= r l IH /andP[]; case: (complete_row r) => //= v _ /IH ->.
Qed.

Lemma var_complete : no_null rows -> (1 < size rows)%N ->
  pl_var (map (@tgt R p) rows) = Some (tss (map snd d) / (size d - 1)%:R).
Proof.
move=> N H; rewrite /pl_var targets_complete // size_map (size_d N) leqNgt H.
by [].
Qed.

Lemma r2_value kind w : no_null rows -> (1 < size rows)%N -> tss (map snd d) != 0 -> unique_min (sq_err d) w ->
  exists rep, lin_reg_report F T kind b pol rows = Ok (Some rep) /\
    r_r2 rep = Some (1 - (1 - R2 d w) * (1 - (size d)%:R^-1)) /\
    (dof d != 1 -> r_adj rep =
       Some (1 - (1 - R2 d w) * (1 - (size d)%:R^-1) * (((size d)%:R - 1) / ((size d)%:R - (p + b)%:R - 1)))).
Proof.
move=> N Hs Ht Hw.
have Hd : (1 < size d)%N by rewrite size_d.
have [rep [E1 E2]] := r2_general kind (ltnW Hd) Hw; exists rep; split=> //.
have [|Q1 Q2] := E2 _ (var_complete N Hs).
  rewrite mulf_neq0 // invr_neq0 // pnatr_eq0 -lt0n subn_gt0 //.
have K : sq_err d w / (tss (map snd d) / (size d - 1)%:R * (size d)%:R) = (1 - R2 d w) * (1 - (size d)%:R^-1).
  have n0 : (size d)%:R != 0 :> R by rewrite pnatr_eq0 -lt0n ltnW.
  have n1 : (size d - 1)%:R != 0 :> R by rewrite pnatr_eq0 -lt0n subn_gt0.
  have -> : 1 - (size d)%:R^-1 = (size d - 1)%:R / (size d)%:R :> R.
    by rewrite natrB ?(ltnW Hd) // mulrBl mulfV // mul1r.
  rewrite /R2 opprB addrC subrK.
  have G : forall t' n1' n' : R, (t' / n1' * n')^-1 = t'^-1 * (n1' / n') by move=> t' n1' n'; rewrite !invfM invrK mulrA.
  by rewrite G mulrA.
rewrite Q1 K; split=> // Hd1; rewrite (Q2 Hd1) K /dof natrB ?(ltnW Hd) //.
Qed.
End Expr.

(** ** Weights *)
Section Weights.
Variable R : rcfType.
Variable F : faer R.
Hypothesis HF : faer_ok F.
Variable T : student R.
Section Mat.
Variable m : nat.
Variable d : seq ('rV[R]_m * R).
Variable ws : seq R.
Hypotheses (Hs : size ws = size d) (Hw : forall o, o \in ws -> 0 <= o).
Notation sd := (scaled d ws).

Lemma size_sd : size sd = size d.
Proof. by rewrite size_map size_zip Hs minnn. Qed.

Lemma nth_sd k : (k < size d)%N ->
  nth (0, 0) sd k = (Num.sqrt (nth 0 ws k) *: (nth (0, 0) d k).1, Num.sqrt (nth 0 ws k) * (nth (0, 0) d k).2).
Proof.
move=> Hk; rewrite (nth_map ((0, 0), 0)) ?size_zip ?Hs ?minnn // nth_zip //.
Qed.

Lemma ws_ge0 k : 0 <= nth 0 ws k.
Proof.
have [H|H] := ltnP k (size ws); first by apply: Hw; apply: mem_nth.
by rewrite nth_default.
Qed.

Lemma trZ (c : R) (x : 'rV[R]_m) : (c *: x)^T = c *: x^T.
Proof. by apply/matrixP => i j; rewrite !mxE. Qed.

Lemma gram_sd : gram (zip d ws) = A sd.
Proof.
rewrite /A /gram /ones !big_map big_seq [RHS]big_seq; apply: eq_bigr => r Hr /=.
rewrite scale1r trZ -scalemxAr -scalemxAl scalerA -expr2 sqr_sqrtr //.
by apply: Hw; apply: mem_zip2 Hr.
Qed.

Lemma moment_sd : moment (zip d ws) = moment (ones sd).
Proof.
rewrite /moment /ones !big_map big_seq [RHS]big_seq; apply: eq_bigr => r Hr /=.
rewrite mul1r trZ scalerA mulrAC -expr2 sqr_sqrtr //.
by apply: Hw; apply: mem_zip2 Hr.
Qed.

Lemma predict_scale (c : R) (x : 'rV[R]_m) v : predict (c *: x) v = c * predict x v.
Proof. by rewrite !predictE -scalemxAl mxE. Qed.

Lemma sq_sd v : sq_err sd v = weighted_err (zip d ws) v.
Proof.
rewrite /sq_err /weighted_err big_map big_seq [RHS]big_seq; apply: eq_bigr => r Hr /=.
rewrite predict_scale -mulrBr exprMn sqr_sqrtr //; by apply: Hw; apply: mem_zip2 Hr.
Qed.

Lemma sum_w_res v : \sum_k (row_of_seq (size d) ws) 0 k * ((Ymat d - Xmat d *m v) k 0) ^+ 2 = sq_err sd v.
Proof.
rewrite sq_sd /weighted_err (big_nth ((0, 0), 0)) big_mkord size_zip Hs minnn; apply: eq_bigr => k _.
by rewrite res_k nth_zip //= [row_of_seq _ _ _ _]mxE.
Qed.

Lemma wls_matE yv : A sd \in unitmx ->
  wls_mat F T (Xmat d) (Ymat d) (row_of_seq (size d) ws) yv
  = Report (fun i => row_of T (dof d) (w0 sd i 0)
                (obind (fun mse => fsqrt (mse * invmx (A sd) i i)) (fdiv (sq_err sd (w0 sd)) (dof d))))
           (r2_of (ratio_of yv (Ymat d - Xmat d *m w0 sd)))
           (adj_of (size d) (dof d) (ratio_of yv (Ymat d - Xmat d *m w0 sd))).
Proof.
by move=> U; rewrite /wls_mat gram_zip // moment_zip // gram_sd moment_sd qr_inverseE // qr_solveE // sum_w_res.
Qed.
End Mat.

Variables (p : nat) (b : bool) (pol : policy R) (rows : seq (lrow R p)) (ws : seq R).
Let d := design b (used_rows pol rows).
Hypotheses (H1 : (0 < size rows)%N) (H2 : accepts pol rows) (H3 : (p + b < size (used_rows pol rows))%N).
Hypotheses (Hs : size ws = size d) (Hw : forall o, o \in ws -> 0 <= o).

Lemma report_wE vs : size vs = size d -> lin_reg_report_w F T b pol (map Some vs) rows
  = Ok (Some (wls_mat F T (Xmat d) (Ymat d) (row_of_seq (size d) vs) (pl_var (map (@tgt R p) rows)))).
Proof.
move=> Hv.
have [df [mask [E1 E2 _]]] := series_ok b H1 H2 (ltnW (leq_ltn_trans (leq_addr b p) H3)).
have E3 : size df = size d.
  by rewrite -[size df](size_map (@num_row R (p + b))) E2 size_map.
have E4 : (size d <= p + b)%N = false by rewrite /d size_map leqNgt H3.
by rewrite /lin_reg_report_w all_some_map E1 Hv E3 eqxx E4 E2 all_some_map.
Qed.

Lemma weighted_ok w S : identifiable everything 0 (map fst (scaled d ws)) -> (p + b < size d)%N ->
  fits (scaled d ws) w S ->
  exists rep, lin_reg_report_w F T b pol (map Some ws) rows = Ok (Some rep) /\
    forall j, r_beta (r_rows rep j) = w j 0 /\
      exists s, r_se (r_rows rep j) = Some s /\ 0 <= s /\ s ^+ 2 = var_se (scaled d ws) w S j.
Proof.
move=> Hi Hn [Fw FS]; have U := A_unit Hi.
have Ew := fit_uniq U Fw.
have ES : forall k, (k < size (scaled d ws))%N -> S k = s0 (scaled d ws) k.
  by move=> k Hk; apply: sensE U Hk (FS k Hk).
rewrite report_wE // wls_matE //; eexists; split; first by [].
move=> j /=; split; first by rewrite Ew.
have Hn' : (p + b < size (scaled d ws))%N by rewrite size_sd.
have [s [Q1 [Q2 Q3]]] := se_ok U j Hn'; exists s; split; last first.
  split=> //; rewrite Q3 /var_se Ew; congr (_ * _); by apply: eq_bigr => k _; rewrite ES.
move: Q1; rewrite /errs /std_errs norm_res /dof size_sd //.
Qed.

Lemma weighted_tests : identifiable everything 0 (map fst (scaled d ws)) ->
  forall rep j s, lin_reg_report_w F T b pol (map Some ws) rows = Ok (Some rep) ->
  r_se (r_rows rep j) = Some s -> s != 0 ->
  let r := r_rows rep j in
  let q := t_ppf T (39%:R / 40%:R) (dof d) in
  r_t r = Some (r_beta r / s) /\
  r_p r = omap (fun x => 2%:R * x) (t_sf T `|r_beta r / s| (dof d)) /\
  r_lower r = Some (r_beta r - q * s) /\ r_upper r = Some (r_beta r + q * s).
Proof.
move=> Hi rep j s; rewrite report_wE // wls_matE //; last exact: A_unit.
by move=> [<-] /= -> Hs0; rewrite /= /fdiv (negbTE Hs0) /=.
Qed.

Lemma gram_zipc (c : R) m (D : seq ('rV[R]_m * R)) os : size os = size D -> gram (zip D (map ( *%R c) os)) = c *: gram (zip D os).
Proof.
elim: D os => [|r D IH] [|o os] //=; first by rewrite /gram !big_nil scaler0.
by move=> [Hz]; rewrite /gram !big_cons scalerDr scalerA; congr (_ + _); apply: IH.
Qed.

Lemma moment_zipc (c : R) m (D : seq ('rV[R]_m * R)) os : size os = size D -> moment (zip D (map ( *%R c) os)) = c *: moment (zip D os).
Proof.
elim: D os => [|r D IH] [|o os] //=; first by rewrite /moment !big_nil scaler0.
by move=> [Hz]; rewrite /moment !big_cons scalerDr scalerA -mulrA; congr (_ + _); apply: IH.
Qed.

Lemma weighted_scale (c : R) : 0 < c -> identifiable everything 0 (map fst (scaled d ws)) ->
  exists rep rep', lin_reg_report_w F T b pol (map Some ws) rows = Ok (Some rep) /\
    lin_reg_report_w F T b pol (map (fun o => Some (c * o)) ws) rows = Ok (Some rep') /\
    (forall j, r_rows rep' j = r_rows rep j) /\ r_r2 rep' = r_r2 rep /\ r_adj rep' = r_adj rep.
Proof.
move=> Hc Hi; have U := A_unit Hi.
have Hs' : size (map ( *%R c) ws) = size d by rewrite size_map.
have -> : map (fun o => Some (c * o)) ws = map Some (map ( *%R c) ws) by rewrite -map_comp.
rewrite !report_wE //.
have c0 : c != 0 by rewrite gt_eqF.
have Uc : c *: A (scaled d ws) \in unitmx by rewrite unitmxZ ?unitfE.
have Iv : invmx (c *: A (scaled d ws)) = c^-1 *: invmx (A (scaled d ws)) by rewrite invmxZ // unitmxZ ?unitfE.
have key : let r1 := wls_mat F T (Xmat d) (Ymat d) (row_of_seq (size d) ws) (pl_var (map (@tgt R p) rows)) in
  let r2 := wls_mat F T (Xmat d) (Ymat d) (row_of_seq (size d) (map ( *%R c) ws)) (pl_var (map (@tgt R p) rows)) in
  (forall j, r_rows r2 j = r_rows r1 j) /\ r_r2 r2 = r_r2 r1 /\ r_adj r2 = r_adj r1.
  rewrite wls_matE // /wls_mat gram_zip // moment_zip //.
  rewrite gram_zipc // moment_zipc // gram_sd // moment_sd // qr_solveE // qr_inverseE // Iv.
  have -> : c^-1 *: invmx (A (scaled d ws)) *m (c *: moment (ones (scaled d ws))) = w0 (scaled d ws).
    by rewrite -scalemxAl -scalemxAr scalerA mulVf // scale1r.
  rewrite /=; split=> // j; congr row_of.
  have -> : \sum_k row_of_seq (size d) [seq c * i | i <- ws] 0 k * (Ymat d - Xmat d *m w0 (scaled d ws)) k 0 ^+ 2
          = c * sq_err (scaled d ws) (w0 (scaled d ws)).
    rewrite -sum_w_res // mulr_sumr; apply: eq_bigr => k _.
    have -> : row_of_seq (size d) [seq c * i | i <- ws] 0 k = c * row_of_seq (size d) ws 0 k.
      by rewrite !mxE (nth_map 0) // Hs.
    by rewrite -mulrA.
  rewrite /fdiv -/(dof d); case: ifP => //= _; congr fsqrt.
  have ZE (N : 'M[R]_(p + b)) : (c^-1 *: N) j j = c^-1 * N j j by rewrite mxE.
  by rewrite ZE mulrA; congr (_ * _); rewrite mulrAC (mulrAC c) mulfV // mul1r.
by eexists; eexists; split; [by []|split; [by []|exact: key]].
Qed.

Lemma scaled1 m (D : seq ('rV[R]_m * R)) : scaled D (nseq (size D) 1) = D.
Proof. by elim: D => [|[x y] D IH] //=; rewrite /scaled /= sqrtr1 scale1r mul1r; congr (_ :: _). Qed.

Lemma weighted_ones : identifiable everything 0 (map fst d) ->
  exists rep rep', lin_reg_report F T SE b pol rows = Ok (Some rep) /\
    lin_reg_report_w F T b pol (nseq (size d) (Some 1)) rows = Ok (Some rep') /\
    (forall j, r_rows rep' j = r_rows rep j) /\ r_r2 rep' = r_r2 rep /\ r_adj rep' = r_adj rep.
Proof.
move=> Hi; have U := A_unit Hi.
have -> : nseq (size d) (Some (1 : R)) = map Some (nseq (size d) 1) by rewrite map_nseq.
have Z : size (nseq (size d) (1 : R)) = size d by rewrite size_nseq.
have Hw1 : forall o : R, o \in nseq (size d) 1 -> 0 <= o by move=> o /nseqP [-> _]; exact: ler01.
rewrite report_wE // wls_matE ?scaled1 // reportE //.
eexists; eexists; split; [by []|split; [by []|]].
rewrite report_matE //=; split=> // j; congr row_of.
by rewrite /errs /std_errs norm_res.
Qed.
End Weights.

(** Weights are not masked: skipping a row with a null cell panics. *)
Lemma weighted_skip_panic (R : rcfType) (F : faer R) (T : student R) p b (pol : policy R)
    (rows : seq (lrow R p)) (ws : seq (option R)) :
  (0 < size rows)%N -> accepts pol rows -> (p <= size (used_rows pol rows))%N ->
  size ws = size rows -> (size (used_rows pol rows) < size rows)%N ->
  lin_reg_report_w F T b pol ws rows = Panic.
Proof.
move=> H1 H2 H3 Hs Hl; have [df [mask [E1 E2 _]]] := series_ok b H1 H2 H3.
rewrite /lin_reg_report_w E1.
have Z (l : seq (option R)) v : all_some l = Some v -> size v = size l.
  elim: l v => [|[x|] l IH] //= v; first by case=> <-.
  by case E : (all_some l) => [u|] //= [<-] /=; rewrite (IH u).
case E : (all_some ws) => [v|] //.
have -> : size df = size (used_rows pol rows).
  by rewrite -[size df](size_map (@num_row R (p + b))) E2 !size_map.
by rewrite (Z _ _ E) Hs gtn_eqF.
Qed.

(** No more rows than coefficients: the quantile of Student's t panics. *)
Lemma no_freedom_panic (R : rcfType) (F : faer R) (T : student R) p (b : bool) (pol : policy R)
    (rows : seq (lrow R p)) :
  (0 < size rows)%N -> accepts pol rows -> (p <= size (used_rows pol rows))%N ->
  (size (used_rows pol rows) <= p + b)%N ->
  (forall kind, lin_reg_report F T kind b pol rows = Panic) /\
  (forall ws, lin_reg_report_w F T b pol ws rows = Panic).
Proof.
move=> H1 H2 H3 Hl; have [df [mask [E1 E2 _]]] := series_ok b H1 H2 H3.
have E3 : size df = size (used_rows pol rows) by rewrite -[size df](size_map (@num_row R (p + b))) E2 !size_map.
split=> [kind|ws]; first by rewrite /lin_reg_report E1 E3 Hl.
by rewrite /lin_reg_report_w E1 E3 Hl; case: (all_some ws) => // v; case: ifP.
Qed.
