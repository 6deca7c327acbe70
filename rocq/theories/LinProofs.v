(** The closed-form fits: normal equations of the model's matrices. *)
From Coq Require Import Ring Field.
From mathcomp Require Import all_ssreflect all_algebra.
From Verif Require Import LinModel LinSpec LinCore.
Set Implicit Arguments.
Import Order.TTheory GRing.Theory Num.Theory.
Local Open Scope ring_scope.

(** What is assumed of faer: its decompositions solve invertible systems. *)
Definition faer_ok (R : realFieldType) (F : faer R) : Prop :=
  (forall m k (A : 'M[R]_m) (b : 'M[R]_(m, k)), A \in unitmx -> A *m qr_solve F A b = b) /\
  (forall m (A : 'M[R]_m), A \in unitmx -> qr_inverse F A *m A = 1%:M) /\
  (forall m k (A : 'M[R]_m) f (b : 'M[R]_(m, k)), A \in unitmx -> svd_solve F k A = Some f -> A *m f b = b) /\
  (forall m k (A : 'M[R]_m) f (b : 'M[R]_(m, k)), A \in unitmx -> llt_solve F k A = Some f -> A *m f b = b).

(** Exact inversion is one such library. *)
Definition exact_faer (R : realFieldType) : faer R :=
  @Faer R (fun m k A b => invmx A *m b) (fun m A => invmx A) (fun m k A => None) (fun m k A => None).
Lemma exact_faer_ok (R : realFieldType) : faer_ok (exact_faer R).
Proof. by split; [|split; [|split]]=> //= m; [move=> k A b U; rewrite mulKVmx|move=> A U; rewrite mulVmx]. Qed.

Lemma mem_zip2 (A B : eqType) (d : seq A) (w : seq B) r : r \in zip d w -> r.2 \in w.
Proof.
elim: d w => [|a d IH] [|b w] //=; rewrite in_cons; move=> /orP[/eqP ->|/IH H]; first exact: mem_head.
by apply/orP; right.
Qed.

Section Fit.
Variable R : realFieldType.
Variable F : faer R.
Hypothesis HF : faer_ok F.

Lemma qr_solveE m k (A : 'M[R]_m) (b : 'M[R]_(m, k)) : A \in unitmx -> qr_solve F A b = invmx A *m b.
Proof. by move=> U; rewrite -[LHS](mulKmx U) (proj1 HF). Qed.

Lemma qr_inverseE m (A : 'M[R]_m) : A \in unitmx -> qr_inverse F A = invmx A.
Proof. by move=> U; rewrite -[LHS]mulmx1 -(mulmxV U) mulmxA (proj1 (proj2 HF)) // mul1mx. Qed.

Lemma solve_howE h m k (A : 'M[R]_m) (b : 'M[R]_(m, k)) : A \in unitmx -> solve_how F h A b = invmx A *m b.
Proof.
move=> U; case: HF => H1 [H2 [H3 H4]]; rewrite -[LHS](mulKmx U); congr (_ *m _).
case: h => /=; last exact: H1.
  by case E: (svd_solve F k A) => [f|]; [apply: H3|apply: H1].
by case E: (llt_solve F k A) => [f|]; [apply: H4|apply: H1].
Qed.

(** The matrices of the model as sums over the rows. *)
Definition ones m (d : seq ('rV[R]_m * R)) : seq (('rV[R]_m * R) * R) := [seq (r, 1) | r <- d].

Lemma gram_zip m (d : data R m) (w : seq R) : size w = size d ->
  (Xmat d)^T *m diag_mx (row_of_seq (size d) w) *m Xmat d = gram (zip d w).
Proof.
move=> Hs; apply/matrixP => i j; rewrite /gram summxE (big_nth ((0, 0), 0)) big_mkord size_zip Hs minnn.
rewrite mul_mx_diag mxE; apply: eq_bigr => k _.
rewrite nth_zip // !mxE big_ord1 !mxE /=.
by rewrite mulrAC mulrC.
Qed.

Lemma moment_zip m (d : data R m) (w : seq R) : size w = size d ->
  (Xmat d)^T *m diag_mx (row_of_seq (size d) w) *m Ymat d = moment (zip d w).
Proof.
move=> Hs; apply/matrixP => i j; rewrite /moment summxE (big_nth ((0, 0), 0)) big_mkord size_zip Hs minnn.
rewrite mul_mx_diag mxE; apply: eq_bigr => k _.
rewrite nth_zip // !mxE /=.
by rewrite [RHS]mulrC mulrA (ord1 j).
Qed.

Lemma zip_ones m (d : data R m) : zip d (nseq (size d) 1) = ones d.
Proof. by elim: d => //= r d ->. Qed.

Lemma gram_ones m (d : data R m) : (Xmat d)^T *m Xmat d = gram (ones d).
Proof.
rewrite -zip_ones -gram_zip ?size_nseq //.
have -> : row_of_seq (size d) (nseq (size d) (1 : R)) = const_mx 1.
  by apply/rowP => i; rewrite !mxE nth_nseq ltn_ord.
by rewrite diag_const_mx mulmx1.
Qed.

Lemma moment_ones m (d : data R m) : (Xmat d)^T *m Ymat d = moment (ones d).
Proof.
rewrite -zip_ones -moment_zip ?size_nseq //.
have -> : row_of_seq (size d) (nseq (size d) (1 : R)) = const_mx 1.
  by apply/rowP => i; rewrite !mxE nth_nseq ltn_ord.
by rewrite diag_const_mx mulmx1.
Qed.

Lemma nonneg_ones m (d : data R m) : nonneg (ones d).
Proof. by move=> r /mapP[s _ ->] /=; rewrite ler01. Qed.

Lemma weighted_ones m (d : data R m) w : weighted_err (ones d) w = sq_err d w.
Proof. by rewrite /weighted_err /sq_err big_map; apply: eq_bigr => r _ /=; rewrite mul1r. Qed.

Lemma full_ridge m pen lambda (d : data R m) w : full_err pen lambda (ones d) w = ridge_err pen lambda d w.
Proof. by rewrite /full_err /ridge_err weighted_ones. Qed.

(** Identifiability is invertibility of the normal matrix. *)
Lemma ident_unit m pen lambda (d : data R m) : 0 <= lambda -> identifiable pen lambda (map fst d) ->
  amat pen lambda (ones d) \in unitmx.
Proof.
move=> Hl Hi; apply: unit_of_ker => h E.
have Q : qform pen lambda (ones d) h = 0 by rewrite qformE -mulmxA E mulmx0 mxE.
have [H1 H2] := qform0_terms (@nonneg_ones _ d) Hl Q.
apply: Hi => [x /mapP[r Hr ->]|Hn j Hj].
  by have := H1 (r, 1) (map_f _ Hr); rewrite /= mul1r.
by apply/eqP; have /eqP := H2 j Hj; rewrite mulf_eq0 (negbTE Hn).
Qed.

Arguments ident_unit {m pen lambda d}.
Lemma ident_unit_w m (d : data R m) (w : seq R) : (forall o, o \in w -> 0 <= o) ->
  identifiable everything 0 [seq r.1.1 | r <- zip d w & 0 < r.2] ->
  amat everything 0 (zip d w) \in unitmx.
Proof.
move=> Hw Hi; apply: unit_of_ker => h E.
have Q : qform everything 0 (zip d w) h = 0 by rewrite qformE -mulmxA E mulmx0 mxE.
have Hn : nonneg (zip d w).
  by move=> r /mem_zip2 Hr; apply: Hw.
have [H1 _] := qform0_terms Hn (lexx 0) Q.
apply: Hi => [x /mapP[r Hr ->]|]; last by rewrite eqxx.
move: Hr; rewrite mem_filter => /andP[Hp Hr].
by have /eqP := H1 r Hr; rewrite mulf_eq0 (gt_eqF Hp) => /eqP.
Qed.

Arguments ident_unit_w {m d w}.
Lemma unit_ident m pen lambda (d : data R m) : amat pen lambda (ones d) \in unitmx ->
  identifiable pen lambda (map fst d).
Proof.
move=> U h H1 H2; apply: (ker_of_unit U).
apply/matrixP => i k; rewrite (ord1 k) {k} [in LHS]mulmxDl [LHS]mxE ridge_mul [RHS]mxE.
rewrite /gram mulmx_suml summxE big_seq big1 ?add0r.
  case: ifP => // Hp; have [->|Hn] := eqVneq lambda 0; first by rewrite mul0r.
  by rewrite H2 ?mulr0.
move=> r /mapP[s Hs ->] /=; rewrite -scalemxAl -mulmxA mxE [(_ *m _) i 0]mxE big_ord1 -predictE H1 ?mulr0 //.
exact: map_f.
Qed.

Lemma add_ridgeE m n1 lambda (A : 'M[R]_m) : add_ridge n1 lambda A = A + ridge (fun j : 'I_m => (j < n1)%N) lambda.
Proof. by apply/matrixP => i j; rewrite !mxE. Qed.

Lemma abs_diff_bias p (b : bool) : abs_diff (p + b) b = p.
Proof. by rewrite /abs_diff addnK (eqP (leq_addl p b)) addn0. Qed.

Lemma amat_ext m pen pen' lambda (d : seq (('rV[R]_m * R) * R)) : pen =1 pen' -> amat pen lambda d = amat pen' lambda d.
Proof. by move=> H; congr (_ + _); apply/matrixP => i j; rewrite !mxE H. Qed.

Lemma ridge0 m pen : ridge pen 0 = 0 :> 'M[R]_m.
Proof. by apply/matrixP => i j; rewrite !mxE if_same. Qed.

(** faer_solve_lstsq on rows with or without the constant column. *)
Lemma solve_lstsqE p (b : bool) (d : data R (p + b)) lambda h :
  let l := Num.max 0 lambda in
  amat (not_bias b) l (ones d) \in unitmx ->
  faer_solve_lstsq F (Xmat d) (Ymat d) lambda b h = invmx (amat (not_bias b) l (ones d)) *m moment (ones d).
Proof.
move=> l; rewrite /faer_solve_lstsq abs_diff_bias gram_ones moment_ones.
have -> : (if (0 <= lambda) && (0 < p)%N then add_ridge p lambda (gram (ones d)) else gram (ones d))
          = amat (not_bias b) l (ones d).
  rewrite /amat /l; case: ifP => [/andP[H1 H2]|].
    by rewrite (max_idPr H1) add_ridgeE.
  case: (leP 0 lambda) => [H1 /= Hp|H1 _]; last by rewrite ridge0 addr0.
  suff -> : ridge (not_bias b) lambda = 0 :> 'M[R]_(p + b) by rewrite addr0.
  apply/matrixP => i j; rewrite !mxE /not_bias.
  have -> : (i < p)%N = false by move/negbT: Hp; rewrite -leqNgt => Hp; apply/negbTE; rewrite -leqNgt; apply: leq_trans Hp (leq0n _).
  by rewrite andbF.
by move=> U; rewrite solve_howE.
Qed.

Theorem solve_lstsq_min p (b : bool) (d : data R (p + b)) lambda h :
  identifiable (not_bias b) (Num.max 0 lambda) (map fst d) ->
  unique_min (ridge_err (not_bias b) (Num.max 0 lambda) d)
             (faer_solve_lstsq F (Xmat d) (Ymat d) lambda b h).
Proof.
move=> Hi.
have Hl : 0 <= Num.max 0 lambda by rewrite le_maxr lexx.
have U := ident_unit Hl Hi.
rewrite solve_lstsqE // => v; rewrite -!full_ridge; apply: normal_eq_min => //; first exact: nonneg_ones.
by rewrite mulKVmx.
Qed.

Theorem weighted_lstsq_min m (d : data R m) (w : seq R) h :
  size w = size d -> (forall o, o \in w -> 0 <= o) ->
  identifiable everything 0 [seq r.1.1 | r <- zip d w & 0 < r.2] ->
  unique_min (weighted_err (zip d w))
             (faer_weighted_lstsq F (Xmat d) (Ymat d) (row_of_seq (size d) w) h).
Proof.
move=> Hs Hw Hi; have U := ident_unit_w Hw Hi.
rewrite /faer_weighted_lstsq gram_zip // moment_zip //.
have A0 : amat everything 0 (zip d w) = gram (zip d w) by rewrite /amat ridge0 addr0.
rewrite -A0 solve_howE // => v Hv.
have Hn : nonneg (zip d w).
  by move=> r /mem_zip2 Hr; apply: Hw.
have := @normal_eq_min _ _ everything 0 (zip d w) _ Hn (lexx 0) U (mulKVmx U _) v Hv.
by rewrite /full_err !mul0r !addr0.
Qed.

(** Several targets are fitted independently. *)
Lemma solve_how_col h m k (A : 'M[R]_m) (B : 'M[R]_(m, k)) j : A \in unitmx ->
  col j (solve_how F h A B) = solve_how F h A (col j B).
Proof. by move=> U; rewrite !solve_howE // !colE mulmxA. Qed.

(** The online fit: inverse and coefficients. *)
Definition okst m (st : online R m) (A : 'M[R]_m) (b : 'cV[R]_m) : Prop :=
  o_inv st = invmx A /\ o_coef st = invmx A *m b.

Lemma qr_with_inv_ok m n1 (b : bool) (pen : pred 'I_m) (d : data R m) lambda :
  abs_diff m b = n1 -> pen =1 (fun j : 'I_m => (j < n1)%N) ->
  0 <= lambda -> amat pen lambda (ones d) \in unitmx ->
  okst (faer_qr_lstsq_with_inv F d lambda b) (amat pen lambda (ones d)) (moment (ones d)).
Proof.
move=> Hn Hp Hl; rewrite /faer_qr_lstsq_with_inv Hn gram_ones moment_ones.
have -> : (if (0 < lambda) && (0 < n1)%N then add_ridge n1 lambda (gram (ones d)) else gram (ones d))
          = amat pen lambda (ones d).
  rewrite (amat_ext lambda (ones d) Hp) /amat; case: ifP => [/andP[H1 H2]|]; first by rewrite add_ridgeE.
  move: Hl; rewrite le_eqVlt => /orP[/eqP <- _|H1]; first by rewrite ridge0 addr0.
  rewrite H1 /= => H2.
  suff -> : ridge (fun j : 'I_m => (j < n1)%N) lambda = 0 :> 'M[R]_m by rewrite addr0.
  apply/matrixP => i j; rewrite !mxE.
  by move/negbT: H2; rewrite -leqNgt leqn0 => /eqP Hn0; rewrite Hn0 andbF.
by move=> U; split=> /=; rewrite ?qr_inverseE ?qr_solveE.
Qed.

(** One row in (weight 1/c). *)
Lemma woodbury_ok m pen lambda (d : seq (('rV[R]_m * R) * R)) st x y c :
  amat pen lambda d \in unitmx -> okst st (amat pen lambda d) (moment d) -> c != 0 ->
  amat pen lambda (rcons d ((x, y), c^-1)) \in unitmx ->
  exists st', woodbury_step st x y c = Some st' /\
    okst st' (amat pen lambda (rcons d ((x, y), c^-1))) (moment (rcons d ((x, y), c^-1))).
Proof.
move=> U [Hi Hc] Hc0 U'.
have EA : amat pen lambda (rcons d ((x, y), c^-1)) = amat pen lambda d + c^-1 *: (x^T *m x).
  by rewrite /amat -cats1 gram_cat {2}/gram big_seq1 /= -!addrA [X in _ + X]addrC.
have EM : moment (rcons d ((x, y), c^-1)) = moment d + (c^-1 * y) *: x^T.
  by rewrite -cats1 moment_cat {2}/moment big_seq1.
move: U'; rewrite EA => U'.
have [H1 H2 H3] := @woodbury _ _ _ (moment d) x y c U (amat_sym _ _ _ _) Hc0 U'.
rewrite /woodbury_step Hi Hc (negbTE H1); eexists; split; first by [].
by rewrite EM; split=> /=.
Qed.
End Fit.
Arguments ones {R m} d.
Arguments okst {R m} st A b.
Arguments ident_unit {R m pen lambda d}.
Arguments unit_ident {R m pen lambda d}.
Arguments woodbury_ok {R m pen lambda d st x y c}.
Arguments nonneg_ones {R m} d.
Arguments full_ridge {R m} pen lambda d w.
