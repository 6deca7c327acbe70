(** Concrete decompositions and frames for the theorems on principal component analysis. *)
From mathcomp Require Import all_ssreflect all_algebra.
From Verif Require Import PcaModel PcaSpec PcaProofs.
Set Implicit Arguments.
Unset Strict Implicit.
Import Order.TTheory GRing.Theory Num.Theory.
Local Open Scope ring_scope.

Definition cells_of p (l : seq (option rat)) : cells rat_realFieldType p := [ffun j : 'I_p => nth None l j].
Definition rows_of p (l : seq (seq rat)) : seq 'rV[rat]_p := [seq \row_j nth 0 r j | r : seq rat <- l].

(** Decomposes the matrices with orthogonal columns of length 2, and [[3,0],[4,0]]. *)
Definition entry m n (M : 'M[rat]_(m, n)) (i j : nat) : rat :=
  if insub i is Some a then (if insub j is Some b then M a b else 0) else 0.
Definition is34 m n (M : 'M[rat]_(m, n)) : bool :=
  [&& m == 2%N, n == 2%N, entry M 0 0 == 3%:R, entry M 1 0 == 4%:R, entry M 0 1 == 0 & entry M 1 1 == 0].
Definition is2 m n (M : 'M[rat]_(m, n)) : bool := (n <= m)%N && (M^T *m M == 4%:R%:M).
Definition demo : svd_lib rat_realFieldType := @SvdLib rat_realFieldType
  (fun m n M => if is2 M then Some (nseq n 2%:R) else if is34 M then Some [:: 5%:R; 0] else None)
  (fun m n M => if is2 M then Some (nseq n 2%:R, 1%:M) else if is34 M then Some ([:: 5%:R; 0], 1%:M) else None).
Lemma demo2 m n (M : 'M[rat]_(m, n)) : is2 M -> exists U, @is_svd rat_realFieldType m n M n U (nseq n 2%:R) 1%:M.
Proof.
move=> /andP [_ /eqP E]; exists (2%:R^-1 *: M); split; split.
- by rewrite size_nseq.
- by case: n {M E} => // n /=; elim: n => //= n ->; rewrite lexx.
- by apply/allP => x /nseqP [-> _]; apply: ler0n.
- have -> : (2%:R^-1 *: M)^T = 2%:R^-1 *: M^T by apply/matrixP => i j; rewrite !mxE.
  rewrite -scalemxAl -scalemxAr E scalerA -scalemx1 scalerA; have -> : 2%:R^-1 / 2%:R * 4%:R = 1 :> rat by []. by rewrite scale1r.
- by rewrite trmx1 mulmx1.
- have -> : diag_mx (\row_i (nseq n 2%:R)`_i) = 2%:R%:M :> 'M[rat]_n.
    by rewrite -diag_const_mx; congr diag_mx; apply/rowP => i; rewrite !mxE nth_nseq ltn_ord.
  by rewrite trmx1 mulmx1 mul_mx_scalar scalerA divff // scale1r.
Qed.
Lemma entry_eq m n (M : 'M[rat]_(m, n)) (i : 'I_m) (j : 'I_n) : entry M i j = M i j.
Proof. by rewrite /entry !valK. Qed.
Lemma demo34 m n (M : 'M[rat]_(m, n)) : is34 M -> m = 2%N /\ n = 2%N /\ exists U, @is_svd rat_realFieldType m n M n U [:: 5%:R; 0] 1%:M.
Proof.
move=> /and5P [/eqP Em /eqP En /eqP A /eqP B /andP [/eqP C /eqP D]]; split=> //; split=> //; move: M A B C D; rewrite Em En => M.
rewrite (entry_eq M 0 0) (entry_eq M 1 0) (entry_eq M 0 1) (entry_eq M 1 1) => A B C D.
exists (\matrix_(i < 2, j < 2) if (i == 0) then (if j == 0 then 3%:R / 5%:R else - 4%:R / 5%:R) else (if j == 0 then 4%:R / 5%:R else 3%:R / 5%:R)).
split; split=> //.
- by apply/matrixP => -[[|[|//]] Hi] -[[|[|//]] Hj]; rewrite !mxE !big_ord_recl big_ord0 !mxE.
- by rewrite trmx1 mulmx1.
- rewrite trmx1 mulmx1 mul_mx_diag; apply/matrixP => -[[|[|//]] Hi] -[[|[|//]] Hj]; rewrite !mxE /=.
  + transitivity (M 0 0); [by congr (M _ _); apply: val_inj | by rewrite A; apply/eqP].
  + transitivity (M 0 1); [by congr (M _ _); apply: val_inj | by rewrite C; apply/eqP].
  + transitivity (M 1 0); [by congr (M _ _); apply: val_inj | by rewrite B; apply/eqP].
  + transitivity (M 1 1); [by congr (M _ _); apply: val_inj | by rewrite D; apply/eqP].
Qed.
Lemma demo_ok : svd_ok demo.
Proof.
split=> [m n M s|m n M s V Hn] /=; case: ifP => [H2 | _].
- case=> <-; have [U D] := demo2 H2; exists n, U, 1%:M; split=> //.
  by case/andP: H2 => H _; symmetry; apply/minn_idPr.
- case: ifP => // /demo34 [Em [En [U D]]] [<-]; exists n, U, 1%:M; split=> //.
  by rewrite Em En.
- by case=> <- <-; apply: demo2.
- by case: ifP => // /demo34 [_ [_ D]] [<- <-].
Qed.
(** The corners of a square. *)
Definition square : seq (cells rat_realFieldType 2) :=
  [seq cells_of 2 r | r <- [:: [:: Some 1; Some 1]; [:: Some 1; Some (-1)]; [:: Some (-1); Some 1]; [:: Some (-1); Some (-1)]]].
Lemma square_full : full square.
Proof. by move=> r [[|[|//]] Hj]; rewrite !inE => /or4P [] /eqP ->; rewrite ffunE. Qed.
Lemma square_rows : complete_rows square = rows_of 2 [:: [:: 1; 1]; [:: 1; -1]; [:: -1; 1]; [:: -1; -1]].
Proof.
rewrite full_rows; last exact: square_full.
by congr [:: _; _; _; _]; apply/rowP => -[[|[|//]] Hj]; rewrite !mxE ffunE.
Qed.
Lemma square_an c : analysed c square = rows_of 2 [:: [:: 1; 1]; [:: 1; -1]; [:: -1; 1]; [:: -1; -1]].
Proof.
case: c; last exact: square_rows.
rewrite full_analysed; last exact: square_full. rewrite square_rows.
by congr [:: _; _; _; _]; apply/rowP => -[[|[|//]] Hj]; rewrite !mxE /mean_rows /= !big_cons big_nil !mxE.
Qed.
Lemma square2 c : is2 (to_mat (analysed c square)).
Proof.
rewrite square_an /is2 /=; apply/eqP/matrixP => -[[|[|//]] Hi] -[[|[|//]] Hj]; rewrite !mxE !big_ord_recl big_ord0 !mxE /=; by rewrite ?mxE; apply/eqP.
Qed.
Lemma square_var : total_variance (complete_rows square) = 8%:R / 3%:R.
Proof.
rewrite /total_variance -full_analysed; last exact: square_full. rewrite square_an square_rows /energy /= !big_cons big_nil !big_ord_recl !big_ord0 !mxE.
by apply/eqP.
Qed.
(** A null in the second column removes a row after the first column has been centred. *)
Definition holed : seq (cells rat_realFieldType 2) :=
  [seq cells_of 2 r | r <- [:: [:: Some 3%:R; Some 0]; [:: Some 4%:R; Some 0]; [:: Some (-7%:R); None]]].
Lemma holed_rows : complete_rows holed = rows_of 2 [:: [:: 3%:R; 0]; [:: 4%:R; 0]].
Proof.
have H j : isSome (cells_of 2 [:: Some 3%:R; Some 0] j) by rewrite ffunE; case: j => -[|[|//]].
have H' j : isSome (cells_of 2 [:: Some 4%:R; Some 0] j) by rewrite ffunE; case: j => -[|[|//]].
rewrite -drop_complete /drop_nulls /holed /=.
have -> : no_nulls (cells_of 2 [:: Some 3%:R; Some 0]) by apply/forallP.
have -> : no_nulls (cells_of 2 [:: Some 4%:R; Some 0]) by apply/forallP.
have -> : no_nulls (cells_of 2 [:: Some (-7%:R); None]) = false by apply/negbTE/forallPn; exists 1; rewrite ffunE.
by congr [:: _; _]; apply/rowP => -[[|[|//]] Hj]; rewrite !mxE ffunE.
Qed.
Lemma holed_an : analysed true holed = rows_of 2 [:: [:: 3%:R; 0]; [:: 4%:R; 0]].
Proof.
rewrite /analysed holed_rows /moved /=; congr [:: _; _]; apply/rowP => -[[|[|//]] Hj]; rewrite !mxE /mean_known /= !big_cons big_nil !ffunE /=; by apply/eqP.
Qed.
Lemma holed34 : is2 (to_mat (analysed true holed)) = false /\ is34 (to_mat (analysed true holed)).
Proof.
rewrite holed_an; split.
- apply/negbTE; rewrite /is2 /=; apply/eqP => /matrixP /(_ 0 0); rewrite !mxE !big_ord_recl big_ord0 !mxE /= ?mxE; by move/eqP.
- rewrite /is34 /=.
  have K (i j : 'I_2) : entry (to_mat (rows_of 2 [:: [:: 3%:R; 0]; [:: 4%:R; 0]])) i j = (rows_of 2 [:: [:: 3%:R; 0]; [:: 4%:R; 0]])`_i 0 j.
    by rewrite (@entry_eq 2 2 (to_mat (rows_of 2 [:: [:: 3%:R; 0]; [:: 4%:R; 0]])) i j) mxE.
  by rewrite (K 0 0) (K 1 0) (K 0 1) (K 1 1) /= !mxE.
Qed.
Lemma holed_refuted : exists (f : seq (cells rat_realFieldType 2)) (L : svd_lib rat_realFieldType) s, svd_ok L /\ singular_values L f true false false = Val [seq Some x | x <- s] /\
  \sum_(x <- s) x ^+ 2 != energy (moved (mean_rows (complete_rows f)) (complete_rows f)).
Proof.
exists holed, demo, [:: 5%:R; 0]; split; first exact: demo_ok.
have [A B] := holed34; split; first by rewrite run_sv /= A B.
have M : moved (mean_rows (complete_rows holed)) (complete_rows holed) = rows_of 2 [:: [:: - 2%:R^-1; 0]; [:: 2%:R^-1; 0]].
  rewrite holed_rows /moved /=; congr [:: _; _]; apply/rowP => -[[|[|//]] Hj]; rewrite !mxE /mean_rows /= !big_cons big_nil !mxE /=; by apply/eqP.
have -> : energy (moved (mean_rows (complete_rows holed)) (complete_rows holed)) = 2%:R^-1.
  by rewrite M /energy /rows_of /= !big_cons big_nil !big_ord_recl !big_ord0 !mxE /=; apply/eqP.
by rewrite !big_cons big_nil.
Qed.
Lemma square_case c : svd_ok demo /\ full square /\ size square = 4%N /\ energy (analysed c square) = 8%:R /\ total_variance (complete_rows square) = 8%:R / 3%:R /\
  singular_values demo square c false false = Val [:: Some 2%:R; Some 2%:R] /\
  exists out, pca demo square c = Val out.
Proof.
split; first exact: demo_ok. split; first exact: square_full. split; first by []. split.
  by rewrite square_an /energy /= !big_cons big_nil !big_ord_recl !big_ord0 !mxE; apply/eqP.
split; first exact: square_var. split; first by rewrite run_sv /= square2.
rewrite pca_run /= square2 square_an /=; by eexists.
Qed.
