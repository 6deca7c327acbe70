(** The regression expressions: which rows are used, where the results go. *)
From mathcomp Require Import all_ssreflect all_algebra.
From Verif Require Import LinModel LinSpec LinCore LinProofs LinOnline LinExprSpec.
Set Implicit Arguments.
Unset Strict Implicit.
Import Order.TTheory GRing.Theory Num.Theory.
Local Open Scope ring_scope.

Section Rows.
Variable R : realFieldType.
Variable p : nat.
Variable b : bool.

Definition biased (r : 'rV[R]_p * R) : 'rV[R]_(p + b) * R := (features b r.1, r.2).

Lemma designE (d : seq ('rV[R]_p * R)) : design b d = map biased d.
Proof. by []. Qed.

Lemma feat_nullE q (r : lrow R q) : feat_null r = ~~ [forall j, isSome (feat r 0 j)].
Proof.
rewrite /feat_null negb_forall; apply: eq_existsb => j; by case: (feat r 0 j).
Qed.

Lemma row_nullE (r : lrow R p) : row_null r = ~~ isSome (complete_row r).
Proof.
rewrite /row_null /complete_row feat_nullE; case: [forall _, _]; case: (tgt r) => //=.
Qed.

Lemma num_rowE q (r : lrow R q) : num_row r =
  if feat_null r then None else omap (fun y => (\row_(j < q) odflt 0 (feat r 0 j), y)) (tgt r).
Proof.
rewrite /num_row; case: (tgt r) => [y|] /=; last by case: ifP.
case: ifP => // _; congr (Some (_, _)); apply/rowP => j; by rewrite !mxE.
Qed.

Lemma feat_null_bias (r : lrow R p) : feat_null (bias_row b r) = feat_null r.
Proof.
apply/existsP/existsP => -[j Hj].
  move: Hj; rewrite mxE; case: (split j) => [j'|k]; first by exists j'.
  by rewrite mxE.
by exists (lshift b j); rewrite row_mxEl.
Qed.

Lemma row_split_const (x : 'rV[R]_p) (g : 'I_(p + b) -> R) :
  (forall j, g (lshift b j) = x 0 j) -> (forall j, g (rshift p j) = 1) ->
  \row_j g j = features b x.
Proof.
move=> H1 H2; apply/rowP => j; rewrite !mxE; case: splitP => k Hk.
  by have -> : j = lshift b k by apply: val_inj.
by have -> : j = rshift p k by [apply: val_inj]; rewrite mxE.
Qed.

Lemma num_row_bias (r : lrow R p) : num_row (bias_row b r) = omap biased (complete_row r).
Proof.
rewrite num_rowE feat_null_bias feat_nullE /complete_row /=; case: [forall _, _] => //=.
case: (tgt r) => //= y; congr (Some (_, _)).
by apply: row_split_const => j; rewrite ?row_mxEl ?row_mxEr !mxE.
Qed.

Lemma num_row_fill x (r : lrow R p) : num_row (fill_row x (bias_row b r)) = omap biased (filled_row x r).
Proof.
rewrite num_rowE; have -> : feat_null (fill_row x (bias_row b r)) = false.
  by apply/existsP => -[j]; rewrite /= mxE.
rewrite /filled_row /=; case: (tgt r) => //= y; congr (Some (_, _)).
by apply: row_split_const => j; rewrite mxE ?row_mxEl ?row_mxEr !mxE.
Qed.

Lemma mask_map A B (f : A -> B) (q : A -> bool) s : seq.mask (map q s) (map f s) = map f (filter q s).
Proof. by elim: s => //= a s IH; case: (q a); rewrite /= IH. Qed.

Lemma pmap_filter A B (f : A -> option B) s : map f (filter (fun a => isSome (f a)) s) = map Some (pmap f s).
Proof. by elim: s => //= a s IH; case E: (f a) => [v|] /=; rewrite ?E IH. Qed.

Lemma filter_eq_isSome A B C (f : A -> option B) (g : B -> C) s :
  map (fun a => omap g (f a)) (filter (fun a => isSome (f a)) s) = map Some (map g (pmap f s)).
Proof. by elim: s => //= a s IH; case E: (f a) => [v|] /=; rewrite ?E /= IH. Qed.

Lemma all_used_map A B C (f : A -> option B) (g : B -> C) s : all (fun a => isSome (f a)) s ->
  map (fun a => omap g (f a)) s = map Some (map g (pmap f s)).
Proof. by elim: s => //= a s IH /andP[]; case E: (f a) => [v|] //= _ /IH ->. Qed.

Lemma has_null_complete (rows : seq (lrow R p)) :
  (has (@feat_null R p) rows || has (fun r => is_null (tgt r)) rows) = ~~ no_null rows.
Proof.
rewrite /no_null -has_predC orbC -has_predU; apply: eq_has => r /=.
by rewrite -row_nullE.
Qed.

Lemma complete_tgt (rows : seq (lrow R p)) : no_null rows -> has (fun r => is_null (tgt r)) rows = false.
Proof.
move=> H; apply/negbTE; apply: contraL H; rewrite -has_null_complete => ->; by rewrite orbT.
Qed.

Lemma filled_isSome x (r : lrow R p) : isSome (filled_row x r) = ~~ is_null (tgt r).
Proof. by rewrite /filled_row; case: (tgt r). Qed.

Lemma complete_used pol (r : lrow R p) v : complete_row r = Some v -> used pol r = Some v.
Proof.
case: pol => //= x; rewrite /complete_row /filled_row; case: ifP => // /forallP H.
case: (tgt r) => //= y [<-]; congr (Some (_, _)); apply/rowP => j; rewrite !mxE.
by have := H j; case: (feat r 0 j).
Qed.

Lemma no_null_used pol (rows : seq (lrow R p)) : no_null rows -> map (used pol) rows = map complete_row rows.
Proof.
elim: rows => //= r rows IH /andP[]; case E: (complete_row r) => [v|] // _ /IH ->.
by rewrite (complete_used pol E).
Qed.

Lemma no_null_num (rows : seq (lrow R p)) : no_null rows ->
  map (@num_row R (p + b)) (map (bias_row b) rows) = map Some (map biased (pmap complete_row rows)).
Proof.
by move=> H; rewrite -map_comp -all_used_map //; apply: eq_map => r /=; rewrite num_row_bias.
Qed.

Lemma no_null_used_rows pol (rows : seq (lrow R p)) : no_null rows -> used_rows pol rows = pmap complete_row rows.
Proof.
have H : forall l, pmap (used pol) l = pmap id (map (used pol) l) :> seq ('rV[R]_p * R).
  by elim=> //= r l ->; case: (used pol r).
have H' : forall l, pmap complete_row l = pmap id (map complete_row l) :> seq ('rV[R]_p * R).
  by elim=> //= r l ->; case: (complete_row r).
by move=> N; rewrite /used_rows H H' no_null_used.
Qed.

Lemma size_num_ok (df : seq (lrow R (p + b))) (d : seq ('rV[R]_(p + b) * R)) :
  map (@num_row R (p + b)) df = map Some d -> size df = size d.
Proof. by move=> H; rewrite -(size_map (@num_row R (p + b))) H size_map. Qed.

Lemma series_ok pol (rows : seq (lrow R p)) : (0 < size rows)%N -> accepts pol rows ->
  (p <= size (used_rows pol rows))%N ->
  exists df mask, [/\ series_to_mat rows b pol = Ok (df, mask),
    map (@num_row R (p + b)) df = map Some (design b (used_rows pol rows)) &
    (mask = [:: true] /\ all (fun r => isSome (used pol r)) rows) \/
    (mask = map (fun r => isSome (used pol r)) rows)].
Proof.
move=> Hne Hacc Hp.
have fin : forall df mask,
  map (@num_row R (p + b)) df = map Some (design b (used_rows pol rows)) ->
  (mask = [:: true] /\ all (fun r => isSome (used pol r)) rows) \/ (mask = map (fun r => isSome (used pol r)) rows) ->
  exists df' mask', [/\ (if (size df < p)%N then Err else Ok (df, mask)) = Ok (df', mask'),
    map (@num_row R (p + b)) df' = map Some (design b (used_rows pol rows)) &
    (mask' = [:: true] /\ all (fun r => isSome (used pol r)) rows) \/
    (mask' = map (fun r => isSome (used pol r)) rows)].
  move=> df mask H1 H2; exists df, mask; split=> //.
  by rewrite (size_num_ok H1) designE size_map ltnNge Hp.
have fin0 : no_null rows -> forall mask, mask = [:: true] ->
  exists df' mask', [/\ (if (size (map (bias_row b) rows) < p)%N then Err else Ok (map (bias_row b) rows, mask)) = Ok (df', mask'),
    map (@num_row R (p + b)) df' = map Some (design b (used_rows pol rows)) &
    (mask' = [:: true] /\ all (fun r => isSome (used pol r)) rows) \/
    (mask' = map (fun r => isSome (used pol r)) rows)].
  move=> N mask Hm; apply: fin; first by rewrite no_null_num // no_null_used_rows.
  left; split=> //; apply: sub_all N => r /=.
  by case E: (complete_row r) => [v|] //; rewrite (complete_used pol E).
rewrite /series_to_mat has_null_complete.
have -> : (size rows == 0)%N = false by move: Hne; case: (rows).
case N: (no_null rows) => /=; first by apply: fin0.
case: pol Hacc Hp fin {fin0} => [||||x|x] //=; rewrite ?N // => _ Hp fin.
  apply: fin; last first.
    by right; apply: eq_map => r; rewrite row_nullE negbK.
  have -> : [seq ~~ row_null r | r <- rows] = [seq isSome (complete_row r) | r <- rows].
    by apply: eq_map => r; rewrite row_nullE negbK.
  rewrite mask_map -map_comp designE /used_rows -filter_eq_isSome; apply: eq_map => r /=.
  by rewrite num_row_bias.
have Hfill : forall s, [seq num_row i | i <- [seq fill_row x i | i <- [seq bias_row b i | i <- s]]]
  = [seq omap biased (filled_row x r) | r <- s].
  by move=> s; rewrite -!map_comp; apply: eq_map => r /=; rewrite num_row_fill.
case Y: (has (fun r => is_null (tgt r)) rows); apply: fin.
- have -> : [seq ~~ is_null (tgt r) | r <- rows] = [seq isSome (filled_row x r) | r <- rows].
    by apply: eq_map => r; rewrite filled_isSome.
  rewrite -map_comp mask_map -map_comp designE /used_rows -filter_eq_isSome; apply: eq_map => r /=.
  by rewrite num_row_fill.
- by right; apply: eq_map => r; rewrite filled_isSome.
- rewrite Hfill designE /used_rows all_used_map //.
  by rewrite (eq_all (filled_isSome x)) -[X in is_true X]negbK -has_predC (eq_has (fun r => negbK _)) Y.
- left; split=> //.
  by rewrite (eq_all (filled_isSome x)) -[X in is_true X]negbK -has_predC (eq_has (fun r => negbK _)) Y.
Qed.

Lemma all_some_map A (d : seq A) : all_some (map Some d) = Some d.
Proof. by elim: d => //= a d ->. Qed.
End Rows.
