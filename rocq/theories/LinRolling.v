(** The rolling regression expression. *)
From mathcomp Require Import all_ssreflect all_algebra.
From Verif Require Import LinModel LinSpec LinCore LinProofs LinOnline LinExprSpec LinExpr LinExpr2.
Set Implicit Arguments.
Unset Strict Implicit.
Import Order.TTheory GRing.Theory Num.Theory.
Local Open Scope ring_scope.

Section Rolling.
Variable R : realFieldType.
Variable F : faer R.
Hypothesis HF : faer_ok F.

Notation good lambda d := (amat everything lambda (ones d) \in unitmx).

Lemma fit_good m (d : data R m) lambda : 0 <= lambda -> good lambda d ->
  fitted everything lambda d (faer_qr_lstsq_with_inv F d lambda false).
Proof.
move=> Hl U; split=> //.
exact: (@qr_with_inv_ok R F HF m (abs_diff m false) false everything d lambda (erefl _) (@everything_lt m) Hl U).
Qed.

Lemma skipping_init_ok m n ms lambda (rows : seq (nrow R m)) : 0 <= lambda -> (0 < n)%N -> (n <= size rows)%N ->
  (forall j, (j + n <= size rows)%N -> (ms <= size (valid_rows (take n (drop j rows))))%N ->
     good lambda (valid_rows (take n (drop j rows)))) ->
  (forall i, (i + n < size rows)%N -> good lambda (valid_rows (take n.-1 (drop i.+1 rows)))) ->
  let out := skipping_init F n ms lambda (size rows + 1 - n) rows in
  size out = (size rows + 1 - n)%N /\
  forall j, (j + n <= size rows)%N ->
    let win := valid_rows (take n (drop j rows)) in
    if (ms <= size win)%N
    then exists w, nth None out j = Some (Some w) /\ unique_min (ridge_err everything lambda win) w
    else nth None out j = None.
Proof.
move=> Hl Hn; elim: rows => [|r rows IH] Hs HA HB; first by move: (leq_trans Hn Hs).
set rs := r :: rows in HA HB Hs *.
have -> : (size rs + 1 - n = (size rs - n).+1)%N by rewrite addn1 subSn.
have -> : skipping_init F n ms lambda (size rs - n).+1 rs =
  (if (ms <= size (valid_rows (take n rs)))%N then
     Some (coeffs_of (Some (faer_qr_lstsq_with_inv F (valid_rows (take n rs)) lambda false)))
       :: skipping_loop ms (Some (faer_qr_lstsq_with_inv F (valid_rows (take n rs)) lambda false))
            (size (valid_rows (take n rs))) rs (drop n rs)
   else None :: skipping_init F n ms lambda (size rs - n) rows) by [].
case: ifP => [Hm|Hm].
- have U0 : good lambda (valid_rows (take n rs)) by have := HA 0%N Hs; rewrite drop0; apply.
  have H0 := fit_good Hl U0.
  have [S1 S2] := skipping_loop_ok Hl ms Hn H0 HB.
  move=> out; split; first by rewrite /out /= S1.
  case=> [_|j Hj]; rewrite /out.
    rewrite drop0 /= Hm; eexists; split; first by []. exact: (fitted_min Hl H0).
  by rewrite addSn in Hj; apply: S2.
- have [E|Hlt] := eqVneq n (size rs).
    have -> : (size rs - n = 0)%N by rewrite E subnn.
    move=> out; split=> //; case=> [_|j]; first by cbv zeta; rewrite drop0 Hm.
    by rewrite E addSn ltnNge leq_addl.
  have Hs' : (n <= size rows)%N by move: Hs; rewrite leq_eqVlt (negbTE Hlt) /= ltnS.
  have [|| S1 S2] := IH Hs'.
  + by move=> j Hj; apply: (HA j.+1).
  + by move=> i Hi; apply: (HB i.+1).
  have Esz : (size rs - n = size rows + 1 - n)%N by rewrite addn1.
  rewrite Esz; move=> out; split; first by rewrite /out /= S1.
  case=> [_|j Hj]; rewrite /out; first by cbv zeta; rewrite drop0 Hm.
  by rewrite addSn ltnS in Hj; apply: S2.
Qed.

Variable p : nat.
Variable b : bool.

Lemma series_window pol (rows : seq (lrow R p)) : (0 < size rows)%N -> accepts pol rows -> (p <= size rows)%N ->
  exists df mask, [/\ series_to_mat rows b (window_policy pol) = Ok (df, mask),
    map (@num_row R (p + b)) df = map (fun r => omap (@biased R p b) (used pol r)) rows &
    has negb mask = ~~ all (fun r => isSome (used pol r)) rows /\
    (has negb mask -> match window_policy pol with SKIP_WINDOW | FILL_WINDOW _ => true | _ => false end)].
Proof.
move=> Hne Hacc Hp; rewrite /series_to_mat has_null_complete.
have -> : (size rows == 0)%N = false by move: Hne; case: (rows).
have Hszb : (size (map (bias_row b) rows) < p)%N = false by rewrite size_map ltnNge Hp.
have Hszf : forall x, (size (map (fill_row x) (map (bias_row b) rows)) < p)%N = false.
  by move=> x; rewrite !size_map ltnNge Hp.
case N: (no_null rows) => /=.
  rewrite Hszb; exists (map (bias_row b) rows), [:: true]; split=> //.
    have E := no_null_used pol N.
    rewrite (map_comp (omap (@biased R p b)) (used pol)) E -!map_comp.
    by apply: eq_map => r /=; rewrite num_row_bias.
  split=> //=; rewrite (@sub_all _ (fun r => isSome (complete_row r))) // => r /=.
  by case E: (complete_row r) => [v|] //; rewrite (complete_used pol E).
case: pol Hacc => [||||x|x] //=; rewrite ?N // => _.
  rewrite Hszb; exists (map (bias_row b) rows), [:: false]; split=> //.
    by rewrite -map_comp; apply: eq_map => r /=; rewrite num_row_bias.
  by move: N; rewrite /no_null /= => ->.
have Hfill : [seq num_row i | i <- [seq fill_row x i | i <- [seq bias_row b i | i <- rows]]]
  = [seq omap (@biased R p b) (filled_row x r) | r <- rows].
  by rewrite -!map_comp; apply: eq_map => r /=; rewrite num_row_fill.
have Hy : all (fun r => isSome (filled_row x r)) rows = ~~ has (fun r => is_null (tgt r)) rows.
  by rewrite -all_predC; apply: eq_all => r /=; rewrite filled_isSome.
case Y: (has (fun r => is_null (tgt r)) rows); rewrite Hszf; do 2!eexists; (split; [by []|by []|]); by rewrite Hy Y.
Qed.

Lemma valid_used pol (rows : seq (lrow R p)) i j :
  valid_rows (take i (drop j (map (fun r => omap (@biased R p b) (used pol r)) rows)))
  = design b (used_rows pol (take i (drop j rows))).
Proof.
rewrite -map_drop -map_take /used_rows; move: (take i (drop j rows)) => l {rows}.
elim: l => //= r l IH; case: (used pol r) => [v|] //=.
by rewrite IH.
Qed.

Theorem rolling_ok pol n ms lambda (rows : seq (lrow R p)) r0 :
  accepts pol rows -> (0 < n)%N -> (n <= size rows)%N -> (p <= size rows)%N -> 0 <= lambda ->
  (forall j, (j + n <= size rows)%N ->
     all (fun r => isSome (used pol r)) rows || (ms <= size (used_rows pol (take n (drop j rows))))%N ->
     identifiable everything lambda (map fst (design b (used_rows pol (take n (drop j rows)))))) ->
  (forall j, (j + n < size rows)%N ->
     identifiable everything lambda (map fst (design b (used_rows pol (take n.-1 (drop j.+1 rows)))))) ->
  exists out, [/\ pl_rolling_lstsq F n ms b lambda pol rows = Ok out, size out = size rows &
    forall i, (i < size rows)%N ->
      if (n <= i.+1)%N &&
         (all (fun r => isSome (used pol r)) rows || (ms <= size (window pol rows n i))%N) then
        exists w, nth None out i =
             Some (Some w, if used pol (nth r0 rows i) is Some (x, _) then Some (predict (features b x) w) else None) /\
          unique_min (ridge_err everything lambda (design b (window pol rows n i))) w
      else nth None out i = None].
Proof.
move=> Hacc Hn Hs Hp Hl HA HB.
have Hne : (0 < size rows)%N by apply: leq_trans Hs.
have [df [mask [E1 E2 [E3 E4]]]] := series_window Hne Hacc Hp.
rewrite /pl_rolling_lstsq E1 E2.
set xs := map (fun r => omap (@biased R p b) (used pol r)) rows.
have Sx : size xs = size rows by rewrite size_map.
have Hsk : (match window_policy pol with SKIP_WINDOW | FILL_WINDOW _ => has negb mask | _ => false end) = has negb mask.
  by case: (has negb mask) E4 => [/(_ isT)|_]; case: (window_policy pol).
rewrite Hsk {Hsk} E3.
have HB' : forall i, (i + n < size xs)%N -> good lambda (valid_rows (take n.-1 (drop i.+1 xs))).
  by move=> i; rewrite Sx => Hi; rewrite valid_used; apply: ident_unit => //; apply: HB.
have Hdr : size (drop (n - 1) xs) = (size rows + 1 - n)%N.
  by rewrite size_drop Sx subnBA // addn1.
have HX : forall i, (i < size rows)%N -> nth None xs i = omap (@biased R p b) (used pol (nth r0 rows i)).
  by move=> i Hi; rewrite /xs (nth_map r0).
have Hq : forall i, (n <= i.+1)%N -> ((i - (n - 1)) = (i.+1 - n))%N by move=> i Hi; rewrite subnBA // addn1.
case Hall: (all _ rows) => /=.
- (* plain rolling *)
  rewrite /faer_rolling_lstsq Sx ltnNge Hs /=.
  have U0 : good lambda (valid_rows (take n xs)).
    rewrite -[xs]drop0 valid_used; apply: ident_unit => //; apply: HA; by rewrite ?Hall.
  have Hxs : xs = map Some (valid_rows xs).
    rewrite /xs; elim: (rows) Hall => //= r l IH /andP[]; case: (used pol r) => //= v _ /IH H.
    by congr cons.
  have Efit : fit_rows F (take n xs) lambda false = Some (faer_qr_lstsq_with_inv F (valid_rows (take n xs)) lambda false).
    have Ht : take n xs = map Some (take n (valid_rows xs)) by rewrite {1}Hxs map_take.
    by rewrite /fit_rows Ht all_some_map valid_some.
  rewrite Efit.
  have H0 := fit_good Hl U0.
  have [S1 S2] := rolling_loop_ok Hl Hn H0 HB'.
  eexists; split; first by [].
  + rewrite size_cat size_nseq size_map size_zip Hdr /= S1 Sx -subSn // addn1 minnn -{2}(ltn_predK Hn) subSS subn1 subnKC //.
    by rewrite (leq_trans (leq_pred n)).
  move=> i Hi; rewrite nth_cat size_nseq nth_nseq andbT.
  case: (leqP n i.+1) => Hni; last first.
    have -> : (i < n - 1)%N by rewrite subn1 -ltnS (ltn_predK Hn).
    by [].
  have -> : (i < n - 1)%N = false by apply/negbTE; rewrite -leqNgt leq_subLR add1n.
  rewrite Hq //; set q := (i.+1 - n)%N.
  have Hqn : (q + n = i.+1)%N by rewrite subnK.
  have Hq1 : (q < size (drop (n - 1) xs))%N by rewrite Hdr addn1 subSn // ltnS /q leq_sub2r.
  have Hq2 : (q < size (coeffs_of (Some (faer_qr_lstsq_with_inv F (valid_rows (take n xs)) lambda false))
        :: rolling_loop (Some (faer_qr_lstsq_with_inv F (valid_rows (take n xs)) lambda false)) xs (drop n xs)))%N.
    by rewrite /= S1 Sx ltnS /q leq_sub2r.
  rewrite (nth_map (None, None)); last by rewrite size_zip leq_min Hq1 Hq2.
  rewrite nth_zip_cond size_zip leq_min Hq1 Hq2 [fst _]/= [snd _]/=.
  rewrite nth_drop; have -> : (n - 1 + q = i)%N by rewrite subn1; apply/eqP; rewrite -eqSS -addSn (ltn_predK Hn) addnC Hqn.
  rewrite HX //.
  have [w [W1 W2]] : exists w,
     nth None (coeffs_of (Some (faer_qr_lstsq_with_inv F (valid_rows (take n xs)) lambda false))
        :: rolling_loop (Some (faer_qr_lstsq_with_inv F (valid_rows (take n xs)) lambda false)) xs (drop n xs)) q = Some w /\
     unique_min (ridge_err everything lambda (design b (window pol rows n i))) w.
    rewrite /window -/q -valid_used -/xs; move: Hqn {Hq1 Hq2}; case: (q) => [|q'] Hqn.
      by rewrite drop0; eexists; split; [by []|exact: (fitted_min Hl H0)].
    by apply: S2; rewrite Sx -addSn Hqn.
  rewrite W1; exists w; split=> //; rewrite /out_row.
  by case: (used pol _) => [[x y]|] //=; rewrite predictE.
- (* skipping *)
  rewrite /faer_rolling_skipping_lstsq Sx ltnNge (leq_trans Hs) ?leq_addr //=.
  have HA' : forall j, (j + n <= size xs)%N -> (ms <= size (valid_rows (take n (drop j xs))))%N ->
     good lambda (valid_rows (take n (drop j xs))).
    move=> j; rewrite Sx valid_used => Hj; rewrite size_map => Hms; apply: ident_unit => //; apply: HA => //.
    by rewrite Hms orbT.
  have Hs' : (n <= size xs)%N by rewrite Sx.
  have [S1 S2] := skipping_init_ok Hl Hn Hs' HA' HB'.
  rewrite Sx in S1; rewrite Sx in S2.
  eexists; split; first by [].
  + rewrite size_cat size_nseq size_map size_zip Hdr S1 minnn addn1 -{2}(ltn_predK Hn) subSS subn1 subnKC //.
    by rewrite (leq_trans (leq_pred n)).
  move=> i Hi; rewrite nth_cat size_nseq nth_nseq.
  case: (leqP n i.+1) => Hni; last first.
    have -> : (i < n - 1)%N by rewrite subn1 -ltnS (ltn_predK Hn).
    by [].
  have -> : (i < n - 1)%N = false by apply/negbTE; rewrite -leqNgt leq_subLR add1n.
  rewrite Hq //=; set q := (i.+1 - n)%N.
  have Hqn : (q + n = i.+1)%N by rewrite subnK.
  have Hq1 : (q < size (drop (n - 1) xs))%N by rewrite Hdr addn1 subSn // ltnS /q leq_sub2r.
  have Hq2 : (q < size (skipping_init F n ms lambda (size rows + 1 - n) xs))%N by rewrite S1 -Hdr.
  rewrite (nth_map (None, None)); last by rewrite size_zip leq_min Hq1 Hq2.
  rewrite nth_zip_cond size_zip leq_min Hq1 Hq2 [fst _]/= [snd _]/=.
  rewrite nth_drop; have -> : (n - 1 + q = i)%N by rewrite subn1; apply/eqP; rewrite -eqSS -addSn (ltn_predK Hn) addnC Hqn.
  rewrite HX //.
  have Hqr : (q + n <= size rows)%N by rewrite Hqn.
  have := S2 q Hqr; rewrite /window -/q valid_used size_map.
  case: (ms <= _)%N => [[w [W1 W2]]|->] //.
  rewrite W1; exists w; split=> //; rewrite /out_row.
  by case: (used pol _) => [[x y]|] //=; rewrite predictE.
Qed.
End Rolling.
