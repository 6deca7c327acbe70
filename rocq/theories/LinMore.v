(** Consequences: ridge needs no rank assumption, singular inner windows, the row used by the
    recursive predictions. *)
From mathcomp Require Import all_ssreflect all_algebra.
From Verif Require Import LinModel LinSpec LinCore LinProofs LinOnline LinExprSpec LinExpr LinExpr2 LinRolling LinHist LinCd.
Set Implicit Arguments.
Unset Strict Implicit.
Import Order.TTheory GRing.Theory Num.Theory.
Local Open Scope ring_scope.

Lemma lt_bool (b : bool) (a c : nat) : (a < b)%N -> (c < b)%N -> a = c.
Proof. by case: b => //; rewrite !ltnS !leqn0 => /eqP -> /eqP ->. Qed.

Section More.
Variable R : realFieldType.

Lemma unique_min_eq m (L : 'cV[R]_m -> R) w v : unique_min L w -> L v <= L w -> v = w.
Proof. by move=> H; apply: contraTeq => /H; rewrite ltNge. Qed.

Lemma unique_min2 m (L : 'cV[R]_m -> R) w v : unique_min L w -> unique_min L v -> v = w.
Proof.
move=> Hw Hv; apply/eqP; apply: contraT => H.
by have := lt_trans (Hw _ H) (Hv w _); rewrite ltxx eq_sym => /(_ H).
Qed.

Lemma ident_ridge m lambda (xs : seq 'rV[R]_m) : 0 < lambda -> identifiable everything lambda xs.
Proof.
move=> Hl h _ H; apply/matrixP => i j; rewrite (ord1 j) mxE; apply: H => //; by rewrite gt_eqF.
Qed.

Lemma predict_features p (b : bool) (x : 'rV[R]_p) (h : 'cV[R]_(p + b)) :
  predict (features b x) h = predict x (usubmx h) + \sum_(k < b) h (rshift p k) 0.
Proof.
rewrite /predict big_split_ord /=; congr (_ + _); apply: eq_bigr => k _.
  by rewrite row_mxEl !mxE.
by rewrite row_mxEr mxE mul1r.
Qed.

Lemma ident_ridge_bias p (b : bool) lambda (d : seq ('rV[R]_p * R)) : 0 < lambda -> (0 < size d)%N ->
  identifiable (not_bias b) lambda (map fst (design b d)).
Proof.
move=> Hl Hs h H1 H2; apply/matrixP => i j; rewrite (ord1 j) [RHS]mxE {j}.
have Hpen (j : 'I_(p + b)) : (j < p)%N -> h j 0 = 0 by move=> Hj; apply: H2; rewrite ?gt_eqF.
have [Hi|Hi] := ltnP i p; first exact: Hpen.
case: d Hs H1 => [//|r d] _ H1.
have := H1 (features b r.1); rewrite mem_head => /(_ isT); rewrite predict_features.
have -> : predict r.1 (usubmx h) = 0.
  by rewrite /predict big1 // => k _; rewrite mxE Hpen ?mulr0 //= ltn_ord.
rewrite add0r.
have Hlt : (i - p < b)%N by rewrite ltn_subLR.
have Ei : i = rshift p (Ordinal Hlt) by apply: val_inj; rewrite /= subnKC.
rewrite (bigD1 (Ordinal Hlt)) //= big1 ?addr0; first by rewrite -Ei.
move=> k Hk; case/eqP: Hk; apply: val_inj => /=.
exact: (lt_bool (ltn_ord k) Hlt).
Qed.

(** Fewer rows than coefficients never determine them. *)
Lemma ident_size m pen (xs : seq 'rV[R]_m) : identifiable pen 0 xs -> (m <= size xs)%N.
Proof.
move=> H; rewrite leqNgt; apply/negP => Hs.
pose X : 'M[R]_(m, size xs) := \matrix_(i, k) (nth 0 xs k) 0 i.
have : kermx X != 0.
  rewrite -mxrank_eq0 mxrank_ker -lt0n subn_gt0; exact: leq_ltn_trans (rank_leq_col X) Hs.
case/rowV0Pn => v Hv Hv0; case/eqP: Hv0.
have : v^T = 0; last by move=> E; rewrite -[v]trmxK E trmx0.
apply: H; last by rewrite eqxx.
move=> x Hx; rewrite predictE.
have E0 : v *m X = 0 by apply/sub_kermxP.
have Hix : (index x xs < size xs)%N by rewrite index_mem.
have := congr1 (fun M : 'M_(_, _) => M 0 (Ordinal Hix)) E0; rewrite /= !mxE => {2}<-.
by apply: eq_bigr => k _; rewrite !mxE /= nth_index // mulrC.
Qed.

(** *** Removing a row that is needed *)
Section Poison.
Variables (m : nat) (pen : pred 'I_m) (lambda : R).
Hypothesis Hl : 0 <= lambda.

Lemma step_rem_none (d e : data R m) st x y : perm_eq e ((x, y) :: d) -> fitted pen lambda e st ->
  ~~ (amat pen lambda (ones d) \in unitmx) -> woodbury_step st x y (-1) = None.
Proof.
move=> Hp [U [Hst _]] Hd.
have [EA _] := good_perm pen lambda Hp.
rewrite /woodbury_step Hst.
set A := amat pen lambda (ones e) in U EA *.
have EB : amat pen lambda (ones d) = A - x^T *m x.
  rewrite EA /amat /gram /= big_cons /= scale1r.
  by set X := x^T *m x; set S := \sum_(_ <- _) _; rewrite -[X + S + _]addrA [X + _]addrC addrK.
move: Hd; rewrite EB unitmxE unitfE negbK => /det0P [v Hv0 Hv].
have Ev : v *m A = (v *m x^T) *m x.
  by move: Hv; rewrite mulmxBr mulmxA => /eqP; rewrite subr_eq0 => /eqP.
set t := v *m x^T in Ev.
have Evx : v = t *m (x *m invmx A) by rewrite mulmxA -Ev -mulmxA mulmxV // mulmx1.
have Ht : t 0 0 != 0.
  apply: contraNneq Hv0 => E0; rewrite Evx.
  by have -> : t = 0; [apply/matrixP => i j; rewrite !ord1 E0 mxE|rewrite mul0mx].
have : t 0 0 = t 0 0 * (x *m (invmx A *m x^T)) 0 0.
  have H : t = t *m (x *m (invmx A *m x^T)) by rewrite {1}/t {1}Evx -!mulmxA.
  by rewrite {1}H [LHS]mxE big_ord1.
move=> /(congr1 (fun z => z / t 0 0)); rewrite mulrAC divff // mul1r => <-.
by rewrite addNr eqxx.
Qed.

Lemma rolling_loop_none (l rest : seq (nrow R m)) : (size rest <= size l)%N ->
  rolling_loop None l rest = nseq (size rest) None.
Proof.
elim: rest l => [|r rest IH] [|o l] //= H.
have E o' c : update (None : option (online R m)) o' c = None by case: o' => [[]|].
by rewrite !E /= IH.
Qed.

Lemma rolling_loop_nan n (l : seq (nrow R m)) st k : (0 < n)%N ->
  (if st is Some s then fitted pen lambda (valid_rows (take n l)) s else True) ->
  (k + n < size l)%N -> ~~ (amat pen lambda (ones (valid_rows (take n.-1 (drop k.+1 l)))) \in unitmx) ->
  forall i, (k <= i)%N -> (i + n < size l)%N -> nth (Some 0) (rolling_loop st l (drop n l)) i = None.
Proof.
move=> Hn; elim: k l st => [|k IH] l st Hst Hk Hg i Hi Hs.
  have Hx : (0 < size l)%N by apply: leq_ltn_trans Hs.
  case: l Hst Hk Hg Hs Hx => [//|o l] Hst Hk Hg Hs _.
  have Edr : drop n (o :: l) = drop n.-1 l by rewrite -{1}(ltn_predK Hn).
  have Etk : take n (o :: l) = o :: take n.-1 l by rewrite -{1}(ltn_predK Hn).
  rewrite Edr; rewrite Etk in Hst; rewrite /= drop0 in Hg.
  have Hupd : update st o (-1) = None.
    case: st Hst => [s|] Hst; last by case: (o) => [[]|].
    case: o Hst {Hs Hk Edr Etk} => [[x y]|] Hst.
      exact: (step_rem_none (perm_refl _) Hst Hg).
    by case: Hst => U _; move: Hg; rewrite U.
  have Hsz : (n.-1 < size l)%N by move: Hk; rewrite add0n /= -{1}(ltn_predK Hn) ltnS.
  rewrite (drop_nth None Hsz) /= Hupd.
  have E r c : update (None : option (online R m)) r c = None by case: r => [[]|].
  rewrite E rolling_loop_none; last by rewrite size_drop leq_subr.
  by case: i Hi Hs => [//|i] _ Hs /=; rewrite nth_nseq size_drop; case: ifP => //; rewrite ltn_subRL addnC;
     move: Hs; rewrite /= ltnS -{1}(ltn_predK Hn) addSn addnS => ->.
case: l Hst Hk Hg Hs => [//|o l] Hst Hk Hg Hs.
have Edr : drop n (o :: l) = drop n.-1 l by rewrite -{1}(ltn_predK Hn).
have Etk : take n (o :: l) = o :: take n.-1 l by rewrite -{1}(ltn_predK Hn).
have Hk' : (k + n < size l)%N by move: Hk; rewrite /= addSn ltnS.
have Hsz : (n.-1 < size l)%N by rewrite (leq_trans _ Hk') // ltnS (leq_trans (leq_pred n)) // leq_addl.
rewrite Edr (drop_nth None Hsz) /=.
case: i Hi Hs => [//|i] Hi Hs /=.
rewrite (ltn_predK Hn); apply: IH => //.
set r := nth None l n.-1.
have Etn : take n l = rcons (take n.-1 l) r by rewrite -{1}(ltn_predK Hn) (take_nth None Hsz).
rewrite Etk in Hst.
case: st Hst => [s|] Hst; last by case: (o) => [[]|]; case: (r) => [[]|].
have [Ug|Ug] := boolP (amat pen lambda (ones (valid_rows (take n.-1 l))) \in unitmx).
  have [s1 [-> H1]] := upd_rem Hst Ug.
  have [s2 [-> H2]] := upd_add Hl r H1.
  by rewrite Etn.
have -> : update (Some s) o (-1) = None.
  case: o Hst {Hs Hk Edr Etk Hg} => [[x y]|] Hst; first exact: (step_rem_none (perm_refl _) Hst Ug).
  by case: Hst => U _; move: Ug; rewrite U.
by case: (r) => [[]|].
Qed.
End Poison.
End More.

Section MoreExpr.
Variable R : realFieldType.
Variable F : faer R.
Hypothesis HF : faer_ok F.
Variable p : nat.

Lemma not_ident_unit m pen lambda (d : data R m) : 0 <= lambda ->
  ~ identifiable pen lambda (map fst d) -> ~~ (amat pen lambda (ones d) \in unitmx).
Proof. by move=> Hl H; apply/negP => U; apply: H; apply: unit_ident. Qed.

Lemma rolling_poison pol n ms b lambda (rows : seq (lrow R p)) k :
  accepts pol rows -> (0 < n)%N -> (n <= size rows)%N -> (p <= size rows)%N -> 0 <= lambda ->
  all (fun r => isSome (used pol r)) rows ->
  identifiable everything lambda (map fst (design b (used_rows pol (take n rows)))) ->
  (k + n < size rows)%N ->
  ~ identifiable everything lambda (map fst (design b (used_rows pol (take n.-1 (drop k.+1 rows))))) ->
  exists out, [/\ pl_rolling_lstsq F n ms b lambda pol rows = Ok out, size out = size rows &
    forall i, (k + n <= i)%N -> (i < size rows)%N -> nth None out i = Some (None, None)].
Proof.
move=> Hacc Hn Hs Hp Hl Hall HA Hk HB.
have Hne : (0 < size rows)%N by apply: leq_trans Hs.
have [df [mask [E1 E2 [E3 E4]]]] := series_window b Hne Hacc Hp.
rewrite /pl_rolling_lstsq E1 E2.
set xs := map (fun r => omap (@biased R p b) (used pol r)) rows.
have Sx : size xs = size rows by rewrite size_map.
have Hsk : (match window_policy pol with SKIP_WINDOW | FILL_WINDOW _ => has negb mask | _ => false end) = false.
  by rewrite E3 Hall; case: (window_policy pol).
rewrite Hsk {Hsk}.
have Hdr : size (drop (n - 1) xs) = (size rows + 1 - n)%N.
  by rewrite size_drop Sx subnBA // addn1.
rewrite /faer_rolling_lstsq Sx ltnNge Hs /=.
have U0 : amat everything lambda (ones (valid_rows (take n xs))) \in unitmx.
  by rewrite -[xs]drop0 valid_used drop0; apply: ident_unit.
have Hxs : xs = map Some (valid_rows xs).
  rewrite /xs; elim: (rows) Hall => //= r l IH /andP[]; case: (used pol r) => //= v _ /IH H.
  by congr cons.
have Efit : fit_rows F (take n xs) lambda false = Some (faer_qr_lstsq_with_inv F (valid_rows (take n xs)) lambda false).
  have Ht : take n xs = map Some (take n (valid_rows xs)) by rewrite {1}Hxs map_take.
  by rewrite /fit_rows Ht all_some_map valid_some.
rewrite Efit.
have H0 := fit_good HF Hl U0.
set st := faer_qr_lstsq_with_inv F _ lambda false in H0 *.
have HBk : ~~ (amat everything lambda (ones (valid_rows (take n.-1 (drop k.+1 xs)))) \in unitmx).
  by rewrite valid_used; apply: not_ident_unit.
have Hkx : (k + n < size xs)%N by rewrite Sx.
have Hnan := @rolling_loop_nan R (p + b) everything lambda Hl n xs (Some st) k Hn H0 Hkx HBk.
have Srl : forall s (l rest : seq (nrow R (p + b))), (size rest <= size l)%N -> size (rolling_loop s l rest) = size rest.
  by move=> s l rest; elim: rest l s => [|r rest IH] [|o l] s //= H; rewrite IH.
have S1 : size (rolling_loop (Some st) xs (drop n xs)) = (size rows - n)%N.
  by rewrite Srl ?size_drop ?leq_subr // Sx.
eexists; split; first by [].
  rewrite size_cat size_nseq size_map size_zip Hdr /= S1 -subSn // addn1 minnn -{2}(ltn_predK Hn) subSS subn1 subnKC //.
  by rewrite (leq_trans (leq_pred n)).
move=> i Hki Hi; rewrite nth_cat size_nseq.
have Hni : (n <= i)%N by apply: leq_trans Hki; rewrite leq_addl.
have -> : (i < n - 1)%N = false by apply/negbTE; rewrite -leqNgt leq_subLR add1n; apply: leqW.
have -> : (i - (n - 1) = (i - n).+1)%N by rewrite subnBA // addn1 subSn.
set q := (i - n)%N.
have Hqn : (q + n = i)%N by rewrite subnK.
have Hkq : (k <= q)%N by rewrite leq_subRL // addnC.
have Hq1 : (q.+1 < size (drop (n - 1) xs))%N by rewrite Hdr addn1 subSn // ltnS /q ltn_sub2r //; apply: leq_ltn_trans Hi.
have Hq2 : (q.+1 < size (coeffs_of (Some st) :: rolling_loop (Some st) xs (drop n xs)))%N.
  by rewrite /= S1 ltnS /q ltn_sub2r //; apply: leq_ltn_trans Hi.
rewrite (nth_map (None, None)); last by rewrite size_zip leq_min Hq1 Hq2.
rewrite nth_zip_cond size_zip leq_min Hq1 Hq2 [fst _]/= [snd _]/=.
rewrite (set_nth_default (Some 0)) //= Hnan //; last by rewrite Hqn Sx.
Qed.

(** With as many coefficients as rows in the window, nothing is right after the first window. *)
Lemma rolling_square pol n ms (b : bool) (rows : seq (lrow R p)) :
  accepts pol rows -> (0 < n)%N -> (n <= size rows)%N -> (p <= size rows)%N -> (n <= p + b)%N ->
  all (fun r => isSome (used pol r)) rows ->
  identifiable everything 0 (map fst (design b (used_rows pol (take n rows)))) ->
  exists out, [/\ pl_rolling_lstsq F n ms b 0 pol rows = Ok out, size out = size rows &
    forall i, (n <= i)%N -> (i < size rows)%N -> nth None out i = Some (None, None)].
Proof.
move=> Hacc Hn Hs Hp Hnp Hall HA.
have [Hlt|Hge] := ltnP n (size rows); last first.
  have [r0 _] : exists r0 : lrow R p, True by case: (rows) Hn Hs => [|r ? _ _]; [case: (n)|exists r].
  have [||out [O1 O2 O3]] := @rolling_ok R F HF p b pol n ms 0 rows r0 Hacc Hn Hs Hp (lexx _).
  - move=> j Hj _; have -> : j = 0%N by apply/eqP; rewrite -leqn0 -(leq_add2r n) (leq_trans Hj).
    by rewrite drop0.
  - by move=> j Hj; move: (leq_trans Hj Hge); rewrite ltnNge leq_addl.
  by exists out; split=> // i H1 H2; move: (leq_trans H2 (leq_trans Hge H1)); rewrite ltnn.
apply: (@rolling_poison pol n ms b 0 rows 0) => //.
move=> /ident_size; rewrite !size_map => H.
have H2 := leq_trans Hnp H.
have H3 : (size (used_rows pol (take n.-1 (drop 1 rows))) <= n.-1)%N.
  by rewrite size_pmap (leq_trans (count_size _ _)) // size_take; case: ltnP.
by move: (leq_trans H2 H3); rewrite -{1}(ltn_predK Hn) ltnn.
Qed.

(** The recursive prediction when no row is skipped or start_with = 1. *)
Lemma recursive_own pol n b lambda (rows : seq (lrow R p)) r0 :
  (0 < size rows)%N -> accepts pol rows -> (0 < n)%N -> 0 <= lambda ->
  (p <= size (used_rows pol rows))%N -> (n <= size (used_rows pol rows))%N ->
  identifiable everything lambda (map fst (design b (take n (used_rows pol rows)))) ->
  n = 1%N \/ all (fun r => isSome (used pol r)) rows ->
  exists out, [/\ pl_recursive_lstsq F n b lambda pol rows = Ok out, size out = size rows &
    forall i, (i < size rows)%N ->
      nth None out i = None \/
      exists w x y, [/\ used pol (nth r0 rows i) = Some (x, y),
        unique_min (ridge_err everything lambda (design b (seen pol rows i))) w &
        nth None out i = Some (Some w, Some (predict (features b x) w))]].
Proof.
move=> Hne Hacc Hn Hl Hp Hs Hi Hc.
have [out [O1 O2 O3]] := recursive_ok HF r0 Hne Hacc Hn Hl Hp Hs Hi.
exists out; split=> // i Hir; have := O3 i Hir; cbv zeta.
case Eu: (used pol (nth r0 rows i)) => [[x y]|] /=; last by left.
case: ifP => Hseen; last by left.
move=> [w [pr [H1 H2 H3]]]; right; exists w, x, y; split=> //.
rewrite H1 (H3 x y) //; case: ifP => Hall //.
case: Hc => [N1|]; last by rewrite Hall.
congr (Some (_, Some (predict (features b _) _))).
have SM : size (map (fun r => isSome (used pol r)) rows) = size rows by rewrite size_map.
have -> : (size (seen pol rows i) - n)%N = count id (take i (map (fun r => isSome (used pol r)) rows)).
  rewrite /seen size_used map_take count_take_lt ?SM ?N1 ?subn1 //.
  by rewrite (nth_isSome pol r0 Hir) Eu.
by rewrite (used_rows_nth (0, 0) Hir Eu).
Qed.
End MoreExpr.

Section Elastic.
Variable R : realFieldType.
Variable F : faer R.
Variable p : nat.

Lemma elastic_pl (a : lr_args R) (rows : seq (lrow R p)) :
  (0 < size rows)%N -> accepts (a_policy a) rows -> (p <= size (used_rows (a_policy a) rows))%N ->
  a_weights a = None -> 0 < a_l1 a ->
  let d := design (a_bias a) (used_rows (a_policy a) rows) in
  pl_lstsq F a rows =
    Ok (faer_coordinate_descent (Xmat d) (Ymat d) (a_l1 a) (a_l2 a) (a_bias a) (a_tol a) 2000).
Proof.
move=> Hne Hacc Hp Hw Hl1 d.
have [df [mask [E1 E2 _]]] := series_ok (a_bias a) Hne Hacc Hp.
rewrite /pl_lstsq E1 /coeffs_rows Hw E2 all_some_map.
have -> : method_of (a_l1 a) (a_l2 a) = if a_l2 a <= 0 then L1 else ElasticNet.
  by rewrite /method_of Hl1 [a_l1 a <= 0]leNgt Hl1 /=; case: ltP.
by case: ifP.
Qed.

Lemma elastic_converges (a : lr_args R) (rows : seq (lrow R p)) c :
  let used := used_rows (a_policy a) rows in
  let d := design (a_bias a) used in
  let E := elastic_err (not_bias (a_bias a)) (a_l1 a) (a_l2 a) d in
  (0 < size used)%N -> accepts (a_policy a) rows -> (p <= size used)%N ->
  a_weights a = None -> 0 < a_l1 a -> 0 <= a_l2 a -> 0 < a_tol a -> (a_bias a -> centred used) ->
  0 < c ->
  (forall j : 'I_(p + a_bias a), (j < p)%N -> c <= \sum_(r <- d) (r.1 0 j) ^+ 2 + (size used)%:R * a_l2 a) ->
  \sum_(r <- used) r.2 ^+ 2 < 2000%:R * (c * a_tol a ^+ 2) ->
  exists w, pl_lstsq F a rows = Ok (Some w) /\
    forall v, E w <= E v + 2%:R * a_tol a * \sum_(j < p + a_bias a | not_bias (a_bias a) j)
                             coupling d (not_bias (a_bias a)) j * `|v j 0 - w j 0|.
Proof.
move=> us d E Hs Hacc Hp Hw Hl1 Hl2 Htol Hcen Hc Hcol HE.
have Hne : (0 < size rows)%N by apply: leq_trans Hs _; rewrite size_pmap count_size.
have [|w [W1 W2]] := @loop_converges R p (a_bias a) us (a_l1 a) (a_l2 a) (ltW Hl1) Hl2 Hs (a_tol a) 2000 c 0 Htol Hc Hcen Hcol.
  suff -> : elastic_err (not_bias (a_bias a)) (a_l1 a) (a_l2 a) (design (a_bias a) us) 0 = \sum_(r <- us) r.2 ^+ 2 by [].
  have Z (j : 'I_(p + a_bias a)) : (0 : 'cV[R]_(p + a_bias a)) j 0 = 0 by rewrite mxE.
  rewrite /elastic_err /sq_err.
  have -> : \sum_(j < p + a_bias a | not_bias (a_bias a) j) `|(0 : 'cV[R]_(p + a_bias a)) j 0| = (0 : R).
    by apply: big1 => j _; rewrite Z normr0.
  have -> : \sum_(j < p + a_bias a | not_bias (a_bias a) j) ((0 : 'cV[R]_(p + a_bias a)) j 0) ^+ 2 = (0 : R).
    by apply: big1 => j _; rewrite Z expr0n.
  rewrite !mulr0 addr0 mulr0 addr0 big_map.
  apply: eq_bigr => r _ /=; rewrite /predict big1 ?subr0 // => j _; by rewrite Z mulr0.
exists w; split; first by rewrite (elastic_pl Hne Hacc Hp Hw Hl1) -/us -/d; congr Ok; apply: W1.
move=> v; have := W2 v; rewrite -/d -/E.
suff -> : (\sum_(j < p + a_bias a | not_bias (a_bias a) j) a_tol a * coupling d (not_bias (a_bias a)) j * `|v j 0 - w j 0|) *+ 2
  = 2%:R * a_tol a * \sum_(j < p + a_bias a | not_bias (a_bias a) j) coupling d (not_bias (a_bias a)) j * `|v j 0 - w j 0| by [].
by rewrite -mulrA mulr_sumr mulr_natl; congr (_ *+ 2); apply: eq_bigr => j _; rewrite mulrA.
Qed.

Lemma elastic_stops (a : lr_args R) (rows : seq (lrow R p)) :
  let used := used_rows (a_policy a) rows in
  let d := design (a_bias a) used in
  (0 < size used)%N -> accepts (a_policy a) rows -> (p <= size used)%N ->
  a_weights a = None -> 0 < a_l1 a -> 0 <= a_l2 a -> 0 < a_tol a ->
  (forall j : 'I_(p + a_bias a), (j < p)%N -> 0 < \sum_(r <- d) (r.1 0 j) ^+ 2 + (size used)%:R * a_l2 a) ->
  (forall j : 'I_(p + a_bias a), (j < p)%N -> `| \sum_(r <- d) r.2 * r.1 0 j | <= (size used)%:R * a_l1 a) ->
  pl_lstsq F a rows =
    Ok (Some (\col_j if (j < p)%N then 0 else (\sum_(r <- used) r.2) / (size used)%:R)).
Proof.
move=> us d Hs Hacc Hp Hw Hl1 Hl2 Htol H1 H2.
have Hne : (0 < size rows)%N by apply: leq_trans Hs _; rewrite size_pmap count_size.
rewrite (elastic_pl Hne Hacc Hp Hw Hl1) -/us -/d; congr Ok.
apply: (@loop_zero R p (a_bias a) us (a_l1 a) (a_l2 a) (a_tol a) 1999 Htol) => // j Hj.
by rewrite /curv Hj size_map; apply: H1.
Qed.
End Elastic.
