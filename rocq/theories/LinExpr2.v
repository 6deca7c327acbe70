(** The regression expressions: closed form, recursive and rolling. *)
From mathcomp Require Import all_ssreflect all_algebra.
From Verif Require Import LinModel LinSpec LinCore LinProofs LinOnline LinExprSpec LinExpr.
Set Implicit Arguments.
Unset Strict Implicit.
Import Order.TTheory GRing.Theory Num.Theory.
Local Open Scope ring_scope.

Arguments recursive_loop_ok {R m pen lambda} Hl {rest done st}.
Arguments rolling_loop_ok {R m pen lambda} Hl {n l st}.
Arguments skipping_loop_ok {R m pen lambda} Hl {n} ms {l st}.
Arguments series_ok {R p} b {pol rows}.

Section Expr.
Variable R : realFieldType.
Variable F : faer R.
Hypothesis HF : faer_ok F.
Variable p : nat.

(** *** Closed form *)
Lemma lstsq_ok (a : lr_args R) (rows : seq (lrow R p)) :
  (0 < size rows)%N -> accepts (a_policy a) rows -> (p <= size (used_rows (a_policy a) rows))%N ->
  a_weights a = None -> a_l1 a <= 0 ->
  let d := design (a_bias a) (used_rows (a_policy a) rows) in
  let l2 := Num.max 0 (a_l2 a) in
  identifiable (not_bias (a_bias a)) l2 (map fst d) ->
  exists w, pl_lstsq F a rows = Ok (Some w) /\ unique_min (ridge_err (not_bias (a_bias a)) l2 d) w.
Proof.
move=> Hne Hacc Hp Hw Hl1 d l2 Hi.
have [df [mask [E1 E2 _]]] := series_ok (a_bias a) Hne Hacc Hp.
rewrite /pl_lstsq E1 /coeffs_rows Hw E2 all_some_map.
have -> : (match method_of (a_l1 a) (a_l2 a) with
  | Normal | L2 => Some (faer_solve_lstsq F (Xmat d) (Ymat d) (a_l2 a) (a_bias a) (how_of (a_solver a)))
  | _ => faer_coordinate_descent (Xmat d) (Ymat d) (a_l1 a) (a_l2 a) (a_bias a) (a_tol a) 2000
  end) = Some (faer_solve_lstsq F (Xmat d) (Ymat d) (a_l2 a) (a_bias a) (how_of (a_solver a))).
  by rewrite /method_of [0 < a_l1 a]ltNge Hl1 /=; case: ifP.
eexists; split; first by [].
exact: solve_lstsq_min.
Qed.

Lemma lstsq_weighted_ok (a : lr_args R) (rows : seq (lrow R p)) w :
  (0 < size rows)%N -> accepts (a_policy a) rows -> (p <= size (used_rows (a_policy a) rows))%N ->
  a_weights a = Some w -> (forall o, o \in w -> 0 <= o) ->
  let d := design (a_bias a) (used_rows (a_policy a) rows) in
  size w = size d ->
  identifiable everything 0 [seq r.1.1 | r <- zip d w & 0 < r.2] ->
  exists c, pl_lstsq F a rows = Ok (Some c) /\ unique_min (weighted_err (zip d w)) c.
Proof.
move=> Hne Hacc Hp Hw Hn d Hs Hi.
have [df [mask [E1 E2 _]]] := series_ok (a_bias a) Hne Hacc Hp.
rewrite /pl_lstsq E1 /coeffs_rows Hw E2 all_some_map (size_num_ok E2) -/d Hs eqxx.
eexists; split; first by [].
exact: weighted_lstsq_min.
Qed.

Lemma raise_err (a : lr_args R) (rows : seq (lrow R p)) : a_policy a = RAISE R -> ~~ no_null rows ->
  pl_lstsq F a rows = Err /\ pl_lstsq_pred F a rows = Err.
Proof.
move=> Hp; rewrite -has_null_complete => H; rewrite /pl_lstsq /pl_lstsq_pred /series_to_mat Hp H.
by case: ifP.
Qed.

(** *** Predictions *)
Lemma spread_ok A B (f : A -> option B) (g : B -> option (R * R)) rows :
  spread (map (fun r => isSome (f r)) rows) (map g (pmap f rows))
  = Ok (map (fun r => if f r is Some v then g v else None) rows).
Proof. by elim: rows => //= r rows IH; case E: (f r) => [v|] /=; rewrite IH. Qed.

Lemma pred_ok (a : lr_args R) (rows : seq (lrow R p)) c :
  (0 < size rows)%N -> accepts (a_policy a) rows -> (p <= size (used_rows (a_policy a) rows))%N ->
  pl_lstsq F a rows = Ok (Some c) ->
  pl_lstsq_pred F a rows =
    Ok (map (fun r => if used (a_policy a) r is Some (x, y)
                      then let pr := predict (features (a_bias a) x) c in Some (pr, y - pr)
                      else None) rows).
Proof.
move=> Hne Hacc Hp.
have [df [mask [E1 E2 E3]]] := series_ok (a_bias a) Hne Hacc Hp.
rewrite /pl_lstsq_pred /pl_lstsq E1 => ->.
pose g (v : 'rV[R]_p * R) : option (R * R) := let pr := predict (features (a_bias a) v.1) c in Some (pr, v.2 - pr).
have Ep : [seq pred_of (Some c) (num_row r) | r <- df] = map g (used_rows (a_policy a) rows).
  rewrite (map_comp (pred_of (Some c)) (@num_row _ _)) E2 -!map_comp; apply: eq_map => -[x y] /=.
  by rewrite /g /= predictE.
have Eq : forall rs : seq (lrow R p), (map (fun r => if used (a_policy a) r is Some v then g v else None) rs)
   = map (fun r => if used (a_policy a) r is Some (x, y)
                      then let pr := predict (features (a_bias a) x) c in Some (pr, y - pr)
                      else None) rs.
  by move=> rs; apply: eq_map => r; case: (used _ r) => [[x y]|].
rewrite Ep -Eq; case: E3 => [[-> Hall]|->].
  rewrite /=; congr Ok; elim: rows Hall {Hne Hacc Hp E1 E2 Ep} => //= r rows IH /andP[].
  by rewrite /used_rows /=; case: (used _ r) => [v|] //= _ /IH <-.
case: ifP => [_|H]; first exact: spread_ok.
have Hall : all (fun r => isSome (used (a_policy a) r)) rows.
  by rewrite -[X in is_true X]negbK -has_predC -(has_map (fun r => isSome (used (a_policy a) r)) negb) H.
congr Ok; elim: rows Hall {Hne Hacc Hp E1 E2 Ep H} => //= r rows IH /andP[].
by rewrite /used_rows /=; case: (used _ r) => [v|] //= _ /IH <-.
Qed.

Lemma pred_ignore (a : lr_args R) (rows : seq (lrow R p)) :
  a_policy a = IGNORE R -> a_weights a = None -> ~~ no_null rows -> (p <= size rows)%N ->
  pl_lstsq_pred F a rows = Ok [:: None].
Proof.
move=> Hp Hw N Hs; rewrite /pl_lstsq_pred /series_to_mat has_null_complete N Hp.
case: rows N Hs => [//|r rows] N Hs /=; rewrite size_map ltnNge Hs /=.
by rewrite /coeffs_rows Hw.
Qed.

(** *** The recursive expression *)
Lemma valid_some m (d : data R m) : valid_rows (map Some d) = d.
Proof. by elim: d => //= r d ->. Qed.

Lemma everything_lt m : (@everything m) =1 (fun j : 'I_m => (j < abs_diff m false)%N).
Proof. by move=> j; rewrite /everything /abs_diff subn0 sub0n addn0 ltn_ord. Qed.

Lemma fit_rows_ok m (d : data R m) lambda : 0 <= lambda ->
  identifiable everything lambda (map fst d) ->
  exists st, fit_rows F (map Some d) lambda false = Some st /\ fitted everything lambda d st.
Proof.
move=> Hl Hi; rewrite /fit_rows all_some_map; eexists; split; first by [].
have U := ident_unit Hl Hi.
by split=> //; apply: (@qr_with_inv_ok R F HF m (abs_diff m false) false everything d lambda (erefl _) (@everything_lt m) Hl U).
Qed.

Lemma recursive_core m (d : data R m) n lambda : 0 <= lambda -> (0 < n)%N -> (n <= size d)%N ->
  identifiable everything lambda (map fst (take n d)) ->
  exists coeffs, [/\ faer_recursive_lstsq F (map Some d) n lambda = Ok coeffs,
    size coeffs = (size d - n).+1 &
    forall i, (i <= size d - n)%N -> exists w, nth None coeffs i = Some w /\
      unique_min (ridge_err everything lambda (take (n + i) d)) w].
Proof.
move=> Hl Hn Hs Hi; rewrite /faer_recursive_lstsq size_map ltnNge Hs /=.
have [st [E H]] := fit_rows_ok Hl Hi.
rewrite -map_take E; eexists; split; first by [].
- have H' : fitted everything lambda (valid_rows (map Some (take n d))) st by rewrite valid_some.
  by have [H1 _] := recursive_loop_ok (rest := drop n (map Some d)) Hl H'; rewrite /= H1 size_drop size_map.
- case=> [_|i Hs'] /=; first by exists (o_coef st); split=> //; rewrite addn0; apply: fitted_min.
  have H' : fitted everything lambda (valid_rows (map Some (take n d))) st by rewrite valid_some.
  have [_ H1] := recursive_loop_ok (rest := drop n (map Some d)) Hl H'.
  have Hi' : (i < size (drop n (map Some d)))%N by rewrite size_drop size_map.
  have [w [H2 H3]] := H1 i Hi'; exists w; split=> //.
  move: H3; rewrite -map_drop -map_take -map_cat valid_some.
  by rewrite -takeD.
Qed.

Lemma recursive_out_ok m (mask : seq bool) (coeffs : seq (option 'cV[R]_m)) (rows : seq (nrow R m)) :
  (count id mask <= size coeffs)%N -> (count id mask <= size rows)%N ->
  exists out, [/\ recursive_out mask coeffs rows = Ok out, size out = size mask &
    forall i, (i < size mask)%N -> nth None out i =
      if nth false mask i then out_row (nth None coeffs (count id (take i mask))) (nth None rows (count id (take i mask)))
      else None].
Proof.
elim: mask coeffs rows => [|v mask IH] coeffs rows H1 H2 /=; first by exists [::].
case: v H1 H2 => H1 H2.
  case: coeffs rows H1 H2 => [//|c coeffs] [//|r rows] H1 H2.
  have [out [E1 E2 E3]] := IH coeffs rows H1 H2; rewrite E1; eexists; split; [by []|by rewrite /= E2|].
  by case=> [//|i] /= Hi; rewrite E3 // !add1n.
have [out [E1 E2 E3]] := IH coeffs rows H1 H2; rewrite E1; eexists; split; [by []|by rewrite /= E2|].
by case=> [//|i] /= Hi; rewrite E3 // !add0n.
Qed.

Lemma nth_kept_ok n c (mask : seq bool) : (c < n)%N -> (n <= c + count id mask)%N ->
  let k := nth_kept n c mask in
  [/\ (k < size mask)%N, (c + count id (take k mask)).+1 = n & nth false mask k].
Proof.
elim: mask c => [|v mask IH] c Hc; first by rewrite /= addn0 leqNgt Hc.
move=> /= Hn; case: ifP => [H|/negbT H].
  case: v H Hn => H Hn; last by move: H; rewrite addn0 leqNgt Hc.
  split=> //=; rewrite addn0; apply/eqP; rewrite eqn_leq Hc /=; by move: H; rewrite addn1.
rewrite -ltnNge in H; have Hn' : (n <= c + v + count id mask)%N by rewrite -addnA.
have [H1 H2 H3] := IH (c + v)%N H Hn'.
by split=> //=; rewrite addnA.
Qed.

Lemma used_rows_take pol (rows : seq (lrow R p)) i :
  used_rows pol (take i rows) = take (count id (take i (map (fun r => isSome (used pol r)) rows))) (used_rows pol rows).
Proof.
rewrite /used_rows; elim: rows i => [|r rows IH] [|i] //=; first by rewrite take0.
by case: (used pol r) => [v|] /=; rewrite IH.
Qed.

Lemma used_rows_nth pol (rows : seq (lrow R p)) r0 v0 i v : (i < size rows)%N -> used pol (nth r0 rows i) = Some v ->
  nth v0 (used_rows pol rows) (count id (take i (map (fun r => isSome (used pol r)) rows))) = v.
Proof.
rewrite /used_rows; elim: rows i => [|r rows IH] [|i] //= Hi E; first by rewrite E.
case Er: (used pol r) => [u|] /=; by rewrite IH.
Qed.

Lemma size_used pol (rows : seq (lrow R p)) :
  size (used_rows pol rows) = count id (map (fun r => isSome (used pol r)) rows).
Proof. by rewrite size_pmap count_map; apply: eq_count. Qed.

Lemma nth_isSome pol (rows : seq (lrow R p)) r0 i : (i < size rows)%N ->
  nth false (map (fun r => isSome (used pol r)) rows) i = isSome (used pol (nth r0 rows i)).
Proof. by move=> H; rewrite (nth_map r0). Qed.

Lemma count_take_lt (mask : seq bool) i : (i < size mask)%N -> nth false mask i ->
  count id (take i.+1 mask) = (count id (take i mask)).+1.
Proof.
by move=> H E; rewrite (take_nth false H) -cats1 count_cat /= E addn0 addn1.
Qed.

Lemma all_count (mask : seq bool) i : all id mask -> (i <= size mask)%N -> count id (take i mask) = i.
Proof.
move=> H Hi; have : all id (take i mask) by move: H; rewrite -{1}(cat_take_drop i mask) all_cat => /andP[].
by rewrite all_count size_takel // => /eqP.
Qed.

Theorem recursive_ok pol n b lambda (rows : seq (lrow R p)) r0 :
  (0 < size rows)%N -> accepts pol rows -> (0 < n)%N -> 0 <= lambda ->
  (p <= size (used_rows pol rows))%N -> (n <= size (used_rows pol rows))%N ->
  identifiable everything lambda (map fst (design b (take n (used_rows pol rows)))) ->
  exists out, [/\ pl_recursive_lstsq F n b lambda pol rows = Ok out, size out = size rows &
    forall i, (i < size rows)%N ->
      let here := nth r0 rows i in
      if isSome (used pol here) && (n <= size (seen pol rows i))%N then
        exists w pr, [/\ nth None out i = Some (Some w, pr),
          unique_min (ridge_err everything lambda (design b (seen pol rows i))) w &
          forall x y, used pol here = Some (x, y) ->
            pr = Some (predict (features b (if all (fun r => isSome (used pol r)) rows then x
                                            else (nth (0, 0) (used_rows pol rows) (size (seen pol rows i) - n)).1)) w)]
      else nth None out i = None].
Proof.
move=> Hne Hacc Hn Hl Hp Hs Hi.
have [df [mask [E1 E2 E3]]] := series_ok b Hne Hacc Hp.
rewrite /pl_recursive_lstsq E1 E2.
set d := design b (used_rows pol rows).
have Sd : size d = size (used_rows pol rows) by rewrite size_map.
have Hi' : identifiable everything lambda (map fst (take n d)) by rewrite /d designE -map_take.
have Hs' : (n <= size d)%N by rewrite Sd.
have [coeffs [C1 C2 C3]] := recursive_core Hl Hn Hs' Hi'.
rewrite C1.
pose M := map (fun r => isSome (used pol r)) rows.
have SM : size M = size rows by rewrite size_map.
have Hseen : forall i, size (seen pol rows i) = count id (take i.+1 M).
  by move=> i; rewrite /seen used_rows_take size_takel // size_used -/M -{2}(cat_take_drop i.+1 M) count_cat leq_addr.
have Dseen : forall i, design b (seen pol rows i) = take (count id (take i.+1 M)) d.
  by move=> i; rewrite /seen used_rows_take /d !designE map_take.
case: (boolP (has negb mask)) => Hm.
- (* some row is not used *)
  have Em : mask = M by case: E3 => // -[Em _]; move: Hm; rewrite Em.
  have Hcnt : (n <= 0 + count id M)%N by rewrite add0n -size_used.
  have [K1 K2 K3] := nth_kept_ok Hn Hcnt; rewrite add0n in K2; rewrite Em.
  set k := nth_kept n 0 M in K1 K2 K3 *.
  have Hck : count id (drop k M) = (size d - n).+1.
    have := cat_take_drop k M => /(congr1 (count id)); rewrite count_cat => H.
    have Hd : count id M = size d by rewrite Sd size_used.
    by rewrite -subSn // -[n]K2 subSS -Hd -H addKn.
  have [|| out [O1 O2 O3]] := @recursive_out_ok _ (drop k M) coeffs (map Some d).
  + by rewrite C2 Hck.
  + by rewrite size_map Hck -subSn // leq_subLR -[(size d).+1]add1n leq_add2r.
  rewrite O1; eexists; split; first by [].
  + by rewrite size_cat size_nseq O2 size_drop SM subnKC // ltnW // -SM.
  move=> i Hir; cbv zeta.
  rewrite -(nth_isSome pol r0 Hir) -/M Hseen nth_cat size_nseq nth_nseq.
  case: (ltnP i k) => Hik.
    rewrite ?if_same; case: ifP => // /andP[_ H].
    have : (count id (take i.+1 M) <= count id (take k M))%N.
      by rewrite -(take_take Hik) -{2}(cat_take_drop i.+1 (take k M)) count_cat leq_addr.
    by move/(leq_trans H); rewrite -K2 ltnn.
  rewrite O3; last by rewrite size_drop ltn_sub2r // ?SM //; apply: leq_ltn_trans Hik _.
  have Hdi : nth false (drop k M) (i - k) = nth false M i by rewrite nth_drop subnKC.
  rewrite Hdi; case HMi: (nth false M i) => //=.
  have Hc1 : count id (take i.+1 M) = (count id (take i M)).+1 by apply: count_take_lt => //; rewrite SM.
  have Hc2 : count id (take i M) = (count id (take k M) + count id (take (i - k) (drop k M)))%N.
    by rewrite -count_cat -takeD subnKC.
  have Hge : (n <= count id (take i.+1 M))%N by rewrite Hc1 Hc2 -K2 ltnS leq_addr.
  rewrite Hge; set q := count id (take (i - k) (drop k M)).
  have Hnq : (n + q)%N = count id (take i.+1 M) by rewrite Hc1 Hc2 -K2 addSn.
  have Hle : (count id (take i.+1 M) <= size d)%N.
    by rewrite Sd size_used -/M -{2}(cat_take_drop i.+1 M) count_cat leq_addr.
  have [|w [W1 W2]] := C3 q; first by rewrite leq_subRL // Hnq.
  rewrite W1 /out_row; exists w; eexists; split; first by [].
  + by rewrite Dseen -Hnq.
  move=> x y Hu.
  have -> : all (fun r => isSome (used pol r)) rows = false.
    apply/negbTE; move: Hm; rewrite Em /M has_map -[X in is_true X]negbK -all_predC.
    by rewrite (eq_all (a2 := fun r => isSome (used pol r))) // => r /=; rewrite negbK.
  have Hq : (q < size d)%N by rewrite -Hnq in Hle; apply: leq_trans Hle; rewrite -{1}[q]add0n ltn_add2r.
  rewrite -Hnq addKn (nth_map (0, 0)) // /d designE (nth_map (0, 0)) -?Sd // predictE.
  by [].
- (* every row is used *)
  have Hall : all (fun r => isSome (used pol r)) rows.
    case: E3 => [[_ //]|Em]; move: Hm; rewrite Em has_map -all_predC.
    by rewrite (eq_all (a2 := fun r => isSome (used pol r))) // => r /=; rewrite negbK.
  have HallM : all id M by rewrite all_map.
  have Hcnt : forall i, (i <= size rows)%N -> count id (take i M) = i by move=> i Hir; apply: all_count; rewrite ?SM.
  have Sdr : size d = size rows by rewrite Sd size_used -/M -[M]take_size Hcnt ?SM.
  eexists; split; first by [].
  + have Sx : size (drop (n - 1) (map Some d)) = (size d - n).+1.
      by rewrite size_drop size_map -subSn // subn1 -{2}(ltn_predK Hn) subSS.
    rewrite size_cat size_nseq size_map size_zip C2 Sx minnn -subSn // -{2}(ltn_predK Hn) subSS subn1 subnKC //.
    by rewrite (leq_trans (leq_pred n)).
  move=> i Hir; cbv zeta.
  rewrite -(nth_isSome pol r0 Hir) -/M Hseen Hcnt // nth_cat size_nseq nth_nseq.
  have -> : nth false M i = true by apply: (allP HallM); apply: mem_nth; rewrite SM.
  case: (ltnP i (n - 1)%N) => Hik /=.
    rewrite ?if_same; case: ifP => // H; move: Hik; rewrite subn1 -ltnS (ltn_predK Hn).
    by rewrite ltnNge H.
  have Hge : (n <= i.+1)%N by rewrite -(ltn_predK Hn) -subn1 ltnS.
  rewrite Hge.
  set q := (i - (n - 1))%N.
  have Hnq : (n + q)%N = i.+1 by rewrite -(ltn_predK Hn) addSn -subn1 /q subnKC.
  have Hqs : (q < size (drop (n - 1) (map Some d)))%N.
    by rewrite size_drop size_map Sdr /q; apply: ltn_sub2r => //; apply: leq_ltn_trans Hik _.
  have Hqc : (q < size coeffs)%N by rewrite C2 ltnS leq_subRL // Hnq Sdr.
  rewrite (nth_map (None, None)); last by rewrite size_zip leq_min Hqc Hqs.
  rewrite nth_zip_cond size_zip leq_min Hqc Hqs /=.
  have [|w [W1 W2]] := C3 q; first by rewrite leq_subRL // Hnq Sdr.
  rewrite W1 /out_row; exists w; eexists; split; first by [].
  + by rewrite Dseen Hcnt // -Hnq.
  move=> x y Hu; rewrite Hall.
  rewrite nth_drop subnKC // (nth_map (0, 0)) ?Sdr //.
  have -> : nth (0, 0) d i = (features b x, y).
    rewrite /d designE (nth_map (0, 0)) -?Sd ?Sdr //.
    have := used_rows_nth (0, 0) Hir Hu; rewrite -/M Hcnt ?(ltnW Hir) // => ->.
    by [].
  by rewrite predictE.
Qed.
End Expr.
