(** The regression theorems in the exact form of LinProps.v. *)
From mathcomp Require Import all_ssreflect all_algebra.
From Verif Require Import LinModel LinSpec LinCore LinProofs LinOnline LinExprSpec LinExpr LinExpr2 LinRolling LinHist LinCd LinMore LinMore2 LinDemos.
Set Implicit Arguments.
Unset Strict Implicit.
Import Order.TTheory GRing.Theory Num.Theory.
Local Open Scope ring_scope.

Section L.
Variable R : realFieldType.
Variable F : faer R.
Hypothesis HF : faer_ok F.
Variable p : nat.

Lemma C15_lemma (pol : policy R) (n : nat) (b : bool) (lambda : R) (rows : seq (lrow R p)) (r0 : lrow R p) :
  (0 < size rows)%N -> accepts pol rows -> (0 < n)%N -> 0 <= lambda ->
  (p <= size (used_rows pol rows))%N -> (n <= size (used_rows pol rows))%N ->
  identifiable everything lambda (map fst (design b (take n (used_rows pol rows)))) ->
  exists out, [/\ pl_recursive_lstsq F n b lambda pol rows = Ok out, size out = size rows &
    forall i, (i < size rows)%N ->
      if isSome (used pol (nth r0 rows i)) && (n <= size (seen pol rows i))%N then
        exists w pr, nth None out i = Some (Some w, pr) /\
          unique_min (ridge_err everything lambda (design b (seen pol rows i))) w
      else nth None out i = None].
Proof.
move=> H1 H2 H3 H4 H5 H6 H7.
have [out [O1 O2 O3]] := recursive_ok HF r0 H1 H2 H3 H4 H5 H6 H7.
exists out; split=> // i Hi; have := O3 i Hi; cbv zeta; case: ifP => // _ [w [pr [W1 W2 _]]].
by exists w, pr.
Qed.

Lemma C19_lemma (pol : policy R) (n : nat) (b : bool) (lambda : R) (rows : seq (lrow R p)) (r0 : lrow R p) :
  (0 < size rows)%N -> accepts pol rows -> (0 < n)%N -> 0 <= lambda ->
  (p <= size (used_rows pol rows))%N -> (n <= size (used_rows pol rows))%N ->
  identifiable everything lambda (map fst (design b (take n (used_rows pol rows)))) ->
  n = 1%N \/ all (fun r => isSome (used pol r)) rows ->
  exists out, [/\ pl_recursive_lstsq F n b lambda pol rows = Ok out, size out = size rows &
    forall i, (i < size rows)%N ->
      if isSome (used pol (nth r0 rows i)) && (n <= size (seen pol rows i))%N then
        exists w x y, [/\ used pol (nth r0 rows i) = Some (x, y),
          unique_min (ridge_err everything lambda (design b (seen pol rows i))) w &
          nth None out i = Some (Some w, Some (predict (features b x) w))]
      else nth None out i = None].
Proof.
move=> H1 H2 H3 H4 H5 H6 H7 H8.
have [out [O1 O2 O3]] := recursive_ok HF r0 H1 H2 H3 H4 H5 H6 H7.
have [out' [P1 _ P3]] := recursive_own HF r0 H1 H2 H3 H4 H5 H6 H7 H8.
have E : out' = out by move: P1; rewrite O1 => -[].
exists out; split=> // i Hi; have := O3 i Hi; cbv zeta; case: ifP => // _ [w [pr [W1 W2 _]]].
by case: (P3 i Hi); rewrite E W1.
Qed.

Lemma C19_wrong_lemma (pol : policy R) (n : nat) (b : bool) (lambda : R) (rows : seq (lrow R p)) (r0 : lrow R p) :
  (0 < size rows)%N -> accepts pol rows -> (0 < n)%N -> 0 <= lambda ->
  (p <= size (used_rows pol rows))%N -> (n <= size (used_rows pol rows))%N ->
  identifiable everything lambda (map fst (design b (take n (used_rows pol rows)))) ->
  ~~ all (fun r => isSome (used pol r)) rows ->
  exists out, [/\ pl_recursive_lstsq F n b lambda pol rows = Ok out, size out = size rows &
    forall i, (i < size rows)%N -> isSome (used pol (nth r0 rows i)) -> (n <= size (seen pol rows i))%N ->
      exists w, nth None out i =
        Some (Some w, Some (predict (features b (nth (0, 0) (used_rows pol rows) (size (seen pol rows i) - n)).1) w))].
Proof.
move=> H1 H2 H3 H4 H5 H6 H7 H8.
have [out [O1 O2 O3]] := recursive_ok HF r0 H1 H2 H3 H4 H5 H6 H7.
exists out; split=> // i Hi Hu Hn; have := O3 i Hi; cbv zeta; rewrite Hu Hn => -[w [pr [W1 _ W3]]].
exists w; rewrite W1; case E: (used pol (nth r0 rows i)) Hu => [[x y]|] // _.
by rewrite (W3 x y E) (negbTE H8).
Qed.

Lemma C16_ridge_lemma (b : bool) (pol : policy R) (n ms : nat) (lambda : R) (rows : seq (lrow R p)) (r0 : lrow R p) :
  accepts pol rows -> (0 < n)%N -> (n <= size rows)%N -> (p <= size rows)%N -> 0 < lambda ->
  exists out, [/\ pl_rolling_lstsq F n ms b lambda pol rows = Ok out, size out = size rows &
    forall i, (i < size rows)%N ->
      if (n <= i.+1)%N &&
         (all (fun r => isSome (used pol r)) rows || (ms <= size (window pol rows n i))%N) then
        exists w, nth None out i =
             Some (Some w, if used pol (nth r0 rows i) is Some (x, _) then Some (predict (features b x) w) else None) /\
          unique_min (ridge_err everything lambda (design b (window pol rows n i))) w
      else nth None out i = None].
Proof.
by move=> H1 H2 H3 H4 H5; apply: rolling_ok => // [|j _ _|j _]; [apply: ltW|apply: ident_ridge|apply: ident_ridge].
Qed.

Lemma downdate_restores (b : bool) (lambda : R) : 0 <= lambda ->
  forall (d : seq ('rV[R]_p * R)) (r : 'rV[R]_p * R),
  identifiable (not_bias b) lambda (map fst (design b d)) ->
  online_update b (online_update b (Some (online_fit F b lambda d)) (Some r) 1) (Some r) (-1)
  = Some (online_fit F b lambda d).
Proof.
move=> Hl d r Hi.
have H : history b lambda d [:: (Some r, 1); (Some r, -1)] d.
  apply: H_add; rewrite -cats1; have := @H_del R p b lambda d r [::] [::] d; rewrite cats0; apply=> //.
  exact: H_nil.
by have [] := history_refit HF Hl Hi H.
Qed.

Section Cd.
Variables (b : bool) (d : seq ('rV[R]_p * R)) (l1 l2 : R).
Hypotheses (Hl1 : 0 <= l1) (Hl2 : 0 <= l2) (Hd : (0 < size d)%N).
Let D := design b d.
Let E := elastic_err (not_bias b) l1 l2 D.
Lemma C20_sweep_lemma be be' mc : cd_sweep (Xmat D) (Ymat D) l1 l2 b be = Some (be', mc) ->
  E be' <= E be /\ (E be <= E be' -> be' = be /\ forall v, E be <= E v).
Proof. exact: sweep_desc. Qed.
Lemma C20_fixed_lemma be mc : cd_sweep (Xmat D) (Ymat D) l1 l2 b be = Some (be, mc) -> forall v, E be <= E v.
Proof. by move=> /C20_sweep_lemma [_ H]; have [] := H (lexx _). Qed.
Lemma C20_more_lemma tol it k w w' :
  faer_coordinate_descent (Xmat D) (Ymat D) l1 l2 b tol it = Some w ->
  faer_coordinate_descent (Xmat D) (Ymat D) l1 l2 b tol (it + k) = Some w' ->
  E w' <= E w /\ E w <= E 0.
Proof. by move=> H1 H2; split; [apply: loop_more H1 H2|apply: loop_desc H1]. Qed.
End Cd.

Lemma recursive_is_lin_reg (pol : policy R) (n : nat) (b : bool) (lambda : R) (rows : seq (lrow R p)) (r0 : lrow R p) :
  (0 < size rows)%N -> accepts pol rows -> (0 < n)%N -> 0 <= lambda ->
  (p <= size (used_rows pol rows))%N -> (n <= size (used_rows pol rows))%N -> (p <= n)%N ->
  identifiable everything lambda (map fst (design b (take n (used_rows pol rows)))) ->
  b = false \/ lambda = 0 ->
  exists out, [/\ pl_recursive_lstsq F n b lambda pol rows = Ok out, size out = size rows &
    forall i, (i < size rows)%N -> isSome (used pol (nth r0 rows i)) -> (n <= size (seen pol rows i))%N ->
      exists w pr, nth None out i = Some (Some w, pr) /\
        pl_lstsq F (LrArgs b pol Nqr 0 lambda 0 None) (take i.+1 rows) = Ok (Some w)].
Proof.
move=> H1 H2 H3 H4 H5 H6 Hpn H7 Hb.
have [out [O1 O2 O3]] := recursive_ok HF r0 H1 H2 H3 H4 H5 H6 H7.
exists out; split=> // i Hi Hu Hn; have := O3 i Hi; cbv zeta; rewrite Hu Hn => -[w [pr [W1 W2 _]]].
exists w, pr; split=> //.
have Hpen (j : 'I_(p + b)) : lambda != 0 -> not_bias b j.
  by case: Hb => [Hb|->]; rewrite ?eqxx // /not_bias => _; apply: all_pen; rewrite Hb.
have Hr v : ridge_err (not_bias b) lambda (design b (seen pol rows i)) v = ridge_err everything lambda (design b (seen pol rows i)) v.
  rewrite /ridge_err; congr (_ + _); case: (altP (lambda =P 0)) => [->|Hn0]; first by rewrite !mul0r.
  by congr (_ * _); apply: eq_bigl => j; rewrite Hpen.
have Hm : Num.max 0 lambda = lambda by apply/max_idPr.
have Hsub : seen pol rows i = take (size (seen pol rows i)) (used_rows pol rows).
  by rewrite {1}/seen used_rows_take size_used map_take.
have Hid : identifiable (not_bias b) lambda (map fst (design b (seen pol rows i))).
  move=> h G1 G2; apply: H7 => [x Hx|Hn0 j _]; last exact: (G2 Hn0 j (Hpen j Hn0)).
  apply: G1; move: Hx; rewrite !designE -!map_comp => /mapP[r Hr1 ->]; apply: map_f.
  by rewrite Hsub; move: Hr1; rewrite -(take_take Hn) => /mem_take.
have Hsz : (p <= size (seen pol rows i))%N by apply: leq_trans Hpn Hn.
set a := LrArgs b pol Nqr 0 lambda 0 None.
have [||||||w' [L1 L2]] := @lstsq_ok R F HF p a (take i.+1 rows) => //.
- by case: (rows) H1.
- have Ht : no_null rows -> no_null (take i.+1 rows).
    by rewrite /no_null -{1}(cat_take_drop i.+1 rows) all_cat => /andP[].
  by move: H2; rewrite /accepts /a /=; case: (pol).
- by rewrite Hm.
rewrite L1; congr (Ok (Some _)); rewrite /= Hm -/(seen pol rows i) in L2.
apply: (min_is_unique L2) => v Hv; rewrite !Hr; exact: W2.
Qed.
End L.

Lemma C16_refuted_lemma : exists (rows : seq (lrow rat_realFieldType 1)) out,
  pl_rolling_lstsq (exact_faer _) 2 1 true 0 (SKIP _) rows = Ok out /\ nth None out 2 = Some (None, None) /\
  size rows = 3%N /\
  forall i, (1 <= i < 3)%N -> identifiable everything 0 (map fst (design true (window (SKIP _) rows 2 i))).
Proof.
have [out [H1 H2]] := demo16 (exact_faer_ok rat_realFieldType).
by exists (rows16 _), out; split=> //; split=> //; split=> //; apply: windows16.
Qed.
Lemma C16_gap_lemma : exists (rows : seq (lrow rat_realFieldType 1)) out,
  pl_rolling_lstsq (exact_faer _) 2 1 false 0 (SKIP _) rows = Ok out /\
  nth None out 3 = Some (None, None) /\ nth None out 4 = Some (None, None) /\
  forall i, (3 <= i < 5)%N -> (1 <= size (window (SKIP _) rows 2 i))%N /\
    identifiable everything 0 (map fst (design false (window (SKIP _) rows 2 i))).
Proof.
have [out [H1 [H2 H3]]] := demo_gap (exact_faer_ok rat_realFieldType).
by exists (rows_gap _), out; split=> //; split=> //; split=> //; apply: windows_gap.
Qed.
Lemma C19_refuted_lemma : exists (rows : seq (lrow rat_realFieldType 1)) out,
  pl_recursive_lstsq (exact_faer _) 2 false 0 (SKIP _) rows = Ok out /\
  used (SKIP _) (nth (mk1 None None) rows 1) = Some (f1 2%:R, 2%:R) /\
  nth None out 1 = Some (Some (v1 1), Some 1).
Proof.
have [out [H1 H2]] := demo19 (exact_faer_ok rat_realFieldType).
exists (rows19 _), out; split=> //; split=> //.
exact: (@complete_mk1 rat_realFieldType 2%:R 2%:R).
Qed.
Lemma C66_lemma : exists (rows : seq (lrow rat_realFieldType 1)) out w pr,
  pl_lstsq (exact_faer _) (args true 0 1 1) rows = Ok (Some (v2 0 1)) /\
  pl_recursive_lstsq (exact_faer _) 1 true 1 (SKIP _) rows = Ok out /\
  size rows = 1%N /\ nth None out 0 = Some (Some w, pr) /\ w != v2 0 1.
Proof.
have [out [w [pr [H1 [H2 H3]]]]] := demo_bias_rec (exact_faer_ok rat_realFieldType).
exists (rows_b _), out, w, pr; split; first exact: (demo_bias_lin (exact_faer_ok rat_realFieldType)).
by split.
Qed.
Lemma C67_lemma : exists (d : seq ('rV[rat_realFieldType]_1 * rat_realFieldType)) x y st,
  identifiable (not_bias false) 1 (map fst (design false d)) /\
  online_update false (Some (online_fit (exact_faer _) false 1 d)) (Some (x, y)) 2%:R = Some st /\
  ~ unique_min (fun w => ridge_err (not_bias false) 1 (design false d) w
                         + 2%:R * (y - predict (features false x) w) ^+ 2) (o_coef st).
Proof.
pose d : seq ('rV[rat_realFieldType]_1 * rat_realFieldType) := [:: (f1 0, 0)].
have Hi : identifiable (not_bias false) 1 (map fst (design false d)) by apply: ident_ridge_bias; rewrite ?ltr01.
have H2 : (0 : rat_realFieldType) < 2%:R by rewrite ltr0n.
have [st [E _]] := @update_weight _ _ (exact_faer_ok rat_realFieldType) 1 false 1 ler01 d (f1 1) 3%:R 2%:R Hi H2.
exists d, (f1 1), 3%:R, st; split=> //; split=> //.
by have [] := demo17 (exact_faer_ok rat_realFieldType) E.
Qed.
Lemma C68_lemma : exists (rows : seq (lrow rat_realFieldType 1)),
  forall tol : rat_realFieldType, 0 < tol -> exists w v,
  pl_lstsq (exact_faer _) (args true (1 / 10%:R) 0 tol) rows = Ok (Some w) /\
  elastic_err (not_bias true) (1 / 10%:R) 0 (design true (used_rows (SKIP _) rows)) v + 1 / 10%:R <=
  elastic_err (not_bias true) (1 / 10%:R) 0 (design true (used_rows (SKIP _) rows)) w.
Proof.
exists (rows20 _) => tol Ht; exists (v2 0 (1 / 2%:R)), (v2 (-1) 1); split.
  by have [] := demo20_stop (exact_faer rat_realFieldType) Ht.
by rewrite used20E !err20.
Qed.
