(** Coordinate descent for the elastic net. *)
From Coq Require Import Ring Field.
From mathcomp Require Import all_ssreflect all_algebra.
From Verif Require Import LinModel LinSpec LinCore LinProofs LinExprSpec LinExpr.
Set Implicit Arguments.
Unset Strict Implicit.
Import Order.TTheory GRing.Theory Num.Theory.
Local Open Scope ring_scope.

Section Cd.
Variable R : realFieldType.

(** Coq's [ring] and [field] for the field [R]. *)
Add Ring Rring : (@Rrt R).
Add Field Rfield : (@Rft R).
Notation K := (@K R). Notation kadd := (@kadd R). Notation kmul := (@kmul R). Notation kopp := (@kopp R).
Notation kinv := (@kinv R). Notation k0 := (k0 R). Notation k1 := (k1 R).
Ltac tok := rewrite ?exprS ?expr0 ?mulrS ?mulr0n;
  repeat match goal with
  | |- context[@GRing.add _ ?a ?b] => change (@GRing.add _ a b) with (kadd a b)
  | |- context[@GRing.mul _ ?a ?b] => change (@GRing.mul _ a b) with (kmul a b)
  | |- context[@GRing.opp _ ?a] => change (@GRing.opp _ a) with (kopp a)
  | |- context[@GRing.inv _ ?a] => change (@GRing.inv _ a) with (kinv a)
  | |- context[@GRing.zero _] => change (@GRing.zero _) with k0
  | |- context[@GRing.one _] => change (@GRing.one _) with k1
  end; match goal with |- @eq _ ?a ?b => change (@eq K a b) end.
Ltac rg := tok; ring.
Ltac fd := tok; field.

(** Soft thresholding. *)
Lemma soft_threshold_ok (rho L nrm : R) : 0 <= L -> 0 < nrm ->
  let a := soft_threshold_l1 rho L / nrm in
  let s := rho - nrm * a in
  `|s| <= L /\ s * a = L * `|a|.
Proof.
move=> HL Hn a s.
have Ena : nrm * a = soft_threshold_l1 rho L by rewrite /a mulrCA mulfV ?mulr1 // gt_eqF.
have [Hle|Hlt] := leP `|rho| L.
  have E0 : soft_threshold_l1 rho L = 0.
    by rewrite /soft_threshold_l1 (max_idPr _) ?mulr0 // subr_le0.
  have a0 : a = 0 by rewrite /a E0 mul0r.
  by rewrite /s a0 mulr0 subr0 normr0 !mulr0.
have E1 : soft_threshold_l1 rho L = rho - signum rho * L.
  rewrite /soft_threshold_l1 (max_idPl _); last by rewrite subr_ge0 ltW.
  rewrite mulrBr; congr (_ - _); rewrite /signum; case: (ltP rho 0) => H.
    by rewrite ltr0_norm // mulN1r opprK.
  by rewrite ger0_norm // mul1r.
have Es : s = signum rho * L by rewrite /s Ena E1 opprB addrC subrK.
have Hsg : `|signum rho| = 1 by rewrite /signum; case: ifP; rewrite ?normrN normr1.
split; first by rewrite Es normrM Hsg mul1r ger0_norm.
have Ha : signum rho * a = `|a|.
  have -> : a = signum rho * ((`|rho| - L) / nrm).
    by rewrite /a /soft_threshold_l1 (max_idPl _) ?mulrA // subr_ge0 ltW.
  have H0 : 0 <= (`|rho| - L) / nrm by rewrite divr_ge0 ?subr_ge0 ?ltW.
  rewrite normrM Hsg mul1r (ger0_norm H0) mulrA.
  have -> : signum rho * signum rho = 1 by rewrite /signum; case: ifP; rewrite ?mulrNN mulr1.
  by rewrite mul1r.
by rewrite Es mulrAC [_ * L]mulrC Ha.
Qed.

Variable m : nat.
Variable D : data R m.
Variable pen : pred 'I_m.
Variables l1 l2 : R.
Hypothesis Hl1 : 0 <= l1.
Hypothesis Hl2 : 0 <= l2.
Let N : R := (size D)%:R.
Let E := elastic_err pen l1 l2 D.

Definition grad (w : 'cV[R]_m) : 'cV[R]_m := moment (ones D) - gram (ones D) *m w.

Lemma N_ge0 : 0 <= N. Proof. exact: ler0n. Qed.

Lemma sq_shift w h : sq_err D (w + h) = sq_err D w + \sum_(r <- D) (predict r.1 h) ^+ 2
   - (\sum_(j < m) h j 0 * grad w j 0) *+ 2.
Proof.
have E1 : \sum_(j < m) h j 0 * grad w j 0 = (h^T *m grad w) 0 0.
  by rewrite [RHS]mxE; apply: eq_bigr => j _; rewrite [h^T _ _]mxE.
rewrite E1 /grad mulmxBr mxE [(- _ : 'M_(_, _)) 0 0]mxE moment_form mulmxA gram_form /ones !big_map /=.
rewrite -sumrB -sumrMnl /sq_err -big_split -sumrB /=; apply: eq_bigr => r _.
rewrite predictD !mul1r; set a := predict _ w; set c := predict _ h; set y := r.2.
rg.
Qed.

(** The change of the objective. *)
Definition slope (w : 'cV[R]_m) (j : 'I_m) (t : R) : R :=
  if pen j then N * l2 * w j 0 * (t - w j 0) - grad w j 0 * (t - w j 0) + N * l1 * (`|t| - `|w j 0|)
  else - (grad w j 0 * (t - w j 0)).

Lemma E_shift w v : E v = E w + (\sum_(j < m) slope w j (v j 0)) *+ 2
   + (\sum_(r <- D) (predict r.1 (v - w)) ^+ 2 + N * l2 * \sum_(j < m | pen j) (v j 0 - w j 0) ^+ 2).
Proof.
have Ev : v = w + (v - w) by rewrite addrC subrK.
rewrite /E /elastic_err {1}Ev sq_shift -/N.
set A := sq_err D w; set B := \sum_(r <- D) _.
have -> : \sum_(j < m) (v - w) j 0 * grad w j 0 = \sum_(j < m) (v j 0 - w j 0) * grad w j 0.
  by apply: eq_bigr => j _; rewrite !mxE.
have -> : \sum_(j < m) slope w j (v j 0) = N * l2 * (\sum_(j < m | pen j) w j 0 * (v j 0 - w j 0))
   - \sum_(j < m) (v j 0 - w j 0) * grad w j 0 + N * l1 * (\sum_(j < m | pen j) (`|v j 0| - `|w j 0|)).
  rewrite [\sum_(j < m | pen j) w j 0 * _]big_mkcond [\sum_(j < m | pen j) (`|_| - _)]big_mkcond /= !mulr_sumr -sumrB -big_split /=.
  apply: eq_bigr => j _; rewrite /slope; case: (pen j); rewrite ?mulr0 ?add0r ?addr0 1?[grad w j 0 * _]mulrC ?mulrA //.
have -> : \sum_(j < m | pen j) (v j 0) ^+ 2 = \sum_(j < m | pen j) (w j 0) ^+ 2
   + (\sum_(j < m | pen j) w j 0 * (v j 0 - w j 0)) *+ 2 + \sum_(j < m | pen j) (v j 0 - w j 0) ^+ 2.
  rewrite -sumrMnl -!big_split /=; apply: eq_bigr => j _.
  by rewrite -sqrrD addrC subrK.
rewrite sumrB.
clearbody A B N.
repeat match goal with |- context [bigop.BigOp.bigop ?z ?r ?F] => let x := fresh "x" in set x := (bigop.BigOp.bigop z r F); clearbody x end.
rg.
Qed.

Definition opt (w : 'cV[R]_m) (j : 'I_m) : Prop := forall t, 0 <= slope w j t.

Lemma rest_ge0 (h : 'cV[R]_m) v w : 0 <= \sum_(r <- D) (predict r.1 h) ^+ 2 + N * l2 * \sum_(j < m | pen j) (v j - w j) ^+ 2.
Proof.
apply: addr_ge0; first by apply: sumr_ge0 => r _; apply: sqr_ge0.
by apply: mulr_ge0; [apply: mulr_ge0 => //; apply: N_ge0|apply: sumr_ge0 => j _; apply: sqr_ge0].
Qed.

Lemma opt_global w : (forall j, opt w j) -> forall v, E w <= E v.
Proof.
move=> H v; rewrite (E_shift w v) -addrA ler_addl addr_ge0 //; last first.
  exact: (@rest_ge0 (v - w) (fun j => v j 0) (fun j => w j 0)).
by rewrite pmulrn_lge0 // sumr_ge0 // => j _; apply: H.
Qed.

Definition curv (j : 'I_m) : R := \sum_(r <- D) (r.1 0 j) ^+ 2 + (if pen j then N * l2 else 0).

Lemma curv_ge0 j : 0 <= curv j.
Proof.
apply: addr_ge0; first by apply: sumr_ge0 => r _; apply: sqr_ge0.
by case: (pen j) => //; apply: mulr_ge0 => //; apply: N_ge0.
Qed.

Lemma set_coord_same (be : 'cV[R]_m) j a : set_coord be j a j 0 = a.
Proof. by rewrite mxE eqxx. Qed.
Lemma set_coord_other (be : 'cV[R]_m) j k a : k != j -> set_coord be j a k 0 = be k 0.
Proof. by move=> H; rewrite mxE (negbTE H). Qed.
Lemma set_coord_id (be : 'cV[R]_m) j : set_coord be j (be j 0) = be.
Proof. by apply/matrixP => i k; rewrite mxE (ord1 k); case: eqP => [->|]. Qed.
Lemma set_coord_set (be : 'cV[R]_m) j a c : set_coord (set_coord be j a) j c = set_coord be j c.
Proof. by apply/matrixP => i k; rewrite !mxE; case: eqP. Qed.

Lemma slope_self w j : slope w j (w j 0) = 0.
Proof. by rewrite /slope; case: (pen j); rewrite !subrr !mulr0 oppr0 ?addr0. Qed.

Lemma predict_set (x : 'rV[R]_m) be j a t :
  predict x (set_coord be j t - set_coord be j a) = x 0 j * (t - a).
Proof.
rewrite /predict (bigD1 j) //= big1 ?addr0; first by rewrite !mxE eqxx.
by move=> k Hk; rewrite !mxE (negbTE Hk) subrr mulr0.
Qed.

Lemma coord_change be j a t : opt (set_coord be j a) j ->
  E (set_coord be j a) + curv j * (t - a) ^+ 2 <= E (set_coord be j t).
Proof.
move=> Ho; rewrite (E_shift (set_coord be j a) (set_coord be j t)) -addrA ler_add2l.
rewrite (bigD1 j) //= big1 ?addr0; last first.
  by move=> k Hk; rewrite set_coord_other // -(set_coord_other be a Hk) slope_self.
have -> : \sum_(r <- D) predict r.1 (set_coord be j t - set_coord be j a) ^+ 2
          = (\sum_(r <- D) (r.1 0 j) ^+ 2) * (t - a) ^+ 2.
  by rewrite mulr_suml; apply: eq_bigr => r _; rewrite predict_set exprMn.
have -> : \sum_(k < m | pen k) (set_coord be j t k 0 - set_coord be j a k 0) ^+ 2
          = if pen j then (t - a) ^+ 2 else 0.
  rewrite big_mkcond (bigD1 j) //= big1 ?addr0 ?set_coord_same //.
  by move=> k Hk; rewrite !set_coord_other // subrr expr0n if_same.
have -> : N * l2 * (if pen j then (t - a) ^+ 2 else 0) = (if pen j then N * l2 else 0) * (t - a) ^+ 2.
  by case: (pen j); rewrite ?mulr0 ?mul0r.
by rewrite -mulrDl ler_addr pmulrn_lge0.
Qed.

Lemma grad_set be j a : grad (set_coord be j a) j 0 = grad (set_coord be j 0) j 0 - a * \sum_(r <- D) (r.1 0 j) ^+ 2.
Proof.
have -> : set_coord be j a = set_coord be j 0 + a *: delta_mx j 0.
  apply/matrixP => i k; rewrite !mxE (ord1 k) eqxx andbT; case: eqP => _; by rewrite ?mulr1 ?mulr0 ?add0r ?addr0.
rewrite /grad mulmxDr opprD addrA mxE; congr (_ + _).
rewrite -scalemxAr mxE [(a *: _ : 'M_(_, _)) j 0]mxE; congr (- (_ * _)).
rewrite -colE mxE /gram summxE big_map; apply: eq_bigr => r _ /=.
by rewrite scale1r mxE big_ord1 !mxE expr2.
Qed.

Lemma cd_coordE be mc j : cd_coord (Xmat D) (Ymat D) l1 l2 (be, mc) j =
  let rho := grad (set_coord be j 0) j 0 in
  let nrm := \sum_(r <- D) (r.1 0 j) ^+ 2 + N * l2 in
  if nrm == 0 then None
  else let a := soft_threshold_l1 rho (N * l1) / nrm in
       Some (set_coord be j a, Num.max `|a - be j 0| mc).
Proof.
rewrite /cd_coord /=.
have -> : cd_norm (Xmat D) l2 j = \sum_(r <- D) (r.1 0 j) ^+ 2 + N * l2.
  rewrite /cd_norm; congr (_ + _); rewrite (big_nth (0, 0)) big_mkord; apply: eq_bigr => i _.
  by rewrite mxE.
have -> : ((Xmat D)^T *m Ymat D) j 0 - (row j ((Xmat D)^T *m Xmat D) *m set_coord be j 0) 0 0
          = grad (set_coord be j 0) j 0.
  by rewrite gram_ones moment_ones -row_mul [row j _ _ _]mxE /grad [in RHS]mxE [(- _ : 'M_(_, _)) j 0]mxE.
by case: ifP => // _; rewrite set_coord_set.
Qed.

Lemma coord_opt be mc j be' mc' : pen j -> cd_coord (Xmat D) (Ymat D) l1 l2 (be, mc) j = Some (be', mc') ->
  [/\ be' = set_coord be j (be' j 0), opt be' j & 0 < curv j].
Proof.
move=> Hp; rewrite cd_coordE /=; set nrm := _ + N * l2; set rho := grad _ _ _.
case: ifP => // /negbT Hn [E1 _].
have Hc : curv j = nrm by rewrite /curv Hp.
have Hn0 : 0 < nrm by rewrite lt0r Hn -Hc curv_ge0.
have HL : 0 <= N * l1 by rewrite mulr_ge0 ?N_ge0.
have [S1 S2] := soft_threshold_ok rho HL Hn0.
set a := soft_threshold_l1 _ _ / _ in E1 S1 S2.
rewrite -E1 set_coord_same; split=> //; last by rewrite Hc.
move=> t; rewrite /slope Hp set_coord_same grad_set -/rho.
set s := rho - nrm * a in S1 S2.
have -> : N * l2 * a * (t - a) - (rho - a * \sum_(r <- D) (r.1 0 j) ^+ 2) * (t - a) + N * l1 * (`|t| - `|a|)
  = N * l1 * `|t| - s * t.
  have -> : N * l1 * (`|t| - `|a|) = N * l1 * `|t| - s * a by rewrite mulrBr S2.
  rewrite /s /nrm; set T := `|t|; set Q := \sum_(r <- D) _; clearbody Q T rho a N; rg.
rewrite subr_ge0 (le_trans (ler_norm _)) // normrM ler_wpmul2r //.
Qed.

Lemma coords_desc js be mc be' mc' : (forall j, j \in js -> pen j) ->
  cd_coords (Xmat D) (Ymat D) l1 l2 js (be, mc) = Some (be', mc') ->
  E be' <= E be /\ (E be <= E be' -> be' = be /\ forall j, j \in js -> opt be j).
Proof.
elim: js be mc => [|j js IH] be mc Hp /=; first by case=> <- _; split=> //.
case Ec: (cd_coord _ _ _ _ _ _) => [[b1 m1]|] // H.
have [H1 H2 H3] := coord_opt (Hp j (mem_head _ _)) Ec.
have Hp' : forall k, k \in js -> pen k by move=> k Hk; apply: Hp; rewrite inE Hk orbT.
have [I1 I2] := IH b1 m1 Hp' H.
have Hch : E b1 + curv j * (be j 0 - b1 j 0) ^+ 2 <= E be.
  have := @coord_change be j (b1 j 0) (be j 0); rewrite -H1 set_coord_id; exact.
have Hge : 0 <= curv j * (be j 0 - b1 j 0) ^+ 2 by rewrite mulr_ge0 ?sqr_ge0 // ltW.
have Hle : E b1 <= E be by apply: le_trans Hch; rewrite ler_addl.
split; first exact: le_trans I1 Hle.
move=> Hback.
have Heq : b1 = be.
  have : curv j * (be j 0 - b1 j 0) ^+ 2 <= 0.
    by rewrite -(ler_add2l (E b1)) addr0 (le_trans Hch) // (le_trans Hback).
  move=> Hz; have : curv j * (be j 0 - b1 j 0) ^+ 2 == 0 by rewrite eq_le Hz Hge.
  rewrite mulf_eq0 (gt_eqF H3) /= sqrf_eq0 subr_eq0 => /eqP Hb.
  by rewrite H1 -Hb set_coord_id.
have [|I3 I4] := I2; first by rewrite Heq.
split; first by rewrite I3.
move=> k; rewrite inE => /orP[/eqP ->|Hk]; first by rewrite -Heq.
by rewrite -Heq; apply: I4.
Qed.

(** The bias: a column of ones. *)
Lemma bias_opt be jb : ~~ pen jb -> (0 < size D)%N -> (forall r, r \in D -> r.1 0 jb = 1) ->
  let be' := set_coord be jb ((\sum_i (Ymat D i 0 - \sum_(j < m | j != jb) Xmat D i j * be j 0)) / N) in
  opt be' jb /\ 0 < curv jb.
Proof.
move=> Hp Hs H1 be'.
have HN : 0 < N by rewrite ltr0n.
have Hsum : \sum_(r <- D) (r.1 0 jb) ^+ 2 = N.
  rewrite big_seq (eq_bigr (fun _ => 1)); last by move=> r Hr; rewrite H1 // expr1n.
  by rewrite -big_seq big_const_seq count_predT iter_addr_0.
split; last by rewrite /curv Hsum (negbTE Hp) addr0.
have G0 : grad be' jb 0 = 0.
  rewrite grad_set Hsum divfK ?gt_eqF //; apply/eqP; rewrite subr_eq0; apply/eqP.
  rewrite /grad mxE [(- _ : 'M_(_, _)) jb 0]mxE -gram_ones -moment_ones -mulmxA.
  rewrite [((Xmat D)^T *m Ymat D) jb 0]mxE [((Xmat D)^T *m _) jb 0]mxE -sumrB.
  apply: eq_bigr => i _; rewrite [(Xmat D)^T jb i]mxE.
  have -> : Xmat D i jb = 1 by rewrite mxE H1 // mem_nth.
  rewrite !mul1r; congr (_ - _); rewrite mxE (bigD1 jb) //= set_coord_same mulr0 add0r.
  by apply: eq_bigr => j Hj; rewrite set_coord_other.
by move=> t; rewrite /slope (negbTE Hp) G0 mul0r oppr0.
Qed.

(** How far one round can move, and what it gains. *)
Lemma coord_mc be mc j be' mc' : cd_coord (Xmat D) (Ymat D) l1 l2 (be, mc) j = Some (be', mc') ->
  [/\ mc <= mc', `|be' j 0 - be j 0| <= mc' & mc' = Num.max `|be' j 0 - be j 0| mc].
Proof.
rewrite cd_coordE /=; case: ifP => // _ [<- <-]; rewrite set_coord_same.
by split=> //; rewrite le_maxr lexx ?orbT.
Qed.

Lemma coords_near js be mc be' mc' : uniq js -> (forall j, j \in js -> pen j) -> 0 <= mc ->
  cd_coords (Xmat D) (Ymat D) l1 l2 js (be, mc) = Some (be', mc') ->
  [/\ mc <= mc',
      forall k, `|be' k 0 - be k 0| <= (if k \in js then mc' else 0) &
      forall j, j \in js -> exists w : 'cV[R]_m, [/\ opt w j, w j 0 = be' j 0 &
        forall k, `|be' k 0 - w k 0| <= (if k \in js then mc' else 0)]].
Proof.
elim: js be mc => [|j js IH] be mc Hu Hp H0 /=.
  by case=> <- <-; split=> // k; rewrite subrr normr0.
case Ec: (cd_coord _ _ _ _ _ _) => [[b1 m1]|] // H.
have [H1 H2 _] := coord_opt (Hp j (mem_head _ _)) Ec.
have [M1 M2 _] := coord_mc Ec.
move: Hu => /= /andP[Hj Hu].
have Hp' : forall k, k \in js -> pen k by move=> k Hk; apply: Hp; rewrite inE Hk orbT.
have [I1 I2 I3] := IH b1 m1 Hu Hp' (le_trans H0 M1) H.
have Hm0 : 0 <= mc' by apply: (le_trans H0 (le_trans M1 I1)).
have Hej : be' j 0 = b1 j 0.
  by have := I2 j; rewrite (negbTE Hj) normr_le0 subr_eq0 => /eqP.
split; first exact: le_trans M1 I1.
  move=> k; rewrite inE; case: (eqVneq k j) => [->|Hk] /=.
    by rewrite Hej; apply: le_trans M2 I1.
  by have := I2 k; rewrite H1 set_coord_other.
have Hw k (x : R) : x <= (if k \in js then mc' else 0) -> x <= (if k \in j :: js then mc' else 0).
  move=> Hx; apply: le_trans Hx _; rewrite inE; case: (k == j) => /=; case: (k \in js) => //.
move=> k; rewrite inE => /orP[/eqP ->|Hk].
  by exists b1; split=> // k'; apply: Hw.
by have [w [W1 W2 W3]] := I3 k Hk; exists w; split=> // k'; apply: Hw.
Qed.

Lemma coords_gain c js be mc be' mc' : 0 <= c -> (forall j, j \in js -> pen j /\ c <= curv j) -> 0 <= mc ->
  cd_coords (Xmat D) (Ymat D) l1 l2 js (be, mc) = Some (be', mc') ->
  E be' + c * mc' ^+ 2 <= E be + c * mc ^+ 2.
Proof.
move=> Hc; elim: js be mc => [|j js IH] be mc Hp H0 /=; first by case=> <- <-.
case Ec: (cd_coord _ _ _ _ _ _) => [[b1 m1]|] // H.
have [Hpj Hcj] := Hp j (mem_head _ _).
have [H1 H2 _] := coord_opt Hpj Ec.
have [M1 M2 M3] := coord_mc Ec.
have Hp' : forall k, k \in js -> pen k /\ c <= curv k by move=> k Hk; apply: Hp; rewrite inE Hk orbT.
apply: le_trans (IH b1 m1 Hp' (le_trans H0 M1) H) _.
have Hch : E b1 + curv j * (be j 0 - b1 j 0) ^+ 2 <= E be.
  have := @coord_change be j (b1 j 0) (be j 0); rewrite -H1 set_coord_id; exact.
apply: (@le_trans _ _ (E b1 + curv j * (be j 0 - b1 j 0) ^+ 2 + c * mc ^+ 2)); last by rewrite ler_add2r.
rewrite -addrA ler_add2l M3.
have [Hm|Hm] := leP `|b1 j 0 - be j 0| mc.
  by rewrite ler_addr mulr_ge0 ?sqr_ge0 ?curv_ge0.
rewrite real_normK ?num_real // -[_ - b1 j 0]opprB sqrrN.
apply: (@le_trans _ _ (curv j * (b1 j 0 - be j 0) ^+ 2)); first by rewrite ler_wpmul2r ?sqr_ge0.
by rewrite ler_addl mulr_ge0 ?sqr_ge0.
Qed.

(** Near optimality. *)
Definition row_sum (e : 'I_m -> R) (j : 'I_m) : R :=
  \sum_k `| \sum_(r <- D) r.1 0 j * r.1 0 k | * e k.

Lemma gram_coef j k : gram (ones D) j k = \sum_(r <- D) r.1 0 j * r.1 0 k.
Proof.
rewrite /gram summxE big_map; apply: eq_bigr => r _ /=.
by rewrite scale1r mxE big_ord1 [(r.1)^T _ _]mxE.
Qed.

Lemma slope_near e (w w' : 'cV[R]_m) j t : opt w j -> w j 0 = w' j 0 -> (forall k, `|w' k 0 - w k 0| <= e k) ->
  - (row_sum e j * `|t - w' j 0|) <= slope w' j t.
Proof.
move=> Ho Hj Hn.
have Hg : grad w' j 0 = grad w j 0 - \sum_k gram (ones D) j k * (w' k 0 - w k 0).
  rewrite {1}(_ : w' = w + (w' - w)); last by rewrite addrC subrK.
  rewrite /grad mulmxDr opprD addrA mxE; congr (_ + _).
  rewrite [LHS]mxE; congr (- _); rewrite [LHS]mxE; apply: eq_bigr => k _; congr (_ * _).
  by rewrite mxE [(- w) k 0]mxE.
set X := \sum_k _ in Hg.
have HX : `|X| <= row_sum e j.
  rewrite /X; apply: le_trans (ler_norm_sum _ _ _) _; apply: ler_sum => k _.
  by rewrite normrM gram_coef ler_wpmul2l.
have -> : slope w' j t = slope w j t + X * (t - w' j 0).
  rewrite /slope Hg Hj; case: (pen j); set T := `|t|; set U := `|w' j 0|; clearbody X T U;
    set g := grad w j 0; set x := w' j 0; clearbody g x N; rg.
have H1 : - (row_sum e j * `|t - w' j 0|) <= X * (t - w' j 0).
  rewrite ler_oppl (le_trans (ler_norm _)) // normrN normrM ler_wpmul2r //.
by rewrite (le_trans H1) // ler_addr.
Qed.

Lemma near_opt (e : 'I_m -> 'I_m -> R) (w' : 'cV[R]_m) :
  (forall j, exists w : 'cV[R]_m, [/\ opt w j, w j 0 = w' j 0 & forall k, `|w' k 0 - w k 0| <= e j k]) ->
  forall v, E w' <= E v + (\sum_j row_sum (e j) j * `|v j 0 - w' j 0|) *+ 2.
Proof.
move=> H v; rewrite -ler_subl_addr (E_shift w' v) -addrA.
rewrite -[X in X - _](addr0 (E w')) -addrA ler_add2l add0r.
have H1 : - (\sum_j row_sum (e j) j * `|v j 0 - w' j 0|) <= \sum_j slope w' j (v j 0).
  rewrite -sumrN; apply: ler_sum => j _; have [w [W1 W2 W3]] := H j.
  exact: (@slope_near (e j) w w' j (v j 0) W1 W2 W3).
have H2 := @rest_ge0 (v - w') (fun j => v j 0) (fun j => w' j 0).
rewrite -mulNrn; apply: (@le_trans _ _ ((\sum_j slope w' j (v j 0)) *+ 2)); first by rewrite ler_muln2r.
by rewrite ler_addl.
Qed.
End Cd.

Lemma if_b A (c : bool) (x y : A) : c -> (if c then x else y) = x. Proof. by move=> ->. Qed.
Lemma if_nb A (c : bool) (x y : A) : ~~ c -> (if c then x else y) = y. Proof. by move=> /negbTE ->. Qed.

Lemma bdec (c : bool) : {c} + {~~ c}. Proof. by case: c; [left|right]. Qed.
Lemma all_pen p (c : bool) (j : 'I_(p + c)) : ~~ c -> (j < p)%N.
Proof. by move=> H; have := ltn_ord j; rewrite {2}(negbTE H) addn0. Qed.

Section Sweep.
Variable R : realFieldType.
Variables (p : nat) (b : bool) (d : data R p) (l1 l2 : R).
Hypothesis Hl1 : 0 <= l1.
Hypothesis Hl2 : 0 <= l2.
Hypothesis Hd : (0 < size d)%N.
Let D : data R (p + b) := design b d.
Let pen : pred 'I_(p + b) := not_bias b.
Let E := elastic_err pen l1 l2 D.
Let js := [seq j : 'I_(p + b) <- enum 'I_(p + b) | (j < abs_diff (p + b) b)%N].

Lemma size_D : size D = size d. Proof. by rewrite size_map. Qed.

Lemma mem_js j : (j \in js) = pen j.
Proof. by rewrite mem_filter mem_enum andbT abs_diff_bias. Qed.
Lemma js_pen j : j \in js -> pen j. Proof. by rewrite mem_js. Qed.

Lemma one_col (jb : 'I_(p + b)) : ~~ pen jb -> forall r, r \in D -> r.1 0 jb = 1.
Proof.
move=> Hj r /mapP [r0 _ ->] /=; rewrite /pen /not_bias -leqNgt in Hj.
have Hlt : (jb - p < b)%N by rewrite ltn_subLR.
have -> : jb = rshift p (Ordinal Hlt) by apply: val_inj; rewrite /= subnKC.
by rewrite row_mxEr mxE.
Qed.

Lemma bias_idx : b -> exists2 jb, ~~ pen jb & forall k, ~~ pen k -> k = jb.
Proof.
move=> Hb; have Hlt : (p < p + b)%N by rewrite Hb addn1.
pose jb : 'I_(p + b) := Ordinal Hlt; exists jb; first by rewrite /pen /not_bias /= ltnn.
move=> k; rewrite /pen /not_bias -leqNgt => H; apply: val_inj => /=; apply/eqP; rewrite eqn_leq H andbT.
by have := ltn_ord k; rewrite {2}Hb addn1 ltnS.
Qed.

Lemma bias_eq be jb : b -> ~~ pen jb -> cd_bias (Xmat D) (Ymat D) b be =
  set_coord be jb ((\sum_i (Ymat D i 0 - \sum_(j < p + b | j != jb) Xmat D i j * be j 0)) / (size D)%:R).
Proof.
move=> Hb Hnb; rewrite /cd_bias abs_diff_bias (if_b _ _ Hb).
have [jb' H1 Huniq] := bias_idx Hb.
have Ejb : val jb = p.
  apply/eqP; rewrite eqn_leq; move: Hnb; rewrite /pen /not_bias -leqNgt => ->; rewrite andbT.
  by have := ltn_ord jb; rewrite {2}Hb addn1 ltnS.
have -> : insub p = Some jb :> option 'I_(p + b) by have := valK jb; rewrite Ejb.
congr (set_coord _ _ (_ / _)); apply: eq_bigr => i _; congr (_ - _); apply: eq_bigl => j.
apply/idP/idP => [H|H].
  by apply/eqP => E1; move: H; rewrite E1 Ejb ltnn.
by apply: contraNT H => H; rewrite (Huniq j H) (Huniq jb Hnb).
Qed.

Lemma bias_ok be (Hb : b) :
  exists jb, [/\ ~~ pen jb, forall k, ~~ pen k -> k = jb,
    cd_bias (Xmat D) (Ymat D) b be = set_coord be jb (cd_bias (Xmat D) (Ymat D) b be jb 0),
    opt D pen l1 l2 (cd_bias (Xmat D) (Ymat D) b be) jb & 0 < curv D pen l2 jb].
Proof.
have [jb Hnb Huniq] := bias_idx Hb.
have Hs : (0 < size D)%N by rewrite size_D.
have [O1 O2] := @bias_opt R (p + b) D pen l1 l2 be jb Hnb Hs (one_col Hnb).
exists jb; rewrite (bias_eq be Hb Hnb); split=> //; by rewrite set_coord_same.
Qed.

Lemma bias_no be : ~~ b -> cd_bias (Xmat D) (Ymat D) b be = be.
Proof. by move=> H; rewrite /cd_bias (if_nb _ _ H). Qed.

Lemma bias_desc be : let be' := cd_bias (Xmat D) (Ymat D) b be in
  E be' <= E be /\ (E be <= E be' -> be' = be /\ forall j, ~~ pen j -> opt D pen l1 l2 be j).
Proof.
move=> be'; have [Hb|Hb] := bdec b; last first.
  rewrite /be' bias_no //; split=> // _; split=> // j Hj.
  by move: Hj; rewrite /pen /not_bias (all_pen j Hb).
have [jb [Hj Hu H1 H2 H3]] := bias_ok be Hb; rewrite -/be' in H1 H2.
have Hch : E be' + curv D pen l2 jb * (be jb 0 - be' jb 0) ^+ 2 <= E be.
  have := @coord_change R (p + b) D pen l1 l2 be jb (be' jb 0) (be jb 0).
  by rewrite -H1 set_coord_id; apply.
have Hge : 0 <= curv D pen l2 jb * (be jb 0 - be' jb 0) ^+ 2 by rewrite mulr_ge0 ?sqr_ge0 // ltW.
split; first by apply: le_trans Hch; rewrite ler_addl.
move=> Hback.
have Heq : be' = be.
  have Hz : curv D pen l2 jb * (be jb 0 - be' jb 0) ^+ 2 <= 0.
    by rewrite -(ler_add2l (E be')) addr0 (le_trans Hch).
  have : curv D pen l2 jb * (be jb 0 - be' jb 0) ^+ 2 == 0 by rewrite eq_le Hz Hge.
  rewrite mulf_eq0 (gt_eqF H3) /= sqrf_eq0 subr_eq0 => /eqP Hb0.
  by rewrite H1 -Hb0 set_coord_id.
by split=> // j Hnj; rewrite (Hu j Hnj) -Heq.
Qed.

Lemma sweep_desc be be' mc : cd_sweep (Xmat D) (Ymat D) l1 l2 b be = Some (be', mc) ->
  E be' <= E be /\ (E be <= E be' -> be' = be /\ forall v, E be <= E v).
Proof.
rewrite /cd_sweep -/js; case Ec: (cd_coords _ _ _ _ _ _) => [[b1 m1]|] // [<- _].
have [C1 C2] := @coords_desc R (p + b) D pen l1 l2 Hl1 Hl2 js be 0 b1 m1 js_pen Ec.
have [B1 B2] := bias_desc b1.
split; first exact: le_trans B1 C1.
move=> H; have [|C3 C4] := C2; first exact: le_trans H B1.
have [|B3 B4] := B2; first exact: le_trans C1 H.
split; first by rewrite B3.
apply: (@opt_global R (p + b) D pen l1 l2 Hl2) => j.
have [Hj|Hj] := boolP (pen j); first by apply: C4; rewrite mem_js.
by rewrite -C3; apply: B4.
Qed.

Lemma loop_desc tol it be be' : cd_loop (Xmat D) (Ymat D) l1 l2 b tol it be = Some be' -> E be' <= E be.
Proof.
elim: it be => [|it IH] be /=; first by case=> ->.
case Es: (cd_sweep _ _ _ _ _ _) => [[b1 m1]|] //; have [H1 _] := sweep_desc Es.
by case: ifP => _ H; [case: H => <-|apply: le_trans H1; apply: IH].
Qed.

Lemma loop_more tol it k be w w' :
  cd_loop (Xmat D) (Ymat D) l1 l2 b tol it be = Some w ->
  cd_loop (Xmat D) (Ymat D) l1 l2 b tol (it + k) be = Some w' -> E w' <= E w.
Proof.
elim: it be => [|it IH] be /=; first by case=> <-; apply: loop_desc.
case Es: (cd_sweep _ _ _ _ _ _) => [[b1 m1]|] //.
by case: ifP => _; [case=> <- [<-]|apply: IH].
Qed.

(** A sweep fails only on a zero column without l2. *)
Lemma coords_some l be mc : (forall j, j \in l -> pen j /\ 0 < curv D pen l2 j) ->
  exists b1 m1, cd_coords (Xmat D) (Ymat D) l1 l2 l (be, mc) = Some (b1, m1).
Proof.
elim: l be mc => [|j l IH] be mc H; first by exists be, mc.
have [Hp Hc] := H j (mem_head _ _).
rewrite [cd_coords _ _ _ _ _ _]/=.
have : isSome (cd_coord (Xmat D) (Ymat D) l1 l2 (be, mc) j).
  by rewrite cd_coordE /=; rewrite /curv Hp in Hc; rewrite (gt_eqF Hc).
case: (cd_coord _ _ _ _ _ _) => [[b1 m1]|] // _; apply: IH => k Hk.
by apply: H; rewrite inE Hk orbT.
Qed.

Lemma sweep_some be : (forall j, pen j -> 0 < curv D pen l2 j) ->
  exists b1 m1, cd_sweep (Xmat D) (Ymat D) l1 l2 b be = Some (b1, m1).
Proof.
move=> H; rewrite /cd_sweep -/js.
have [|b1 [m1 ->]] := @coords_some js be 0; last by exists (cd_bias (Xmat D) (Ymat D) b b1), m1.
by move=> j Hj; have := js_pen Hj => Hp; split=> //; apply: H.
Qed.

(** The stopping rule. *)
Lemma col_sum j jb : pen j -> ~~ pen jb -> centred d -> \sum_(r <- D) r.1 0 j * r.1 0 jb = 0.
Proof.
move=> Hj Hjb Hc.
have Hlt : (j < p)%N by [].
pose jo := Ordinal Hlt; have Ej : j = lshift b jo by apply: val_inj.
clearbody jo; rewrite -[RHS](Hc jo) big_seq (eq_bigr (fun r : 'rV_(p + b) * R => r.1 0 j)); last first.
  by move=> r Hr; rewrite (one_col Hjb Hr) mulr1.
by rewrite -big_seq big_map; apply: eq_bigr => r _; rewrite /= Ej row_mxEl.
Qed.

Lemma sweep_near be be' mc tol : (b -> centred d) ->
  cd_sweep (Xmat D) (Ymat D) l1 l2 b be = Some (be', mc) -> mc <= tol ->
  forall v, E be' <= E v + (\sum_(j < p + b | pen j) tol * coupling D pen j * `|v j 0 - be' j 0|) *+ 2.
Proof.
move=> Hcen; rewrite /cd_sweep -/js; case Ec: (cd_coords _ _ _ _ _ _) => [[b1 m1]|] // [E1 E2] Htol v.
rewrite E2 in Ec.
have Hu : uniq js by rewrite filter_uniq ?enum_uniq.
have [N1 N2 N3] := @coords_near R (p + b) D pen l1 l2 Hl1 Hl2 js be 0 b1 mc Hu js_pen (lexx _) Ec.
have Ek k : pen k -> be' k 0 = b1 k 0.
  move=> Hk; rewrite -E1; have [Hb|Hb] := bdec b; last by rewrite bias_no.
  have [jb [Hj _ -> _ _]] := bias_ok b1 Hb; rewrite set_coord_other //.
  by apply: contraNneq Hj => <-.
pose e (j k : 'I_(p + b)) : R := if pen j then (if pen k then tol else `|be' k 0 - be k 0|) else 0.
have H : forall j, exists w : 'cV[R]_(p + b), [/\ opt D pen l1 l2 w j, w j 0 = be' j 0 & forall k, `|be' k 0 - w k 0| <= e j k].
  move=> j; have [Hj|Hj] := boolP (pen j).
    have [|w [W1 W2 W3]] := N3 j; first by rewrite mem_js.
    exists w; split=> //; first by rewrite W2 Ek.
    move=> k; rewrite /e Hj; have := W3 k; rewrite mem_js.
    have [Hk|Hk] := boolP (pen k); first by rewrite Ek // => H; apply: le_trans H Htol.
    have := N2 k; rewrite mem_js (negbTE Hk) !normr_le0 !subr_eq0 => /eqP <- /eqP <-.
    exact: lexx.
  exists be'; split=> //; last by move=> k; rewrite subrr normr0 /e (negbTE Hj).
  have [Hb|Hb] := bdec b; last first.
    by move: Hj; rewrite /pen /not_bias (all_pen j Hb).
  by have [jb [Hjb Hun _ Ho _]] := bias_ok b1 Hb; rewrite (Hun j Hj) -E1.
have := @near_opt R (p + b) D pen l1 l2 Hl2 e be' H v; rewrite -/E.
suff -> : \sum_j row_sum D (e j) j * `|v j 0 - be' j 0| = \sum_(j < p + b | pen j) tol * coupling D pen j * `|v j 0 - be' j 0| by [].
rewrite [RHS]big_mkcond; apply: eq_bigr => j _; case: ifP => Hj.
  congr (_ * _); rewrite /row_sum /coupling mulr_sumr [RHS]big_mkcond; apply: eq_bigr => k _.
  rewrite /e Hj; case: ifP => Hk; first by rewrite mulrC.
  have [Hb|Hb] := bdec b; last first.
    by move: Hk; rewrite /pen /not_bias (all_pen k Hb).
  by rewrite (@col_sum j k) ?normr0 ?mul0r //; [rewrite Hk|apply: Hcen].
rewrite /row_sum big1 ?mul0r // => k _; by rewrite /e Hj mulr0.
Qed.

Lemma E_ge0 w : 0 <= E w.
Proof.
apply: addr_ge0; first by apply: sumr_ge0 => r _; apply: sqr_ge0.
apply: mulr_ge0; first exact: ler0n.
apply: addr_ge0; apply: mulr_ge0 => //; try by (apply: sumr_ge0 => j _; rewrite ?normr_ge0 ?sqr_ge0).
by apply: mulr_ge0 => //; apply: ler0n.
Qed.

Lemma loop_converges tol it c be : 0 < tol -> 0 < c -> (b -> centred d) ->
  (forall j : 'I_(p + b), (j < p)%N -> c <= \sum_(r <- D) (r.1 0 j) ^+ 2 + (size d)%:R * l2) ->
  E be < it%:R * (c * tol ^+ 2) ->
  exists w, cd_loop (Xmat D) (Ymat D) l1 l2 b tol it be = Some w /\
    forall v, E w <= E v + (\sum_(j < p + b | pen j) tol * coupling D pen j * `|v j 0 - w j 0|) *+ 2.
Proof.
move=> Ht Hc Hcen Hcol.
have Hcurv j : pen j -> c <= curv D pen l2 j.
  by move=> Hj; rewrite /curv Hj size_D; apply: Hcol.
have Hgt j : pen j -> 0 < curv D pen l2 j by move=> Hj; apply: lt_le_trans Hc (Hcurv j Hj).
elim: it be => [|it IH] be HE; first by have := E_ge0 be; rewrite leNgt -[0](mul0r (c * tol ^+ 2)) HE.
have [b1 [m1 Es]] := sweep_some be Hgt; rewrite [cd_loop _ _ _ _ _ _ _ _]/= Es.
case: (ltP m1 tol) => Hm.
  by exists b1; split=> //; apply: (sweep_near Hcen Es (ltW Hm)).
apply: IH; move: Es; rewrite /cd_sweep -/js; case Ec: (cd_coords _ _ _ _ _ _) => [[b2 m2]|] // [E1 E2].
have Hjs j : j \in js -> pen j /\ c <= curv D pen l2 j by rewrite mem_js => Hj; split=> //; apply: Hcurv.
have G := @coords_gain R (p + b) D pen l1 l2 Hl1 Hl2 c js be 0 b2 m2 (ltW Hc) Hjs (lexx _) Ec.
have [B _] := bias_desc b2; rewrite E1 in B; rewrite -/E expr0n mulr0 addr0 E2 in G.
have H1 : E b1 + c * tol ^+ 2 <= E be.
  apply: le_trans G; apply: ler_add => //; rewrite ler_wpmul2l ?(ltW Hc) // ler_expn2r ?nnegrE ?(ltW Ht) //.
  exact: le_trans (ltW Ht) Hm.
rewrite -(ltr_add2r (c * tol ^+ 2)); apply: le_lt_trans H1 _.
by rewrite -[X in _ < _ + X]mul1r -mulrDl -mulrSr.
Qed.

(** The loop stops at once when no feature looks useful against the raw target. *)
Lemma coords_zero l : (forall j, j \in l -> [/\ pen j, 0 < curv D pen l2 j & `| \sum_(r <- D) r.2 * r.1 0 j | <= (size d)%:R * l1]) ->
  cd_coords (Xmat D) (Ymat D) l1 l2 l (0, 0) = Some (0, 0).
Proof.
elim: l => //= j l IH H; have [Hp Hc Hm] := H j (mem_head _ _).
have Es : set_coord (0 : 'cV[R]_(p + b)) j 0 = 0 by apply/matrixP => i k; rewrite !mxE if_same.
rewrite cd_coordE /= Es.
have -> : grad D 0 j 0 = \sum_(r <- D) r.2 * r.1 0 j.
  rewrite /grad mulmx0 subr0 /moment summxE big_map; apply: eq_bigr => r _ /=.
  by rewrite mul1r mxE [(r.1)^T j 0]mxE.
rewrite /curv Hp in Hc; rewrite (gt_eqF Hc).
have -> : soft_threshold_l1 (\sum_(r <- D) r.2 * r.1 0 j) ((size D)%:R * l1) = 0.
  by rewrite /soft_threshold_l1 (max_idPr _) ?mulr0 // size_D subr_le0.
rewrite mul0r Es mxE subrr normr0 maxxx IH // => k Hk; apply: H; by rewrite inE Hk orbT.
Qed.

Lemma loop_zero tol it : 0 < tol ->
  (forall j, pen j -> 0 < curv D pen l2 j) ->
  (forall j, pen j -> `| \sum_(r <- D) r.2 * r.1 0 j | <= (size d)%:R * l1) ->
  cd_loop (Xmat D) (Ymat D) l1 l2 b tol it.+1 0 =
    Some (\col_j if pen j then 0 else (\sum_(r <- d) r.2) / (size d)%:R).
Proof.
move=> Ht H1 H2 /=; rewrite /cd_sweep -/js coords_zero; last first.
  by move=> j; rewrite mem_js => Hj; split=> //; [apply: H1|apply: H2].
rewrite Ht; congr Some.
have [Hb|Hb] := bdec b; last first.
  by rewrite bias_no //; apply/matrixP => j k; rewrite !mxE /pen /not_bias (all_pen j Hb).
have [jb Hnb Huniq] := bias_idx Hb; rewrite (bias_eq 0 Hb Hnb).
apply/matrixP => j k; rewrite (ord1 k) !mxE.
have -> : (j == jb) = ~~ pen j.
  by apply/eqP/idP => [->|/Huniq].
case: (pen j) => //=; congr (_ / _); last by rewrite size_D.
transitivity (\sum_(r <- D) r.2); last by rewrite big_map.
rewrite (big_nth (0, 0)) big_mkord; apply: eq_bigr => i _.
by rewrite big1 ?subr0 ?mxE // => j' _; rewrite ?mxE mulr0.
Qed.
End Sweep.
