(** Online fits: adding and removing rows one at a time equals refitting. *)
From mathcomp Require Import all_ssreflect all_algebra.
From Verif Require Import LinModel LinSpec LinCore LinProofs.
Set Implicit Arguments.
Unset Strict Implicit.
Import Order.TTheory GRing.Theory Num.Theory.
Local Open Scope ring_scope.

Section Online.
Variable R : realFieldType.
Variable m : nat.
Variable pen : pred 'I_m.
Variable lambda : R.
Hypothesis Hl : 0 <= lambda.

Notation good d := (amat pen lambda (ones d) \in unitmx).

(** The state is the one fitted on the rows [d]. *)
Definition fitted (d : data R m) (st : online R m) : Prop :=
  good d /\ okst st (amat pen lambda (ones d)) (moment (ones d)).

Lemma fitted_min d st : fitted d st -> unique_min (ridge_err pen lambda d) (o_coef st).
Proof.
move=> [U [_ ->]] v; rewrite -!full_ridge; apply: normal_eq_min => //; first exact: nonneg_ones.
by rewrite mulKVmx.
Qed.

Lemma fitted_unique d st st' : fitted d st -> fitted d st' -> st = st'.
Proof.
move=> [_ [H1 H2]] [_ [H3 H4]]; case: st H1 H2 => a b /= -> ->.
by case: st' H3 H4 => a' b' /= -> ->.
Qed.

Lemma ones_rcons (d : data R m) r : ones (rcons d r) = rcons (ones d) (r, 1).
Proof. by rewrite /ones map_rcons. Qed.

Lemma ones_cat (d e : data R m) : ones (d ++ e) = ones d ++ ones e.
Proof. exact: map_cat. Qed.

Lemma good_cat d e : good d -> good (d ++ e).
Proof. by move=> H; rewrite ones_cat; apply: unit_mono => //; apply: nonneg_ones. Qed.

Lemma good_ident d : good d <-> identifiable pen lambda (map fst d).
Proof. by split; [apply: unit_ident|apply: ident_unit]. Qed.

Lemma good_perm d e : perm_eq d e -> (amat pen lambda (ones d) = amat pen lambda (ones e)) /\ (moment (ones d) = moment (ones e)).
Proof.
move=> H; have Ho : perm_eq (ones d) (ones e) by apply: perm_map.
by split; [congr (_ + _)|]; apply: perm_big.
Qed.

Lemma step_add d st x y : fitted d st ->
  exists st', woodbury_step st x y 1 = Some st' /\ fitted (rcons d (x, y)) st'.
Proof.
move=> [U Hst].
have E : ones (rcons d (x, y)) = rcons (ones d) ((x, y), 1^-1) by rewrite ones_rcons invr1.
have U' : amat pen lambda (rcons (ones d) ((x, y), 1^-1)) \in unitmx.
  by rewrite -E -cats1; apply: good_cat.
have [st' [H1 H2]] := woodbury_ok U Hst (oner_neq0 R) U'.
by exists st'; split=> //; rewrite /fitted E.
Qed.

Arguments good_perm {d e}.
Lemma step_rem d e st x y : perm_eq e ((x, y) :: d) -> fitted e st -> good d ->
  exists st', woodbury_step st x y (-1) = Some st' /\ fitted d st'.
Proof.
move=> Hp [U Hst] Ud.
have [EA EM] := good_perm Hp.
have E1 : (-1)^-1 = -1 :> R by rewrite invrN invr1.
have GA : amat pen lambda (rcons (ones e) ((x, y), (-1)^-1)) = amat pen lambda (ones d).
  have -> : amat pen lambda (rcons (ones e) ((x, y), (-1)^-1)) = amat pen lambda (ones e) - x^T *m x.
    by rewrite /amat -cats1 gram_cat {2}/gram big_seq1 /= E1 scaleN1r -!addrA [X in _ + X]addrC.
  rewrite EA /amat /gram /= big_cons /= scale1r.
  by set X := x^T *m x; set S := \sum_(_ <- _) _; rewrite -[X + S + _]addrA [X + _]addrC addrK.
have GM : moment (rcons (ones e) ((x, y), (-1)^-1)) = moment (ones d).
  rewrite -cats1 moment_cat EM /moment big_seq1 /= big_cons /= E1 mul1r mulN1r scaleNr.
  by rewrite [y *: _ + _]addrC addrK.
have U' : amat pen lambda (rcons (ones e) ((x, y), (-1)^-1)) \in unitmx by rewrite GA.
have N1 : (-1 : R) != 0 by rewrite oppr_eq0 oner_neq0.
have [st' [H1 H2]] := woodbury_ok U Hst N1 U'.
by exists st'; split=> //; split=> //; rewrite -GA -GM.
Qed.

Arguments step_rem {d e st x y}.
(** Rows that may be missing. *)
Lemma valid_cat (a b : seq (nrow R m)) : valid_rows (a ++ b) = valid_rows a ++ valid_rows b.
Proof. exact: pmap_cat. Qed.
Lemma valid_rcons (a : seq (nrow R m)) r : valid_rows (rcons a (Some r)) = rcons (valid_rows a) r.
Proof. by rewrite -!cats1 valid_cat. Qed.
Lemma valid_rcons_none (a : seq (nrow R m)) : valid_rows (rcons a None) = valid_rows a.
Proof. by rewrite -cats1 valid_cat cats0. Qed.

Lemma upd_add rows st r : fitted (valid_rows rows) st ->
  exists st', update (Some st) r 1 = Some st' /\ fitted (valid_rows (rcons rows r)) st'.
Proof.
case: r => [[x y]|] H /=; last by exists st; rewrite valid_rcons_none.
by have [st' [H1 H2]] := step_add x y H; exists st'; rewrite valid_rcons.
Qed.

Lemma upd_rem rows st o : fitted (valid_rows (o :: rows)) st -> good (valid_rows rows) ->
  exists st', update (Some st) o (-1) = Some st' /\ fitted (valid_rows rows) st'.
Proof.
case: o => [[x y]|] H U /=; last by exists st.
by have [st' [H1 H2]] := step_rem (perm_refl _) H U; exists st'.
Qed.

Arguments upd_add {rows st}.
Arguments upd_rem {rows st o}.

(** *** The recursive loop *)
Lemma recursive_loop_ok rest done st : fitted (valid_rows done) st ->
  size (recursive_loop (Some st) rest) = size rest /\
  forall i, (i < size rest)%N -> exists w,
    nth None (recursive_loop (Some st) rest) i = Some w /\
    unique_min (ridge_err pen lambda (valid_rows (done ++ take i.+1 rest))) w.
Proof.
elim: rest done st => [|r rest IH] done st H //=.
have [st' [E H']] := upd_add r H; rewrite /= in E; rewrite E.
have [IH1 IH2] := IH (rcons done r) st' H'; split; first by rewrite /= IH1.
case=> [_|i Hi] /=.
  exists (o_coef st'); split=> //; rewrite take0 cats1; exact: fitted_min.
by have [w [H1 H2]] := IH2 i Hi; exists w; rewrite -cat_rcons.
Qed.

(** *** The rolling loops *)
Lemma roll_step n l st : (0 < n)%N -> (n < size l)%N -> fitted (valid_rows (take n l)) st ->
  good (valid_rows (take n.-1 (behead l))) ->
  exists o r l' st', [/\ l = o :: l', drop n l = r :: drop n l',
    update (update (Some st) o (-1)) r 1 = Some st' &
    fitted (valid_rows (take n l')) st'].
Proof.
case: n => // n _; case: l => [//|o l'] /= Hs; rewrite ltnS in Hs => H U.
exists o, (nth None l' n), l'.
have E : drop n l' = nth None l' n :: drop n.+1 l' by apply: drop_nth.
have [st1 [E1 H1]] := upd_rem H U.
have [st2 [E2 H2]] := upd_add (nth None l' n) H1.
exists st2; split=> //; first by rewrite E1.
by rewrite (take_nth None Hs).
Qed.

Arguments roll_step {n l st}.
Lemma rolling_loop_ok n l st : (0 < n)%N -> fitted (valid_rows (take n l)) st ->
  (forall i, (i + n < size l)%N -> good (valid_rows (take n.-1 (drop i.+1 l)))) ->
  size (rolling_loop (Some st) l (drop n l)) = (size l - n)%N /\
  forall i, (i + n < size l)%N -> exists w,
    nth None (rolling_loop (Some st) l (drop n l)) i = Some w /\
    unique_min (ridge_err pen lambda (valid_rows (take n (drop i.+1 l)))) w.
Proof.
move=> Hn; elim: {l}(size l) {-2}l (leqnn (size l)) st => [|k IH] l Hk st H U.
  have -> : l = [::] by apply/nilP; rewrite /nilp -leqn0.
  by [].
have [Hs|Hs] := ltnP n (size l); last first.
  rewrite drop_oversize //; have -> : rolling_loop (Some st) l [::] = [::] by case: (l).
  split; first by apply/esym/eqP; rewrite subn_eq0.
  by move=> i Hi; move: (leq_trans (leq_ltn_trans (leq_addl i n) Hi) Hs); rewrite ltnn.
have U0 : good (valid_rows (take n.-1 (behead l))).
  by have := U 0%N Hs; rewrite drop1.
have [o [r [l' [st' [E1 E2 E3 E4]]]]] := roll_step Hn Hs H U0.
have -> : rolling_loop (Some st) l (drop n l) = coeffs_of (Some st') :: rolling_loop (Some st') l' (drop n l').
  by rewrite E2 E1 -E3.
rewrite E1.
have Hk' : (size l' <= k)%N by move: Hk; rewrite E1.
have U' : forall i, (i + n < size l')%N -> good (valid_rows (take n.-1 (drop i.+1 l'))).
  by move=> i Hi; have := U i.+1; rewrite E1 /= addSn ltnS => /(_ Hi).
have [IH1 IH2] := IH l' Hk' st' E4 U'; split.
  by rewrite /= IH1 subSn //; move: Hs; rewrite E1 /= ltnS.
case=> [_|i Hi] /=; first by exists (o_coef st'); split=> //; rewrite drop0; apply: fitted_min.
exact: IH2.
Qed.

Lemma size_valid_le (rows : seq (nrow R m)) : (size (valid_rows rows) <= size rows)%N.
Proof. by rewrite size_pmap count_size. Qed.

Lemma skipping_loop_ok n ms l st : (0 < n)%N -> fitted (valid_rows (take n l)) st ->
  (forall i, (i + n < size l)%N -> good (valid_rows (take n.-1 (drop i.+1 l)))) ->
  let out := skipping_loop ms (Some st) (size (valid_rows (take n l))) l (drop n l) in
  size out = (size l - n)%N /\
  forall i, (i + n < size l)%N ->
    let win := valid_rows (take n (drop i.+1 l)) in
    if (ms <= size win)%N
    then exists w, nth None out i = Some (Some w) /\ unique_min (ridge_err pen lambda win) w
    else nth None out i = None.
Proof.
move=> Hn; elim: {l}(size l) {-2}l (leqnn (size l)) st => [|k IH] l Hk st H U.
  have -> : l = [::] by apply/nilP; rewrite /nilp -leqn0.
  by [].
have [Hs|Hs] := ltnP n (size l); last first.
  move=> out; have -> : out = [::] by rewrite /out drop_oversize //; case: (l).
  split; first by apply/esym/eqP; rewrite subn_eq0.
  by move=> i Hi; move: (leq_trans (leq_ltn_trans (leq_addl i n) Hi) Hs); rewrite ltnn.
have U0 : good (valid_rows (take n.-1 (behead l))).
  by have := U 0%N Hs; rewrite drop1.
have [o [r [l' [st' [E1 E2 E3 E4]]]]] := roll_step Hn Hs H U0.
have Hcnt : (if is_row r then ((if is_row o then size (valid_rows (take n l)) - 1 else size (valid_rows (take n l))) + 1)%N
             else (if is_row o then size (valid_rows (take n l)) - 1 else size (valid_rows (take n l)))%N)
            = size (valid_rows (take n l')).
  have -> : (if is_row o then size (valid_rows (take n l)) - 1 else size (valid_rows (take n l)))%N
            = size (valid_rows (take n.-1 l')).
    by rewrite E1; case: (n) Hn => //= n' _; case: o {E1 E3} => [o|] //=; rewrite subn1.
  have Er : take n l' = rcons (take n.-1 l') r.
    case: (n) Hn Hs E2 => // n' _; rewrite E1 /= ltnS => Hs E2.
    have := take_nth None Hs => ->; congr rcons.
    by have := drop_nth None Hs; rewrite E2 => -[].
  rewrite Er; case: r {E2 E3 Er} => [r|] /=; first by rewrite valid_rcons size_rcons addn1.
  by rewrite valid_rcons_none.
have Hk' : (size l' <= k)%N by move: Hk; rewrite E1.
have U' : forall i, (i + n < size l')%N -> good (valid_rows (take n.-1 (drop i.+1 l'))).
  by move=> i Hi; have := U i.+1; rewrite E1 /= addSn ltnS => /(_ Hi).
have [IH1 IH2] := IH l' Hk' st' E4 U'.
have -> : skipping_loop ms (Some st) (size (valid_rows (take n l))) l (drop n l)
  = (if (ms <= size (valid_rows (take n l')))%N then Some (coeffs_of (Some st')) else None)
    :: skipping_loop ms (Some st') (size (valid_rows (take n l'))) l' (drop n l').
  move: Hcnt E3; rewrite E2; move: (size (valid_rows (take n l))) => c; rewrite E1 => Hcnt E3.
  by rewrite -Hcnt -E3.
move=> out; split; first by rewrite /out /= IH1 E1 /= subSn //; move: Hs; rewrite E1 /= ltnS.
case=> [_|i Hi].
  rewrite /out E1 /= drop0; case: (ms <= size _)%N => //.
  by exists (o_coef st'); split=> //; apply: fitted_min.
have := IH2 i; rewrite E1 /= in Hi; rewrite addSn ltnS in Hi => /(_ Hi).
by rewrite E1 /=.
Qed.
End Online.
