(** Proofs about simple_lin_reg. *)
From Coq Require Import Ring Field.
From mathcomp Require Import all_ssreflect all_algebra.
From Verif Require Import LinModel LinSpec LinCore LinProofs LinExprSpec LinExpr LinExpr2 LinDemos SlrModel SlrSpec.
Set Implicit Arguments.
Unset Strict Implicit.
Import Order.TTheory GRing.Theory Num.Theory.
Local Open Scope ring_scope.

Section Scalars.
Variable R : realFieldType.
(** Coq's [ring] and [field] for the field [R]. *)
Add Ring Rring : (@Rrt R).
Add Field Rfield : (@Rft R).
Notation K := (@K R). Notation kadd := (@kadd R). Notation kmul := (@kmul R). Notation kopp := (@kopp R).
Notation kinv := (@kinv R). Notation k0 := (k0 R). Notation k1 := (k1 R).
Ltac tok := rewrite ?exprS ?expr0 ?mulrS ?mulr0n;
  repeat match goal with
  | |- context[@GRing.add _ ?a ?b] => change (@GRing.add _ a b) with (kadd a b)
  | |- context[@GRing.mul _ ?a ?b] => change (@GRing.mul _ a b) with (kmul a b)
  | |- context[@GRing.opp _ ?a] => change (@GRing.opp _ a) with (kopp a)
  | |- context[@GRing.inv _ ?a] => change (@GRing.inv _ a) with (kinv a)
  | |- context[@GRing.zero _] => change (@GRing.zero _) with k0
  | |- context[@GRing.one _] => change (@GRing.one _) with k1
  end; match goal with |- @eq _ ?a ?b => change (@eq K a b) end.
Ltac rg := tok; ring.
Ltac fd := tok; field.

Lemma err_id (q n1 n0 m2 m1 m0 b a : R) : m0 != 0 ->
  let xm := m1 / m0 in let ym := n0 / m0 in
  let D := m2 - 2%:R * xm * m1 + xm ^+ 2 * m0 in let N := n1 - xm * n0 - ym * m1 + xm * ym * m0 in D != 0 ->
  let beta := N / D in let alpha := ym - beta * xm in
  let L b a := q - 2%:R * b * n1 - 2%:R * a * n0 + b ^+ 2 * m2 + 2%:R * a * b * m1 + a ^+ 2 * m0 in
  L b a = L beta alpha + ((b - beta) ^+ 2 * D + m0 * ((b - beta) * xm + (a - alpha)) ^+ 2).
Proof.
move=> /eqP H0 xm ym D N HD beta alpha L.
have E : D = (m2 * m0 - m1 ^+ 2) / m0 by rewrite /D /xm; fd.
move: HD; rewrite E mulf_eq0 negb_or => /andP[/eqP HE _].
rewrite /L /alpha /beta /N /ym E /xm; fd; split=> //.
Qed.
Lemma normal_id (n1 n0 m2 m1 m0 : R) : m0 != 0 ->
  let xm := m1 / m0 in let ym := n0 / m0 in
  let D := m2 - 2%:R * xm * m1 + xm ^+ 2 * m0 in let N := n1 - xm * n0 - ym * m1 + xm * ym * m0 in D != 0 ->
  let beta := N / D in let alpha := ym - beta * xm in
  n0 - beta * m1 - alpha * m0 = 0 /\ n1 - beta * m2 - alpha * m1 = 0.
Proof.
move=> /eqP H0 xm ym D N HD beta alpha.
have E : D = (m2 * m0 - m1 ^+ 2) / m0 by rewrite /D /xm; fd.
move: HD; rewrite E mulf_eq0 negb_or => /andP[/eqP HE _].
by split; rewrite /alpha /beta /N /ym E /xm; fd; split=> //.
Qed.

(** The sums of a set of points. *)
Variable d : seq (point R).
Notation S F := (\sum_(q <- d) wt q * F q).
Lemma sum_lin (c : R) (F G : point R -> R) : S (fun q => F q + c * G q) = S F + c * S G.
Proof. by rewrite mulr_sumr -big_split /=; apply: eq_bigr => q _; rg. Qed.

Lemma line_errE b a : line_err d b a = S (fun q => py q ^+ 2) - 2%:R * b * S (fun q => px q * py q) - 2%:R * a * S (@py R) +
  b ^+ 2 * S (fun q => px q ^+ 2) + 2%:R * a * b * S (@px R) + a ^+ 2 * \sum_(q <- d) wt q.
Proof.
rewrite /line_err; elim: d => [|q l IH]; first by rewrite !big_nil; rg.
by rewrite !big_cons IH; rg.
Qed.
Lemma DE m : S (fun q => (px q - m) ^+ 2) = S (fun q => px q ^+ 2) - 2%:R * m * S (@px R) + m ^+ 2 * \sum_(q <- d) wt q.
Proof.
elim: d => [|q l IH]; first by rewrite !big_nil; rg.
by rewrite !big_cons IH; rg.
Qed.
Lemma NE m k : S (fun q => (px q - m) * (py q - k)) = S (fun q => px q * py q) - m * S (@py R) - k * S (@px R) + m * k * \sum_(q <- d) wt q.
Proof.
elim: d => [|q l IH]; first by rewrite !big_nil; rg.
by rewrite !big_cons IH; rg.
Qed.
Lemma resE b a : S (fun q => py q - (b * px q + a)) = S (@py R) - b * S (@px R) - a * \sum_(q <- d) wt q.
Proof.
elim: d => [|q l IH]; first by rewrite !big_nil; rg.
by rewrite !big_cons IH; rg.
Qed.
Lemma resxE b a : \sum_(q <- d) wt q * px q * (py q - (b * px q + a)) = S (fun q => px q * py q) - b * S (fun q => px q ^+ 2) - a * S (@px R).
Proof.
elim: d => [|q l IH]; first by rewrite !big_nil; rg.
by rewrite !big_cons IH; rg.
Qed.

Definition W := \sum_(q <- d) wt q.
Definition xm := S (@px R) / W.
Definition ym := S (@py R) / W.
Definition Dw := S (fun q => (px q - xm) ^+ 2).
Definition Nw := S (fun q => (px q - xm) * (py q - ym)).
Definition bw := Nw / Dw.
Definition aw := ym - bw * xm.

Lemma err_bw b a : W != 0 -> Dw != 0 ->
  line_err d b a = line_err d bw aw + ((b - bw) ^+ 2 * Dw + W * ((b - bw) * xm + (a - aw)) ^+ 2).
Proof.
move=> H0 HD; rewrite !line_errE -/W.
have := @err_id (S (fun q => py q ^+ 2)) (S (fun q => px q * py q)) (S (@py R)) (S (fun q => px q ^+ 2)) (S (@px R)) W b a H0.
by rewrite /= -/xm -/ym -DE -NE -/Dw -/Nw -/bw -/aw => ->.
Qed.
Lemma res_bw : W != 0 -> Dw != 0 -> S (fun q => py q - (bw * px q + aw)) = 0 /\ \sum_(q <- d) wt q * px q * (py q - (bw * px q + aw)) = 0.
Proof.
move=> H0 HD; rewrite resE resxE -/W.
have := @normal_id (S (fun q => px q * py q)) (S (@py R)) (S (fun q => px q ^+ 2)) (S (@px R)) W H0.
by rewrite /= -/xm -/ym -DE -NE -/Dw -/Nw -/bw -/aw; apply.
Qed.

Hypothesis pos : all (fun q => 0 <= wt q) d.
Notation spread := (spread d).
Notation away := (away d).
Lemma pos_in (q : R * R * R) : q \in d -> 0 <= wt q.
Proof. exact: (allP pos). Qed.

Lemma Wpos (q : R * R * R) : q \in d -> 0 < wt q -> 0 < W.
Proof.
move=> Hq H; rewrite lt_def /W big_seq_cond sumr_ge0 ?andbT; last by move=> i /andP[/pos_in].
rewrite psumr_eq0; last by move=> i /andP[/pos_in].
by apply/allPn; exists q => //; rewrite Hq /= gt_eqF.
Qed.
Lemma Dpos_iff m : 0 <= S (fun q => (px q - m) ^+ 2) /\
  (S (fun q => (px q - m) ^+ 2) = 0 <-> forall q : R * R * R, q \in d -> 0 < wt q -> px q = m).
Proof.
have G (i : R * R * R) : (i \in d) && true -> 0 <= wt i * (px i - m) ^+ 2 by move=> /andP[/pos_in ? _]; rewrite mulr_ge0 ?sqr_ge0.
rewrite big_seq_cond; split; first by rewrite sumr_ge0.
split=> [/eqP|H].
  rewrite psumr_eq0 // => /allP H q Hq P; have := H q Hq; rewrite Hq /= mulf_eq0 (gt_eqF P) /= sqrf_eq0 subr_eq0.
  by move/eqP.
apply/eqP; rewrite psumr_eq0 //; apply/allP => q Hq; rewrite Hq /= mulf_eq0 sqrf_eq0 subr_eq0.
have := pos_in Hq; rewrite le_eqVlt => /orP[/eqP <-|P]; first by rewrite eqxx.
by rewrite (H q) // eqxx orbT.
Qed.
Lemma spread_pos : spread -> 0 < W /\ 0 < Dw.
Proof.
move=> [q Hq [q' Hq' [P P' N]]]; split; first exact: Wpos Hq P.
have [G1 G2] := Dpos_iff xm; rewrite lt_def G1 andbT; apply/eqP => Z; have H := G2.1 Z.
by move: N; rewrite (H q) // (H q') // eqxx.
Qed.
Lemma best_bw : spread -> best_line d bw aw.
Proof.
move=> /spread_pos[PW PD] b a Hne; rewrite (err_bw b a) ?gt_eqF // ltr_addl.
have [Eb|Nb] := eqVneq b bw.
  rewrite Eb subrr expr0n /= !mul0r !add0r pmulr_rgt0 // lt_def sqr_ge0 sqrf_eq0 subr_eq0 andbT.
  by apply/eqP => Ea; apply: Hne.
apply: ltr_paddr; first by apply: mulr_ge0; [exact: ltW|exact: sqr_ge0].
by rewrite pmulr_lgt0 // lt_def sqr_ge0 sqrf_eq0 subr_eq0 Nb.
Qed.
Lemma not_spread : 0 < W -> ~ spread -> Dw = 0.
Proof.
move=> PW NS.
have [[q Hq P]|H] : (exists2 q : R * R * R, q \in d & 0 < wt q) \/ (forall q : R * R * R, q \in d -> ~~ (0 < wt q)).
    have [/hasP[q]|/hasPn H] := boolP (has (fun q => 0 < wt q) d); [by left; exists q|by right].
  have E (q' : R * R * R) : q' \in d -> 0 < wt q' -> px q' = px q.
    by move=> Hq' P'; apply/eqP/negP => /negP N; apply: NS; exists q' => //; exists q.
  have Ex : xm = px q.
    rewrite /xm; have -> : S (@px R) = px q * W; last by rewrite mulfK // gt_eqF.
    rewrite mulr_sumr big_seq [RHS]big_seq; apply: eq_bigr => i Hi.
    have := pos_in Hi; rewrite le_eqVlt => /orP[/eqP <-|Pi]; first by rewrite mul0r mulr0.
    by rewrite E // mulrC.
  by apply/(Dpos_iff xm).2 => i Hi Pi; rewrite Ex E.
move: PW; rewrite /W big_seq big1 ?ltxx // => i Hi.
by apply/le_anti; rewrite pos_in // andbT leNgt H.
Qed.

(** Through the origin. *)
Definition D0 := S (fun q => px q ^+ 2).
Definition N0 := S (fun q => px q * py q).
Lemma err_b0 b : D0 != 0 -> line_err d b 0 = line_err d (N0 / D0) 0 + (b - N0 / D0) ^+ 2 * D0.
Proof. move=> /eqP H; rewrite !line_errE -/D0 -/N0; fd; exact: H. Qed.
Lemma D0_iff : 0 <= D0 /\ (D0 = 0 <-> ~ away).
Proof.
have [G1 G2] := Dpos_iff 0.
have E : S (fun q => (px q - 0) ^+ 2) = D0 by apply: eq_bigr => q _; rewrite subr0.
rewrite E in G1 G2; split=> //; rewrite G2; split=> [H [q Hq [P /eqP N]]|H q Hq P]; first by apply: N; apply: H.
by apply/eqP/negP => /negP N; apply: H; exists q.
Qed.
Lemma best_b0 : away -> best_slope d (N0 / D0).
Proof.
move=> A; have [G1 G2] := D0_iff; have PD : 0 < D0 by rewrite lt_def G1 andbT; apply/eqP => Z; exact: (G2.1 Z).
move=> b Hb; rewrite (err_b0 b) ?gt_eqF // ltr_addl pmulr_lgt0 // lt_def sqr_ge0 sqrf_eq0 subr_eq0 andbT.
by apply/eqP.
Qed.
End Scalars.

Section Run.
Variable R : realFieldType.
Implicit Types (l : seq (row R)) (a b c : option R).
Definition o2 (f : R -> R -> R) a b : option R := obind (fun x => omap (f x) b) a.

Lemma vmul_cell a b : vmul (cell a) (cell b) = cell (o2 *%R a b). Proof. by case: a b => [x|] [y|]. Qed.
Lemma vsub_cell a b : vsub (cell a) (cell b) = cell (o2 (fun x y => x - y) a b). Proof. by case: a b => [x|] [y|]. Qed.
Lemma vsub_val a m : vsub (cell a) (Val m) = cell (omap (fun x => x - m) a). Proof. by case: a. Qed.

Lemma vsum_cells (T : Type) (l : seq T) (f : T -> option R) : vsum (map (fun r => cell (f r)) l) = Val (\sum_(r <- l) odflt 0 (f r)).
Proof.
elim: l => [|r l IH]; first by rewrite big_nil.
rewrite big_cons [vsum _]/= -/(vsum _) IH; by case: (f r) => [x|] //=; rewrite ?add0r.
Qed.
Lemma zipw_map (T : Type) (l : seq T) (g : val R -> val R -> val R) f h : zipw g (map f l) (map h l) = map (fun r => g (f r) (h r)) l.
Proof. by rewrite /zipw; elim: l => //= r l ->. Qed.
Lemma dot_cells (T : Type) (l : seq T) (f g : T -> option R) : dot (map (fun r => cell (f r)) l) (map (fun r => cell (g r)) l) =
  Val (\sum_(r <- l) odflt 0 (o2 *%R (f r) (g r))).
Proof. by rewrite /dot zipw_map -vsum_cells; congr vsum; apply: eq_map => r; rewrite vmul_cell. Qed.

Definition point_of wtd (r : row R) : option (point R) :=
  match (if wtd then rw r else Some 1), rx r, ry r with
  | Some w, Some x, Some y => Some (Pt w x y) | _, _, _ => None end.
Lemma sum_points wtd l (F : point R -> R) : \sum_(q <- points wtd l) F q = \sum_(r <- l) oapp F 0 (point_of wtd r).
Proof.
elim: l => [|r l IH]; first by rewrite !big_nil.
rewrite big_cons -IH [points _ _]/= -/(points _ _) /point_of.
case: (if wtd then rw r else Some 1) => [w|] /=; last by rewrite add0r.
by case: (rx r) => [x|] /=; [case: (ry r) => [y|] /=|]; rewrite ?add0r // big_cons.
Qed.

(** Sums over the rows are sums over the points when what is summed is known in the same rows. *)
Lemma rows_points wtd (K : row R -> bool) l (f : row R -> option R) (F : point R -> R) :
  (forall r, K r -> f r = omap F (point_of wtd r)) -> all K l ->
  \sum_(r <- l) odflt 0 (f r) = \sum_(q <- points wtd l) F q.
Proof.
move=> H; rewrite sum_points; elim: l => [|r l IH] /=; first by rewrite !big_nil.
by move=> /andP[/H E /IH {}IH]; rewrite !big_cons IH E; case: (point_of _ _).
Qed.
Arguments rows_points wtd K [l f] F.

Ltac pts := move=> [[?|] [?|] [?|]] //=; rewrite /together /target_known /point_of /= ?mul1r ?mulrA //=.

Section Bias.
Variable l : seq (row R).
Notation P := (points false l).
Hypothesis T : all (together false) l.

Lemma xsum : vsum (xs l) = Val (\sum_(q <- P) wt q * px q).
Proof. by rewrite vsum_cells (rows_points false (together false) (fun q => wt q * px q)) //; pts. Qed.
Lemma ysum : vsum (ys l) = Val (\sum_(q <- P) wt q * py q).
Proof. by rewrite vsum_cells (rows_points false (together false) (fun q => wt q * py q)) //; pts. Qed.
Lemma known_cell a : known (cell a) = isSome a. Proof. by case: a. Qed.
Lemma xcount : count (@known R) (xs l) = size P.
Proof. elim: l T => //= r l' IH /andP[H /IH ->]; case: r H => [[?|] [?|] [?|]] //=. Qed.
Lemma ycount : count (@known R) (ys l) = size P.
Proof. elim: l T => //= r l' IH /andP[H /IH ->]; case: r H => [[?|] [?|] [?|]] //=. Qed.
Lemma Wsize : W P = (size P)%:R.
Proof.
rewrite /W; elim: l => [|r l' IH]; first by rewrite big_nil.
rewrite [points _ _]/= -/(points _ _); case: (rx r) => [x|] //; case: (ry r) => [y|] //=.
by rewrite big_cons IH -add1n natrD.
Qed.
Lemma xmean : P <> [::] -> vmean (xs l) = Val (xm P).
Proof.
move=> N; have S0 : (0 < size P)%N by case: (P) N.
rewrite /vmean has_count xcount S0 xsum /vdiv /= pnatr_eq0 gtn_eqF //; by rewrite /xm Wsize.
Qed.
Lemma ymean : P <> [::] -> vmean (ys l) = Val (ym P).
Proof.
move=> N; have S0 : (0 < size P)%N by case: (P) N.
rewrite /vmean has_count ycount S0 ysum /vdiv /= pnatr_eq0 gtn_eqF //; by rewrite /ym Wsize.
Qed.
Lemma minus_cells (f : row R -> option R) m : minus (map (fun r => cell (f r)) l) (Val m) = map (fun r => cell (omap (fun x => x - m) (f r))) l.
Proof. by rewrite /minus -map_comp; apply: eq_map => r; rewrite /= vsub_val. Qed.

Lemma run_bias : P <> [::] -> slope_intercept (xs l) (ys l) None =
  if Dw P == 0 then (Bad, Bad) else (Val (bw P), Val (aw P)).
Proof.
move=> N; rewrite /slope_intercept xmean // ymean // !minus_cells !dot_cells.
rewrite (rows_points false (together false) (fun q => wt q * ((px q - xm P) * (py q - ym P)))) //; last by pts.
rewrite (rows_points false (together false) (fun q => wt q * ((px q - xm P) ^+ 2))) //; last by pts; rewrite expr2.
by rewrite -/(Nw P) -/(Dw P) /vdiv /=; case: ifP.
Qed.
Lemma run_bias0 : P = [::] -> slope_intercept (xs l) (ys l) None = (Bad, Null).
Proof.
move=> E; have Ex : vmean (xs l) = Null by rewrite /vmean has_count xcount E.
have Ey : vmean (ys l) = Null by rewrite /vmean has_count ycount E.
have Z (a b : seq (val R)) : dot (minus a Null) b = Val 0.
  rewrite /dot /zipw; elim: a b => [|x a IH] [|y b] //=; rewrite -/(vsum _); move: (IH b); rewrite /= -/(vsum _) => ->.
  by case: x.
by rewrite /slope_intercept Ex Ey !Z /vdiv /= eqxx.
Qed.
End Bias.

Lemma prod_cells l (f g : row R -> option R) : zipw (@vmul R) (map (fun r => cell (f r)) l) (map (fun r => cell (g r)) l) =
  map (fun r => cell (o2 *%R (f r) (g r))) l.
Proof. by rewrite zipw_map; apply: eq_map => r; rewrite vmul_cell. Qed.
Lemma square_cells l (f : row R -> option R) : square (map (fun r => cell (f r)) l) = map (fun r => cell (o2 *%R (f r) (f r))) l.
Proof. by rewrite /square -map_comp; apply: eq_map => r; rewrite /= vmul_cell. Qed.

Section Weighted.
Variable l : seq (row R).
Notation P := (points true l).
Hypothesis T : all (together true) l.

Lemma wsum : vsum (ws l) = Val (W P).
Proof. by rewrite vsum_cells (rows_points true (together true) (@wt R)) //; pts. Qed.
Lemma run_weighted : W P != 0 -> slope_intercept (xs l) (ys l) (Some (ws l)) =
  if Dw P == 0 then (Bad, Bad) else (Val (bw P), Val (aw P)).
Proof.
move=> N; rewrite /slope_intercept wsum !dot_cells.
rewrite (rows_points true (together true) (fun q => wt q * px q)) //; last by pts.
rewrite (rows_points true (together true) (fun q => wt q * py q)) //; last by pts.
rewrite ![vdiv (Val _) (Val (W P))]/vdiv ![op2 _ (Val _) (Val (W P))]/= (negbTE N) -/(xm P) -/(ym P).
rewrite !minus_cells square_cells prod_cells.
rewrite !dot_cells.
rewrite (rows_points true (together true) (fun q => wt q * ((px q - xm P) * (py q - ym P)))) //; last by pts.
rewrite (rows_points true (together true) (fun q => wt q * ((px q - xm P) ^+ 2))) //; last by pts; rewrite expr2 mulrA.
by rewrite -/(Nw P) -/(Dw P) /vdiv /=; case: ifP.
Qed.
(** No weight: neither coefficient is a number. *)
Definition not_val (x : val R) : bool := if x is Val _ then false else true.
Lemma vdiv_bad (a b : val R) : b = Bad \/ b = Val 0 -> not_val (vdiv a b).
Proof. by case=> ->; case: a => // x; rewrite /vdiv /= eqxx. Qed.
Lemma vsum_bad (c : seq (val R)) : all not_val c -> vsum c = Bad \/ vsum c = Val 0.
Proof. elim: c => [|x c IH] /=; [by right|case/andP=> Hx /IH]; case: x Hx => //= _ [->|->]; rewrite /vadd /=; auto. Qed.
Lemma run_weightless : W P = 0 -> not_val (slope_intercept (xs l) (ys l) (Some (ws l))).1 /\ not_val (slope_intercept (xs l) (ys l) (Some (ws l))).2.
Proof.
move=> Z; rewrite /slope_intercept wsum Z !dot_cells ![vdiv (Val _) (Val 0)]/vdiv ![op2 _ (Val _) (Val 0)]/= eqxx /=.
split; last by case: (vdiv _ _).
apply: vdiv_bad; apply: vsum_bad.
rewrite /zipw /square /minus /xs /ws; elim: l => //= r l' ->; by case: (rx r); case: (rw r).
Qed.
End Weighted.

(** Through the origin. *)
Lemma run_slope l : all (target_known false) l -> slope (xs l) (ys l) None = if D0 (points false l) == 0 then Bad else Val (N0 (points false l) / D0 (points false l)).
Proof.
move=> T; rewrite /slope !dot_cells.
rewrite (rows_points false xpredT (fun q => wt q * (px q * py q))) //; [|by pts|exact: all_predT].
rewrite (rows_points false (target_known false) (fun q => wt q * (px q ^+ 2))) //; by pts; rewrite expr2.
Qed.
Lemma run_wslope l : all (target_known true) l -> slope (xs l) (ys l) (Some (ws l)) = if D0 (points true l) == 0 then Bad else Val (N0 (points true l) / D0 (points true l)).
Proof.
move=> T; rewrite /slope prod_cells square_cells !dot_cells.
rewrite (rows_points true xpredT (fun q => wt q * (px q * py q))) //; [|by pts|exact: all_predT].
rewrite (rows_points true (target_known true) (fun q => wt q * (px q ^+ 2))) //; by pts; rewrite expr2 ?mulrA.
Qed.

(** The whole expression. *)
Definition wcol wtd l : option (seq (val R)) := if wtd then Some (ws l) else None.
Lemma points_pos wtd l : all (weight_ok wtd) l -> all (fun q : point R => 0 <= wt q) (points wtd l).
Proof.
elim: l => //= r l IH /andP[H /IH {}IH]; move: H; rewrite /weight_ok.
by case: wtd IH => IH; case: (rw r) => [w|] //=; case: (rx r) => [x|] //; case: (ry r) => [y|] //= H; rewrite IH /wt /= ?ler01 ?H.
Qed.
Lemma W_ge0 (d : seq (point R)) : all (fun q => 0 <= wt q) d -> 0 <= W d.
Proof. by elim: d => [|q d IH] /=; rewrite /W ?big_nil // big_cons => /andP[H /IH]; exact: addr_ge0. Qed.

Lemma bias_thm wtd l : all (together wtd) l -> all (weight_ok wtd) l ->
  (spread (points wtd l) -> exists b a : R, coeffs true (xs l) (ys l) (wcol wtd l) = [:: Val b; Val a] /\ best_line (points wtd l) b a) /\
  (~ spread (points wtd l) -> forall i x, nth Null (coeffs true (xs l) (ys l) (wcol wtd l)) i <> Val x).
Proof.
move=> T HW; have HP := points_pos HW; split=> [Sp|NS].
  have [PW PD] := spread_pos HP Sp; exists (bw (points wtd l)), (aw (points wtd l)); split; last exact: best_bw.
  have [NW ND] : W (points wtd l) != 0 /\ Dw (points wtd l) != 0 by rewrite !gt_eqF.
  case: wtd {HP HW} T Sp PW PD NW ND => T Sp PW PD NW ND; rewrite /coeffs [wcol _ _]/=.
    by rewrite run_weighted // (negbTE ND).
  rewrite run_bias //; first by rewrite (negbTE ND).
  by move=> E; move: NW; rewrite /W E big_nil eqxx.
have : not_val (slope_intercept (xs l) (ys l) (wcol wtd l)).1 /\ not_val (slope_intercept (xs l) (ys l) (wcol wtd l)).2.
  have := W_ge0 HP; rewrite le_eqVlt => /orP[/eqP Z|PW].
    case: wtd {HW HP NS} T Z => T Z; rewrite [wcol _ _]/=; first by apply: run_weightless.
    rewrite run_bias0 //; move/esym: Z; rewrite Wsize => /eqP; rewrite pnatr_eq0 size_eq0 => /eqP //.
  have ND := not_spread HP PW NS; have NW : W (points wtd l) != 0 by rewrite gt_eqF.
  case: wtd {HW HP NS} T PW ND NW => T PW ND NW; rewrite [wcol _ _]/=; first by rewrite run_weighted // ND eqxx.
  rewrite run_bias //; first by rewrite ND eqxx.
  by move=> E; move: NW; rewrite /W E big_nil eqxx.
rewrite /coeffs; case: (slope_intercept _ _ _) => u t /= [Hu Ht] [|[|i]] x /=; last by rewrite nth_nil.
  by case: u Hu.
by case: t Ht.
Qed.
Lemma slope_thm wtd l : all (target_known wtd) l -> all (weight_ok wtd) l ->
  (away (points wtd l) -> exists b : R, coeffs false (xs l) (ys l) (wcol wtd l) = [:: Val b] /\ best_slope (points wtd l) b) /\
  (~ away (points wtd l) -> forall i x, nth Null (coeffs false (xs l) (ys l) (wcol wtd l)) i <> Val x).
Proof.
move=> T HW; have HP := points_pos HW; have [_ G2] := D0_iff HP.
have E : coeffs false (xs l) (ys l) (wcol wtd l) = [:: if D0 (points wtd l) == 0 then Bad else Val (N0 (points wtd l) / D0 (points wtd l))].
  by rewrite /coeffs; case: wtd {HW HP G2} T => T; rewrite [wcol _ _]/= ?run_wslope ?run_slope.
rewrite E; split=> [A|NA].
  exists (N0 (points wtd l) / D0 (points wtd l)); split; last exact: best_b0.
  by rewrite ifN //; apply/eqP => Z; exact: (G2.1 Z).
by rewrite (G2.2 NA) eqxx => -[|i] x //=; rewrite nth_nil.
Qed.

(** Predictions and residuals. *)
Lemma pred_thm (bias : bool) l (w : option (seq (val R))) (b a : R) :
  coeffs bias (xs l) (ys l) w = (if bias then [:: Val b; Val a] else [:: Val b]) ->
  pred_resid bias (xs l) (ys l) w =
  [seq let pred x := if bias then b * x + a else b * x in
       (cell (omap pred (rx r)), if ry r is Some y then cell (omap (fun x => y - pred x) (rx r)) else Null) | r <- l].
Proof.
case: bias; rewrite /coeffs /pred_resid.
  case: (slope_intercept _ _ _) => u t [-> ->] /=; rewrite /zipw; elim: l => //= r l ->.
  by case: (rx r) => [x|]; case: (ry r) => [y|].
case: (slope _ _ _) => [||u] [] // <- /=; rewrite /zipw; elim: l => //= r l ->.
by case: (rx r) => [x|]; case: (ry r) => [y|].
Qed.

(** The residuals sum to zero and are orthogonal to the feature, whatever the signs of the weights. *)
Lemma resid_thm wtd l (b a : R) : all (together wtd) l -> coeffs true (xs l) (ys l) (wcol wtd l) = [:: Val b; Val a] ->
  \sum_(q <- points wtd l) wt q * (py q - (b * px q + a)) = 0 /\
  \sum_(q <- points wtd l) wt q * px q * (py q - (b * px q + a)) = 0.
Proof.
move=> T; rewrite /coeffs; case: wtd T => T; rewrite [wcol _ _]/=.
  have [Z|NW] := eqVneq (W (points true l)) 0.
    by have [] := run_weightless T Z; case: (slope_intercept _ _ _) => u t /= Hu Ht [Eu _]; rewrite Eu in Hu.
  by rewrite run_weighted //; have [//|ND] := eqVneq (Dw (points true l)) 0; move=> /= [<- <-]; apply: res_bw.
have [Z|NP] := eqVneq (points false l) [::]; first by rewrite run_bias0.
rewrite run_bias //; last exact/eqP.
have [//|ND] := eqVneq (Dw (points false l)) 0; move=> /= [<- <-]; apply: res_bw => //.
by rewrite Wsize pnatr_eq0 size_eq0.
Qed.

(** A null target with a feature other than zero spoils the slope through the origin. *)
Lemma slope_null l (b : R) : best_slope (points false l) b -> b <> 0 ->
  (exists r x, List.In r l /\ rx r = Some x /\ x != 0 /\ ry r = None) -> slope (xs l) (ys l) None <> Val b.
Proof.
move=> B Nb [r [x [Hr [Hx [Nx Hy]]]]].
have HP : all (fun q : point R => 0 <= wt q) (points false l) by apply: points_pos; elim: (l).
have [G1 G2] := D0_iff HP.
have PD : 0 < D0 (points false l).
  rewrite lt_def G1 andbT; apply/eqP => Z; have NA := G2.1 Z.
  have /B : b + 1 <> b by move/eqP; rewrite -subr_eq0 addrC addKr oner_eq0.
  have E (c : R) : line_err (points false l) c 0 = \sum_(q <- points false l) wt q * (py q) ^+ 2.
    rewrite /line_err !big_seq; apply: eq_bigr => q Hq; have [P|] := boolP (0 < wt q).
      have -> : px q = 0 by apply/eqP/negP => /negP Nq; apply: NA; exists q.
      by rewrite mulr0 add0r subr0.
    by rewrite lt_def (allP HP _ Hq) andbT negbK => /eqP ->; rewrite !mul0r.
  by rewrite !E ltxx.
have Eb : b = N0 (points false l) / D0 (points false l).
  apply/eqP/negP => /negP /eqP N; have := B _ (nesym N); rewrite (err_b0 b) ?gt_eqF // ltNge ler_addl.
  by rewrite mulr_ge0 ?sqr_ge0 ?ltW.
rewrite /slope !dot_cells (rows_points false xpredT (fun q => wt q * (px q * py q))) //; [|by pts|exact: all_predT].
set Da := \sum_(r <- l) _; have PA : D0 (points false l) < Da.
  rewrite /D0 sum_points /Da; elim: l Hr {B HP G1 G2 PD Eb Da} => //= r' l IH [E|Hr].
    rewrite !big_cons; apply: ltr_le_add.
      by rewrite E Hx /point_of Hx Hy /= lt_def mulf_neq0 // -expr2 sqr_ge0.
    apply: ler_sum => i _; rewrite /point_of; case: (rx i) => [xi|] //=; case: (ry i) => [yi|] /=.
      by rewrite /wt /px /= mul1r expr2.
    by rewrite -expr2 sqr_ge0.
  rewrite !big_cons; apply: ler_lt_add; last exact: IH.
  rewrite /point_of; case: (rx r') => [xi|] //=; case: (ry r') => [yi|] /=.
    by rewrite /wt /px /= mul1r expr2.
  by rewrite -expr2 sqr_ge0.
have PDa : 0 < Da by apply: lt_trans PA.
rewrite -/(N0 _) /vdiv /= gt_eqF // => -[E]; apply: Nb.
have : N0 (points false l) * D0 (points false l) = N0 (points false l) * Da.
  by have := E; rewrite Eb => /eqP; rewrite eqr_div ?(gt_eqF PDa) ?(gt_eqF PD) // => /eqP.
rewrite Eb; have [->|Nn] := eqVneq (N0 (points false l)) 0; first by rewrite !mul0r.
by move/(mulfI Nn) => ED; move: PA; rewrite ED ltxx.
Qed.
End Run.

(** The same coefficients as lin_reg. *)
Section Same.
Variable R : realFieldType.
Variable F : faer R.
Hypothesis HF : faer_ok F.
Definition lrows (l : seq (row R)) : seq (lrow R 1) := [seq mk1 (rx r) (ry r) | r <- l].
Lemma used_lrows l : used_rows (SKIP R) (lrows l) = [seq (f1 (px q), py q) | q <- points false l].
Proof.
rewrite /used_rows; elim: l => //= r l ->; case: (rx r) => [x|]; last by rewrite complete_mk1_none.
case: (ry r) => [y|] /=; first by rewrite complete_mk1.
by rewrite /complete_row /=; case: ifP.
Qed.
Lemma err1 l (h : 'cV[R]_(1 + true)) : sq_err (design true (used_rows (SKIP R) (lrows l))) h =
  line_err (points false l) (h (lshift true ord0) 0) (h (rshift 1 ord0) 0).
Proof.
rewrite used_lrows /sq_err /line_err /design !big_map; elim: l => [|r l IH]; first by rewrite !big_nil.
rewrite [points _ _]/= -/(points _ _); case: (rx r) => [x|] //; case: (ry r) => [y|] //=.
by rewrite !big_cons IH /=; congr (_ + _); rewrite [predict _ _]predict1 /wt mul1r mulrC.
Qed.
Lemma err0 l (h : 'cV[R]_(1 + false)) : sq_err (design false (used_rows (SKIP R) (lrows l))) h =
  line_err (points false l) (h (lshift false ord0) 0) 0.
Proof.
rewrite used_lrows /sq_err /line_err /design !big_map; elim: l => [|r l IH]; first by rewrite !big_nil.
rewrite [points _ _]/= -/(points _ _); case: (rx r) => [x|] //; case: (ry r) => [y|] //=.
by rewrite !big_cons IH /=; congr (_ + _); rewrite [predict _ _]predict0 /wt mul1r mulrC addr0.
Qed.
Lemma ridge00 m (pen : pred 'I_m) (d : seq ('rV[R]_m * R)) h : ridge_err pen (Num.max 0 0) d h = sq_err d h.
Proof. by rewrite /ridge_err maxxx mul0r addr0. Qed.

Lemma same1 l b a : spread (points false l) -> best_line (points false l) b a ->
  pl_lstsq F (args true 0 0 1) (lrows l) = Ok (Some (v2 b a)).
Proof.
move=> [q Hq [q' Hq' [P P' N]]] B.
have Mq (t : R * R * R) : t \in points false l -> (f1 (px t), py t) \in used_rows (SKIP R) (lrows l) by rewrite used_lrows => /(map_f (fun q => (f1 (px q), py q))).
have Sz : (0 < size (used_rows (SKIP R) (lrows l)))%N by rewrite used_lrows size_map; case: (points false l) Hq.
have [||||||w [E H]] := @lstsq_ok R F HF 1 (args true 0 0 1) (lrows l) => //.
- by case: (l) Hq.
- by apply: (@ident_b1 R _ _ _ (px q) (py q) (px q') (py q')); rewrite ?Mq.
rewrite E; congr (Ok (Some _)); apply/eqP/negP => /negP; rewrite eq_sym => Hw.
have := H _ Hw; rewrite !ridge00 !err1 v2E0 v2E1 ltNge => /negP; apply; apply: ltW; apply: B => -[E0 E1].
move: Hw; rewrite eq_sym -subr_eq0 => /eqP; apply; apply: vec1; rewrite mxE [X in _ + X]mxE ?v2E0 ?v2E1 ?E0 ?E1 subrr //.
Qed.
Lemma same0 l (b : R) : away (points false l) -> best_slope (points false l) b ->
  pl_lstsq F (args false 0 0 1) (lrows l) = Ok (Some (v1 b)).
Proof.
move=> [q Hq [P N]] B.
have Mq : (f1 (px q), py q) \in used_rows (SKIP R) (lrows l) by rewrite used_lrows; apply: (map_f (fun q => (f1 (px q), py q)) Hq).
have Sz : (0 < size (used_rows (SKIP R) (lrows l)))%N by rewrite used_lrows size_map; case: (points false l) Hq.
have [||||||w [E H]] := @lstsq_ok R F HF 1 (args false 0 0 1) (lrows l) => //.
- by case: (l) Hq.
- exact: (@ident_b0 R _ _ _ (px q) (py q)).
rewrite E; congr (Ok (Some _)); apply/eqP/negP => /negP; rewrite eq_sym => Hw.
have := H _ Hw; rewrite !ridge00 !err0 v1E ltNge => /negP; apply; apply: ltW; apply: B => E0.
move: Hw; rewrite eq_sym -subr_eq0 => /eqP; apply; apply: vec0; rewrite mxE [X in _ + X]mxE v1E E0 subrr //.
Qed.
End Same.

