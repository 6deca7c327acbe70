(** Proofs about principal component analysis. *)
From mathcomp Require Import all_ssreflect all_algebra.
From Verif Require Import PcaModel PcaSpec.
Set Implicit Arguments.
Unset Strict Implicit.
Import Order.TTheory GRing.Theory Num.Theory.
Local Open Scope ring_scope.

Section P.
Variable R : realFieldType.
Variable p : nat.
Implicit Types (f : seq (cells R p)) (l : seq 'rV[R]_p).

Lemma isSome_neq (o : option R) : isSome o = (o != None).
Proof. by case: o. Qed.
Lemma no_nulls_eq (r : cells R p) : no_nulls r = [forall j, r j != None].
Proof. by apply: eq_forallb => j; rewrite isSome_neq. Qed.
Lemma drop_complete f : drop_nulls f = complete_rows f.
Proof. by rewrite /drop_nulls /complete_rows; congr map; apply: eq_filter => r; exact: no_nulls_eq. Qed.
Lemma col_mean_known f j (r : cells R p) : r \in f -> r j != None -> col_mean f j = Some (mean_known f j).
Proof.
move=> Hr Hj; rewrite /col_mean /mean_known.
have E1 : size (pmap (fun r : cells R p => r j) f) = count (fun r : cells R p => r j != None) f by rewrite size_pmap; apply: eq_count => x; rewrite -isSome_neq.
have E2 : \sum_(x <- pmap (fun r : cells R p => r j) f) x = \sum_(r <- f) odflt 0 (r j).
  elim: (f) => [|a f' IH]; first by rewrite !big_nil.
  by rewrite big_cons /=; case: (a j) => [x|] /=; rewrite ?big_cons IH ?add0r.
have C : (0 < count (fun r : cells R p => r j != None) f)%N by rewrite -has_count; apply/hasP; exists r.
by rewrite -E2 -E1; move: C; rewrite -E1; case: (pmap _ _).
Qed.
Lemma analysed_eq c f : drop_nulls (actual_inputs c f) = analysed c f.
Proof.
case: c; last exact: drop_complete.
rewrite /analysed /moved -drop_complete /actual_inputs /drop_nulls.
have K : forall r : cells R p, r \in f -> no_nulls r -> forall j, [ffun j => minus (r j) (col_mean f j)] j = Some (odflt 0 (r j) - mean_known f j).
  move=> r Hr /forallP Hn j; rewrite ffunE; move: (Hn j); rewrite isSome_neq => Hj; rewrite (@col_mean_known f j r Hr Hj).
  by case: (r j) Hj.
have K2 : forall r : cells R p, r \in f -> no_nulls [ffun j => minus (r j) (col_mean f j)] = no_nulls r.
  move=> r Hr; apply/idP/idP => [/forallP H|Hn]; apply/forallP => j.
  - by move: (H j); rewrite ffunE; case: (r j).
  - by rewrite K.
suff G : forall g : seq (cells R p), {subset g <= f} ->
  [seq \row_j odflt 0 (r j) | r : cells R p <- [seq [ffun j => minus (r j) (col_mean f j)] | r : cells R p <- g] & no_nulls r] =
  [seq \row_j (x 0 j - mean_known f j) | x : 'rV[R]_p <- [seq \row_j odflt 0 (r j) | r : cells R p <- g & no_nulls r]] by apply: G.
elim => [//|a g IH] S /=.
have Sa : a \in f by apply: S; rewrite mem_head.
have Sg : {subset g <= f} by move=> r Hr; apply: S; rewrite in_cons Hr orbT.
rewrite K2 //; case E: (no_nulls a) => /=; last exact: IH.
congr cons; last exact: IH.
by apply/rowP => j; rewrite !mxE K.
Qed.
Lemma sum_rows l (F : 'rV[R]_p -> R) : \sum_(x <- l) F x = \sum_(i < size l) F (l`_i).
Proof. by rewrite (big_nth 0) big_mkord. Qed.
Lemma rows_mul l (w : 'cV[R]_p) (i : 'I_(size l)) : (to_mat l *m w) i 0 = along (l`_i) w.
Proof. by rewrite mxE /along; apply: eq_bigr => j _; rewrite mxE. Qed.
Lemma energy_tr l : energy l = \tr ((to_mat l)^T *m to_mat l).
Proof.
rewrite /energy sum_rows exchange_big /=; apply: eq_bigr => j _.
by rewrite mxE; apply: eq_bigr => i _; rewrite !mxE expr2.
Qed.
Lemma spread_mx l (w : 'cV[R]_p) : spread l w = ((to_mat l *m w)^T *m (to_mat l *m w)) 0 0.
Proof.
rewrite /spread sum_rows [RHS]mxE; apply: eq_bigr => i _.
by rewrite mxE rows_mul expr2.
Qed.
Lemma gram m n k (M : 'M[R]_(m, n)) (U : 'M[R]_(m, k)) s V : is_svd M U s V ->
  M^T *m M = V *m diag_mx (\row_i s`_i ^+ 2) *m V^T.
Proof.
case=> _ [HU HV ->]; rewrite !trmx_mul trmxK tr_diag_mx -!mulmxA (mulmxA U^T) HU mul1mx.
rewrite [X in V *m X]mulmxA mulmx_diag; congr (_ *m (diag_mx _ *m _)).
by apply/rowP => i; rewrite !mxE expr2.
Qed.
Lemma sum_nth (s : seq R) k (F : R -> R) : size s = k -> \sum_(x <- s) F x = \sum_(i < k) F s`_i.
Proof. by move=> <-; rewrite (big_nth 0) big_mkord. Qed.
Lemma svd_energy l k U s V : @is_svd R _ _ (to_mat l) k U s V -> \sum_(x <- s) x ^+ 2 = energy l.
Proof.
move=> H; rewrite energy_tr (gram H) mxtrace_mulC mulmxA.
case: H => [[Hs _ _] [_ HV _]]; rewrite HV mul1mx mxtrace_diag (@sum_nth s k _ Hs).
by apply: eq_bigr => i _; rewrite !mxE.
Qed.
Variable L : svd_lib R.
Hypothesis HL : svd_ok L.
Definition is_values f c (s : seq R) : Prop := sv L (to_mat (analysed c f)) = Some s.
Lemma run_sv f c e r : singular_values L f c e r =
  if sv L (to_mat (analysed c f)) is Some s then
    let out := [seq Some x | x <- s] in let out := if e then explained out else out in Val (if r then ratio out else out)
  else ComputeError.
Proof. by rewrite /singular_values /pl_singular_values analysed_eq; case: (sv L _). Qed.
Lemma plain f c out : singular_values L f c false false = Val out -> exists2 s, is_values f c s & out = [seq Some x | x <- s].
Proof. by rewrite run_sv /is_values; case: (sv L _) => [s|] //= [<-]; exists s. Qed.
Lemma some_inj (s t : seq R) : [seq Some x | x <- s] = [seq Some x | x <- t] -> s = t.
Proof. by apply: inj_map => x y []. Qed.
Lemma plain_some f c s : singular_values L f c false false = Val [seq Some x | x <- s] -> is_values f c s.
Proof. by move/plain => [t Ht /some_inj ->]. Qed.
Lemma values_ok f c s : is_values f c s ->
  [/\ size s = minn (size (analysed c f)) p, sorted >=%R s, all (>= 0) s & \sum_(x <- s) x ^+ 2 = energy (analysed c f)].
Proof.
move=> H; have [k [U [V [Ek D]]]] := (proj1 HL) _ _ _ _ H.
by split; [rewrite -Ek; case: D => [[]]|case: D => [[]]|case: D => [[]]|exact: svd_energy D].
Qed.
Lemma sv_thm f c out : singular_values L f c false false = Val out ->
  exists s, [/\ out = [seq Some x | x <- s], size s = minn (size (analysed c f)) p, sorted >=%R s, all (>= 0) s & \sum_(x <- s) x ^+ 2 = energy (analysed c f)].
Proof. by move/plain => [s /values_ok [H1 H2 H3 H4] ->]; exists s. Qed.

Lemma total_some (s : seq R) : total [seq Some x | x <- s] = Some (\sum_(x <- s) x).
Proof. by elim: s => [|a s IH] /=; rewrite ?big_nil ?big_cons // IH. Qed.
Lemma ratio_some (s : seq R) : \sum_(x <- s) x != 0 -> ratio [seq Some x | x <- s] = [seq Some (x / \sum_(y <- s) y) | x <- s].
Proof. by move=> N; rewrite /ratio total_some -map_comp; apply: eq_map => x /=; rewrite (negbTE N). Qed.
Lemma sum_pos (s : seq R) : all (>= 0) s -> 0 <= \sum_(x <- s) x.
Proof. by elim: s => [|a s IH] /=; rewrite ?big_nil ?big_cons // => /andP [Ha /IH]; apply: addr_ge0. Qed.
Lemma sum_zero (s : seq R) : all (>= 0) s -> \sum_(x <- s) x = 0 -> \sum_(x <- s) x ^+ 2 = 0.
Proof.
elim: s => [|a s IH] /=; rewrite ?big_nil ?big_cons // => /andP [Ha Hs] /eqP.
by rewrite paddr_eq0 ?sum_pos // => /andP [/eqP -> /eqP /(IH Hs) ->]; rewrite expr0n addr0.
Qed.
Lemma sum_elem (s : seq R) x : all (>= 0) s -> x \in s -> x <= \sum_(y <- s) y.
Proof.
elim: s => [//|a s IH] /= /andP [Ha Hs]; rewrite in_cons big_cons => /orP [/eqP ->|/(IH Hs) H].
- by rewrite ler_addl sum_pos.
- by rewrite (le_trans H) // ler_addr.
Qed.
Lemma shares (s : seq R) : all (>= 0) s -> sorted >=%R s -> \sum_(x <- s) x != 0 -> let q := [seq x / \sum_(y <- s) y | x <- s] in
  [/\ \sum_(x <- q) x = 1, all (fun x => 0 <= x <= 1) q & sorted >=%R q].
Proof.
move=> H S N q; have P : 0 < \sum_(y <- s) y by rewrite lt_def N sum_pos.
split.
- by rewrite /q big_map -mulr_suml divff.
- apply/allP => y /mapP [x Hx ->]; have X : 0 <= x by apply: (allP H).
  rewrite divr_ge0 ?(ltW P) //=.
  by rewrite ler_pdivr_mulr // mul1r sum_elem.
- apply: (homo_sorted (e := >=%R) _ _ S) => x y /= Hxy; by rewrite ler_wpmul2r // invr_ge0 ltW.
Qed.
Lemma ratio_thm f c s : singular_values L f c false false = Val [seq Some x | x <- s] -> energy (analysed c f) != 0 ->
  exists q, [/\ singular_values L f c false true = Val [seq Some x | x <- q], q = [seq x / \sum_(y <- s) y | x <- s], \sum_(x <- q) x = 1, all (fun x => 0 <= x <= 1) q & sorted >=%R q].
Proof.
move/plain_some => H E; have [H1 H2 H3 H4] := values_ok H.
have N : \sum_(x <- s) x != 0 by apply: contra E => /eqP /(sum_zero H3); rewrite H4 => ->.
have [S1 S2 S3] := shares H3 H2 N; exists [seq x / \sum_(y <- s) y | x <- s]; split=> //.
by rewrite run_sv H /= ratio_some // -map_comp.
Qed.
Lemma explained_some (s : seq R) : size s != 1%N -> explained [seq Some x | x <- s] = [seq Some (x ^+ 2 / ((size s)%:R - 1)) | x <- s].
Proof. by move=> N; rewrite /explained -map_comp size_map; apply: eq_map => x /=; rewrite (negbTE N). Qed.
Lemma explained_thm f c s : singular_values L f c false false = Val [seq Some x | x <- s] ->
  singular_values L f c true false = Val (if size s == 1%N then [:: None] else [seq Some (x ^+ 2 / ((size s)%:R - 1)) | x <- s]).
Proof.
move/plain_some => H; rewrite run_sv H /=; case: eqP => [E|/eqP E]; last by rewrite explained_some.
by case: s E {H} => [//|a [|//]] _.
Qed.
Lemma both_thm f c s : singular_values L f c false false = Val [seq Some x | x <- s] -> energy (analysed c f) != 0 -> (1 < size s)%N ->
  exists q, [/\ singular_values L f c true true = Val [seq Some x | x <- q], q = [seq x ^+ 2 / energy (analysed c f) | x <- s], \sum_(x <- q) x = 1, all (fun x => 0 <= x <= 1) q & sorted >=%R q].
Proof.
move/plain_some => H E Z; have [H1 H2 H3 H4] := values_ok H.
have N1 : size s != 1%N by rewrite neq_ltn Z orbT.
have D : 0 < (size s)%:R - 1 :> R by rewrite subr_gt0 ltr1n.
set t := [seq x ^+ 2 / ((size s)%:R - 1) | x <- s].
have Et : \sum_(x <- t) x = energy (analysed c f) / ((size s)%:R - 1) by rewrite /t big_map -mulr_suml H4.
have Nt : \sum_(x <- t) x != 0 by rewrite Et mulf_neq0 // invr_neq0 // lt0r_neq0.
have Pt : all (>= 0) t by apply/allP => y /mapP [x Hx ->]; rewrite divr_ge0 ?sqr_ge0 ?ltW.
have St : sorted >=%R t.
  rewrite /t; apply: (homo_sorted_in (P := fun x => 0 <= x) _ H3 H2) => x y Hx Hy /= Hxy.
  apply: ler_wpmul2r; first by rewrite invr_ge0 ltW.
  by rewrite !expr2; apply: ler_pmul.
have [S1 S2 S3] := shares Pt St Nt.
have Q : [seq x / \sum_(y <- t) y | x <- t] = [seq x ^+ 2 / energy (analysed c f) | x <- s].
  rewrite Et /t -map_comp; apply: eq_map => x /=.
  by rewrite invf_div mulrA divfK // lt0r_neq0.
exists [seq x / \sum_(y <- t) y | x <- t]; split=> //.
have -> : singular_values L f c true true = Val (ratio [seq Some x | x <- t]) by rewrite run_sv H /= explained_some // /t -map_comp.
rewrite ratio_some //; congr Val; by rewrite -[RHS]map_comp.
Qed.
Lemma full_nn f : full f -> all (@no_nulls R p) f.
Proof. by move=> H; apply/allP => r Hr; apply/forallP => j; rewrite isSome_neq H. Qed.
Lemma full_rows f : full f -> complete_rows f = [seq \row_j odflt 0 (r j) | r : cells R p <- f].
Proof. by move=> H; rewrite -drop_complete /drop_nulls; congr map; apply/all_filterP; apply: full_nn. Qed.
Lemma full_mean f j : full f -> mean_known f j = mean_rows (complete_rows f) j.
Proof.
move=> H; rewrite /mean_known /mean_rows full_rows // size_map big_map; congr (_ / _%:R).
- by apply: eq_bigr => r _; rewrite mxE.
- by apply/eqP; rewrite -all_count; apply/allP => r Hr; apply: H.
Qed.
Lemma full_analysed f : full f -> analysed true f = moved (mean_rows (complete_rows f)) (complete_rows f).
Proof. by move=> H; rewrite /analysed /moved; apply: eq_map => x; apply/rowP => j; rewrite !mxE full_mean. Qed.
Lemma moved_size (m : 'I_p -> R) l : size (moved m l) = size l.
Proof. by rewrite size_map. Qed.
Lemma moved_mean l j : l != [::] -> \sum_(x <- moved (mean_rows l) l) x 0 j = 0.
Proof.
move=> N; rewrite /moved big_map (eq_bigr (fun x : 'rV[R]_p => x 0 j - mean_rows l j)); last by move=> x _; rewrite mxE.
rewrite sumrB /mean_rows big_const_seq count_predT iter_addr_0 -[X in _ - X]mulr_natr divfK ?subrr // pnatr_eq0.
by case: (l) N.
Qed.
Lemma center_thm f out : full f -> singular_values L f true false false = Val out ->
  (forall j, f != [::] -> \sum_(x <- analysed true f) x 0 j = 0) /\
  exists s, out = [seq Some x | x <- s] /\ \sum_(x <- s) x ^+ 2 = energy (moved (mean_rows (complete_rows f)) (complete_rows f)).
Proof.
move=> F /sv_thm [s [-> _ _ _ E]]; split; last by exists s; rewrite E full_analysed.
by move=> j N; rewrite full_analysed // moved_mean // full_rows //; case: (f) N.
Qed.
Lemma explained_wrong f out : full f -> (1 < p)%N -> (p < size f)%N -> total_variance (complete_rows f) != 0 ->
  singular_values L f true true false = Val out ->
  exists q, out = [seq Some x | x <- q] /\ total_variance (complete_rows f) < \sum_(x <- q) x.
Proof.
move=> F P1 P2 T H.
have Sz : size (complete_rows f) = size f by rewrite full_rows // size_map.
move: H; rewrite run_sv; case E: (sv L _) => [s|] //= [<-].
have [H1 H2 H3 H4] := values_ok E.
have Zs : size s = p by rewrite H1 full_analysed // moved_size Sz; apply/minn_idPr/ltnW.
have N1 : size s != 1%N by rewrite Zs neq_ltn P1 orbT.
exists [seq x ^+ 2 / ((size s)%:R - 1) | x <- s]; split; first by rewrite explained_some // -map_comp.
rewrite big_map -mulr_suml H4 Zs full_analysed // /total_variance Sz.
have En : 0 < energy (moved (mean_rows (complete_rows f)) (complete_rows f)).
  rewrite lt_def; apply/andP; split; first by apply: contra T => /eqP; rewrite /total_variance => ->; rewrite mul0r.
  by apply: sumr_ge0 => x _; apply: sumr_ge0 => j _; apply: sqr_ge0.
rewrite ltr_pmul2l // ltf_pinv ?posrE ?subr_gt0 ?ltr1n //; last by apply: ltn_trans P1 P2.
by rewrite ltr_add2r ltr_nat.
Qed.
Lemma explained_right f out : full f -> (1 < size f)%N -> (size f <= p)%N ->
  singular_values L f true true false = Val out ->
  exists s, singular_values L f true false false = Val [seq Some x | x <- s] /\ out = [seq Some (x ^+ 2 / ((size f)%:R - 1)) | x <- s] /\ \sum_(x <- s) x ^+ 2 / ((size f)%:R - 1) = total_variance (complete_rows f).
Proof.
move=> F P1 P2 H.
have Sz : size (complete_rows f) = size f by rewrite full_rows // size_map.
move: H; rewrite run_sv; case E: (sv L _) => [s|] //= [<-].
have [H1 H2 H3 H4] := values_ok E.
have Zs : size s = size f by rewrite H1 full_analysed // moved_size Sz; apply/minn_idPl.
have N1 : size s != 1%N by rewrite Zs neq_ltn P1 orbT.
exists s; split; first by rewrite run_sv E.
by rewrite explained_some // Zs -mulr_suml H4 full_analysed // /total_variance Sz.
Qed.
(** Directions. *)
Lemma pca_run f c : pca L f c = let l := analysed c f in if (size l < p)%N then Panic else if svdv L (to_mat l) is Some (s, v) then Val [seq (s`_(i : 'I_p), col i v) | i <- enum 'I_p] else ComputeError.
Proof. by rewrite /pca /pl_pca analysed_eq. Qed.
Lemma inner_mx (v w : 'cV[R]_p) : inner v w = (v^T *m w) 0 0.
Proof. by rewrite mxE; apply: eq_bigr => j _; rewrite mxE. Qed.
Lemma proj l k (U : 'M[R]_(size l, k)) s V (w w' : 'cV[R]_p) : is_svd (to_mat l) U s V ->
  \sum_(x <- l) along x w * along x w' = \sum_(i < k) s`_i ^+ 2 * ((V^T *m w) i 0 * (V^T *m w') i 0).
Proof.
move=> D; rewrite sum_rows.
have -> : \sum_(i < size l) along l`_i w * along l`_i w' = ((to_mat l *m w)^T *m (to_mat l *m w')) 0 0.
  by rewrite mxE; apply: eq_bigr => i _; rewrite mxE !rows_mul.
have -> : (to_mat l *m w)^T *m (to_mat l *m w') = (V^T *m w)^T *m diag_mx (\row_i s`_i ^+ 2) *m (V^T *m w').
  by rewrite !trmx_mul trmxK -!mulmxA (mulmxA (to_mat l)^T) (gram D) !mulmxA.
set a := V^T *m w; set b := V^T *m w'.
rewrite mxE; apply: eq_bigr => i _; rewrite mul_mx_diag !mxE.
by rewrite mulrA (mulrC (s`_i ^+ 2)).
Qed.
Lemma pca_thm f c out : pca L f c = Val out -> let l := analysed c f in
  exists (s : 'I_p -> R) (v : 'I_p -> 'cV[R]_p), [/\ out = [seq (s i, v i) | i : 'I_p <- enum 'I_p],
    (forall i j, inner (v i) (v j) = (i == j)%:R), (forall i, 0 <= s i) & (forall i j : 'I_p, (i <= j)%N -> s j <= s i)] /\
  [/\ (forall i, spread l (v i) = s i ^+ 2), (forall i j, i != j -> \sum_(x <- l) along x (v i) * along x (v j) = 0) &
    (forall (i : 'I_p) w, inner w w = 1 -> (forall j : 'I_p, (j < i)%N -> inner w (v j) = 0) -> spread l w <= s i ^+ 2)].
Proof.
rewrite pca_run /=; case: ltnP => // Sz; case E: (svdv L _) => [[s V]|] // [<-].
have [U D] := (proj2 HL) _ _ _ _ _ Sz E.
exists (fun i => s`_i), (fun i => col i V).
have [[Hs So Po] [HU HV HM]] := D.
have I : forall i j, inner (col i V) (col j V) = (i == j)%:R.
  move=> i j; have <- : (V^T *m V) i j = (i == j)%:R by rewrite HV mxE.
  by rewrite mxE; apply: eq_bigr => k _; rewrite !mxE.
have C : forall w i, (V^T *m w) i 0 = inner w (col i V).
  by move=> w i; rewrite mxE; apply: eq_bigr => k _; rewrite !mxE mulrC.
have Mo : forall i j : 'I_p, (i <= j)%N -> s`_j <= s`_i.
  have Tr : transitive (>=%R : rel R) by move=> x y z /= H1 H2; apply: le_trans H2 H1.
  have Rf : reflexive (>=%R : rel R) by move=> x; apply: lexx.
  by move=> i0 j0 Hij; apply: (sorted_leq_nth Tr Rf 0 So) => //; rewrite inE Hs.
have Nn : forall i : 'I_p, 0 <= s`_i by case=> i0 Hi0; apply: (allP Po); rewrite mem_nth //= Hs.
have Pr : forall i j, \sum_(x <- analysed c f) along x (col i V) * along x (col j V) = s`_i ^+ 2 * (i == j)%:R.
  move=> i0 j0; rewrite (proj _ _ D) (bigD1 i0) //= big1 ?addr0; last first.
    by move=> k Hk; rewrite !C !I eq_sym (negbTE Hk) mul0r mulr0.
  by rewrite !C !I eqxx mul1r eq_sym.
split; split=> //.
- move=> i; have := Pr i i; rewrite eqxx mulr1 => <-; rewrite /spread; apply: eq_bigr => x _; by rewrite expr2.
- by move=> i j Hij; rewrite Pr (negbTE Hij) mulr0.
- move=> i w Hw Ho; rewrite /spread (eq_bigr (fun x => along x w * along x w)); last by move=> x _; rewrite expr2.
  rewrite (proj _ _ D).
  have W : \sum_(k < p) (V^T *m w) k 0 ^+ 2 = 1.
    rewrite -Hw inner_mx.
    have -> : w^T *m w = (V^T *m w)^T *m (V^T *m w) by rewrite trmx_mul trmxK -mulmxA (mulmxA V) (mulmx1C HV) mul1mx.
    rewrite [RHS]mxE; by apply: eq_bigr => k _; rewrite expr2 [X in _ = X * _]mxE.
  rewrite -[X in _ <= X]mulr1 -W mulr_sumr; apply: ler_sum => k _.
  rewrite -expr2; case: (ltnP k i) => Hk; first by rewrite C Ho // expr0n !mulr0.
  apply: ler_wpmul2r; first exact: sqr_ge0.
  by rewrite !expr2; apply: ler_pmul => //; apply: Mo.
Qed.
Lemma pca_panics f c : (size (analysed c f) < p)%N -> pca L f c = Panic.
Proof. by move=> H; rewrite pca_run /= H. Qed.
Lemma full_inputs f c : full f -> all (@no_nulls R p) (actual_inputs c f).
Proof.
move=> F; case: c; last exact: full_nn.
apply/allP => r /mapP [r0 Hr ->]; apply/forallP => j; rewrite ffunE (col_mean_known Hr (F _ j Hr)).
by move: (F _ j Hr); case: (r0 j).
Qed.
Lemma analysed_size f c : full f -> size (analysed c f) = size f.
Proof. by move=> F; rewrite /analysed; case: c; rewrite ?moved_size full_rows // size_map. Qed.
Lemma pc_run f k c : full f -> (0 < k <= p)%N -> principal_components L f k%:Z c =
  let l := analysed c f in
    if (size l < k)%N then Val (nseq k (nseq (size l) None))
    else if (size l < p)%N then Panic
    else if svdv L (to_mat l) is Some (_, v)
         then Val [seq [seq Some ((to_mat l *m v) i j) | i <- enum 'I_(size l)] | j <- take k (enum 'I_p)]
         else ComputeError.
Proof.
move=> F /andP [K1 K2]; rewrite /principal_components /pl_principal_components full_inputs // analysed_eq absz_nat.
have -> : ((p%:Z < k) || (k%:Z <= 0)) = false by rewrite ltz_nat lez_nat ltnNge K2 leqNgt K1.
by [].
Qed.
Lemma pc_thm f k c out : full f -> (0 < k <= p)%N -> pca L f c = Val out ->
  principal_components L f k%:Z c = Val [seq [seq Some (along x d.2) | x <- analysed c f] | d <- take k out].
Proof.
move=> F K; rewrite pca_run pc_run //=; case: ltnP => // Sz.
case E: (svdv L _) => [[s V]|] // [<-].
have -> : (size (analysed c f) < k)%N = false by apply/negbTE; rewrite -leqNgt; apply: leq_trans Sz; case/andP: K.
congr Val; rewrite -map_take -map_comp; apply: eq_map => j /=.
set l := analysed c f; have -> : [seq Some (along x (col j V)) | x <- l] = [seq Some (along l`_(i : 'I_(size l)) (col j V)) | i <- enum 'I_(size l)].
  by rewrite -{1}(mkseq_nth 0 l) /mkseq -map_comp -val_enum_ord -map_comp.
apply: eq_map => i /=.
by rewrite -rows_mul; congr Some; rewrite !mxE; apply: eq_bigr => a _; rewrite !mxE.
Qed.
Lemma pc_short f k c : full f -> (0 < k <= p)%N -> (size f < k)%N -> principal_components L f k%:Z c = Val (nseq k (nseq (size f) None)).
Proof. by move=> F K S; have E := analysed_size c F; rewrite pc_run //=; case: ltnP => H; [by rewrite E | by move: H; rewrite {1}E leqNgt S]. Qed.
Lemma pc_panics f k c : full f -> (0 < k <= p)%N -> (k <= size f)%N -> (size f < p)%N -> principal_components L f k%:Z c = Panic.
Proof. by move=> F K S1 S2; have E := analysed_size c F; rewrite pc_run //=; case: ltnP => H; first (by move: H; rewrite {1}E ltnNge S1); case: ltnP => // H'; move: H'; rewrite {1}E leqNgt S2. Qed.
Lemma pc_refused f (k : int) c : k <= 0 \/ p%:Z < k -> principal_components L f k c = ValueError.
Proof. by rewrite /principal_components => - [] ->; rewrite ?orbT. Qed.
Lemma pc_null f k c r j : r \in f -> r j = None -> (0 < k <= p)%N -> principal_components L f k%:Z c = ComputeError.
Proof.
move=> Hr Hj /andP [K1 K2]; rewrite /principal_components /pl_principal_components absz_nat.
have -> : ((p%:Z < k) || (k%:Z <= 0)) = false by rewrite ltz_nat lez_nat ltnNge K2 leqNgt K1.
have -> // : all (@no_nulls R p) (actual_inputs c f) = false.
apply/negbTE/allPn; case: c => /=; last by exists r => //; apply/forallPn; exists j; rewrite Hj.
exists [ffun j => minus (r j) (col_mean f j)]; first by apply/mapP; exists r.
by apply/forallPn; exists j; rewrite ffunE Hj.
Qed.
End P.
