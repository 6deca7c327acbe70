(** Proofs for the regression classes. *)
From mathcomp Require Import all_ssreflect all_algebra.
From Verif Require Import LinModel LinSpec LinCore LinProofs LinExprSpec LinExpr LinExpr2 LinHist LinMore LinMore2 ClsModel ClsSpec.
Set Implicit Arguments.
Unset Strict Implicit.
Import Order.TTheory GRing.Theory Num.Theory.
Local Open Scope ring_scope.

Section Proofs.
Variable R : realFieldType.
Variable name : eqType.
Variable eps : R.
Hypothesis Heps : 0 <= eps.
Notation model := (model R name).
Implicit Types (m : model) (cs : seq R) (b : R) (names : seq name).

(** *** Values in, values out *)
Lemma big_zero : big eps (Some 0) = false.
Proof. by rewrite /big normr0 ltNge Heps. Qed.

Lemma bias_rcons nb (vs : seq (num R)) v names : bias (@Model R name nb (Some (rcons vs v)) names) = Ok (if nb then v else Some 0).
Proof. by case: nb; rewrite /bias /nrows /= ?size_rcons //= subn1 /= nth_rcons ltnn eqxx. Qed.
Lemma coefficients_rcons (vs : seq (num R)) v names :
  coefficients (@Model R name true (Some (rcons vs v)) names) = Ok (Some vs).
Proof. by rewrite /coefficients /nrows /= size_rcons /= subn1 /= -cats1 take_size_cat. Qed.

Lemma values_ok cs b names : b = 0 \/ eps < `|b| ->
  let m := from_values eps (map Some cs) (Some b) names in
  is_fit m = Ok true /\ coeffs m = Ok (map Some cs) /\ bias m = Ok (Some b) /\
  py_bias CElasticNet m = Ok (Some (Some b)) /\ m_names m = names.
Proof.
move=> H m.
have [Hc [Hb Hn]] : coefficients m = Ok (Some (map Some cs)) /\ bias m = Ok (Some b) /\ m_names m = names.
  rewrite /m /from_values /set_coeffs_and_bias.
  case: H => [->|H]; first by rewrite big_zero.
  by rewrite /big H coefficients_rcons bias_rcons.
by rewrite /is_fit /coeffs /py_bias Hc Hb.
Qed.

Lemma small_bias cs b names : b != 0 -> `|b| <= eps ->
  let m := from_values eps (map Some cs) (Some b) names in
  coeffs m = Ok (map Some cs) /\ bias m = Ok (Some 0).
Proof. by move=> _ H; rewrite /from_values /set_coeffs_and_bias /big ltNge H. Qed.

Lemma nan_bias cs names : let m := from_values eps (map Some cs) None names in
  coeffs m = Ok (map Some cs) /\ bias m = Ok (Some 0).
Proof. by []. Qed.

Lemma py_bias_none m c v : c <> CElasticNet -> bias m = Ok v -> py_bias c m = Ok None.
Proof. by rewrite /py_bias => Hc ->; case: c Hc. Qed.

Lemma fresh_bias names :
  is_fit (@new R name true names) = Panic /\ coeffs (@new R name true names) = Panic /\
  bias (@new R name true names) = Panic /\ forall k X, predict eps (@new R name true names) k X = Panic.
Proof. by []. Qed.
Lemma fresh_no_bias names :
  is_fit (@new R name false names) = Ok false /\ coeffs (@new R name false names) = Err /\
  forall k X, predict eps (@new R name false names) k X = Err.
Proof. by split=> //; split=> // k X; rewrite /predict /=; case: eqP. Qed.

(** *** Predictions *)
Lemma dot_line cs (x : seq R) : size x = size cs -> dot (map Some x) (map Some cs) = Some (line cs 0 x).
Proof.
rewrite /line addr0; elim: cs x => [|c cs IH] [|v x] //=; first by rewrite big_ord0.
by move=> [/IH]; rewrite /dot /= => ->; rewrite big_ord_recl /= mulrC.
Qed.
Lemma line_bias cs b (x : seq R) : line cs b x = line cs 0 x + b.
Proof. by rewrite /line addr0. Qed.

Lemma coeffs_coefficients m vs : coeffs m = Ok vs -> coefficients m = Ok (Some vs).
Proof. by rewrite /coeffs; case: (coefficients m) => // -[c|] // [->]. Qed.

Lemma predict_ok m cs b : coeffs m = Ok (map Some cs) -> bias m = Ok (Some b) ->
  (forall X : seq (seq R), all (fun x => size x == size cs) X ->
    predict eps m (size cs) (map (map Some) X) = Ok [seq Some (line cs (if eps < `|b| then b else 0) x) | x <- X]) /\
  (forall k X, k != size cs -> predict eps m k X = Err).
Proof.
move=> /coeffs_coefficients Hc Hb; split=> [X HX|k X Hk]; last by rewrite /predict Hc /= size_map Hk.
rewrite /predict Hc /= size_map eqxx /= Hb -map_comp; congr (Ok _); apply/eq_in_map => x /(allP HX)/eqP Hx /=.
have Hbias : ~~ m_bias m -> b = 0 by move: Hb; rewrite /bias; case: (m_bias m) => // -[<-].
rewrite dot_line //=; case: ifP => [/andP[_ ->]|]; first by rewrite (line_bias _ b).
move=> /negbT; rewrite negb_and => /orP[/Hbias ->|/negbTE ->] //.
by rewrite normr0 ltNge Heps.
Qed.

Lemma nadd_some (a c : R) : nadd (Some a) (Some c) = Some (a + c). Proof. by []. Qed.

Lemma all_some_map A B (f : A -> option B) l l' : map f l = map Some l' -> all_some (map f l) = Some l'.
Proof. by move=> ->; elim: l' => //= a l' ->. Qed.
Lemma take_all_some A (l : seq (option A)) (l' : seq A) n : l = map Some l' -> take n l = map Some (take n l').
Proof. by move=> ->; rewrite map_take. Qed.

Lemma sum_terms cs (cols : seq (seq (option R))) i : (size cs <= size cols)%N ->
  sum_horizontal (zip_terms cols (map Some cs) i) = Some (line cs 0 [seq odflt 0 (nth None c i) | c <- cols]).
Proof.
rewrite /line addr0 /sum_horizontal /zip_terms; elim: cs cols => [|c cs IH] [|v cols] //=; rewrite ?big_ord0 //.
by move=> /IH E; rewrite big_ord_recl /=; case: (nth None v i) => [x|] /=; rewrite E //= mulr0 add0r.
Qed.
Lemma sum_terms_short cs (cols : seq (seq (option R))) i : (size cols <= size cs)%N ->
  sum_horizontal (zip_terms cols (map Some cs) i) = Some (line (take (size cols) cs) 0 [seq odflt 0 (nth None c i) | c <- cols]).
Proof.
rewrite /line addr0 /sum_horizontal /zip_terms; elim: cs cols => [|c cs IH] [|v cols] //=; rewrite ?big_ord0 //.
by move=> /IH E; rewrite big_ord_recl /=; case: (nth None v i) => [x|] /=; rewrite E //= mulr0 add0r.
Qed.

Lemma predict_df_any m cs b (df : frame R name) cols : coeffs m = Ok (map Some cs) -> bias m = Ok (Some b) ->
  (0 < size (m_names m))%N -> (0 < size cs)%N ->
  [seq col_of df n | n <- m_names m] = map Some cols ->
  predict_df m df = Ok [seq Some (line (take (size cols) cs) b [seq odflt 0 (nth None c i) | c <- cols]) | i <- iota 0 (height df)].
Proof.
move=> Hc Hb Hn Hs Hcols; rewrite /predict_df eqn0Ngt Hn /= Hc Hb size_map eqn0Ngt Hs /=.
have E : [seq col_of df i | i <- take (size cs) (m_names m)] = map Some (take (size cs) cols).
  by rewrite map_take Hcols map_take.
rewrite (all_some_map E); congr (Ok _); apply: eq_map => i.
have Hz : zip_terms (take (size cs) cols) (map Some cs) i = zip_terms cols (map Some cs) i.
  rewrite /zip_terms; congr (map _ _).
  by clear; elim: cs cols => [|c cs IH] [|v cols] //=; rewrite IH.
have Hsum : sum_horizontal (zip_terms (take (size cs) cols) (map Some cs) i)
   = Some (line (take (size cols) cs) 0 [seq odflt 0 (nth None c i) | c <- cols]).
  rewrite Hz; case: (leqP (size cs) (size cols)) => H; first by rewrite sum_terms // take_oversize.
  by rewrite sum_terms_short // ltnW.
rewrite Hsum (line_bias _ b); case: eqP => [[->]|_] //=.
by rewrite addr0.
Qed.

Lemma predict_df_ok m cs b (df : frame R name) cols : coeffs m = Ok (map Some cs) -> bias m = Ok (Some b) ->
  size (m_names m) = size cs -> (0 < size cs)%N ->
  [seq col_of df n | n <- m_names m] = map Some cols ->
  predict_df m df = Ok [seq Some (line cs b [seq odflt 0 (nth None c i) | c <- cols]) | i <- iota 0 (height df)].
Proof.
move=> Hc Hb Hn Hs Hcols; rewrite (predict_df_any Hc Hb _ Hs Hcols) ?Hn //.
by rewrite take_oversize // -Hn -(size_map (col_of df)) Hcols size_map.
Qed.
Lemma predict_df_no_names m (df : frame R name) : m_names m = [::] -> predict_df m df = Err.
Proof. by rewrite /predict_df => ->. Qed.

(** *** Fitting *)
Lemma size_vals_of n (w : option 'cV[R]_n) : size (vals_of w) = n.
Proof. by case: w => [w|] /=; rewrite ?size_nseq // size_map -cardE card_ord. Qed.

Lemma enum_split p q : enum 'I_(p + q) = map (lshift q) (enum 'I_p) ++ map (@rshift p q) (enum 'I_q).
Proof.
have E n : map (@nat_of_ord n) (enum 'I_n) = iota 0 n by apply: val_enum_ord.
apply: (inj_map (@ord_inj _)); rewrite map_cat E iotaD add0n; congr (_ ++ _).
  by rewrite -E -map_comp; apply: eq_map.
by rewrite -map_comp -[X in iota X]addn0 iotaDl -E -map_comp; apply: eq_map.
Qed.

Lemma vals_parts p (b : bool) (w : 'cV[R]_(p + b)) :
  vals_of (Some w) = map Some (coeffs_part w) ++ (if b then [:: Some (bias_part w)] else [::]).
Proof.
rewrite /vals_of enum_split map_cat /coeffs_part; congr (_ ++ _); first by rewrite -!(map_comp _ _ (enum 'I_p)).
case: b w => w; last first.
  by have -> : enum 'I_false = [::] by apply: size0nil; rewrite size_enum_ord.
by rewrite /bias_part big_ord1; have -> : enum 'I_true = [:: ord0] by apply: (inj_map (@ord_inj _)); rewrite val_enum_ord.
Qed.

Lemma fitted_getters p (b : bool) (w : 'cV[R]_(p + b)) names :
  let m := @Model R name b (Some (vals_of (Some w))) names in
  is_fit m = Ok true /\ coeffs m = Ok (map Some (coeffs_part w)) /\ bias m = Ok (Some (bias_part w)).
Proof.
rewrite vals_parts; case: b w => w /=.
  by rewrite cats1 /is_fit /coeffs coefficients_rcons bias_rcons.
by rewrite cats0 /is_fit /coeffs /coefficients /bias /= /bias_part big_ord0.
Qed.

Lemma line_predict p (b : bool) (w : 'cV[R]_(p + b)) (x : 'rV[R]_p) :
  line (coeffs_part w) (bias_part w) [seq x 0 j | j <- enum 'I_p] = LinSpec.predict (features b x) w.
Proof.
rewrite predict_features /line /bias_part; congr (_ + _).
rewrite /coeffs_part size_map -cardE card_ord /LinSpec.predict; apply: eq_bigr => i _.
rewrite (nth_map i 0 (fun j => w (lshift b j) 0)) ?size_enum_ord // (nth_map i 0 (fun j => x 0 j)) ?size_enum_ord //.
by rewrite !nth_ord_enum mulrC mxE.
Qed.

(** The rows a policy leaves are the rows the specification uses. *)
Lemma feat_null_forall p (r : lrow R p) : feat_null r = ~~ [forall j, isSome (feat r 0 j)].
Proof. by rewrite negb_forall; apply: eq_existsb => j; case: (feat r 0 j). Qed.
Lemma num_complete p (r : lrow R p) : num_row r = complete_row r.
Proof.
rewrite /num_row /complete_row feat_null_forall; case: (tgt r) => [y|]; last by case: ifP.
case: [forall _, _] => //=; congr (Some (_, _)); apply/rowP => j; by rewrite !mxE.
Qed.
Lemma row_null_complete p (r : lrow R p) : row_null r = ~~ isSome (complete_row r).
Proof.
rewrite /row_null /complete_row feat_null_forall; case: (tgt r) => [y|] /=; last by case: ifP.
by case: [forall _, _].
Qed.
Lemma num_filled p x (r : lrow R p) : num_row (fill_row x r) = filled_row x r.
Proof.
rewrite num_complete /complete_row /filled_row ifT; last by apply/forallP => j; rewrite /= mxE.
rewrite [tgt _]/=; case: (tgt r) => //= y; congr (Some (_, _)); apply/rowP => j; by rewrite !mxE.
Qed.
Lemma handle_ok p (pol : policy R) (rows : seq (lrow R p)) : accepts pol rows ->
  exists rows', handle_nulls pol rows = Ok rows' /\ map (@num_row R p) rows' = map Some (used_rows pol rows).
Proof.
have E0 l : map (@num_row R p) l = map complete_row l by apply: eq_map => r; rewrite num_complete.
have Enn : no_null rows -> map (@num_row R p) rows = map Some (pmap complete_row rows).
  by rewrite E0 /no_null; elim: (rows) => //= r l IH /andP[]; case: (complete_row r) => //= v _ /IH ->.
case: pol => [||||x|x] //= Hacc.
- exists rows; split; last by rewrite Enn.
  rewrite ifF //; apply/negbTE; rewrite -all_predC; apply: sub_all Hacc => r /=.
  by rewrite row_null_complete negbK.
- exists [seq r <- rows | ~~ row_null r]; split=> //; rewrite E0 /used_rows.
  by elim: (rows) => //= r l IH; rewrite row_null_complete negbK; case E: (complete_row r) => [v|] //=; rewrite E IH.
- by exists rows; rewrite Enn.
exists [seq r <- map (fill_row x) rows | ~~ is_null (tgt r)]; split=> //; rewrite /used_rows /=.
elim: (rows) {Hacc Enn} => //= r l IH.
have := num_filled x r; rewrite /filled_row; case: (tgt r) => [y|] //= E.
by rewrite E /= IH.
Qed.
Lemma handle_raise p (rows : seq (lrow R p)) : ~~ no_null rows -> handle_nulls (RAISE R) rows = Err.
Proof.
rewrite /no_null -has_predC /= => H; rewrite ifT //; apply: sub_has H => r /=.
by rewrite row_null_complete.
Qed.

Lemma all_some_Some A (l : seq A) : all_some (map Some l) = Some l.
Proof. by elim: l => //= a l ->. Qed.

Section Lr.
Variable F : faer R.
Hypothesis HF : faer_ok F.
Variables (lambda : R) (s : solver_name).
Hypothesis Hl : 0 <= lambda.

Lemma lr_rust_fit m p (rows : seq (lrow R p)) d : map (@num_row R p) rows = map Some d ->
  (p <= size d)%N -> (0 < size d)%N ->
  identifiable (not_bias (m_bias m)) lambda (map fst (design (m_bias m) d)) ->
  exists w, unique_min (ridge_err (not_bias (m_bias m)) lambda (design (m_bias m) d)) w /\
    rust_fit (lr_solver F lambda s) m rows = Ok (Model (m_bias m) (Some (vals_of (Some w))) (m_names m)).
Proof.
move=> Hn Hp Hs Hid; have [w [E Hw]] := lr_fit_ok HF s Hp Hs Hl Hid.
exists w; split=> //; rewrite /rust_fit.
have Esz : size rows = size d by rewrite -(size_map (@num_row R p)) Hn size_map.
rewrite Esz ltnNge Hp eqn0Ngt Hs /= Hn all_some_Some.
by move: E; rewrite /lr_fit ltnNge Hp eqn0Ngt Hs /= => -[<-].
Qed.

Lemma py_fit_ok m p (pol : policy R) (rows : seq (lrow R p)) :
  accepts pol rows -> (p <= size (used_rows pol rows))%N -> (0 < size (used_rows pol rows))%N ->
  let d := design (m_bias m) (used_rows pol rows) in
  identifiable (not_bias (m_bias m)) lambda (map fst d) ->
  exists w m', py_fit (lr_solver F lambda s) m pol rows = (Done, m') /\
    unique_min (ridge_err (not_bias (m_bias m)) lambda d) w /\
    learned w m' /\ m_names m' = m_names m.
Proof.
move=> Hacc Hp Hs d Hid; have [rows' [E Hn]] := handle_ok Hacc.
have [w [Hw Ef]] := lr_rust_fit Hn Hp Hs Hid.
exists w, (Model (m_bias m) (Some (vals_of (Some w))) (m_names m)).
rewrite /py_fit E Ef; split=> //; split=> //; split=> //.
by have [? [? ?]] := fitted_getters w (m_names m); split=> //; split=> //; split=> // x; rewrite line_predict.
Qed.
End Lr.

(** The rows of a frame. *)
Lemma all_some_inv A (l : seq (option A)) l' : all_some l = Some l' -> l = map Some l'.
Proof.
elim: l l' => [|[a|] l IH] l' //=; first by case=> <-.
by case: (all_some l) IH => [s|] // /(_ s erefl) -> [<-].
Qed.
Lemma all_some_none A B (f : A -> option B) l : all_some (map f l) = None -> exists2 a, List.In a l & f a = None.
Proof.
elim: l => //= a l IH; case E: (f a) => [v|]; last by move=> _; exists a => //; left.
by case: (all_some _) IH => // -[//|c Hc Ec] _; exists c => //; right.
Qed.
Lemma nth_error_map_iota A (f : nat -> A) n k i r :
  List.nth_error (map f (iota k n)) i = Some r -> r = f (k + i)%N.
Proof.
elim: n k i => [|n IH] k [|i] //=; first by case=> <-; rewrite addn0.
by move=> /IH ->; rewrite addSnnS.
Qed.
Lemma seq_ext A (l l' : seq A) : size l = size l' ->
  (forall i a a', List.nth_error l i = Some a -> List.nth_error l' i = Some a' -> a = a') -> l = l'.
Proof.
elim: l l' => [|a l IH] [|a' l'] //= [Hs] H; congr (_ :: _); first by apply: (H 0%N).
by apply: IH => // i; apply: (H i.+1).
Qed.

Lemma table_rows (df : frame R name) features target rows : table df features target rows ->
  df_rows df features target = Some rows.
Proof.
move=> [Hs [[y [Ey Hy]] Hc]]; rewrite /df_rows Ey.
case E: (all_some _) => [cols|]; last first.
  exfalso; have [c Hin Ec] := all_some_none E.
  have [j Hj] : exists j : 'I_(size features), nth target features j = c.
    clear -Hin; elim: features Hin => //= a l IH [->|/IH[j <-]]; first by exists ord0.
    by exists (lift ord0 j).
  by have [c' [E' _]] := Hc j; rewrite Hj Ec in E'.
congr Some; apply: seq_ext; first by rewrite size_map size_iota Hs.
move=> i a a' Ha Ha'; rewrite (nth_error_map_iota Ha) add0n.
have {}Hy := Hy _ _ Ha'.
case: a' Ha' Hy => t ft Ha' /= ->; congr (@LRow R (size features) _ _); apply/rowP => j; rewrite mxE.
have [c [Ec Hr]] := Hc j; have /= -> := Hr _ _ Ha'.
congr (nth None _ i); have := congr1 (fun l => nth None l j) (all_some_inv E).
have Hsz : size cols = size features by rewrite -(size_map Some) -(all_some_inv E) size_map.
by rewrite (nth_map target) // (nth_map [::]) ?Hsz // Ec => -[].
Qed.

Lemma py_fit_ignore (S : solver R) m p (rows : seq (lrow R p)) :
  py_fit S m (IGNORE R) rows = match rust_fit S m rows with Ok m' => (Done, m') | Err => (Raised, m) | Panic => (Panicked, m) end.
Proof. by []. Qed.

Lemma py_fit_df_ok (F : faer R) (HF : faer_ok F) lambda s (Hl : 0 <= lambda) m df names target pol rows :
  table df names target rows ->
  accepts pol rows -> (size names <= size (used_rows pol rows))%N -> (0 < size (used_rows pol rows))%N ->
  let d := design (m_bias m) (used_rows pol rows) in
  identifiable (not_bias (m_bias m)) lambda (map fst d) ->
  exists w m', py_fit_df (lr_solver F lambda s) m df (Names names) target pol = (Done, m') /\
    unique_min (ridge_err (not_bias (m_bias m)) lambda d) w /\ learned w m' /\ m_names m' = names.
Proof.
move=> Ht Hacc Hp Hs d Hid; have [rows' [E Hn]] := handle_ok Hacc.
have [w [Hw Ef]] := @lr_rust_fit F HF lambda s Hl (set_input_features m (Names names)) _ _ _ Hn Hp Hs Hid.
exists w, (Model (m_bias m) (Some (vals_of (Some w))) names).
rewrite /py_fit_df /look (table_rows Ht) E py_fit_ignore Ef; split=> //; split=> //; split=> //.
by have [? [? ?]] := fitted_getters w names; split=> //; split=> //; split=> // x; rewrite line_predict.
Qed.

(** The expression learns the same. *)
Lemma expression_same (F : faer R) (HF : faer_ok F) lambda (Hl : 0 <= lambda) (b : bool) p pol (rows : seq (lrow R p)) s tol w :
  accepts pol rows -> (p <= size (used_rows pol rows))%N -> (0 < size (used_rows pol rows))%N ->
  let d := design b (used_rows pol rows) in
  identifiable (not_bias b) lambda (map fst d) -> unique_min (ridge_err (not_bias b) lambda d) w ->
  pl_lstsq F (LrArgs b pol s 0 lambda tol None) rows = Ok (Some w).
Proof.
move=> Hacc Hp Hs d Hid Hw.
have Hm : Num.max 0 lambda = lambda by apply/max_idPr.
have [||||||w' [E H]] := @lstsq_ok R F HF p (LrArgs b pol s 0 lambda tol None) rows => //=.
- by apply: leq_trans Hs _; rewrite size_pmap count_size.
- by rewrite Hm.
rewrite E; congr (Ok (Some _)); by rewrite /= Hm in H; apply: (unique_min2 Hw H).
Qed.

(** Too few rows. *)
Lemma handle_size p (pol : policy R) (rows rows' : seq (lrow R p)) : accepts pol rows ->
  handle_nulls pol rows = Ok rows' -> size rows' = size (used_rows pol rows).
Proof.
move=> Hacc E; have [r2 [E2 Hn]] := handle_ok Hacc; rewrite E in E2; case: E2 Hn => <- Hn.
by rewrite -(size_map (@num_row R p)) Hn size_map.
Qed.
Lemma few_rows (S : solver R) m p (pol : policy R) (rows : seq (lrow R p)) : accepts pol rows ->
  (needs_rows S && (size (used_rows pol rows) < p)%N) || (size (used_rows pol rows) == 0)%N ->
  py_fit S m pol rows = (Raised, m).
Proof.
move=> Hacc H; have [rows' [E _]] := handle_ok Hacc.
rewrite /py_fit E /rust_fit (handle_size Hacc E).
by case/orP: H => ->; [|case: ifP].
Qed.
Lemma en_one_row (l1 l2 tol : R) max_iter m p (pol : policy R) (rows : seq (lrow R p)) : accepts pol rows ->
  (0 < size (used_rows pol rows))%N ->
  exists v, py_fit (en_solver l1 l2 tol max_iter) m pol rows = (Done, Model (m_bias m) (Some v) (m_names m)).
Proof.
move=> Hacc H; have [rows' [E _]] := handle_ok Hacc.
rewrite /py_fit E /rust_fit (handle_size Hacc E) /= -[_ == 0%N]negbK -lt0n H.
by eexists.
Qed.
Lemma few_rows_df (S : solver R) m df names target pol rows : table df names target rows -> accepts pol rows ->
  (needs_rows S && (size (used_rows pol rows) < size names)%N) || (size (used_rows pol rows) == 0)%N ->
  py_fit_df S m df (Names names) target pol = (Raised, Model (m_bias m) (m_vals m) names).
Proof.
move=> Ht Hacc H; have [rows' [E _]] := handle_ok Hacc.
rewrite /py_fit_df /look (table_rows Ht) E py_fit_ignore /rust_fit (handle_size Hacc E).
by case/orP: H => ->; [|case: ifP].
Qed.
Lemma raise_rows (S : solver R) m p (rows : seq (lrow R p)) : ~~ no_null rows -> py_fit S m (RAISE R) rows = (Raised, m).
Proof. by move=> H; rewrite /py_fit handle_raise. Qed.

(** *** The object's own list of names *)
Lemma own_names (S : solver R) m df target pol m' : py_fit_df S m df (Own name) target pol = (Done, m') ->
  m_names m' = [::] /\ forall df', predict_df m' df' = Err.
Proof.
rewrite /py_fit_df; case: (df_rows _ _ _) => // rows; case: (handle_nulls pol rows) => // rows'.
rewrite py_fit_ignore; rewrite /rust_fit; case: ifP => // _; case: ifP => // _ [<-].
by split=> // df'; apply: predict_df_no_names.
Qed.

(** *** Histories *)
Lemma step_bias (S : solver R) m c : m_bias (step S m c).2 = m_bias m.
Proof.
have Hfit p pol rows m0 : m_bias (py_fit S m0 (p := p) pol rows).2 = m_bias m0.
  by rewrite /py_fit; case: (handle_nulls pol rows) => //= rows'; rewrite /rust_fit; case: ifP => // _; case: ifP.
case: c => [p pol rows|df a target pol|a] //=.
by rewrite /py_fit_df; case: (df_rows _ _ _) => // rows; case: (handle_nulls pol rows) => // rows'; rewrite Hfit.
Qed.
Lemma run_bias (S : solver R) m (cs : seq (call R name)) : m_bias (run S m cs) = m_bias m.
Proof. by rewrite /run; elim: cs m => //= c cs IH m; rewrite IH step_bias. Qed.

Lemma step_vals (S : solver R) m c :
  (succeeds S m c /\ exists vs, m_vals (step S m c).2 = Some vs /\ (m_bias m <= size vs)%N) \/
  (~ succeeds S m c /\ m_vals (step S m c).2 = m_vals m).
Proof.
have Hfit p pol rows m0 :
  ((py_fit S m0 (p := p) pol rows).1 = Done /\
   exists vs, m_vals (py_fit S m0 pol rows).2 = Some vs /\ (m_bias m0 <= size vs)%N) \/
  ((py_fit S m0 pol rows).1 <> Done /\ m_vals (py_fit S m0 pol rows).2 = m_vals m0).
  rewrite /py_fit; case: (handle_nulls pol rows) => [rows'||]; [|by right|by right].
  rewrite /rust_fit; case: ifP => _; first by right.
  case: ifP => _; first by right.
  left; split=> //; eexists; split; first by [].
  by rewrite /= size_vals_of leq_addl.
rewrite /succeeds; case: c => [p pol rows|df a target pol|a].
- case: (Hfit p pol rows m) => -[H1 H2]; first by left.
  by right; split=> // -[].
- rewrite /step /py_fit_df; case: (df_rows _ _ _) => [rows|]; last by right; split=> // -[].
  case: (handle_nulls pol rows) => [rows'||]; [|by right; split=> // -[]|by right; split=> // -[]].
  case: (Hfit _ (IGNORE R) rows' (set_input_features m a)) => -[H1 H2]; first by left.
  by right; split=> // -[].
by right; split=> // -[].
Qed.

Lemma getters_vals m m' : m_bias m = m_bias m' -> m_vals m = m_vals m' -> coeffs m = coeffs m' /\ bias m = bias m'.
Proof. by case: m => b v n; case: m' => b' v' n' /= -> ->. Qed.

Lemma history_ok (S : solver R) m (cs : seq (call R name)) :
  (no_success S m cs /\ coeffs (run S m cs) = coeffs m /\ bias (run S m cs) = bias m) \/
  (exists c1 c c2, cs = c1 ++ c :: c2 /\ succeeds S (run S m c1) c /\
     no_success S (run S m (rcons c1 c)) c2 /\
     coeffs (run S m cs) = coeffs (run S m (rcons c1 c)) /\ bias (run S m cs) = bias (run S m (rcons c1 c)) /\
     (exists vs, coeffs (run S m cs) = Ok vs) /\ exists v, bias (run S m cs) = Ok v).
Proof.
have Hgood m0 vs : m_vals m0 = Some vs -> (m_bias m0 <= size vs)%N -> (exists l, coeffs m0 = Ok l) /\ exists v, bias m0 = Ok v.
  rewrite /coeffs /coefficients /bias /nrows => -> /=; case: (m_bias m0) => Hs.
    by rewrite eqn0Ngt Hs; split; eexists.
  by split; eexists.
have run_rcons m0 l c : run S m0 (rcons l c) = (step S (run S m0 l) c).2 by rewrite /run foldl_rcons.
have run_cat m0 l l' : run S m0 (l ++ l') = run S (run S m0 l) l' by rewrite /run foldl_cat.
elim/last_ind: cs => [|cs c IH].
  by left; split=> // -[].
case: (step_vals S (run S m cs) c) => -[Hsucc Hv].
  right; exists cs, c, [::]; rewrite cats1; split=> //; split=> //; split; first by case.
  split=> //; split=> //.
  have [vs [Ev Hs]] := Hv; rewrite -run_rcons in Ev.
  apply: (Hgood _ vs) => //; by rewrite run_bias -(run_bias S m cs).
have [Ec Eb] : coeffs (run S m (rcons cs c)) = coeffs (run S m cs) /\ bias (run S m (rcons cs c)) = bias (run S m cs).
  by apply: getters_vals; rewrite run_rcons ?step_bias.
have ext m0 l : no_success S m0 l -> ~ succeeds S (run S m0 l) c -> no_success S m0 (rcons l c).
  move=> Hn Hc c1 c' c2; case/lastP: c2 => [|c2 c''].
    by rewrite cats1 => /rcons_inj[<- <-].
  rewrite -rcons_cons -rcons_cat => /rcons_inj[El Ec'].
  exact: (Hn _ _ _ El).
case: IH => [[Hn [E1 E2]]|[c1 [c' [c2 [E [Hs [Hn [E1 [E2 [H1 H2]]]]]]]]]].
  by left; rewrite Ec Eb; split=> //; apply: ext.
right; exists c1, c', (rcons c2 c); split; first by rewrite E rcons_cat.
split=> //; split; last by rewrite Ec Eb.
apply: ext => //.
by rewrite -run_cat cat_rcons -E.
Qed.
End Proofs.
