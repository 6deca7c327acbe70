(** Least squares with a cut-off for singular values. *)
From Coq Require Import Ring Field.
From mathcomp Require Import all_ssreflect all_algebra.
From Verif Require Import LinModel LinSpec LinCore LinProofs LinExprSpec LinExpr RcondModel RcondSpec.
Set Implicit Arguments.
Unset Strict Implicit.
Import Order.TTheory GRing.Theory Num.Theory.
Local Open Scope ring_scope.

Lemma tr00 (R : realFieldType) (N : 'M[R]_1) : N^T = N.
Proof. by apply/matrixP => i j; rewrite mxE (ord1 i) (ord1 j). Qed.

Section Err.
Variable R : realFieldType.
Variable m : nat.
(** Coq's [ring] and [field] for the field [R]. *)
Add Ring Rring : (@Rrt R).
Add Field Rfield : (@Rft R).
Notation K := (@K R). Notation kadd := (@kadd R). Notation kmul := (@kmul R). Notation kopp := (@kopp R).
Notation kinv := (@kinv R). Notation k0 := (k0 R). Notation k1 := (k1 R).
Ltac tok := rewrite ?exprS ?expr0 ?mulrS ?mulr0n;
  repeat match goal with
  | |- context[@GRing.add _ ?a ?b] => change (@GRing.add _ a b) with (kadd a b)
  | |- context[@GRing.mul _ ?a ?b] => change (@GRing.mul _ a b) with (kmul a b)
  | |- context[@GRing.opp _ ?a] => change (@GRing.opp _ a) with (kopp a)
  | |- context[@GRing.inv _ ?a] => change (@GRing.inv _ a) with (kinv a)
  | |- context[@GRing.zero _] => change (@GRing.zero _) with k0
  | |- context[@GRing.one _] => change (@GRing.one _) with k1
  end; match goal with |- @eq _ ?a ?b => change (@eq K a b) end.
Ltac rg := tok; ring.
Ltac fd := tok; field.
Implicit Types (d : seq ('rV[R]_m * R)) (w h : 'cV[R]_m).

Lemma dotE (x y : 'cV[R]_m) : dot x y = (x^T *m y) 0 0.
Proof. by rewrite mxE; apply: eq_bigr => j _; rewrite mxE. Qed.

Lemma pen_prodE pen lambda d (x y : 'cV[R]_m) : pen_prod pen lambda d x y = (x^T *m amat pen lambda (ones d) *m y) 0 0.
Proof.
rewrite /amat mulmxDr mulmxDl mxE gram_form ridge_form /pen_prod /prod_on; congr (_ + _).
by rewrite /ones big_map; apply: eq_bigr => r _; rewrite mul1r.
Qed.

(** The error around any coefficients. *)
Lemma err_shift pen lambda d w h :
  ridge_err pen lambda d (w + h) = ridge_err pen lambda d w + pen_prod pen lambda d h h
    + 2%:R * (h^T *m (amat pen lambda (ones d) *m w - moment (ones d))) 0 0.
Proof.
have -> : (h^T *m (amat pen lambda (ones d) *m w - moment (ones d))) 0 0
        = pen_prod pen lambda d h w - \sum_(r <- d) r.2 * predict r.1 h.
  rewrite mulmxBr mulmxA pen_prodE; have MB (a b : 'M[R]_1) : (a - b) 0 0 = a 0 0 - b 0 0 by rewrite !mxE.
  by rewrite MB moment_form /ones big_map; congr (_ - _); apply: eq_bigr => r _; rewrite mul1r.
rewrite /ridge_err /pen_prod /prod_on /sq_err.
have -> : \sum_(r <- d) (r.2 - predict r.1 (w + h)) ^+ 2 = \sum_(r <- d) (r.2 - predict r.1 w) ^+ 2
   + \sum_(r <- d) predict r.1 h * predict r.1 h
   + 2%:R * (\sum_(r <- d) predict r.1 h * predict r.1 w - \sum_(r <- d) r.2 * predict r.1 h).
  rewrite -sumrB mulr_sumr -!big_split /=; apply: eq_bigr => r _; rewrite predictD.
  set a := predict _ w; set b := predict _ h; set y := r.2.
  rg.
have -> : \sum_(j < m | pen j) ((w + h) j 0) ^+ 2 = \sum_(j < m | pen j) (w j 0) ^+ 2
   + \sum_(j < m | pen j) h j 0 * h j 0 + 2%:R * \sum_(j < m | pen j) h j 0 * w j 0.
  rewrite mulr_sumr -!big_split /=; apply: eq_bigr => j _; rewrite mxE; set a := w j 0; set b := h j 0; rg.
set a := \sum_(r <- d) _; set b := \sum_(r <- d) _; set c := \sum_(r <- d) _; set e := \sum_(r <- d) _.
set f := \sum_(j < m | _) _; set g := \sum_(j < m | _) _; set k := \sum_(j < m | _) _.
rg.
Qed.
End Err.

(** ** The decomposition of the normal matrix *)
Section Dec.
Variable R : rcfType.
Variable m : nat.
Variables (pen : pred 'I_m) (lambda : R) (d : seq ('rV[R]_m * R)).
Hypothesis Hl : 0 <= lambda.
Notation M := (amat pen lambda (ones d)).
Variables (U V : 'M[R]_m) (s : 'rV[R]_m).
Hypotheses (HM : M = U *m diag_mx s *m V^T) (HU : U^T *m U = 1%:M) (HV : V^T *m V = 1%:M).
Hypothesis Hs : forall i, 0 <= s 0 i.
Notation v := (fun i => col i V).
Notation u := (fun i => col i U).

Lemma col_diag (N : 'M[R]_m) i : col i (N *m diag_mx s) = s 0 i *: col i N.
Proof. by apply/matrixP => k j; rewrite mul_mx_diag !mxE mulrC. Qed.

Lemma Mv i : M *m col i V = s 0 i *: col i U.
Proof. by rewrite HM colE mulmxA -(mulmxA _ V^T V) HV mulmx1 -colE col_diag. Qed.

Lemma Mu i : M *m col i U = s 0 i *: col i V.
Proof.
rewrite -amat_sym HM !trmx_mul trmxK tr_diag_mx colE !mulmxA -(mulmxA _ U^T U) HU mulmx1 -colE.
exact: col_diag.
Qed.

Lemma psd (h : 'cV[R]_m) : 0 <= (h^T *m M *m h) 0 0.
Proof. by rewrite -qformE; apply: qform_ge0 => //; exact: nonneg_ones. Qed.

Lemma sq_norm0 (h : 'cV[R]_m) : dot h h <= 0 -> h = 0.
Proof.
move=> H; have P : forall j, true -> 0 <= h j 0 * h j 0 by move=> j _; rewrite -expr2 sqr_ge0.
have E : dot h h = 0 by apply/eqP; rewrite eq_le H sumr_ge0.
apply/matrixP => i j; rewrite (ord1 j) mxE.
by have := psumr_eq0P P E isT (i := i) => /eqP; rewrite mulf_eq0 => /orP[] /eqP.
Qed.

Lemma uv i : s 0 i != 0 -> col i U = col i V.
Proof.
move=> H; have P : 0 < s 0 i by rewrite lt_def H Hs.
apply/eqP; rewrite -subr_eq0; apply/eqP; apply: sq_norm0; rewrite -oppr_ge0 -(pmulr_rge0 _ P).
have := psd (col i U - col i V); rewrite -mulmxA mulmxBr Mu Mv -scalerBr -scalemxAr.
have -> : col i V - col i U = - (col i U - col i V) by rewrite opprB.
by move: (col i U - col i V) => h; rewrite mulmxN scalerN dotE !mxE mulrN.
Qed.

Lemma Meig i : M *m col i V = s 0 i *: col i V.
Proof. by rewrite Mv; have [->|H] := eqVneq (s 0 i) 0; [rewrite !scale0r|rewrite uv]. Qed.

Lemma v_dot i j : dot (col i V) (col j V) = (i == j)%:R.
Proof.
have -> : (i == j)%:R = (V^T *m V) i j :> R by rewrite HV mxE.
by rewrite mxE; apply: eq_bigr => k _; rewrite !mxE.
Qed.

Lemma v_prod i j : pen_prod pen lambda d (col i V) (col j V) = if i == j then s 0 i else 0.
Proof.
rewrite pen_prodE -mulmxA Meig -scalemxAr mxE -dotE v_dot.
by have [->|] := eqVneq i j; rewrite ?mulr1 ?mulr0.
Qed.

(** The code's coefficients for a set of directions that are kept, none of them with a zero value. *)
Variable K : pred 'I_m.
Hypothesis HK : forall i, K i -> s 0 i != 0.
Definition coeffs_K : 'cV[R]_m := V *m diag_mx (\row_i (if K i then (s 0 i)^-1 else 0)) *m U^T *m moment (ones d).

Lemma coeffs_sum : coeffs_K = \sum_(i | K i) ((s 0 i)^-1 * dot (col i V) (moment (ones d))) *: col i V.
Proof.
rewrite /coeffs_K; move: (moment _) => b.
apply/matrixP => k j; rewrite (ord1 j) summxE [RHS]big_mkcond mxE.
have -> : \sum_j0 (V *m diag_mx (\row_i (if K i then (s 0 i)^-1 else 0)) *m U^T) k j0 * b j0 0
        = \sum_i V k i * (if K i then (s 0 i)^-1 else 0) * dot (col i U) b.
  under eq_bigr => l _ do rewrite mxE mulr_suml.
  rewrite exchange_big /=; apply: eq_bigr => i _; rewrite /dot mulr_sumr; apply: eq_bigr => l _.
  by rewrite mul_mx_diag !mxE mulrA.
apply: eq_bigr => i _; case: ifP => Ki; last by rewrite mulr0 mul0r.
by rewrite uv ?HK // !mxE [RHS]mulrC mulrA.
Qed.

Lemma coeffs_normal i : K i -> (col i V)^T *m (M *m coeffs_K - moment (ones d)) = 0.
Proof.
move=> Ki; apply/matrixP => a c; rewrite (ord1 a) (ord1 c) [RHS]mxE -dotE.
have DB (x y z : 'cV[R]_m) : dot x (y - z) = dot x y - dot x z.
  by rewrite /dot -sumrB; apply: eq_bigr => j _; rewrite !mxE mulrBr.
rewrite DB; apply/eqP; rewrite subr_eq0; apply/eqP.
have -> : dot (col i V) (M *m coeffs_K) = pen_prod pen lambda d (col i V) coeffs_K by rewrite dotE pen_prodE mulmxA.
rewrite coeffs_sum pen_prodE -mulmxA mulmx_sumr mulmx_sumr summxE (bigD1 i) //= big1 ?addr0.
  rewrite -!scalemxAr mxE mulmxA -pen_prodE v_prod eqxx mulrAC mulVf ?mul1r // HK //.
move=> j /andP[_ Hj]; rewrite -!scalemxAr mxE mulmxA -pen_prodE v_prod eq_sym (negbTE Hj) mulr0 //.
Qed.

Lemma prod_span (c : 'I_m -> R) : let h := \sum_(i | K i) c i *: col i V in
  pen_prod pen lambda d h h = \sum_(i | K i) c i ^+ 2 * s 0 i.
Proof.
rewrite /= pen_prodE -mulmxA mulmx_sumr.
have -> : \sum_(i | K i) M *m (c i *: col i V) = \sum_(i | K i) (c i * s 0 i) *: col i V.
  by apply: eq_bigr => i _; rewrite -scalemxAr Meig scalerA.
rewrite mulmx_sumr summxE; apply: eq_bigr => i Ki.
rewrite -scalemxAr mxE -dotE.
have -> : dot (\sum_(i0 | K i0) c i0 *: col i0 V) (col i V) = c i.
  rewrite dotE mxE.
  have -> : \sum_j (\sum_(i0 | K i0) c i0 *: col i0 V)^T 0 j * col i V j 0 = \sum_(i0 | K i0) c i0 * dot (col i0 V) (col i V).
    under [RHS]eq_bigr => l _ do rewrite /dot mulr_sumr.
    rewrite exchange_big /=; apply: eq_bigr => j _; rewrite mxE summxE mulr_suml; apply: eq_bigr => l _.
    by rewrite !mxE mulrA.
  rewrite (bigD1 i) //= v_dot eqxx mulr1 big1 ?addr0 // => j /andP[_ Hj]; by rewrite v_dot (negbTE Hj) mulr0.
by rewrite expr2 mulrAC.
Qed.

Lemma best_K : best_in_span (ridge_err pen lambda d) K v coeffs_K.
Proof.
have Sp : in_span K v coeffs_K by eexists; exact: coeffs_sum.
split=> // z [c Ez] Hz; have [c0 Ec] := Sp.
have Eh : z - coeffs_K = \sum_(i | K i) (c i - c0 i) *: col i V.
  by rewrite Ez {1}Ec -sumrB; apply: eq_bigr => i _; rewrite scalerBl.
rewrite -(subrK coeffs_K z) addrC err_shift.
have -> : (z - coeffs_K)^T *m (M *m coeffs_K - moment (ones d)) = 0.
  rewrite Eh raddf_sum mulmx_suml big1 // => i Ki.
  have TZ (a : R) (x : 'cV[R]_m) : (a *: x)^T = a *: x^T by apply/matrixP => k l; rewrite !mxE.
  by rewrite /= TZ -scalemxAl coeffs_normal // scaler0.
rewrite mxE mulr0 addr0 ltr_addl Eh prod_span lt_def.
have P i : K i -> 0 <= (c i - c0 i) ^+ 2 * s 0 i by move=> _; rewrite mulr_ge0 ?sqr_ge0.
rewrite sumr_ge0 // andbT; apply: contraNN Hz => /eqP E.
rewrite -subr_eq0 Eh big1 // => i Ki.
have := psumr_eq0P P E Ki => /eqP; rewrite mulf_eq0 (negbTE (HK Ki)) orbF sqrf_eq0 => /eqP ->.
by rewrite scale0r.
Qed.
End Dec.

(** ** The expression *)
Section Expr.
Variable R : rcfType.
Variable S : svd_of R.
Hypothesis HS : svd3_ok S.
Variable eps : R.
Hypothesis Heps : 0 < eps.
Variables (p : nat) (b : bool) (pol : policy R) (rows : seq (lrow R p)) (l2 rcond : R).
Notation d := (design b (used_rows pol rows)).
Hypotheses (H1 : (0 < size rows)%N) (H2 : accepts pol rows) (H3 : (p <= size (used_rows pol rows))%N).
Notation lam := (Num.max 0 l2).
Notation cut := (rcond_of eps `|rcond| (size d) p b).

Lemma xtxE : (if (0 <= l2) && (0 < abs_diff (p + b) b)%N then add_ridge (abs_diff (p + b) b) l2 ((Xmat d)^T *m Xmat d) else (Xmat d)^T *m Xmat d)
  = amat (not_bias b) lam (ones d).
Proof.
rewrite abs_diff_bias gram_ones /amat; case: ifP => [/andP[Q1 Q2]|].
  by rewrite (max_idPr Q1) add_ridgeE.
case: (leP 0 l2) => [Q1 /= Hp|Q1 _]; last by rewrite ridge0 addr0.
suff -> : ridge (not_bias b) l2 = 0 :> 'M[R]_(p + b) by rewrite addr0.
apply/matrixP => i j; rewrite !mxE /not_bias.
have -> : (i < p)%N = false by move/negbT: Hp; rewrite -leqNgt => Hp; apply/negbTE; rewrite -leqNgt; apply: leq_trans Hp (leq0n _).
by rewrite andbF.
Qed.

Lemma lam_ge0 : 0 <= lam. Proof. by rewrite le_maxr lexx. Qed.

Lemma cut_gt0 : 0 < cut.
Proof.
rewrite /rcond_of lt_maxr; apply/orP; right; rewrite mulr_gt0 // ltr0n.
by apply: leq_trans (leq_maxl _ _); rewrite addn1.
Qed.

Definition maxs (s : 'I_(p + b) -> R) : R := \big[Num.max/0]_i s i.

Lemma run out : lin_reg_w_rcond S eps b l2 rcond pol rows = Ok (Some out) ->
  exists U s V, @S (p + b)%N (amat (not_bias b) lam (ones d)) = Some (U, s, V) /\
    let K : pred 'I_(p + b) := fun i => cut * maxs (fun i => Num.sqrt (s 0 i)) <= s 0 i in
    o_sv out = (fun i => Num.sqrt (s 0 i)) /\
    o_coeffs out = if [exists i, K i && (s 0 i == 0)] then None else Some (coeffs_K d U V s K).
Proof.
have [df [mask [E1 E2 _]]] := series_ok b H1 H2 H3.
rewrite /lin_reg_w_rcond E1 E2 all_some_map /faer_solve_lstsq_rcond xtxE.
case E : (S _) => [[[U s] V]|] // [<-]; exists U, s, V; split=> //=.
by split=> //; rewrite /coeffs_K -moment_ones mulmxA.
Qed.

Lemma maxs_ge (s : 'I_(p + b) -> R) i : s i <= maxs s.
Proof.
rewrite /maxs; have : i \in index_enum (ordinal_finType (p + b)) by rewrite mem_index_enum.
elim: (index_enum _) => // j l IH; rewrite inE big_cons le_maxr => /orP[/eqP ->|/IH ->]; by rewrite ?lexx ?orbT.
Qed.

Lemma maxs_ge0 (s : 'I_(p + b) -> R) : 0 <= maxs s.
Proof. by rewrite /maxs; elim: (index_enum _) => [|j l IH]; rewrite ?big_nil ?big_cons // le_maxr IH orbT. Qed.

Lemma maxs_le (s : 'I_(p + b) -> R) x : 0 <= x -> (forall j, s j <= x) -> maxs s <= x.
Proof. by move=> H0 H; rewrite /maxs; elim: (index_enum _) => [|j l IH]; rewrite ?big_nil ?big_cons // le_maxl H. Qed.

Lemma cut_maxs (s : 'I_(p + b) -> R) x : 0 <= x -> (cut * maxs s <= x) = [forall j, cut * s j <= x].
Proof.
move=> H0; have P := cut_gt0; apply/idP/forallP => [H j|H].
  by apply: le_trans H; rewrite ler_pmul2l ?maxs_ge.
rewrite mulrC -ler_pdivl_mulr //; apply: maxs_le; first by rewrite divr_ge0 // ltW.
by move=> j; rewrite ler_pdivl_mulr // mulrC.
Qed.

(** The documented cut-off, on squares instead of values: what the code keeps. *)
Definition kept (s : 'I_(p + b) -> R) : pred 'I_(p + b) := fun i => [forall j, cut * s j <= s i ^+ 2].

Lemma rcond_ok out : lin_reg_w_rcond S eps b l2 rcond pol rows = Ok (Some out) ->
  exists v, singular (pen_prod (not_bias b) lam d) (o_sv out) v /\
    ((exists i, o_sv out i != 0) -> exists w, o_coeffs out = Some w /\
       best_in_span (ridge_err (not_bias b) lam d) (kept (o_sv out)) v w) /\
    ((forall i, o_sv out i = 0) -> (0 < p + b)%N -> o_coeffs out = None).
Proof.
move=> E; have [U [s [V [Es [Esv Eco]]]]] := run E.
have [HM HU HV Hs Hd] := HS Es.
have sq i : Num.sqrt (s 0 i) ^+ 2 = s 0 i by rewrite sqr_sqrtr.
have Kk : (fun i => cut * maxs (fun i => Num.sqrt (s 0 i)) <= s 0 i) =1 kept (o_sv out).
  by move=> i /=; rewrite cut_maxs // /kept Esv sq.
exists (fun i => col i V); split.
  split.
  - by move=> i j; rewrite (v_dot HV).
  - by move=> i j; rewrite (v_prod lam_ge0 HM HU HV Hs) Esv sq.
  - by move=> i; rewrite Esv sqrtr_ge0.
  - by move=> i j Hij; rewrite Esv; apply: ler_wsqrtr; exact: Hd.
have Nz : (exists i, o_sv out i != 0) -> forall i, kept (o_sv out) i -> s 0 i != 0.
  move=> [k Hk] i Ki; rewrite -sq; apply: lt0r_neq0.
  move: Ki; rewrite /kept => /forallP /(_ k); rewrite Esv; apply: lt_le_trans.
  by rewrite mulr_gt0 ?cut_gt0 // lt_def sqrtr_ge0 andbT; move: Hk; rewrite Esv.
split.
  move=> Hk; have N := Nz Hk; rewrite Eco ifF.
    eexists; split; first by [].
    have -> : coeffs_K d U V s (fun i => cut * maxs (fun i => Num.sqrt (s 0 i)) <= s 0 i) = coeffs_K d U V s (kept (o_sv out)).
      rewrite /coeffs_K; congr (_ *m diag_mx _ *m _ *m _); apply/rowP => i; by rewrite !mxE Kk.
    exact: (best_K lam_ge0 HM HU HV Hs N).
  by apply/existsP => -[i /andP[Ki S0]]; move: (N i); rewrite -Kk S0 => /(_ Ki).
move=> H0 Hp; rewrite Eco ifT //; apply/existsP; exists (Ordinal Hp); rewrite Kk /kept.
have S0 : s 0 (Ordinal Hp) = 0 by rewrite -sq; move: (H0 (Ordinal Hp)); rewrite Esv => ->; rewrite expr0n.
rewrite S0 eqxx andbT; apply/forallP => j; by rewrite H0 mulr0 sqr_ge0.
Qed.
End Expr.

(** ** Consequences *)
Section Ortho.
Variable R : realFieldType.
Variable m : nat.
Variable v : 'I_m -> 'cV[R]_m.
Hypothesis Hv : forall i j, dot (v i) (v j) = (i == j)%:R.
Definition Vm : 'M[R]_m := \matrix_(k, i) v i k 0.

Lemma VtV : Vm^T *m Vm = 1%:M.
Proof.
apply/matrixP => i j; rewrite mxE [RHS]mxE -Hv; apply: eq_bigr => k _; by rewrite !mxE.
Qed.
Lemma VVt : Vm *m Vm^T = 1%:M.
Proof. exact: mulmx1C VtV. Qed.

Lemma span_all (z : 'cV[R]_m) : z = \sum_i dot (v i) z *: v i.
Proof.
rewrite -{1}[z]mul1mx -VVt -mulmxA; apply/matrixP => k j; rewrite (ord1 j) mxE summxE.
apply: eq_bigr => i _; rewrite !mxE mulrC; congr (_ * _); apply: eq_bigr => l _; by rewrite !mxE.
Qed.

Lemma predict_ortho (x : 'rV[R]_m) : \sum_i predict x (v i) * predict x (v i) = \sum_j x 0 j ^+ 2.
Proof.
have E : (x *m Vm) *m (x *m Vm)^T = x *m x^T by rewrite trmx_mul mulmxA -(mulmxA x) VVt mulmx1.
have := congr1 (fun N : 'M[R]_1 => N 0 0) E; rewrite /= [LHS]mxE [RHS]mxE => E'.
transitivity (\sum_j x 0 j * x^T j 0); last by apply: eq_bigr => j _; rewrite mxE expr2.
rewrite -E'; apply: eq_bigr => i _; rewrite [_^T i 0]mxE; congr (_ * _); rewrite mxE; apply: eq_bigr => j _; by rewrite mxE.
Qed.

Lemma pen_ortho (pen : pred 'I_m) : \sum_i \sum_(j | pen j) v i j 0 * v i j 0 = #|pen|%:R.
Proof.
rewrite exchange_big /= (eq_bigr (fun=> 1)) ?sumr_const //.
move=> j _; have := congr1 (fun N : 'M[R]_m => N j j) VVt; rewrite /= mxE [RHS]mxE eqxx => E.
by rewrite -[RHS]E; apply: eq_bigr => i _; rewrite !mxE.
Qed.

Lemma sum_prod pen lambda (d : seq ('rV[R]_m * R)) :
  \sum_i pen_prod pen lambda d (v i) (v i) = \sum_(r <- d) \sum_j r.1 0 j ^+ 2 + lambda * #|pen|%:R.
Proof.
rewrite /pen_prod big_split /= -mulr_sumr pen_ortho; congr (_ + _).
by rewrite /prod_on exchange_big /=; apply: eq_bigr => r _; rewrite predict_ortho.
Qed.

Lemma sum_sq q s : singular q s v -> \sum_i s i ^+ 2 = \sum_i q (v i) (v i).
Proof. by move=> [_ H _ _]; apply: eq_bigr => i _; rewrite H eqxx. Qed.
End Ortho.

Lemma singular_pen0 (R : realFieldType) m (pen : pred 'I_m) (d : seq ('rV[R]_m * R)) s v :
  singular (pen_prod pen 0 d) s v <-> singular (prod_on d) s v.
Proof.
have E x y : pen_prod pen 0 d x y = prod_on d x y by rewrite /pen_prod mul0r addr0.
split=> -[A1 A2 A3 A4]; split=> // i j; have := A2 i j; rewrite ?E //.
Qed.

(** The rank of a diagonal matrix. *)
Lemma rank_diag (R : fieldType) m (r : 'rV[R]_m) : \rank (diag_mx r) = #|[set i | r 0 i != 0]|.
Proof.
set K := [set i | _]; set k := #|K|.
pose B : 'M[R]_(k, m) := \matrix_(a, j) (enum_val a == j)%:R.
pose rk : 'rV[R]_k := \row_a r 0 (enum_val a).
have E1 : B *m diag_mx r *m B^T = diag_mx rk.
  apply/matrixP => a c; rewrite mxE (bigD1 (enum_val c)) //= big1 ?addr0.
    rewrite mul_mx_diag !mxE eqxx mulr1; have [->|H] := eqVneq a c; first by rewrite eqxx mul1r mulr1n.
    by rewrite (inj_eq enum_val_inj) (negbTE H) mul0r mulr0n.
  by move=> j Hj; rewrite [X in _ * X]mxE [B _ _]mxE eq_sym (negbTE Hj) mulr0.
have E2 : diag_mx r = B^T *m diag_mx rk *m B.
  apply/matrixP => i j; rewrite [RHS]mxE [LHS]mxE.
  have T a : (B^T *m diag_mx rk) i a * B a j = (enum_val a == i)%:R * r 0 (enum_val a) * (enum_val a == j)%:R.
    by rewrite mul_mx_diag !mxE.
  have [Hi|Hi] := boolP (i \in K); last first.
    have -> : r 0 i = 0 by apply/eqP; move: Hi; rewrite inE negbK.
    rewrite mul0rn big1 // => a _; rewrite T; case: eqP => [Ea|_]; last by rewrite !mul0r.
    by move: (enum_valP a); rewrite Ea (negbTE Hi).
  rewrite (bigD1 (enum_rank_in Hi i)) //= big1 ?addr0.
    by rewrite T enum_rankK_in // eqxx mul1r; case: eqP => _; rewrite ?mulr1 ?mulr0.
  move=> a Ha; rewrite T; case: eqP => [Ea|_]; last by rewrite !mul0r.
  by case/eqP: Ha; apply: enum_val_inj; rewrite enum_rankK_in.
have U : diag_mx rk \in unitmx.
  rewrite unitmxE det_diag unitfE; apply/prodf_neq0 => a _; rewrite mxE.
  by move: (enum_valP a); rewrite inE.
apply/eqP; rewrite eqn_leq; apply/andP; split.
  by rewrite E2; apply: leq_trans (mxrankM_maxr _ _) _; apply: rank_leq_row.
rewrite -{1}(mxrank_unit U) -E1; apply: leq_trans (mxrankM_maxl _ _) (mxrankM_maxr _ _).
Qed.

(** The number of singular values that are not zero is the rank. *)
Lemma singular_rank (R : realFieldType) m (d : seq ('rV[R]_m * R)) s v :
  singular (prod_on d) s v -> #|[set i | s i != 0]| = \rank (Xmat d).
Proof.
move=> [A1 A2 A3 A4].
have NN : (Xmat d *m Vm v)^T *m (Xmat d *m Vm v) = diag_mx (\row_i s i ^+ 2).
  apply/matrixP => i j; rewrite mxE [RHS]mxE.
  have -> : (\row_i0 s i0 ^+ 2) 0 i *+ (i == j) = prod_on d (v i) (v j).
    by rewrite A2 mxE; case: eqP => _; rewrite ?mulr1n ?mulr0n.
  rewrite /prod_on (big_nth (0, 0)) big_mkord; apply: eq_bigr => k _; rewrite [_^T i k]mxE.
  by congr (_ * _); rewrite mxE; apply: eq_bigr => l _; rewrite !mxE.
have C : Xmat d *m Vm v = (Xmat d *m Vm v) *m diag_mx (\row_i (s i != 0)%:R).
  apply/matrixP => k i; rewrite mul_mx_diag [RHS]mxE [in X in _ * X]mxE; case: eqP => [S0|_]; last by rewrite mulr1.
  rewrite mulr0; move: NN; move: (Xmat d *m Vm v) => N /(congr1 (fun N' : 'M[R]_m => N' i i)) /=.
  rewrite mxE [RHS]mxE eqxx mulr1n [RHS]mxE S0 expr0n /= => H.
  have P (l : 'I_(size d)) : true -> 0 <= N^T i l * N l i by move=> _; rewrite mxE -expr2 sqr_ge0.
  by have := psumr_eq0P P H (i := k) isT => /eqP; rewrite mxE mulf_eq0 orbb => /eqP.
have E1 : #|[set i | s i != 0]| = \rank (diag_mx (\row_i s i ^+ 2)).
  rewrite rank_diag; apply: eq_card => i; by rewrite !inE mxE sqrf_eq0.
have E2 : #|[set i | s i != 0]| = \rank (diag_mx (\row_i (s i != 0)%:R : 'rV[R]_m)).
  rewrite rank_diag; apply: eq_card => i; by rewrite !inE mxE pnatr_eq0 eqb0 negbK.
have E3 : \rank (Xmat d) = \rank (Xmat d *m Vm v).
  apply/eqP; rewrite eqn_leq mxrankM_maxl andbT.
  by rewrite -{1}[Xmat d]mulmx1 -(VVt A1) mulmxA mxrankM_maxl.
rewrite E3; apply/eqP; rewrite eqn_leq {1}E1 -NN mxrankM_maxr andTb.
by rewrite E2 C mxrankM_maxr.
Qed.

Section Conseq.
Variable R : rcfType.
Variable S : svd_of R.
Hypothesis HS : svd3_ok S.
Variable eps : R.
Hypothesis Heps : 0 < eps.
Variables (p : nat) (b : bool) (pol : policy R) (rows : seq (lrow R p)) (l2 rcond : R).
Notation d := (design b (used_rows pol rows)).
Hypotheses (H1 : (0 < size rows)%N) (H2 : accepts pol rows) (H3 : (p <= size (used_rows pol rows))%N).
Notation lam := (Num.max 0 l2).
Notation cut := (rcond_of eps `|rcond| (size d) p b).
Variable out : rcond_out R (p + b).
Hypothesis Hout : lin_reg_w_rcond S eps b l2 rcond pol rows = Ok (Some out).

Lemma cut0 : 0 < cut.
Proof. by rewrite lt_maxr; apply/orP; right; rewrite mulr_gt0 // ltr0n (leq_trans _ (leq_maxl _ _)) // addn1. Qed.

(** Nothing cut off: the ridge fit. *)
Lemma rcond_full : (exists i, o_sv out i != 0) -> (forall i j, cut * o_sv out j <= o_sv out i ^+ 2) ->
  exists w, o_coeffs out = Some w /\ unique_min (ridge_err (not_bias b) lam d) w.
Proof.
move=> Hn Hk; have [v [Sg [Q _]]] := rcond_ok HS Heps H1 H2 H3 Hout.
have [w [E [_ B]]] := Q Hn; exists w; split=> // z Hz; apply: B => //.
have [A1 _ _ _] := Sg; exists (fun i => dot (v i) z); rewrite {1}(span_all A1 z) [RHS]big_mkcond.
apply: eq_bigr => i _; rewrite ifT //; apply/forallP => j; exact: Hk.
Qed.

(** All singular values below the cut-off ratio: every coefficient is zero. *)
Lemma rcond_all_cut : (exists i, o_sv out i != 0) -> (forall i, o_sv out i < cut) -> o_coeffs out = Some 0.
Proof.
move=> [k Hk] Hc; have [v [[_ _ A3 _] [Q _]]] := rcond_ok HS Heps H1 H2 H3 Hout.
have [|w [E [[c Ew] _]]] := Q; first by exists k.
rewrite E Ew big_pred0 // => i; apply/negbTE/negP => /forallP Ki.
have Pk : 0 < o_sv out k by rewrite lt_def Hk A3.
have Pi : 0 < o_sv out i.
  rewrite lt_def A3 andbT; apply/eqP => Z; have := Ki k; rewrite Z expr0n /= leNgt mulr_gt0 //; exact: cut0.
by have := Ki i; rewrite expr2 ler_pmul2r // leNgt Hc.
Qed.

Lemma rcond_sum : \sum_i o_sv out i ^+ 2 = \sum_(r <- d) \sum_j r.1 0 j ^+ 2 + lam * p%:R.
Proof.
have [v [Sg _]] := rcond_ok HS Heps H1 H2 H3 Hout; have [A1 _ _ _] := Sg.
rewrite (sum_sq Sg) sum_prod //; congr (_ + _ * _%:R).
rewrite -sum1_card big_mkcond big_split_ord /= (eq_bigr (fun=> 1%N)) => [|i _]; last by rewrite /in_mem /= /not_bias /= ltn_ord.
rewrite sum1_card card_ord big1 ?addn0 // => i _; by rewrite /in_mem /= /not_bias /= ltnNge leq_addr.
Qed.

(** With a penalty the values returned are not the singular values of the features. *)
Lemma rcond_ridge : 0 < l2 -> (0 < p)%N -> forall s v, singular (prod_on d) s v -> ~ (forall i, o_sv out i = s i).
Proof.
move=> Hl Hp s v Sg E; have [A1 _ _ _] := Sg.
have : \sum_i o_sv out i ^+ 2 = \sum_i s i ^+ 2 by apply: eq_bigr => i _; rewrite E.
have Sg' := (singular_pen0 (not_bias b) d s v).2 Sg.
rewrite rcond_sum (sum_sq Sg') sum_prod // mul0r addr0 => /eqP.
rewrite -subr_eq0 addrC addKr mulf_eq0 pnatr_eq0 (gtn_eqF Hp) orbF => /eqP Z.
have : l2 <= lam by rewrite le_maxr lexx orbT.
by rewrite Z leNgt Hl.
Qed.
Lemma rcond_small : (exists i, o_sv out i != 0) -> (forall i, o_sv out i < `|rcond|) -> o_coeffs out = Some 0.
Proof. by move=> Hn Hc; apply: rcond_all_cut => // i; rewrite lt_maxr Hc. Qed.

Lemma rcond_rank : l2 <= 0 -> (exists v, singular (prod_on d) (o_sv out) v) /\
  #|[set i | o_sv out i != 0]| = \rank (\matrix_(i < size d, j < p + b) (nth (0, 0) d i).1 0 j).
Proof.
move=> Hl; have [v [Sg _]] := rcond_ok HS Heps H1 H2 H3 Hout.
rewrite (max_idPl Hl) in Sg; have Sg' := (singular_pen0 _ _ _ _).1 Sg; split; first by exists v.
rewrite (singular_rank Sg'); congr (\rank _); apply/matrixP => i j; by rewrite !mxE.
Qed.
End Conseq.
