(** Weighted normal equations, positivity and the rank-one update of an inverse. *)
From Coq Require Import Ring Field.
From mathcomp Require Import all_ssreflect all_algebra.
From Verif Require Import LinSpec.
Set Implicit Arguments.
Import Order.TTheory GRing.Theory Num.Theory.
Local Open Scope ring_scope.

Section Core.
Variable R : realFieldType.
Variable m : nat.
Notation row := (('rV[R]_m * R) * R)%type.

(** Coq's [ring] and [field] for the field [R]. *)
Definition K : Type := R.
Definition kadd (a b : K) : K := (a : R) + b.
Definition kmul (a b : K) : K := (a : R) * b.
Definition kopp (a : K) : K := - (a : R).
Definition kinv (a : K) : K := (a : R)^-1.
Definition k0 : K := (0 : R).
Definition k1 : K := (1 : R).
Definition Rrt : @ring_theory K k0 k1 kadd kmul (fun a b => kadd a (kopp b)) kopp eq.
Proof. rewrite /kadd /kmul /kopp /k0 /k1. split=> *; rewrite ?add0r ?mul1r ?subrr //; try exact: addrC; try exact: addrA; try exact: mulrC; try exact: mulrA; exact: mulrDl. Qed.
Add Ring Rring : Rrt.
Definition Rft : @field_theory K k0 k1 kadd kmul (fun a b => kadd a (kopp b)) kopp (fun a b => kmul a (kinv b)) kinv eq.
Proof. split; [exact: Rrt| apply/eqP; exact: oner_neq0 | by [] | by move=> p /eqP H; rewrite /kmul /kinv mulVf]. Qed.
Add Field Rfield : Rft.
Ltac tok := rewrite ?exprS ?expr0 ?mulrS ?mulr0n;
  repeat match goal with
  | |- context[@GRing.add _ ?a ?b] => change (@GRing.add _ a b) with (kadd a b)
  | |- context[@GRing.mul _ ?a ?b] => change (@GRing.mul _ a b) with (kmul a b)
  | |- context[@GRing.opp _ ?a] => change (@GRing.opp _ a) with (kopp a)
  | |- context[@GRing.inv _ ?a] => change (@GRing.inv _ a) with (kinv a)
  | |- context[@GRing.zero _] => change (@GRing.zero _) with k0
  | |- context[@GRing.one _] => change (@GRing.one _) with k1
  end; match goal with |- @eq _ ?a ?b => change (@eq K a b) end.
Ltac rg := tok; ring.
Ltac fd := tok; field.

Definition gram (d : seq row) : 'M[R]_m := \sum_(r <- d) r.2 *: (r.1.1^T *m r.1.1).
Definition moment (d : seq row) : 'cV[R]_m := \sum_(r <- d) (r.2 * r.1.2) *: r.1.1^T.
Definition ridge (pen : pred 'I_m) (lambda : R) : 'M[R]_m :=
  \matrix_(i, j) (if (i == j) && pen i then lambda else 0).
Definition amat pen lambda d := gram d + ridge pen lambda.

Lemma predictE (x : 'rV[R]_m) w : predict x w = (x *m w) 0 0.
Proof. by rewrite mxE. Qed.

Lemma predictD (x : 'rV[R]_m) v w : predict x (v + w) = predict x v + predict x w.
Proof. by rewrite !predictE mulmxDr mxE. Qed.

Lemma gram_form (d : seq row) (h w : 'cV[R]_m) :
  (h^T *m gram d *m w) 0 0 = \sum_(r <- d) r.2 * (predict r.1.1 h * predict r.1.1 w).
Proof.
rewrite /gram mulmx_sumr mulmx_suml summxE; apply: eq_bigr => r _.
rewrite -scalemxAr -scalemxAl mxE; congr (_ * _).
have -> : h^T *m (r.1.1^T *m r.1.1) *m w = (r.1.1 *m h)^T *m (r.1.1 *m w) by rewrite trmx_mul !mulmxA.
by rewrite [LHS]mxE big_ord1 !predictE; congr (_ * _); rewrite mxE.
Qed.

Lemma moment_form (d : seq row) (h : 'cV[R]_m) :
  (h^T *m moment d) 0 0 = \sum_(r <- d) r.2 * (r.1.2 * predict r.1.1 h).
Proof.
rewrite /moment mulmx_sumr summxE; apply: eq_bigr => r _.
by rewrite -scalemxAr mxE -trmx_mul mxE -predictE mulrA.
Qed.

Lemma ridge_mul pen lambda (w : 'cV[R]_m) i : (ridge pen lambda *m w) i 0 = if pen i then lambda * w i 0 else 0.
Proof.
rewrite mxE (bigD1 i) //= big1 ?addr0; first by rewrite mxE eqxx /=; case: (pen i); rewrite ?mul0r.
by move=> j Hj; rewrite mxE eq_sym (negbTE Hj) mul0r.
Qed.

Lemma ridge_form pen lambda (h w : 'cV[R]_m) :
  (h^T *m ridge pen lambda *m w) 0 0 = lambda * \sum_(j < m | pen j) h j 0 * w j 0.
Proof.
rewrite -mulmxA mxE mulr_sumr [RHS]big_mkcond /=; apply: eq_bigr => j _.
rewrite ridge_mul mxE; case: (pen j); last by rewrite mulr0.
by rewrite mulrCA.
Qed.

(** The quadratic form of the normal matrix. *)
Definition qform pen lambda (d : seq row) (h : 'cV[R]_m) : R :=
  \sum_(r <- d) r.2 * (predict r.1.1 h) ^+ 2 + lambda * \sum_(j < m | pen j) (h j 0) ^+ 2.

Lemma qformE pen lambda d h : qform pen lambda d h = (h^T *m amat pen lambda d *m h) 0 0.
Proof.
rewrite /amat mulmxDr mulmxDl mxE gram_form ridge_form /qform.
by congr (_ + _ * _); apply: eq_bigr => *; rewrite expr2.
Qed.

Definition full_err pen lambda (d : seq row) (w : 'cV[R]_m) : R :=
  weighted_err d w + lambda * \sum_(j < m | pen j) (w j 0) ^+ 2.

Lemma full_err_shift pen lambda d (w h : 'cV[R]_m) :
  amat pen lambda d *m w = moment d ->
  full_err pen lambda d (w + h) = full_err pen lambda d w + qform pen lambda d h.
Proof.
move=> E.
have Hdot : \sum_(r <- d) r.2 * (predict r.1.1 h * predict r.1.1 w) + lambda * (\sum_(j < m | pen j) h j 0 * w j 0)
            = \sum_(r <- d) r.2 * (r.1.2 * predict r.1.1 h).
  by rewrite -gram_form -ridge_form -moment_form -E /amat mulmxA mulmxDr mulmxDl [RHS]mxE.
have H1 : weighted_err d (w + h) = weighted_err d w + \sum_(r <- d) r.2 * (predict r.1.1 h) ^+ 2
    - (\sum_(r <- d) r.2 * (r.1.2 * predict r.1.1 h) - \sum_(r <- d) r.2 * (predict r.1.1 h * predict r.1.1 w)) *+ 2.
  rewrite /weighted_err -sumrB -sumrMnl -big_split -sumrB /=; apply: eq_bigr => r _.
  rewrite predictD; set p := predict _ w; set q := predict _ h; set y := r.1.2; set o := r.2.
  rg.
have H2 : \sum_(j < m | pen j) ((w + h) j 0) ^+ 2
   = \sum_(j < m | pen j) (w j 0) ^+ 2 + \sum_(j < m | pen j) (h j 0) ^+ 2 + (\sum_(j < m | pen j) h j 0 * w j 0) *+ 2.
  rewrite -sumrMnl -!big_split /=; apply: eq_bigr => j _.
  by rewrite mxE; set a := w j 0; set b := h j 0; rg.
rewrite /full_err /qform H1 H2 -Hdot.
set a := weighted_err d w; set b := \sum_(r <- d) _; set c := \sum_(j < m | _) _; set e := \sum_(j < m | _) _; set f := \sum_(j < m | _) _; set g := \sum_(r <- d) _.
rg.
Qed.

Definition nonneg (d : seq row) : Prop := forall r, r \in d -> 0 <= r.2.

Lemma sq_terms_ge0 (d : seq row) h : nonneg d -> 0 <= \sum_(r <- d) r.2 * (predict r.1.1 h) ^+ 2.
Proof. by move=> Hd; rewrite big_seq; apply: sumr_ge0 => r Hr; rewrite mulr_ge0 ?sqr_ge0 ?Hd. Qed.

Lemma pen_terms_ge0 pen lambda (h : 'cV[R]_m) : 0 <= lambda -> 0 <= lambda * \sum_(j < m | pen j) (h j 0) ^+ 2.
Proof. by move=> Hl; rewrite mulr_ge0 // sumr_ge0 // => j _; rewrite sqr_ge0. Qed.

Lemma qform_ge0 pen lambda d h : nonneg d -> 0 <= lambda -> 0 <= qform pen lambda d h.
Proof. by move=> Hd Hl; rewrite addr_ge0 ?sq_terms_ge0 ?pen_terms_ge0. Qed.

Lemma qform0_terms pen lambda d h : nonneg d -> 0 <= lambda -> qform pen lambda d h = 0 ->
  (forall r, r \in d -> r.2 * predict r.1.1 h = 0) /\ (forall j, pen j -> lambda * h j 0 = 0).
Proof.
move=> Hd Hl /eqP; rewrite paddr_eq0 ?sq_terms_ge0 ?pen_terms_ge0 // => /andP[/eqP H1 /eqP H2]; split.
- move=> r Hr.
  have : \sum_(r <- d) (r.2 * (predict r.1.1 h) ^+ 2) == 0 by rewrite H1.
  rewrite big_seq psumr_eq0; last by move=> s Hs; rewrite mulr_ge0 ?sqr_ge0 ?Hd.
  move/allP/(_ r Hr); rewrite Hr /= mulf_eq0 sqrf_eq0 => /orP[]/eqP ->; by rewrite ?mul0r ?mulr0.
- move=> j Hj.
  have : lambda * (\sum_(j < m | pen j) (h j 0) ^+ 2) == 0 by rewrite H2.
  rewrite mulf_eq0 => /orP[/eqP ->|]; first by rewrite mul0r.
  rewrite psumr_eq0; last by move=> s Hs; rewrite sqr_ge0.
  by move/allP/(_ j); rewrite mem_index_enum Hj /= sqrf_eq0 => /(_ isT) /eqP ->; rewrite mulr0.
Qed.

Lemma qform0_ker pen lambda d h : nonneg d -> 0 <= lambda -> qform pen lambda d h = 0 ->
  amat pen lambda d *m h = 0.
Proof.
move=> Hd Hl /(@qform0_terms pen lambda d h Hd Hl)[H1 H2].
apply/matrixP => i k; rewrite (ord1 k) {k} [in LHS]mulmxDl [LHS]mxE ridge_mul [RHS]mxE.
rewrite /gram mulmx_suml summxE big_seq big1 ?add0r.
  by case: ifP => // Hp; apply: H2.
move=> r Hr; rewrite -scalemxAl -mulmxA mxE [(_ *m _) i 0]mxE big_ord1 -predictE mulrCA H1 ?mulr0 //.
Qed.

Lemma unit_of_ker (A : 'M[R]_m) : (forall h : 'cV[R]_m, A *m h = 0 -> h = 0) -> A \in unitmx.
Proof.
move=> H; rewrite -unitmx_tr -row_free_unit -kermx_eq0; apply/eqP/row_matrixP => i.
rewrite row0; apply: trmx_inj; rewrite trmx0; apply: H.
apply: trmx_inj; rewrite trmx_mul trmxK trmx0 -row_mul mulmx_ker row0 //.
Qed.

Lemma ker_of_unit (A : 'M[R]_m) (h : 'cV[R]_m) : A \in unitmx -> A *m h = 0 -> h = 0.
Proof. by move=> U E; rewrite -[h](mulKmx U) E mulmx0. Qed.

Arguments ker_of_unit {A h}.
Lemma qform_gt0 pen lambda d h : nonneg d -> 0 <= lambda -> amat pen lambda d \in unitmx -> h != 0 ->
  0 < qform pen lambda d h.
Proof.
move=> Hd Hl U Hh; rewrite lt0r qform_ge0 // andbT; apply: contra Hh => /eqP.
by move/(@qform0_ker pen lambda d h Hd Hl)/(ker_of_unit U) => ->.
Qed.

Theorem normal_eq_min pen lambda d w : nonneg d -> 0 <= lambda -> amat pen lambda d \in unitmx ->
  amat pen lambda d *m w = moment d -> unique_min (full_err pen lambda d) w.
Proof.
move=> Hd Hl U E v Hv.
have -> : v = w + (v - w) by rewrite addrC subrK.
rewrite (@full_err_shift pen lambda d w (v - w) E) // ltr_addl qform_gt0 // subr_eq0 //.
Qed.

Theorem min_is_unique (L : 'cV[R]_m -> R) v w : unique_min L v -> unique_min L w -> v = w.
Proof.
move=> Hv Hw; apply/eqP; apply/negPn/negP => N.
have := Hw v N; have : w != v by rewrite eq_sym.
by move/Hv/lt_trans => H /H; rewrite ltxx.
Qed.

Lemma nonneg_cat d1 d2 : nonneg (d1 ++ d2) <-> nonneg d1 /\ nonneg d2.
Proof.
split=> [H|[H1 H2] r]; first by split=> r Hr; apply: H; rewrite mem_cat Hr ?orbT.
by rewrite mem_cat => /orP[]; [apply: H1|apply: H2].
Qed.

Lemma gram_cat d1 d2 : gram (d1 ++ d2) = gram d1 + gram d2.
Proof. by rewrite /gram big_cat. Qed.
Lemma moment_cat d1 d2 : moment (d1 ++ d2) = moment d1 + moment d2.
Proof. by rewrite /moment big_cat. Qed.

Lemma unit_mono pen lambda d1 d2 : nonneg d1 -> nonneg d2 -> 0 <= lambda ->
  amat pen lambda d1 \in unitmx -> amat pen lambda (d1 ++ d2) \in unitmx.
Proof.
move=> H1 H2 Hl U; apply: unit_of_ker => h E.
have Q : qform pen lambda (d1 ++ d2) h = 0 by rewrite qformE -mulmxA E mulmx0 mxE.
apply: (ker_of_unit U); apply: qform0_ker => //.
apply/eqP; rewrite eq_le qform_ge0 // andbT -Q /qform big_cat /= ler_add2r ler_addl.
exact: sq_terms_ge0.
Qed.

Lemma unit_ridge lambda d : nonneg d -> 0 < lambda -> amat everything lambda d \in unitmx.
Proof.
move=> Hd Hl; apply: unit_of_ker => h E.
have Q : qform everything lambda d h = 0 by rewrite qformE -mulmxA E mulmx0 mxE.
have [_ H] := @qform0_terms _ _ _ h Hd (ltW Hl) Q.
apply/matrixP => i k; rewrite (ord1 k) [RHS]mxE; apply/eqP; have /eqP := H i isT.
by rewrite mulf_eq0 (gt_eqF Hl).
Qed.

Lemma amat_sym pen lambda d : (amat pen lambda d)^T = amat pen lambda d.
Proof.
rewrite /amat linearD /=; congr (_ + _).
  rewrite /gram linear_sum /=; apply: eq_bigr => r _.
  by rewrite linearZ /= trmx_mul trmxK.
apply/matrixP => i j; rewrite !mxE eq_sym; case: eqP => //= ->; by case: (pen i).
Qed.

(** The rank-one update of an inverse and of a solution. *)
Lemma woodbury (A : 'M[R]_m) (b : 'cV[R]_m) (x : 'rV[R]_m) (y c : R) :
  A \in unitmx -> A^T = A -> c != 0 -> A + c^-1 *: (x^T *m x) \in unitmx ->
  let u := invmx A *m x^T in
  let den := c + (x *m u) 0 0 in
  [/\ den != 0,
      invmx A + (- den^-1) *: (u *m u^T) = invmx (A + c^-1 *: (x^T *m x)) &
      invmx A *m b + (den^-1 * (y - (x *m (invmx A *m b)) 0 0)) *: u
        = invmx (A + c^-1 *: (x^T *m x)) *m (b + (c^-1 * y) *: x^T)].
Proof.
move=> U S Hc U' u den.
have Hscal : forall (v : 'cV[R]_m) (t : 'M[R]_1), v *m t = t 0 0 *: v.
  by move=> v t; rewrite [t]mx11_scalar mul_mx_scalar mxE eqxx mulr1n.
have Au : A *m u = x^T by rewrite mulKVmx.
have Hden : den != 0.
  apply/eqP => D.
  have K : (A + c^-1 *: (x^T *m x)) *m u = 0.
    rewrite mulmxDl Au -scalemxAl -mulmxA Hscal scalerA.
    have -> : (x *m u) 0 0 = - c by apply/eqP; rewrite -addr_eq0 addrC; apply/eqP.
    by rewrite mulrN mulVf // scaleN1r subrr.
  have u0 : u = 0 by exact: (ker_of_unit U').
  by move: D; rewrite /den u0 mulmx0 mxE addr0; move/eqP; rewrite (negbTE Hc).
have ut : u^T = x *m invmx A by rewrite trmx_mul trmxK trmx_inv S.
have key : (invmx A + (- den^-1) *: (u *m u^T)) *m (A + c^-1 *: (x^T *m x)) = 1%:M.
  rewrite mulmxDr mulmxDl mulVmx // -addrA -[RHS]addr0; congr (_ + _).
  rewrite -scalemxAl -mulmxA ut -[x *m invmx A *m A]mulmxA mulVmx // mulmx1.
  rewrite -scalemxAr mulmxDl.
  have -> : invmx A *m (x^T *m x) = u *m x by rewrite mulmxA.
  have -> : (- den^-1) *: (u *m (x *m invmx A)) *m (x^T *m x) = (- den^-1 * (x *m u) 0 0) *: (u *m x).
    rewrite -scalemxAl -scalerA; congr (_ *: _).
    rewrite mulmxA -[u *m _ *m x^T]mulmxA -[x *m invmx A *m x^T]mulmxA -/u Hscal.
    by rewrite -scalemxAl.
  rewrite -[X in _ + _ *: (X + _)]scale1r -scalerDl scalerA -scalerDl.
  suff -> : - den^-1 + c^-1 * (1 + - den^-1 * (x *m u) 0 0) = 0 by rewrite scale0r.
  have -> : (x *m u) 0 0 = den - c by rewrite /den addrC addKr.
  clear -Hden Hc; move: Hden Hc => /eqP Hden /eqP Hc; clearbody den; fd; by split.
have Hinv : invmx A + (- den^-1) *: (u *m u^T) = invmx (A + c^-1 *: (x^T *m x)).
  by rewrite -[LHS]mulmx1 -(mulmxV U') mulmxA key mul1mx.
split=> //.
rewrite -Hinv mulmxDr !mulmxDl -!addrA; congr (_ + _).
rewrite -!scalemxAr -!scalemxAl -/u.
have -> : u *m u^T *m b = (x *m (invmx A *m b)) 0 0 *: u by rewrite -mulmxA Hscal ut -mulmxA.
have -> : u *m u^T *m x^T = (x *m u) 0 0 *: u by rewrite -mulmxA Hscal ut -mulmxA.
rewrite !scalerA -!scalerDl; congr (_ *: _).
have -> : (x *m u) 0 0 = den - c by rewrite /den addrC addKr.
set t := (x *m _) 0 0.
clear -Hden Hc; move: Hden Hc => /eqP Hden /eqP Hc; clearbody den t; fd; by split.
Qed.
End Core.
Arguments gram {R m} d.
Arguments moment {R m} d.
Arguments ridge {R m} pen lambda.
Arguments amat {R m} pen lambda d.
Arguments qform {R m} pen lambda d h.
Arguments full_err {R m} pen lambda d w.
Arguments nonneg {R m} d.
Arguments qform0_terms {R m pen lambda d h}.
Arguments qform0_ker {R m pen lambda d h}.
Arguments ker_of_unit {R m A h}.
Arguments unit_of_ker {R m A}.
Arguments normal_eq_min {R m pen lambda d w}.
