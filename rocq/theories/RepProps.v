(** C107: the regression report (lin_reg_report). *)
From mathcomp Require Import all_ssreflect all_algebra realalg.
From Verif Require Import LinModel LinSpec LinProofs LinExprSpec LinDemos RepModel RepSpec RepProofs RepDemo.
Set Implicit Arguments.
Unset Strict Implicit.
Import GRing.Theory Num.Theory.
Local Open Scope ring_scope.

(** The coefficients are the least squares fit and the squared standard errors are those of the chosen kind. *)
Theorem C107_standard_errors : forall (R : rcfType) (F : faer R), faer_ok F -> forall (T : student R)
    p (b : bool) (pol : policy R) (rows : seq (lrow R p)),
  let d := design b (used_rows pol rows) in
  (0 < size rows)%N -> accepts pol rows -> (p + b < size (used_rows pol rows))%N ->
  identifiable everything 0 (map fst d) -> forall kind (w : 'cV[R]_(p + b)) S L, fits d w S -> (p + b < size d)%N ->
  (if kind is (HC2 | HC3) then forall k, (k < size d)%N ->
     identifiable everything 0 (map fst (without d k)) /\ unique_min (sq_err (without d k)) (L k) else True) ->
  exists rep, lin_reg_report F T kind b pol rows = Ok (Some rep) /\
    forall j, r_beta (r_rows rep j) = w j 0 /\ exists s, r_se (r_rows rep j) = Some s /\ 0 <= s /\
      s ^+ 2 = match kind with
               | SE => var_se d w S j | HC0 => var_hc0 d w S j | HC1 => var_hc1 d w S j
               | HC2 => var_hc2 d w S j | HC3 => jackknife d w L j
               end.
Proof. exact (fun R F HF T p b pol rows H1 H2 H3 H4 kind w S L => @facts_ok R F HF T p b pol rows H1 H2 H3 H4 kind L w S). Qed.
Print Assumptions C107_standard_errors.

(** What the sensitivities mean: raising the target of row k by t moves the fit by t times its sensitivity. *)
Theorem C107_sensitivity : forall (R : realFieldType) m (d : seq ('rV[R]_m * R)) (w : 'cV[R]_m) k s t,
  identifiable everything 0 (map fst d) -> (k < size d)%N -> unique_min (sq_err d) w -> sensitivity d k s ->
  unique_min (sq_err (with_targets d (fun i => (nth (0, 0) d i).2 + t * (i == k)%:R))) (w + t *: s).
Proof. exact (fun R m d w k s t H => @sens_meaning R m d w k s t (A_unit H)). Qed.
Print Assumptions C107_sensitivity.

(** t is the coefficient over its standard error, p twice the upper tail at |t|, and the interval is the
    coefficient plus or minus the 0.975 quantile times the standard error. *)
Theorem C107_tests : forall (R : rcfType) (F : faer R), faer_ok F -> forall (T : student R)
    p (b : bool) (pol : policy R) (rows : seq (lrow R p)),
  let d := design b (used_rows pol rows) in
  (0 < size rows)%N -> accepts pol rows -> (p + b < size (used_rows pol rows))%N ->
  identifiable everything 0 (map fst d) -> forall kind rep j s, lin_reg_report F T kind b pol rows = Ok (Some rep) ->
  r_se (r_rows rep j) = Some s -> s != 0 ->
  let r := r_rows rep j in
  let q := t_ppf T (39%:R / 40%:R) (dof d) in
  r_t r = Some (r_beta r / s) /\
  r_p r = omap (fun x => 2%:R * x) (t_sf T `|r_beta r / s| (dof d)) /\
  r_lower r = Some (r_beta r - q * s) /\ r_upper r = Some (r_beta r + q * s).
Proof. exact tests_ok. Qed.
Print Assumptions C107_tests.

(** r2 and adj_r2 without nulls, in terms of the coefficient of determination.  Partial: they are not R2 and
    its adjustment (see the refutations). *)
Theorem C107_r2_partial : forall (R : rcfType) (F : faer R), faer_ok F -> forall (T : student R)
    p (b : bool) (pol : policy R) (rows : seq (lrow R p)),
  let d := design b (used_rows pol rows) in
  (0 < size rows)%N -> accepts pol rows -> (p + b < size (used_rows pol rows))%N ->
  identifiable everything 0 (map fst d) -> forall kind (w : 'cV[R]_(p + b)),
  no_null rows -> (1 < size rows)%N -> tss (map snd d) != 0 -> unique_min (sq_err d) w ->
  exists rep, lin_reg_report F T kind b pol rows = Ok (Some rep) /\
    r_r2 rep = Some (1 - (1 - R2 d w) * (1 - (size d)%:R^-1)) /\
    (dof d != 1 -> r_adj rep =
       Some (1 - (1 - R2 d w) * (1 - (size d)%:R^-1) * (((size d)%:R - 1) / ((size d)%:R - (p + b)%:R - 1)))).
Proof. exact r2_value. Qed.
Print Assumptions C107_r2_partial.

(** The reported r2 is greater than R2 whenever the fit is not perfect. *)
Theorem C107_r2_refuted : forall (R : rcfType) (F : faer R), faer_ok F -> forall (T : student R)
    p (b : bool) (pol : policy R) (rows : seq (lrow R p)),
  let d := design b (used_rows pol rows) in
  accepts pol rows -> (p + b < size (used_rows pol rows))%N ->
  identifiable everything 0 (map fst d) -> no_null rows -> (1 < size rows)%N -> tss (map snd d) != 0 ->
  forall w : 'cV[R]_(p + b), unique_min (sq_err d) w -> sq_err d w != 0 -> forall kind,
  exists rep x, lin_reg_report F T kind b pol rows = Ok (Some rep) /\ r_r2 rep = Some x /\ R2 d w < x.
Proof. exact r2_over. Qed.
Print Assumptions C107_r2_refuted.

(** With a bias, the reported adj_r2 is less than the adjusted R2 whenever the fit is not perfect. *)
Theorem C107_adj_refuted : forall (R : rcfType) (F : faer R), faer_ok F -> forall (T : student R)
    p (pol : policy R) (rows : seq (lrow R p)),
  let d := design true (used_rows pol rows) in
  accepts pol rows -> (p + true < size (used_rows pol rows))%N ->
  identifiable everything 0 (map fst d) -> no_null rows -> (p + 2 < size rows)%N -> tss (map snd d) != 0 ->
  forall w : 'cV[R]_(p + true), unique_min (sq_err d) w -> sq_err d w != 0 -> forall kind,
  exists rep x, lin_reg_report F T kind true pol rows = Ok (Some rep) /\ r_adj rep = Some x /\ x < adj_R2 p d w.
Proof. exact adj_under. Qed.
Print Assumptions C107_adj_refuted.

(** With skip, a row that is not used changes r2. *)
Theorem C107_r2_skip_refuted : forall (R : rcfType) (F : faer R), faer_ok F -> forall T : student R,
  exists (rows rows' : seq (lrow R 1)) rep rep',
    used_rows (SKIP R) rows = used_rows (SKIP R) rows' /\
    lin_reg_report F T SE false (SKIP R) rows = Ok (Some rep) /\
    lin_reg_report F T SE false (SKIP R) rows' = Ok (Some rep') /\
    r_r2 rep = Some (2%:R^-1) /\ r_r2 rep' = Some (27%:R / 28%:R).
Proof. exact r2_skip. Qed.
Print Assumptions C107_r2_skip_refuted.

(** Weights: coefficients and standard errors are those of the rows scaled by the square roots of the weights. *)
Theorem C107_weighted : forall (R : rcfType) (F : faer R), faer_ok F -> forall (T : student R)
    p (b : bool) (pol : policy R) (rows : seq (lrow R p)) (ws : seq R),
  let d := design b (used_rows pol rows) in
  (0 < size rows)%N -> accepts pol rows -> (p + b < size (used_rows pol rows))%N ->
  size ws = size d -> (forall o, o \in ws -> 0 <= o) ->
  (forall v, sq_err (scaled d ws) v = weighted_err (zip d ws) v) /\
  (identifiable everything 0 (map fst (scaled d ws)) -> (p + b < size d)%N ->
   forall w S, fits (scaled d ws) w S ->
   exists rep, lin_reg_report_w F T b pol (map Some ws) rows = Ok (Some rep) /\
    forall j, r_beta (r_rows rep j) = w j 0 /\
      exists s, r_se (r_rows rep j) = Some s /\ 0 <= s /\ s ^+ 2 = var_se (scaled d ws) w S j).
Proof. exact (fun R F HF T p b pol rows ws H1 H2 H3 Hs Hw => conj (@sq_sd R (p + b) (design b (used_rows pol rows)) ws Hw) (fun Hi Hn w S => @weighted_ok R F HF T p b pol rows ws H1 H2 H3 Hs Hw w S Hi Hn)). Qed.
Print Assumptions C107_weighted.

Theorem C107_weighted_tests : forall (R : rcfType) (F : faer R), faer_ok F -> forall (T : student R)
    p (b : bool) (pol : policy R) (rows : seq (lrow R p)) (ws : seq R),
  let d := design b (used_rows pol rows) in
  (0 < size rows)%N -> accepts pol rows -> (p + b < size (used_rows pol rows))%N ->
  size ws = size d -> (forall o, o \in ws -> 0 <= o) -> identifiable everything 0 (map fst (scaled d ws)) ->
  forall rep j s, lin_reg_report_w F T b pol (map Some ws) rows = Ok (Some rep) ->
  r_se (r_rows rep j) = Some s -> s != 0 ->
  let r := r_rows rep j in
  let q := t_ppf T (39%:R / 40%:R) (dof d) in
  r_t r = Some (r_beta r / s) /\
  r_p r = omap (fun x => 2%:R * x) (t_sf T `|r_beta r / s| (dof d)) /\
  r_lower r = Some (r_beta r - q * s) /\ r_upper r = Some (r_beta r + q * s).
Proof. exact weighted_tests. Qed.
Print Assumptions C107_weighted_tests.

(** Multiplying all weights by the same positive number changes nothing; equal weights give the unweighted report. *)
Theorem C107_weighted_scale : forall (R : rcfType) (F : faer R), faer_ok F -> forall (T : student R)
    p (b : bool) (pol : policy R) (rows : seq (lrow R p)) (ws : seq R),
  let d := design b (used_rows pol rows) in
  (0 < size rows)%N -> accepts pol rows -> (p + b < size (used_rows pol rows))%N ->
  size ws = size d -> (forall o, o \in ws -> 0 <= o) ->
  forall c : R, 0 < c -> identifiable everything 0 (map fst (scaled d ws)) ->
  exists rep rep', lin_reg_report_w F T b pol (map Some ws) rows = Ok (Some rep) /\
    lin_reg_report_w F T b pol (map (fun o => Some (c * o)) ws) rows = Ok (Some rep') /\
    (forall j, r_rows rep' j = r_rows rep j) /\ r_r2 rep' = r_r2 rep /\ r_adj rep' = r_adj rep.
Proof. exact weighted_scale. Qed.
Print Assumptions C107_weighted_scale.

Theorem C107_weighted_ones : forall (R : rcfType) (F : faer R), faer_ok F -> forall (T : student R)
    p (b : bool) (pol : policy R) (rows : seq (lrow R p)),
  let d := design b (used_rows pol rows) in
  (0 < size rows)%N -> accepts pol rows -> (p + b < size (used_rows pol rows))%N ->
  identifiable everything 0 (map fst d) ->
  exists rep rep', lin_reg_report F T SE b pol rows = Ok (Some rep) /\
    lin_reg_report_w F T b pol (nseq (size d) (Some 1)) rows = Ok (Some rep') /\
    (forall j, r_rows rep' j = r_rows rep j) /\ r_r2 rep' = r_r2 rep /\ r_adj rep' = r_adj rep.
Proof. exact weighted_ones. Qed.
Print Assumptions C107_weighted_ones.

(** One weight per row, and some rows skipped because of a null: a panic. *)
Theorem C107_weighted_skip_refuted : forall (R : rcfType) (F : faer R) (T : student R) p b (pol : policy R)
    (rows : seq (lrow R p)) (ws : seq (option R)),
  (0 < size rows)%N -> accepts pol rows -> (p <= size (used_rows pol rows))%N ->
  size ws = size rows -> (size (used_rows pol rows) < size rows)%N ->
  lin_reg_report_w F T b pol ws rows = Panic.
Proof. exact weighted_skip_panic. Qed.
Print Assumptions C107_weighted_skip_refuted.

(** No more used rows than coefficients: a panic, with and without weights. *)
Theorem C107_no_freedom_refuted : forall (R : rcfType) (F : faer R) (T : student R) p (b : bool) (pol : policy R)
    (rows : seq (lrow R p)),
  (0 < size rows)%N -> accepts pol rows -> (p <= size (used_rows pol rows))%N ->
  (size (used_rows pol rows) <= p + b)%N ->
  (forall kind, lin_reg_report F T kind b pol rows = Panic) /\
  (forall ws, lin_reg_report_w F T b pol ws rows = Panic).
Proof. exact no_freedom_panic. Qed.
Print Assumptions C107_no_freedom_refuted.

(** Concrete cases over the real algebraic numbers: the constant feature 1 and the targets 0 and 2. *)
Section Cases.
Notation A := realalg_rcfType.
Let F := exact_faer A.
Let T : student A := Student (fun t dof => Some 0) (fun q dof => 1).
Notation d := (design false (used_rows (SKIP A) (rep_rows A))).
Example C107_fits : fits d (v1 1) (rep_S A) /\ identifiable everything 0 (map fst d) /\
  (forall k, (k < size d)%N -> identifiable everything 0 (map fst (without d k)) /\ unique_min (sq_err (without d k)) (rep_L A k)) /\
  sq_err d (v1 1) = 2%:R /\ tss (map snd d) = 2%:R.
Proof. exact (conj (rep_fits A) (conj (@rep_id A) (conj (@rep_loo A) (conj (rep_sq A) (rep_tss A))))). Qed.
Example C107_case : exists rep, lin_reg_report F T SE false (SKIP A) (rep_rows A) = Ok (Some rep) /\
  r_beta (r_rows rep ord0) = 1 /\ r_se (r_rows rep ord0) = Some 1 /\ r_r2 rep = Some (2%:R^-1) /\ R2 d (v1 1) = 0.
Proof. exact (rep_case (exact_faer_ok A) T). Qed.
Example C107_weighted_case : exists rep,
  lin_reg_report_w F T false (SKIP A) [:: Some 1; Some 4%:R] (rep_rows A) = Ok (Some rep) /\
  r_beta (r_rows rep ord0) = 8%:R / 5%:R /\ r_se (r_rows rep ord0) = Some (4%:R / 5%:R).
Proof. exact (rep_case4 (exact_faer_ok A) T). Qed.
Example C107_weighted_panics : lin_reg_report_w F T false (SKIP A) [:: Some 1; Some 1; Some 1] (rep_gap A) = Panic.
Proof. exact (rep_panic F T). Qed.
(** Two rows, one feature and a bias. *)
Example C107_no_freedom_case : lin_reg_report F T SE true (SKIP A) (rep_rows A) = Panic.
Proof. by apply: (no_freedom_panic F T (b := true) (pol := SKIP A) (rows := rep_rows A) _ _ _ _).1; rewrite ?rep_used. Qed.
(** With a bias: the hypotheses of C107_adj_refuted. *)
Notation d4 := (design true (used_rows (SKIP A) (rep_rows4 A))).
Example C107_adj_case : accepts (SKIP A) (rep_rows4 A) /\ identifiable everything 0 (map fst d4) /\ no_null (rep_rows4 A) /\
  tss (map snd d4) = 4%:R /\ unique_min (sq_err d4) (v2 0 1) /\ sq_err d4 (v2 0 1) = 4%:R.
Proof. exact (rep4_case A). Qed.
End Cases.
