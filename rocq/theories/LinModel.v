(** Model of the linear regressions: src/linalg/lr_solvers.rs, src/linalg/lr_online_solvers.rs,
    src/linalg/mod.rs, src/num_ext/linear_regression.rs, python/polars_ds/exprs/expr_linear.py and
    the classes of python/polars_ds/linear_models.py.
    Simplification: numbers are the elements of an arbitrary ordered field (exact arithmetic); NaN
    and infinities, which f64 arithmetic produces from a division by zero or from a null cell, are
    kept as [None]. *)
From mathcomp Require Import all_ssreflect all_algebra.
Set Implicit Arguments.
Import GRing.Theory Num.Theory.
Local Open Scope ring_scope.

Section Lin.
Variable R : realFieldType.

(** The decompositions of the crate faer, external: [xtx.col_piv_qr().solve(b)],
    [xtx.col_piv_qr().inverse()], and [xtx.thin_svd()] / [xtx.llt(..)] with their [solve] (or their
    failure). *)
Record faer := Faer {
  qr_solve : forall m k, 'M[R]_m -> 'M[R]_(m, k) -> 'M[R]_(m, k);
  qr_inverse : forall m, 'M[R]_m -> 'M[R]_m;
  svd_solve : forall m k, 'M[R]_m -> option ('M[R]_(m, k) -> 'M[R]_(m, k));
  llt_solve : forall m k, 'M[R]_m -> option ('M[R]_(m, k) -> 'M[R]_(m, k)) }.

(** linalg/mod.rs:28-46 *)
Inductive how := SVD | Choleskey | QR.
Inductive solver_name := Nqr | Nsvd | Ncholeskey | Nother.
Definition how_of (s : solver_name) : how :=
  match s with Nqr => QR | Nsvd => SVD | Ncholeskey => QR | Nother => QR end.

(** linalg/mod.rs:48-88  LRMethods::from((l1, l2)) *)
Inductive method := Normal | L1 | L2 | ElasticNet.
Definition method_of (l1 l2 : R) : method :=
  if (0 < l1) && (l2 <= 0) then L1
  else if (l1 <= 0) && (0 < l2) then L2
  else if (0 < l1) && (0 < l2) then ElasticNet
  else Normal.

(** [usize::abs_diff] *)
Definition abs_diff (a b : nat) : nat := (a - b) + (b - a).

(** lr_solvers.rs:242-252 (also 198-208 and lr_online_solvers.rs:135-141): the loop over [0..n1]
    adding lambda to the diagonal. *)
Definition add_ridge m (n1 : nat) (lambda : R) (A : 'M[R]_m) : 'M[R]_m :=
  \matrix_(i, j) (A i j + (if (i == j) && (i < n1)%N then lambda else 0)).

(** lr_solvers.rs:255-264 and 279-290: the choice of decomposition. *)
Definition solve_how (F : faer) (h : how) m k (A : 'M[R]_m) (b : 'M[R]_(m, k)) : 'M[R]_(m, k) :=
  match h with
  | SVD => match svd_solve F k A with Some f => f b | None => qr_solve F A b end
  | Choleskey => match llt_solve F k A with Some f => f b | None => qr_solve F A b end
  | QR => qr_solve F A b
  end.

(** lr_solvers.rs:231-264  faer_solve_lstsq; [Y] has one column per target. *)
Definition faer_solve_lstsq (F : faer) n m k (X : 'M[R]_(n, m)) (Y : 'M[R]_(n, k)) (lambda : R)
    (has_bias : bool) (h : how) : 'M[R]_(m, k) :=
  let n1 := abs_diff m has_bias in
  let xt := X^T in
  let xtx := xt *m X in
  let xtx := if (0 <= lambda) && (1 <= n1)%N then add_ridge n1 lambda xtx else xtx in
  solve_how F h xtx (xt *m Y).

(** lr_solvers.rs:268-291  faer_weighted_lstsq *)
Definition faer_weighted_lstsq (F : faer) n m k (X : 'M[R]_(n, m)) (Y : 'M[R]_(n, k)) (w : 'rV[R]_n)
    (h : how) : 'M[R]_(m, k) :=
  let xtw := X^T *m diag_mx w in
  solve_how F h (xtw *m X) (xtw *m Y).

(** lr_solvers.rs:294-296  soft_threshold_l1; [signum(0.0)] is 1.0. *)
Definition signum (z : R) : R := if z < 0 then -1 else 1.
Definition soft_threshold_l1 (z lambda : R) : R := signum z * Num.max (`|z| - lambda) 0.

(** lr_solvers.rs:308-375  faer_coordinate_descent.  [None]: a zero column norm with l2 = 0, where the
    code computes 0/0. *)
Definition set_coord m (beta : 'cV[R]_m) (j : 'I_m) (v : R) : 'cV[R]_m :=
  \col_i (if i == j then v else beta i 0).
Section CD.
Variables (n m : nat) (X : 'M[R]_(n, m)) (y : 'cV[R]_n) (l1_reg l2_reg : R) (has_bias : bool) (tol : R).
Definition cd_norm (j : 'I_m) : R := \sum_i (X i j) ^+ 2 + n%:R * l2_reg.
(** 341-357: one coordinate; the state is (beta, max_change). *)
Definition cd_coord (st : 'cV[R]_m * R) (j : 'I_m) : option ('cV[R]_m * R) :=
  let lambda_l1 := n%:R * l1_reg in
  let before := st.1 j 0 in
  let beta := set_coord st.1 j 0 in
  let main_update := (X^T *m y) j 0 - (row j (X^T *m X) *m beta) 0 0 in
  if cd_norm j == 0 then None
  else let after := soft_threshold_l1 main_update lambda_l1 / cd_norm j in
       Some (set_coord beta j after, Num.max `|after - before| st.2).
Fixpoint cd_coords (js : seq 'I_m) (st : 'cV[R]_m * R) : option ('cV[R]_m * R) :=
  match js with
  | [::] => Some st
  | j :: js' => match cd_coord st j with Some st' => cd_coords js' st' | None => None end
  end.
(** 358-365: the bias. *)
Definition cd_bias (beta : 'cV[R]_m) : 'cV[R]_m :=
  let n1 := abs_diff m has_bias in
  if has_bias then
    match insub n1 : option 'I_m with
    | Some jb => set_coord beta jb ((\sum_i (y i 0 - \sum_(j < m | (j < n1)%N) X i j * beta j 0)) / n%:R)
    | None => beta
    end
  else beta.
(** 338-370: one iteration and the loop. *)
Definition cd_sweep (beta : 'cV[R]_m) : option ('cV[R]_m * R) :=
  match cd_coords [seq j : 'I_m <- enum 'I_m | (j < abs_diff m has_bias)%N] (beta, 0) with
  | Some (beta', max_change) => Some (cd_bias beta', max_change)
  | None => None
  end.
Fixpoint cd_loop (max_iter : nat) (beta : 'cV[R]_m) : option 'cV[R]_m :=
  match max_iter with
  | 0 => Some beta
  | S it => match cd_sweep beta with
            | None => None
            | Some (beta', max_change) => if max_change < tol then Some beta' else cd_loop it beta'
            end
  end.
Definition faer_coordinate_descent (max_iter : nat) : option 'cV[R]_m := cd_loop max_iter 0.
End CD.

(** ** Online regression *)

(** Rows (features, target) and the matrices made of them. *)
Definition data m := seq ('rV[R]_m * R).
Definition Xmat m (d : data m) : 'M[R]_(size d, m) := \matrix_(i, j) (nth (0, 0) d i).1 0 j.
Definition Ymat m (d : data m) : 'cV[R]_(size d) := \col_i (nth (0, 0) d i).2.

Record online m := Online { o_inv : 'M[R]_m; o_coef : 'cV[R]_m }.

(** lr_online_solvers.rs:128-149  faer_qr_lstsq_with_inv *)
Definition faer_qr_lstsq_with_inv (F : faer) m (d : data m) (lambda : R) (has_bias : bool) : online m :=
  let n1 := abs_diff m has_bias in
  let xt := (Xmat d)^T in
  let xtx := xt *m Xmat d in
  let xtx := if (0 < lambda) && (1 <= n1)%N then add_ridge n1 lambda xtx else xtx in
  Online (qr_inverse F xtx) (qr_solve F xtx (xt *m Ymat d)).

(** lr_online_solvers.rs:314-348  woodbury_step for one row.  [None]: [recip] of zero. *)
Definition woodbury_step m (st : online m) (x : 'rV[R]_m) (y c : R) : option (online m) :=
  let u := o_inv st *m x^T in
  let den := c + (x *m u) 0 0 in
  if den == 0 then None
  else
    let z := den^-1 in
    let inv := o_inv st + (- z) *: (u *m u^T) in
    let y_diff := y - (x *m o_coef st) 0 0 in
    Some (Online inv (o_coef st + (z * y_diff) *: u)).

(** A row that may contain NaN: [None]. *)
Definition nrow m := option ('rV[R]_m * R).
(** lr_online_solvers.rs:89-93  OnlineLR::update: a row with a NaN is ignored.  The state [None] is a
    state full of NaN. *)
Definition update m (st : option (online m)) (r : nrow m) (c : R) : option (online m) :=
  match r, st with
  | None, _ => st
  | Some (x, y), Some s => woodbury_step s x y c
  | Some _, None => None
  end.
(** All rows, when none contains a NaN. *)
Fixpoint all_some A (l : seq (option A)) : option (seq A) :=
  match l with
  | [::] => Some [::]
  | None :: _ => None
  | Some a :: l' => match all_some l' with Some s => Some (a :: s) | None => None end
  end.
(** lr_online_solvers.rs:105-120  fit_unchecked (without appending a bias column): any NaN in the data
    makes the whole state NaN. *)
Definition fit_rows (F : faer) m (rows : seq (nrow m)) (lambda : R) (has_bias : bool) : option (online m) :=
  match all_some rows with Some d => Some (faer_qr_lstsq_with_inv F d lambda has_bias) | None => None end.

(** The coefficients pushed to the output: [None] = (0, 0) matrix (null), [Some None] = NaN. *)
Definition coeffs_of m (st : option (online m)) : option 'cV[R]_m := omap (@o_coef m) st.

Inductive res (A : Type) := Ok (a : A) | Err | Panic.
Arguments Ok {A}. Arguments Err {A}. Arguments Panic {A}.

(** lr_online_solvers.rs:156-183  faer_recursive_lstsq.  [x.get(..n, ..)] panics with fewer than n rows. *)
Fixpoint recursive_loop m (st : option (online m)) (rest : seq (nrow m)) : seq (option 'cV[R]_m) :=
  match rest with
  | [::] => [::]
  | r :: rest' => let st' := update st r 1 in coeffs_of st' :: recursive_loop st' rest'
  end.
Definition faer_recursive_lstsq (F : faer) m (rows : seq (nrow m)) (n : nat) (lambda : R)
  : res (seq (option 'cV[R]_m)) :=
  if (size rows < n)%N then Panic
  else let st := fit_rows F (take n rows) lambda false in
       Ok (coeffs_of st :: recursive_loop st (drop n rows)).

(** lr_online_solvers.rs:188-220  faer_rolling_lstsq: row j - n leaves, row j enters. *)
Fixpoint rolling_loop m (st : option (online m)) (old rest : seq (nrow m)) : seq (option 'cV[R]_m) :=
  match rest, old with
  | r :: rest', o :: old' =>
      let st1 := update st o (-1) in
      let st2 := update st1 r 1 in
      coeffs_of st2 :: rolling_loop st2 old' rest'
  | _, _ => [::]
  end.
Definition faer_rolling_lstsq (F : faer) m (rows : seq (nrow m)) (n : nat) (lambda : R)
  : res (seq (option 'cV[R]_m)) :=
  if (size rows < n)%N then Panic
  else let st := fit_rows F (take n rows) lambda false in
       Ok (coeffs_of st :: rolling_loop st rows (drop n rows)).

(** lr_online_solvers.rs:226-308  faer_rolling_skipping_lstsq.  Outputs: [None] = a (0, 0) matrix,
    [Some c] = coefficients ([c = None]: NaN). *)
Definition is_row m (r : nrow m) : bool := if r is Some _ then true else false.
Definition valid_rows m (rows : seq (nrow m)) : data m := pmap id rows.
(** 288-306: the second loop. *)
Fixpoint skipping_loop m (min_size : nat) (st : option (online m)) (cnt : nat) (old rest : seq (nrow m))
  : seq (option (option 'cV[R]_m)) :=
  match rest, old with
  | r :: rest', o :: old' =>
      let cnt1 := if is_row o then (cnt - 1)%N else cnt in
      let st1 := update st o (-1) in
      let cnt2 := if is_row r then (cnt1 + 1)%N else cnt1 in
      let st2 := update st1 r 1 in
      (if (min_size <= cnt2)%N then Some (coeffs_of st2) else None)
        :: skipping_loop min_size st2 cnt2 old' rest'
  | _, _ => [::]
  end.
(** 252-283: the first loop, at [left]; [todo] windows are left to look at. *)
Fixpoint skipping_init (F : faer) m (n min_size : nat) (lambda : R) (todo : nat) (rows : seq (nrow m))
  : seq (option (option 'cV[R]_m)) :=
  match todo with
  | 0 => [::]
  | S todo' =>
      let d := valid_rows (take n rows) in
      if (min_size <= size d)%N then
        let st := Some (faer_qr_lstsq_with_inv F d lambda false) in
        Some (coeffs_of st) :: skipping_loop min_size st (size d) rows (drop n rows)
      else None :: skipping_init F n min_size lambda todo' (behead rows)
  end.
(** [Vec::with_capacity(xn - n + 1)] underflows (and panics) when n > xn + 1; for n = xn + 1 nothing is
    produced. *)
Definition faer_rolling_skipping_lstsq (F : faer) m (rows : seq (nrow m)) (n min_size : nat) (lambda : R)
  : res (seq (option (option 'cV[R]_m))) :=
  if (size rows + 1 < n)%N then Panic
  else Ok (skipping_init F n min_size lambda (size rows + 1 - n) rows).

(** ** Expressions *)

(** One row of the input: target and features, [None] = null. *)
Record lrow p := LRow { tgt : option R; feat : 'rV[option R]_p }.
Definition is_null A (o : option A) : bool := if o is Some _ then false else true.
Definition feat_null p (r : lrow p) : bool := [exists j, is_null (feat r 0 j)].
Definition row_null p (r : lrow p) : bool := is_null (tgt r) || feat_null r.

(** utils/mod.rs:212-219 *)
Inductive policy := RAISE | SKIP | SKIP_WINDOW | IGNORE | FILL (x : R) | FILL_WINDOW (x : R).

Definition fill_row p (x : R) (r : lrow p) : lrow p :=
  LRow (tgt r) (map_mx (fun o => Some (odflt x o)) (feat r)).
Definition bias_row p (b : bool) (r : lrow p) : lrow (p + b) :=
  LRow (tgt r) (row_mx (feat r) (const_mx (Some 1))).

(** linear_regression.rs:137-228  series_to_mat_for_lstsq: the rows (with the constant column) and the
    mask.  The conversion to ndarray maps nulls to NaN. *)
Definition series_to_mat p (rows : seq (lrow p)) (has_bias : bool) (pol : policy)
  : res (seq (lrow (p + has_bias)) * seq bool) :=
  let y_has_null := has (fun r => is_null (tgt r)) rows in
  let has_null := has (@feat_null p) rows || y_has_null in
  if (size rows == 0)%N then Err
  else
    let df := map (bias_row has_bias) rows in
    let init_mask := map (fun r => ~~ is_null (tgt r)) rows in
    let out :=
      if has_null then
        match pol with
        | IGNORE | SKIP_WINDOW => Ok (df, [:: false])
        | RAISE => Err
        | SKIP => let mask := map (fun r => ~~ row_null r) rows in Ok (seq.mask mask df, mask)
        | FILL x =>
            let df := map (fill_row x) df in
            if y_has_null then Ok (seq.mask init_mask df, init_mask) else Ok (df, [:: true])
        | FILL_WINDOW x =>
            let df := map (fill_row x) df in
            if y_has_null then Ok (df, [:: false]) else Ok (df, [:: true])
        end
      else Ok (df, [:: true]) in
    match out with
    | Ok (df, mask) => if (size df < p)%N then Err else Ok (df, mask)
    | Err => Err
    | Panic => Panic
    end.

(** A row of the matrix; [None] when it contains a NaN. *)
Definition num_row m (r : lrow m) : nrow m :=
  match tgt r with
  | Some y => if feat_null r then None else Some (map_mx (odflt 0) (feat r), y)
  | None => None
  end.

Record lr_args := LrArgs { a_bias : bool; a_policy : policy; a_solver : solver_name; a_l1 : R; a_l2 : R;
                           a_tol : R; a_weights : option (seq R) }.

(** linear_regression.rs:300-330 (pl_lstsq) and 511-538 (pl_lstsq_pred).  [Ok None]: NaN. *)
Definition row_of_seq n (w : seq R) : 'rV[R]_n := \row_i nth 0 w i.
Definition coeffs_rows (F : faer) m (a : lr_args) (rows : seq (lrow m)) : res (option 'cV[R]_m) :=
  let nums := all_some (map (@num_row m) rows) in
  match a_weights a with
  | Some w =>
      if size w == size rows then
        Ok (omap (fun d => faer_weighted_lstsq F (Xmat d) (Ymat d) (row_of_seq (size d) w) (how_of (a_solver a))) nums)
      else Err
  | None =>
      Ok (match nums with
          | None => None
          | Some d =>
              match method_of (a_l1 a) (a_l2 a) with
              | Normal | L2 => Some (faer_solve_lstsq F (Xmat d) (Ymat d) (a_l2 a) (a_bias a) (how_of (a_solver a)))
              | L1 | ElasticNet =>
                  faer_coordinate_descent (Xmat d) (Ymat d) (a_l1 a) (a_l2 a) (a_bias a) (a_tol a) 2000
              end
          end)
  end.

(** linear_regression.rs:288-346  pl_lstsq *)
Definition pl_lstsq (F : faer) p (a : lr_args) (rows : seq (lrow p)) : res (option 'cV[R]_(p + a_bias a)) :=
  match series_to_mat rows (a_bias a) (a_policy a) with
  | Ok (df, _) => coeffs_rows F a df
  | Err => Err
  | Panic => Panic
  end.

(** A prediction of one row and its residual; [None] = NaN. *)
Definition pred_of m (w : option 'cV[R]_m) (r : nrow m) : option (R * R) :=
  match w, r with
  | Some w, Some (x, y) => Some ((x *m w) 0 0, y - (x *m w) 0 0)
  | _, _ => None
  end.
(** linear_regression.rs:552-564: spread the predictions over the mask; [pred[i]] panics out of range. *)
Fixpoint spread A (mask : seq bool) (vals : seq (option A)) : res (seq (option A)) :=
  match mask with
  | [::] => Ok [::]
  | true :: mask' =>
      match vals with
      | [::] => Panic
      | v :: vals' => match spread mask' vals' with Ok out => Ok (v :: out) | Err => Err | Panic => Panic end
      end
  | false :: mask' => match spread mask' vals with Ok out => Ok (None :: out) | Err => Err | Panic => Panic end
  end.
(** linear_regression.rs:496-574  pl_lstsq_pred *)
Definition pl_lstsq_pred (F : faer) p (a : lr_args) (rows : seq (lrow p)) : res (seq (option (R * R))) :=
  match series_to_mat rows (a_bias a) (a_policy a) with
  | Ok (df, mask) =>
      match coeffs_rows F a df with
      | Ok w =>
          let preds := map (fun r => pred_of w (num_row r)) df in
          if has negb mask then spread mask preds else Ok preds
      | Err => Err
      | Panic => Panic
      end
  | Err => Err
  | Panic => Panic
  end.

(** The output of the rolling and recursive expressions: null, or (coefficients, prediction), where
    [None] inside is NaN. *)
Definition orow m := option (option 'cV[R]_m * option R).
Definition out_row m (w : option 'cV[R]_m) (r : nrow m) : orow m :=
  Some (w, match w, r with Some w, Some (x, _) => Some ((x *m w) 0 0) | _, _ => None end).

(** linear_regression.rs:898-906: the position of the n-th kept row. *)
Fixpoint nth_kept (n new_n : nat) (mask : seq bool) : nat :=
  match mask with
  | [::] => 0%N
  | v :: mask' => if (n <= new_n + v)%N then 0%N else S (nth_kept n (new_n + v) mask')
  end.
(** linear_regression.rs:911-925; [coeffs[i]] and [x.get(i..i+1)] panic out of range. *)
Fixpoint recursive_out m (mask : seq bool) (coeffs : seq (option 'cV[R]_m)) (rows : seq (nrow m))
  : res (seq (orow m)) :=
  match mask with
  | [::] => Ok [::]
  | true :: mask' =>
      match coeffs, rows with
      | w :: coeffs', r :: rows' =>
          match recursive_out mask' coeffs' rows' with
          | Ok out => Ok (out_row w r :: out) | Err => Err | Panic => Panic
          end
      | _, _ => Panic
      end
  | false :: mask' =>
      match recursive_out mask' coeffs rows with Ok out => Ok (None :: out) | Err => Err | Panic => Panic end
  end.
(** linear_regression.rs:868-955  pl_recursive_lstsq; [n >= 1] and [lambda = abs(l2_reg)] by
    expr_linear.py:388-404. *)
Definition pl_recursive_lstsq (F : faer) p (n : nat) (has_bias : bool) (lambda : R) (pol : policy)
    (rows : seq (lrow p)) : res (seq (orow (p + has_bias))) :=
  match series_to_mat rows has_bias pol with
  | Ok (df, mask) =>
      let x := map (@num_row _) df in
      match faer_recursive_lstsq F x n lambda with
      | Ok coeffs =>
          if has negb mask then
            let m := nth_kept n 0 mask in
            match recursive_out (drop m mask) coeffs x with
            | Ok out => Ok (nseq m None ++ out)
            | Err => Err
            | Panic => Panic
            end
          else
            let m := (n - 1)%N in
            Ok (nseq m None ++ map (fun wr => out_row wr.1 wr.2) (zip coeffs (drop m x)))
      | Err => Err
      | Panic => Panic
      end
  | Err => Err
  | Panic => Panic
  end.

(** linear_regression.rs:958-1039  pl_rolling_lstsq; [n >= 2], [#features <= n] and the default of
    [min_size] by expr_linear.py:477-495. *)
Definition window_policy (pol : policy) : policy :=
  match pol with SKIP => SKIP_WINDOW | FILL x => FILL_WINDOW x | _ => pol end.
Definition pl_rolling_lstsq (F : faer) p (n min_size : nat) (has_bias : bool) (lambda : R) (pol : policy)
    (rows : seq (lrow p)) : res (seq (orow (p + has_bias))) :=
  let pol := window_policy pol in
  match series_to_mat rows has_bias pol with
  | Ok (df, mask) =>
      let should_skip := match pol with SKIP_WINDOW | FILL_WINDOW _ => has negb mask | _ => false end in
      let x := map (@num_row _) df in
      let m := (n - 1)%N in
      if should_skip then
        match faer_rolling_skipping_lstsq F x n min_size lambda with
        | Ok coeffs =>
            Ok (nseq m None ++
                map (fun wr => match wr.1 with Some w => out_row w wr.2 | None => None end)
                    (zip coeffs (drop m x)))
        | Err => Err
        | Panic => Panic
        end
      else
        match faer_rolling_lstsq F x n lambda with
        | Ok coeffs => Ok (nseq m None ++ map (fun wr => out_row wr.1 wr.2) (zip coeffs (drop m x)))
        | Err => Err
        | Panic => Panic
        end
  | Err => Err
  | Panic => Panic
  end.

(** ** The class OnlineLR *)

(** lr_online_solvers.rs:67-93, 105-120 with linear_models.py (OnlineLR.fit, update): with [has_bias] a
    constant 1 is appended to every row. *)
Definition with_one p (b : bool) (x : 'rV[R]_p) : 'rV[R]_(p + b) := row_mx x (const_mx 1).
Definition online_fit (F : faer) p (b : bool) (lambda : R) (d : data p) : online (p + b) :=
  faer_qr_lstsq_with_inv F [seq (with_one b r.1, r.2) | r <- d] lambda b.
Definition online_update p (b : bool) (st : option (online (p + b))) (r : nrow p) (c : R)
  : option (online (p + b)) :=
  update st (omap (fun r => (with_one b r.1, r.2)) r) c.
(** The class LR: lr_solvers.rs:57-66 with linalg/mod.rs:129-137 (fit: at least as many rows as columns). *)
Definition lr_fit (F : faer) p (b : bool) (lambda : R) (s : solver_name) (d : data p) : res 'cV[R]_(p + b) :=
  if (size d < p)%N || (size d == 0)%N then Err
  else let d' := [seq (with_one b r.1, r.2) | r <- d] in
       Ok (faer_solve_lstsq F (Xmat d') (Ymat d') lambda b (how_of s)).

(** ** Several targets *)

(** One row of the input with [k] targets. *)
Record mrow k p := MRow { mtgt : 'rV[option R]_k; mfeat : 'rV[option R]_p }.
Definition mtgt_null k p (r : mrow k p) : bool := [exists t, is_null (mtgt r 0 t)].
Definition mfeat_null k p (r : mrow k p) : bool := [exists j, is_null (mfeat r 0 j)].
Definition fill_mrow k p (x : R) (r : mrow k p) : mrow k p :=
  MRow (mtgt r) (map_mx (fun o => Some (odflt x o)) (mfeat r)).
(** A row of the matrix: features with the constant, targets; the rows that reach this point have no null. *)
Definition mnum k p (b : bool) (r : mrow k p) : 'rV[R]_(p + b) * 'rV[R]_k :=
  (with_one b (map_mx (odflt 0) (mfeat r)), map_mx (odflt 0) (mtgt r)).
(** linear_regression.rs:230-285  series_to_mat_for_multi_lstsq *)
Definition series_to_mat_multi k p (b : bool) (pol : policy) (rows : seq (mrow k p))
  : res (seq ('rV[R]_(p + b) * 'rV[R]_k)) :=
  let y_has_null := has (@mtgt_null k p) rows in
  let has_null := has (@mfeat_null k p) rows || y_has_null in
  let df :=
    if has_null then
      match pol with
      | FILL x => if y_has_null then Err else Ok (map (fill_mrow x) rows)
      | _ => Err
      end
    else Ok rows in
  match df with
  | Ok df => if (size df == 0)%N then Err else Ok (map (mnum b) df)
  | Err => Err
  | Panic => Panic
  end.
Definition Xmulti m k (d : seq ('rV[R]_m * 'rV[R]_k)) : 'M[R]_(size d, m) := \matrix_(i, j) (nth (0, 0) d i).1 0 j.
Definition Ymulti m k (d : seq ('rV[R]_m * 'rV[R]_k)) : 'M[R]_(size d, k) := \matrix_(i, t) (nth (0, 0) d i).2 0 t.
(** linear_regression.rs:348-395  pl_lstsq_multi ([LRMethods::from((0, l2))] is Normal or L2) *)
Definition pl_lstsq_multi (F : faer) k p (b : bool) (lambda : R) (s : solver_name) (pol : policy)
    (rows : seq (mrow k p)) : res 'M[R]_(p + b, k) :=
  match series_to_mat_multi b pol rows with
  | Ok d => Ok (faer_solve_lstsq F (Xmulti d) (Ymulti d) lambda b (how_of s))
  | Err => Err
  | Panic => Panic
  end.
(** linear_regression.rs:397-448  pl_lstsq_multi_pred: one (predictions, residuals) per row. *)
Definition pl_lstsq_multi_pred (F : faer) k p (b : bool) (lambda : R) (s : solver_name) (pol : policy)
    (rows : seq (mrow k p)) : res (seq ('rV[R]_k * 'rV[R]_k)) :=
  match series_to_mat_multi b pol rows with
  | Ok d =>
      let w := faer_solve_lstsq F (Xmulti d) (Ymulti d) lambda b (how_of s) in
      let pred := Xmulti d *m w in
      let resid := Ymulti d - pred in
      Ok [seq (row i pred, row i resid) | i <- enum 'I_(size d)]
  | Err => Err
  | Panic => Panic
  end.
End Lin.
Arguments MRow {R k p}.
Arguments mtgt {R k p} _.
Arguments mfeat {R k p} _.
Arguments mtgt_null {R k p} r.
Arguments mfeat_null {R k p} r.
Arguments fill_mrow {R k p} x r.
Arguments mnum {R k p} b r.
Arguments Xmulti {R m k} d.
Arguments Ymulti {R m k} d.
Arguments series_to_mat_multi {R k p} b pol rows.
Arguments pl_lstsq_multi {R} F {k p} b lambda s pol rows.
Arguments pl_lstsq_multi_pred {R} F {k p} b lambda s pol rows.
Arguments Ok {A}. Arguments Err {A}. Arguments Panic {A}.
Arguments row_of_seq {R} n w.
Arguments with_one {R p} b x.
Arguments add_ridge {R m} n1 lambda A.
Arguments soft_threshold_l1 {R} z lambda.
Arguments signum {R} z.
Arguments set_coord {R m} beta j v.
Arguments cd_norm {R n m} X l2_reg j.
Arguments cd_coord {R n m} X y l1_reg l2_reg st j.
Arguments cd_coords {R n m} X y l1_reg l2_reg js st.
Arguments cd_bias {R n m} X y has_bias beta.
Arguments cd_sweep {R n m} X y l1_reg l2_reg has_bias beta.
Arguments cd_loop {R n m} X y l1_reg l2_reg has_bias tol max_iter beta.
Arguments faer_coordinate_descent {R n m} X y l1_reg l2_reg has_bias tol max_iter.
Arguments method_of {R} l1 l2.
