(** Model of the regression classes LR, ElasticNet and OnlineLR as objects:
    python/polars_ds/linear_models.py, src/pymodels/py_lr.rs, the trait LinearRegression of
    src/linalg/mod.rs, and the structs of src/linalg/lr_solvers.rs and src/linalg/lr_online_solvers.rs.
    The solvers called by fit are those of LinModel.
    Simplifications: numbers are elements of an ordered field, [None] where f64 has NaN (infinities do not
    occur); np.nan_to_num, which also replaces infinities, is the replacement of NaN. *)
From mathcomp Require Import all_ssreflect all_algebra.
From Verif Require Import LinModel.
Set Implicit Arguments.
Unset Strict Implicit.
Import GRing.Theory Num.Theory.
Local Open Scope ring_scope.

Section Cls.
Variable R : realFieldType.
(** The names of columns. *)
Variable name : eqType.
(** [T::epsilon()]. *)
Variable eps : R.

(** A number or NaN. *)
Definition num := option R.

(** The fields of the Rust struct and of the Python class that matter: the values learned (coefficients,
    then the bias when there is one; [None]: the 0 x 0 matrix of a fresh object), whether there is a bias, and
    the names of the features.  lr_solvers.rs:8-23, 70-89; linear_models.py:122-125, 343-346 *)
Record model := Model { m_bias : bool; m_vals : option (seq num); m_names : seq name }.
Definition new (b : bool) (names : seq name) : model := Model b None names.

(** [fitted_values().nrows()] *)
Definition nrows (m : model) : nat := size (odflt [::] (m_vals m)).

(** linalg/mod.rs:120-127  coefficients; [nrows() - 1] underflows on an empty matrix: a panic in a debug
    build, and in a release build the range [0..usize::MAX] is out of bounds, which panics too. *)
Definition coefficients (m : model) : res (option (seq num)) :=
  if m_bias m then
    if nrows m == 0%N then Panic else Ok (Some (take (nrows m - 1) (odflt [::] (m_vals m))))
  else Ok (m_vals m).

(** linalg/mod.rs:109-116  bias *)
Definition bias (m : model) : res num :=
  if m_bias m then
    if nrows m == 0%N then Panic else Ok (nth None (odflt [::] (m_vals m)) (nrows m - 1))
  else Ok (Some 0).

(** linalg/mod.rs:144-146 *)
Definition is_fit (m : model) : res bool :=
  match coefficients m with Ok c => Ok (isSome c) | Err => Err | Panic => Panic end.

(** linalg/mod.rs:148-166  coeffs_as_vec with check_is_fit *)
Definition coeffs (m : model) : res (seq num) :=
  match coefficients m with
  | Ok (Some c) => Ok c
  | Ok None => Err
  | Err => Err
  | Panic => Panic
  end.

(** NaN in, NaN out. *)
Definition nmul (a b : num) : num := match a, b with Some x, Some y => Some (x * y) | _, _ => None end.
Definition nadd (a b : num) : num := match a, b with Some x, Some y => Some (x + y) | _, _ => None end.
Definition dot (r c : seq num) : num := foldr (fun q acc => nadd (nmul q.1 q.2) acc) (Some 0) (zip r c).

(** linalg/mod.rs:176  [self.has_bias() && self.bias().abs() > T::epsilon()] *)
Definition big (b : num) : bool := match b with Some v => eps < `|v| | None => false end.

(** linalg/mod.rs:168-185  predict, for a matrix of [k] columns *)
Definition predict (m : model) (k : nat) (X : seq (seq num)) : res (seq num) :=
  match coefficients m with
  | Ok c =>
      if k != size (odflt [::] c) then Err
      else match c with
           | None => Err
           | Some c =>
               match bias m with
               | Ok b => Ok [seq (if m_bias m && big b then nadd (dot r c) b else dot r c) | r <- X]
               | Err => Err
               | Panic => Panic
               end
           end
  | Err => Err
  | Panic => Panic
  end.

(** lr_solvers.rs:34-47 and 112-125  set_coeffs_and_bias *)
Definition set_coeffs_and_bias (m : model) (cs : seq num) (b : num) : model :=
  if big b then Model true (Some (rcons cs b)) (m_names m) else Model false (Some cs) (m_names m).

(** linear_models.py:127-152 and 348-375  from_values *)
Definition from_values (cs : seq num) (b : num) (names : seq name) : model :=
  set_coeffs_and_bias (new (b != Some 0) names) cs b.

(** The Python method bias(): linear_models.py:189-190 and 576-577 (LR, OnlineLR) evaluate the attribute and
    return None, 411-412 (ElasticNet) returns it.  [Ok None] is Python's None. *)
Inductive class := CLR | CElasticNet | COnlineLR.
Definition py_bias (c : class) (m : model) : res (option num) :=
  match bias m with
  | Ok b => Ok (match c with CElasticNet => Some b | _ => None end)
  | Err => Err
  | Panic => Panic
  end.

(** ** Fitting *)

(** The solver of a class, and whether it needs as many rows as columns: linalg/mod.rs:134-142 for LR,
    lr_solvers.rs:171-179 for ElasticNet.  [None]: the values are NaN. *)
Record solver := Solver {
  needs_rows : bool;
  solve : forall p (b : bool), data R p -> option 'cV[R]_(p + b) }.
(** lr_solvers.rs:57-66 and 140-169 *)
Definition lr_solver (F : faer R) (lambda : R) (s : solver_name) : solver :=
  Solver true (fun p b d => let d' := [seq (with_one b r.1, r.2) | r <- d] in
    Some (faer_solve_lstsq F (Xmat d') (Ymat d') lambda b (how_of s))).
Definition en_solver (l1 l2 tol : R) (max_iter : nat) : solver :=
  Solver false (fun p b d => let d' := [seq (with_one b r.1, r.2) | r <- d] in
    faer_coordinate_descent (Xmat d') (Ymat d') l1 l2 b tol max_iter).

(** A column vector as a list. *)
Definition vals_of m (w : option 'cV[R]_m) : seq num :=
  match w with Some w => [seq Some (w i 0) | i <- enum 'I_m] | None => nseq m None end.

(** linalg/mod.rs:134-142, lr_solvers.rs:171-179  fit: the error, or the new object *)
Definition rust_fit (S : solver) (m : model) p (rows : seq (lrow R p)) : res model :=
  if needs_rows S && (size rows < p)%N then Err
  else if size rows == 0%N then Err
  else
    let w := match all_some (map (@num_row R p) rows) with
             | Some d => solve S (m_bias m) d
             | None => None
             end in
    Ok (Model (m_bias m) (Some (vals_of w)) (m_names m)).

(** linear_models.py:33-60 and 63-91  _handle_nulls_in_df, _handle_nans_in_np *)
Definition handle_nulls p (pol : policy R) (rows : seq (lrow R p)) : res (seq (lrow R p)) :=
  match pol with
  | IGNORE => Ok rows
  | RAISE => if has (@row_null R p) rows then Err else Ok rows
  | SKIP => Ok [seq r <- rows | ~~ row_null r]
  | FILL x => Ok [seq r <- map (fill_row x) rows | ~~ is_null (tgt r)]
  | SKIP_WINDOW | FILL_WINDOW _ => Err
  end.

(** The outcome of a method that changes the object: the object may be changed although it raises. *)
Inductive outcome := Done | Raised | Panicked.
(** linear_models.py:192-209 and 414-431  fit *)
Definition py_fit (S : solver) (m : model) p (pol : policy R) (rows : seq (lrow R p)) : outcome * model :=
  match handle_nulls pol rows with
  | Ok rows' =>
      match rust_fit S m rows' with
      | Ok m' => (Done, m')
      | Err => (Raised, m)
      | Panic => (Panicked, m)
      end
  | Err => (Raised, m)
  | Panic => (Panicked, m)
  end.

(** A frame: its height and its columns, null = [None]. *)
Record frame := Frame { height : nat; col_of : name -> option (seq (option R)) }.
(** [df.select(features, target)]: an unknown column raises. *)
Definition df_rows (df : frame) (features : seq name) (target : name) : option (seq (lrow R (size features))) :=
  match all_some (map (col_of df) features), col_of df target with
  | Some cols, Some y =>
      Some [seq @LRow R (size features) (nth None y i) (\row_(j < size features) nth None (nth [::] cols j) i) | i <- iota 0 (height df)]
  | _, _ => None
  end.

(** A list of names passed by the caller: the object's own list [feature_names_in_], or another. *)
Inductive arg := Own | Names (l : seq name).
Definition look (m : model) (a : arg) : seq name := match a with Own => m_names m | Names l => l end.
(** linear_models.py:179-181  [self.feature_names_in_.clear(); self.feature_names_in_ = list(features)]:
    when [features] is the object's own list it is empty by then. *)
Definition set_input_features (m : model) (a : arg) : model :=
  Model (m_bias m) (m_vals m) (match a with Own => [::] | Names l => l end).

(** linear_models.py:211-265 and 433-468  fit_df (without the report): the names are set before fit, which
    is called with null_policy = "ignore". *)
Definition py_fit_df (S : solver) (m : model) (df : frame) (a : arg) (target : name) (pol : policy R)
  : outcome * model :=
  match df_rows df (look m a) target with
  | None => (Raised, m)
  | Some rows =>
      match handle_nulls pol rows with
      | Ok rows' => py_fit S (set_input_features m a) (IGNORE R) rows'
      | Err => (Raised, m)
      | Panic => (Panicked, m)
      end
  end.

(** linear_models.py:296-301: sum_horizontal skips nulls; [zip] stops with the shorter list. *)
Definition term (beta : num) (c : option R) : option num := omap (fun v => nmul beta (Some v)) c.
Definition sum_horizontal (l : seq (option num)) : num := foldr nadd (Some 0) (pmap id l).
Definition zip_terms (cols : seq (seq (option R))) (cs : seq num) (i : nat) : seq (option num) :=
  [seq term q.2 (nth None q.1 i) | q <- zip cols cs].
(** linear_models.py:278-303 and 481-506  predict_df: the added column.  A model without coefficients raises
    (no column to sum). *)
Definition predict_df (m : model) (df : frame) : res (seq num) :=
  if size (m_names m) == 0%N then Err
  else match coeffs m with
       | Ok cs =>
           match bias m with
           | Ok b =>
               if size cs == 0%N then Err
               else match all_some (map (col_of df) (take (size cs) (m_names m))) with
                    | None => Err
                    | Some cols =>
                        Ok [seq (let s := sum_horizontal (zip_terms cols cs i) in
                                 if b != Some 0 then nadd s b else s) | i <- iota 0 (height df)]
                    end
           | Err => Err
           | Panic => Panic
           end
       | Err => Err
       | Panic => Panic
       end.

(** ** Calls *)
Inductive call :=
| CallFit p (pol : policy R) (rows : seq (lrow R p))
| CallFitDf (df : frame) (a : arg) (target : name) (pol : policy R)
| CallSetNames (a : arg).
Definition step (S : solver) (m : model) (c : call) : outcome * model :=
  match c with
  | CallFit p pol rows => py_fit S m pol rows
  | CallFitDf df a target pol => py_fit_df S m df a target pol
  | CallSetNames a => (Done, set_input_features m a)
  end.
Definition run (S : solver) (m : model) (cs : seq call) : model := foldl (fun m c => (step S m c).2) m cs.

(** ** OnlineLR *)

(** lr_online_solvers.rs:18-24: the values (with the bias last) and the inverse, of any sizes. *)
Record omodel := OModel { om_bias : bool; om_n : nat; om_vals : 'cV[R]_om_n; om_k : nat; om_inv : 'M[R]_om_k }.

(** lr_online_solvers.rs:36-60  set_coeffs_bias_inverse, for a square inverse *)
Definition restore k (cs : seq R) (b : R) (inv : 'M[R]_k) : res omodel :=
  if size cs != k then Err
  else if eps < `|b| then Ok (@OModel true (size cs + 1) (\col_i nth b cs i) k inv)
  else Ok (@OModel false (size cs) (\col_i nth 0 cs i) k inv).

(** The fitted values, as a list, for the getters above. *)
Definition om_model (o : omodel) : model :=
  Model (om_bias o) (Some [seq Some (om_vals o i 0) | i <- enum 'I_(om_n o)]) [::].

(** lr_online_solvers.rs:69-93 with py_lr.rs and linear_models.py:604-630  update: matrix products panic when
    the sizes do not fit.  [Ok None]: a state of NaN. *)
Definition o_update (o : omodel) p (r : nrow R p) (c : R) : res (option omodel) :=
  match r with
  | None => Ok (Some o)
  | Some (x, y) =>
      let m := (p + om_bias o)%N in
      match @eqP _ (om_n o) m, @eqP _ (om_k o) m with
      | ReflectT En, ReflectT Ek =>
          Ok (omap (fun s : online R m => @OModel (om_bias o) m (o_coef s) m (o_inv s))
                (woodbury_step (@Online R m (castmx (Ek, Ek) (om_inv o)) (castmx (En, erefl) (om_vals o)))
                   (with_one (om_bias o) x) y c))
      | _, _ => Panic
      end
  end.
(** An object fitted by OnlineLR.fit: lr_online_solvers.rs:105-120 *)
Definition om_of p (b : bool) (s : online R (p + b)) : omodel := @OModel b (p + b) (o_coef s) (p + b) (o_inv s).
End Cls.
