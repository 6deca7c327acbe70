(** C102-C104: one-hot and rank-hot encoding, polynomial features, dictionary encoders, linear imputing. *)
From Coq Require Import Reals String Ascii Bool Permutation.
From Coq Require Import List.
From Verif Require Import MetricSpec WStatsSpec WStatsModel PipeModel PipeSpec TfmModel TfmSpec EncSpec EncModel EncProofs HotModel HotSpec HotProofs TightSpec TightHot.
Import ListNotations.
Open Scope R_scope.
Open Scope list_scope.

(** One column per category of the training frame, 1 exactly where a later frame has the category, 0 elsewhere. *)
Theorem C102_one_hot : forall sep drop f cs, NoDup cs -> incl cs (names f) -> (exists c u, gets_column f cs drop c u) ->
  (forall c u c' u', gets_column f cs drop c u -> gets_column f cs drop c' u' -> (c ++ sep ++ u = c' ++ sep ++ u')%string -> c = c' /\ u = u') ->
  exists es, one_hot sep drop f cs = Some es /\
    forall g, (forall c u, gets_column f cs drop c u -> exists y, lookup c g = Some (text_col y)) ->
      exists g', with_columns es g = Some g' /\
        (forall n, In n (names g') <-> In n (names g) \/ exists c u, gets_column f cs drop c u /\ n = (c ++ sep ++ u)%string) /\
        (forall n, (forall c u, gets_column f cs drop c u -> n <> (c ++ sep ++ u)%string) -> lookup n g' = lookup n g) /\
        (forall c u y, gets_column f cs drop c u -> lookup c g = Some (text_col y) ->
           lookup (c ++ sep ++ u)%string g' = Some (map (fun o => number (is_it o u)) y)).
Proof. exact one_hot_thm. Qed.
Print Assumptions C102_one_hot.
(** So a row holding an encoded category has exactly one 1, in its column; any other row has zeros only. *)
Theorem C102_one_per_row : forall sep drop f cs g' c y,
  (forall u, gets_column f cs drop c u -> lookup (c ++ sep ++ u)%string g' = Some (map (fun o => number (is_it o u)) y)) ->
  (forall i u, nth_error y i = Some (Some u) -> gets_column f cs drop c u ->
     forall u', gets_column f cs drop c u' -> exists w, lookup (c ++ sep ++ u')%string g' = Some w /\ nth_error w i = Some (number (if String.eqb u u' then 1 else 0))) /\
  (forall i o, nth_error y i = Some o -> (forall u, o = Some u -> ~ gets_column f cs drop c u) ->
     forall u', gets_column f cs drop c u' -> exists w, lookup (c ++ sep ++ u')%string g' = Some w /\ nth_error w i = Some (number 0)).
Proof. exact hot_decode. Qed.
Print Assumptions C102_one_per_row.
(** The new names are distinct if no encoded column's name has the separator in it ... *)
Theorem C102_names : forall a drop f cs, Forall (lacks a) cs -> forall c u c' u', gets_column f cs drop c u -> gets_column f cs drop c' u' ->
  (c ++ String a "" ++ u = c' ++ String a "" ++ u')%string -> c = c' /\ u = u'.
Proof. exact hot_names. Qed.
Print Assumptions C102_names.
(** ... otherwise the transform can fail, or overwrite a column. *)
Theorem C102_clash_refuted : exists f cs, proper f /\ NoDup cs /\ incl cs (names f) /\ (exists es, one_hot "_" false f cs = Some es /\ with_columns es f = None).
Proof. exact hot_clash. Qed.
Print Assumptions C102_clash_refuted.
Theorem C102_overwrite_refuted : exists f es g, one_hot "_" false f ["x"%string] = Some es /\ with_columns es f = Some g /\
  lookup "x_a" f = Some [number 7; number 8] /\ lookup "x_a" g = Some [number 1; number 0].
Proof. exact hot_overwrites. Qed.
Print Assumptions C102_overwrite_refuted.
(** A text column with one category is refused. *)
Theorem C102_constant_refuted : forall sep drop f c y u, lookup c f = Some (text_col y) -> In (Some u) y -> (forall s, In (Some s) y -> s = u) -> one_hot sep drop f [c] = None.
Proof. exact hot_constant. Qed.
Print Assumptions C102_constant_refuted.
(** Rank-hot: the value ranked k has k ones followed by zeros; unknown values and nulls have -1. *)
Theorem C102_rank_hot : forall c rk g y, (2 <= length rk)%nat -> NoDup rk -> lookup c g = Some (text_col y) ->
  exists es g', rank_hot c rk = Some es /\ with_columns es g = Some g' /\
    (forall n, In n (names g') <-> In n (names g) \/ exists r, In r (tl rk) /\ n = (c ++ ">=" ++ r)%string) /\
    (forall n, (forall r, In r (tl rk) -> n <> (c ++ ">=" ++ r)%string) -> lookup n g' = lookup n g) /\
    lookup c g' = Some (text_col y) /\
    forall j r, nth_error rk j = Some r -> (1 <= j)%nat -> exists w, lookup (c ++ ">=" ++ r)%string g' = Some w /\ length w = length y /\
      forall i, (i < length y)%nat ->
        (forall k s, nth i y None = Some s -> nth_error rk k = Some s -> nth i w Null = number (if Nat.leb j k then 1 else 0)) /\
        ((forall s, nth i y None = Some s -> ~ In s rk) -> nth i w Null = number (-1)).
Proof. exact rank_thm. Qed.
Print Assumptions C102_rank_hot.
Theorem C102_rank_refused : forall c rk, (length rk <= 1)%nat -> rank_hot c rk = None.
Proof. exact rank_refused. Qed.
Print Assumptions C102_rank_refused.
Theorem C102_rowwise : (forall sep drop f cs es, one_hot sep drop f cs = Some es -> rowwise_step (WithColumns es)) /\
  (forall c rk es, rank_hot c rk = Some es -> rowwise_step (WithColumns es)).
Proof. exact (conj hot_step rank_step). Qed.
Print Assumptions C102_rowwise.
Example C102_case : let f := [("x"%string, text_col [Some "b"; None; Some "a"; Some "b"]%string); ("t"%string, real_col [Some 1; Some 0; Some 0; None])] in
  gets_column f ["x"%string] false "x" "a" /\ gets_column f ["x"%string] true "x" "b" /\ Forall (lacks "_") ["x"%string] /\ NoDup ["x"%string] /\ incl ["x"%string] (names f) /\
  (exists es, one_hot "_" false f ["x"%string] = Some es /\ exists g, with_columns es f = Some g /\ lookup "x_a" g = Some [number 0; number 0; number 1; number 0] /\ lookup "x_b" g = Some [number 1; number 0; number 0; number 1]).
Proof. exact demo_hot. Qed.

(** Polynomial features: the products of all (unordered) choices of d columns, each once. *)
Theorem C103_products : forall cs d inter g h (x : string -> rcol), (2 <= d)%nat -> NoDup cs -> Forall (lacks "*") cs ->
  (forall c, In c cs -> lookup c g = Some (real_col (x c)) /\ length (x c) = h) ->
  exists es g', polynomial_features cs d inter = Some es /\ with_columns es g = Some g' /\
    (forall n, In n (names g') <-> In n (names g) \/ exists m, wanted cs d inter m /\ n = String.concat "*" m) /\
    (forall n, (forall m, wanted cs d inter m -> n <> String.concat "*" m) -> lookup n g' = lookup n g) /\
    (forall c, In c cs -> lookup c g' = lookup c g) /\
    (forall m, wanted cs d inter m -> lookup (String.concat "*" m) g' = Some (real_col (map (fun i => row_product (map (fun c => nth i (x c) None) m)) (seq 0 h)))) /\
    length es = (choose (length cs + d - 1) d - if inter then length cs else 0)%nat.
Proof. exact poly_thm. Qed.
Print Assumptions C103_products.
(** Every way of taking d of the columns, repetitions allowed, is written in exactly one order. *)
Theorem C103_each_once : forall d (cs m : list string), NoDup cs -> length m = d -> incl m cs ->
  exists m', in_order cs m' /\ Permutation m m' /\ forall m'', in_order cs m'' -> Permutation m m'' -> m'' = m'.
Proof. exact in_order_multiset. Qed.
Print Assumptions C103_each_once.
Theorem C103_refused : forall cs d inter, (d <= 1)%nat -> polynomial_features cs d inter = None.
Proof. exact poly_refused. Qed.
Print Assumptions C103_refused.
(** Names with an asterisk can clash, and the transform fails. *)
Theorem C103_clash_refuted : exists f cs es, proper f /\ NoDup cs /\ incl cs (names f) /\ polynomial_features cs 2 true = Some es /\ with_columns es f = None.
Proof. exact poly_clash. Qed.
Print Assumptions C103_clash_refuted.
Example C103_case : let g := [("a"%string, real_col [Some 2; None]); ("b"%string, real_col [Some 3; Some 5])] in let cs := ["a"; "b"]%string in
  NoDup cs /\ Forall (lacks "*") cs /\ (forall c, In c cs -> lookup c g = Some (real_col (if String.eqb c "a" then [Some 2; None] else [Some 3; Some 5])) /\ length (if String.eqb c "a" then [Some 2; None] else [Some 3; Some 5]) = 2%nat) /\
  wanted cs 2 true ["a"; "b"]%string /\ choose (2 + 2 - 1) 2 = 3%nat.
Proof. exact demo_poly. Qed.

Theorem C104_target_encode : forall gb m s target d f cs x dv, group_ok string_dec gb -> s <> 0 -> NoDup cs -> incl cs (names f) ->
  (exists c y, In c cs /\ lookup c f = Some (text_col y)) -> lookup target f = Some (real_col x) ->
  (forall c y, In c cs -> lookup c f = Some (text_col y) -> targets (combine y x) <> []) -> default_value (real_col x) d = Some dv ->
  encodes (target_encode_fit gb m s target d) (fun rows k => let w := weight (length (targets_of string_dec k rows)) m s in
      Fin (w * mean_of (targets_of string_dec k rows) + (1 - w) * mean_of (targets rows))) f cs x dv.
Proof.
  exact (fun gb m s target d f cs x dv G S => enc_gen (fun rows => target_encode gb rows m s) _ (fun rows => targets rows <> [])
    (fun rows T => encode_thm string_dec gb rows m s G T S) target d f cs x dv).
Qed.
Print Assumptions C104_target_encode.
Theorem C104_woe_encode : forall gb target d f cs x dv, group_ok string_dec gb -> NoDup cs -> incl cs (names f) ->
  (exists c y, In c cs /\ lookup c f = Some (text_col y)) -> lookup target f = Some (real_col x) ->
  (forall c y, In c cs -> lookup c f = Some (text_col y) -> zero_one (combine y x)) -> default_value (real_col x) d = Some dv ->
  encodes (woe_encode_fit gb target d) (fun rows k => Fin (ln (share (hits_of string_dec 1 k rows) (hits 1 rows) / share (hits_of string_dec 0 k rows) (hits 0 rows)))) f cs x dv /\
  encodes (iv_encode_fit gb target d) (fun rows k => let g := share (hits_of string_dec 1 k rows) (hits 1 rows) in let b := share (hits_of string_dec 0 k rows) (hits 0 rows) in
    Fin ((g - b) * ln (g / b))) f cs x dv.
Proof.
  exact (fun gb target d f cs x dv G N I E T Z D => conj
    (enc_gen _ _ zero_one (fun rows Z => ex_intro _ _ (conj eq_refl (map_table rows _ _ (woe_thm string_dec gb rows G Z)))) target d f cs x dv N I E T Z D)
    (enc_gen _ _ zero_one (fun rows Z => ex_intro _ _ (conj eq_refl (map_table rows _ _ (iv_thm string_dec gb rows G Z)))) target d f cs x dv N I E T Z D)).
Qed.
Print Assumptions C104_woe_encode.
Theorem C104_default : forall x : rcol,
  default_value (real_col x) DNone = Some None /\ (forall v, default_value (real_col x) (DNum v) = Some (Some v)) /\
  default_value (real_col x) (DWord "null") = Some None /\ default_value (real_col x) (DWord "zero") = Some (Some (Fin 0)) /\
  (values x <> [] -> default_value (real_col x) (DWord "mean") = Some (Some (Fin (mean_of (values x))))) /\
  (forall s, s <> "null"%string -> s <> "zero"%string -> s <> "mean"%string -> default_value (real_col x) (DWord s) = None).
Proof. exact default_thm. Qed.
Print Assumptions C104_default.
Theorem C104_no_text_refused : forall table target d f cs, (forall c y, In c cs -> lookup c f <> Some (text_col y)) -> encoder table target d f cs = None.
Proof. exact enc_refused. Qed.
Print Assumptions C104_no_text_refused.
Theorem C104_in_pipelines : forall table target d, writes_only (as_func (encoder table target d)) /\
  forall f cs es, encoder table target d f cs = Some es -> rowwise_step (WithColumns es).
Proof. exact enc_pipes. Qed.
Print Assumptions C104_in_pipelines.
(** Linear imputing: known targets stay; a null target becomes the fitted value if all features are known ... *)
Theorem C104_linear_impute : forall coeffs bias features y, length (linear_fill coeffs bias features y) = length y /\
  forall i, (i < length y)%nat ->
    (forall v, nth i y None = Some v -> nth i (linear_fill coeffs bias features y) None = Some v) /\
    (forall xs, nth i y None = None -> map (fun x => nth i x None) features = map Some xs ->
       nth i (linear_fill coeffs bias features y) None = Some (Rsum (map (fun p => fst p * snd p) (combine coeffs xs)) + if bias then last coeffs 0 else 0)).
Proof. exact lin_fill. Qed.
Print Assumptions C104_linear_impute.
(** ... but a null feature counts as zero. *)
Theorem C104_linear_null_refuted : forall a b x, linear_fill [a; b] false [[Some x]; [None]] [None] = [Some (x * a + (0 + 0) + 0)].
Proof. exact (fun a b x => eq_refl). Qed.
Print Assumptions C104_linear_null_refuted.
Example C104_case : let f := [("x"%string, text_col [Some "b"; None; Some "a"; Some "b"]%string); ("t"%string, real_col [Some 1; Some 0; Some 0; None])] in
  lookup "x" f = Some (text_col [Some "b"; None; Some "a"; Some "b"]%string) /\ lookup "t" f = Some (real_col [Some 1; Some 0; Some 0; None]) /\
  group_ok string_dec (group_ref string_dec) /\ targets (combine [Some "b"; None; Some "a"; Some "b"]%string [Some 1; Some 0; Some 0; None]) <> [] /\
  zero_one (combine [Some "b"; None; Some "a"; Some "b"]%string [Some 1; Some 0; Some 0; None]).
Proof. exact demo_enc. Qed.
(** Infinite, NaN and missing entries: the product of two columns follows the rules of signs in every row, and is
    null where either is. *)
Theorem C103_special_products : forall a b f x y, a <> b -> lookup a f = Some (num_col x) -> lookup b f = Some (num_col y) -> length x = length y ->
  exists e z, polynomial_features [a; b] 2 true = Some [e] /\ e f = Some [((a ++ "*" ++ b)%string, z)] /\ length z = length x /\
    forall i, (forall u v, nth_error x i = Some (Some u) -> nth_error y i = Some (Some v) -> exists w, nth_error z i = Some (Num w) /\ product_of u v w) /\
      (nth_error x i = Some None \/ nth_error y i = Some None -> nth_error z i = Some Null).
Proof. exact poly_special. Qed.
Print Assumptions C103_special_products.
Example C103_special_case : product_of PInf (Fin (- 2)) NInf /\ product_of NInf PInf NInf /\ product_of (Fin 0) PInf NaN.
Proof. exact special_case. Qed.
