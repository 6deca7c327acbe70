(** Model of the t tests: python/polars_ds/exprs/stats.py 47-186, src/stats/t_test.rs, src/stats/mod.rs 20-35,
    src/stats_utils/beta.rs 24-37, over exact reals. *)
From Coq Require Import Reals List Bool Ascii String Arith.
From Verif Require Import WStatsSpec MetricSpec MetricModel TtestSpec.
Import ListNotations.
Open Scope R_scope.

(** stats/mod.rs 26-35; [to_lowercase] on ASCII letters. *)
Definition lower (c : ascii) : ascii := let n := nat_of_ascii c in if (65 <=? n)%nat && (n <=? 90)%nat then ascii_of_nat (n + 32) else c.
Fixpoint lowercase (s : string) : string := match s with EmptyString => EmptyString | String c r => String (lower c) (lowercase r) end.
Definition alternative_from (s : string) : alternative :=
  let l := lowercase s in
  if String.eqb l "less" then Less else if String.eqb l "greater" then Greater else TwoSided.

Inductive res (A : Type) := Ok (a : A) | Err | Panic.
Arguments Ok {A}. Arguments Err {A}. Arguments Panic {A}.

Section Beta.
  (** The regularized incomplete beta function I_x(a, b), computed in beta.rs by a continued fraction: an oracle. *)
  Variable beta_reg : R -> R -> R -> R.
  (** beta.rs 62-71: [checked_beta_reg]. *)
  Definition checked_beta_reg (a b x : R) : res R :=
    if Rle_dec a 0 then Err else if Rle_dec b 0 then Err
    else if Rle_dec 0 x then if Rle_dec x 1 then Ok (beta_reg a b x) else Err else Err.
  (** beta.rs 24-37, for finite [df]. *)
  Definition student_t_sf (x df : R) : res R :=
    let h := df / (df + x * x) in
    match checked_beta_reg (df / 2) (1 / 2) h with
    | Ok i => let ib := 1 / 2 * i in if Rle_dec x 0 then Ok (1 - ib) else Ok ib
    | _ => Err
    end.
  Definition unwrap_or_nan (r : res R) : xnum := match r with Ok p => Fin p | _ => NaN end.
  Definition p_value (t df : R) (alt : alternative) : res R :=
    match alt with
    | Less => student_t_sf (- t) df
    | Greater => student_t_sf t df
    | TwoSided => match student_t_sf (Rabs t) df with Ok p => Ok (2 * p) | r => r end
    end.
  (** t_test.rs 8-29 ttest_ind. *)
  Definition ttest_ind_rs (m1 m2 v1 v2 n : R) (alt : alternative) : xnum * xnum :=
    let num := m1 - m2 in
    let denom := sqrt ((v1 + v2) / n) in
    if Req_EM_T denom 0 then (NaN, NaN)
    else let t := num / denom in let df := 2 * n - 2 in (Fin t, unwrap_or_nan (p_value t df alt)).
  (** t_test.rs 31-58 ttest_1samp. *)
  Definition ttest_1samp_rs (mean pop_mean var n : R) (alt : alternative) : res (xnum * xnum) :=
    let num := mean - pop_mean in
    let denom := sqrt (var / n) in
    if Req_EM_T denom 0 then Err
    else let t := num / denom in let df := n - 1 in
         match p_value t df alt with Ok p => Ok (Fin t, Fin p) | _ => Err end.
  (** t_test.rs 60-90 welch_t. *)
  Definition welch_t_rs (m1 m2 v1 v2 n1 n2 : R) (alt : alternative) : res (xnum * xnum) :=
    let num := m1 - m2 in
    let vn1 := v1 / n1 in
    let vn2 := v2 / n2 in
    let denom := sqrt (vn1 + vn2) in
    if Req_EM_T denom 0 then Err
    else let t := num / denom in
         let df := (vn1 + vn2) ^ 2 / (vn1 ^ 2 / (n1 - 1) + vn2 ^ 2 / (n2 - 1)) in
         match p_value t df alt with Ok p => Ok (Fin t, Fin p) | _ => Err end.

  Definition column := list (option xnum).
  Definition knowns (x : column) : list xnum := flat_map (fun o => match o with Some v => [v] | None => [] end) x.
  Definition is_fin (v : xnum) : bool := match v with Fin _ => true | _ => false end.
  Definition finite_rows (x : column) : list R := flat_map (fun v => match v with Fin r => [r] | _ => [] end) (knowns x).
  (** [mean()] and [var()]: null (None) without enough values, not finite (Some NaN) when a value is not finite. *)
  Definition stat (f : list R -> R) (need : nat) (x : list xnum) : option xnum :=
    if (List.length x <? need)%nat then None
    else if forallb is_fin x then Some (Fin (f (flat_map (fun v => match v with Fin r => [r] | _ => [] end) x))) else Some NaN.
  Definition get_or_nan (o : option xnum) : xnum := match o with Some v => v | None => NaN end.
  (** stats.py 47-95 ttest_ind, t_test.rs 92-117 pl_ttest_2samp and 119-145 pl_welch_t. *)
  Definition ttest_ind (x y : column) (alternative : string) (equal_var : bool) : res (xnum * xnum) :=
    if equal_var then
      match get_or_nan (stat mean_of 1 (knowns x)), get_or_nan (stat mean_of 1 (knowns y)),
            get_or_nan (stat var_of 2 (knowns x)), get_or_nan (stat var_of 2 (knowns y)) with
      | Fin m1, Fin m2, Fin v1, Fin v2 => Ok (ttest_ind_rs m1 m2 v1 v2 (INR (List.length (knowns x))) (alternative_from alternative))
      | _, _, _, _ => Err
      end
    else
      let s1 := finite_rows x in
      let s2 := finite_rows y in
      match stat mean_of 1 (map Fin s1), stat mean_of 1 (map Fin s2), stat var_of 2 (map Fin s1), stat var_of 2 (map Fin s2) with
      | Some (Fin m1), Some (Fin m2), Some (Fin v1), Some (Fin v2) =>
        welch_t_rs m1 m2 v1 v2 (INR (List.length s1)) (INR (List.length s2)) (alternative_from alternative)
      | _, _, _, _ => Panic (* unwrap of null *)
      end.
  (** stats.py 98-127 ttest_1samp, t_test.rs 147-167. *)
  Definition ttest_1samp (x : column) (pop_mean : R) (alternative : string) : res (xnum * xnum) :=
    let s1 := finite_rows x in
    match stat mean_of 1 (map Fin s1), stat var_of 2 (map Fin s1) with
    | Some (Fin m), Some (Fin v) => ttest_1samp_rs m pop_mean v (INR (List.length s1)) (alternative_from alternative)
    | _, _ => Panic
    end.
  (** stats.py 130-186 ttest_ind_from_stats: the second sample given by its statistics. *)
  Definition ttest_ind_from_stats (x : column) (mean var : R) (cnt : nat) (alternative : string) (equal_var : bool) : res (xnum * xnum) :=
    if equal_var then
      match get_or_nan (stat mean_of 1 (knowns x)), get_or_nan (stat var_of 2 (knowns x)) with
      | Fin m1, Fin v1 => Ok (ttest_ind_rs m1 mean v1 var (INR (List.length (knowns x))) (alternative_from alternative))
      | _, _ => Err
      end
    else
      let s1 := finite_rows x in
      match stat mean_of 1 (map Fin s1), stat var_of 2 (map Fin s1) with
      | Some (Fin m1), Some (Fin v1) => welch_t_rs m1 mean v1 var (INR (List.length s1)) (INR cnt) (alternative_from alternative)
      | _, _ => Panic
      end.
  (** What the regularized incomplete beta function is assumed to do. *)
  Definition beta_ok : Prop := forall a b, 0 < a -> 0 < b ->
    (forall x, 0 <= x <= 1 -> 0 <= beta_reg a b x <= 1) /\ beta_reg a b 1 = 1 /\
    (forall x y, 0 <= x -> x < y -> y <= 1 -> beta_reg a b x < beta_reg a b y).
End Beta.
