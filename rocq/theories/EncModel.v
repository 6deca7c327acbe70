(** Model of target_encode, woe and information value (python/polars_ds/exprs/num.py 595-725, 965-1000) in exact reals. *)
From Coq Require Import Reals List.
From Verif Require Import WStatsSpec MetricSpec EncSpec.
Import ListNotations.
Open Scope R_scope.

(** Oracle for [group_by(value)]: one group per key, in any order, with the rows of the key in order. *)
Definition group_ok {A} (dec : forall a b : A, {a = b} + {a <> b}) (gb : list (A * R) -> list (A * list R)) : Prop :=
  forall rows, NoDup (map fst (gb rows)) /\ (forall k, In k (map fst (gb rows)) <-> In k (map fst rows)) /\
    forall k vs, In (k, vs) (gb rows) -> vs = map snd (filter (fun r => if dec (fst r) k then true else false) rows).
(** [drop_nulls(None)] on the two columns. *)
Definition drop_nulls {A} (rows : list (@row A)) : list (A * R) :=
  flat_map (fun r => match r with (Some k, Some t) => [(k, t)] | _ => [] end) rows.
(** target_encode.rs 36-43: 1 / (1 + exp(-(cnt - min_samples_leaf) / smoothing)); with smoothing = 0 the quotient is an
    infinity or NaN. *)
Definition alpha (cnt : nat) (min_samples_leaf smoothing : R) : xnum :=
  let d := INR cnt - min_samples_leaf in
  if Req_EM_T smoothing 0 then (if Rlt_dec 0 d then Fin 1 else if Rlt_dec d 0 then Fin 0 else NaN)
  else Fin (1 / (1 + exp ((- d) / smoothing))).
(** target_encode.rs 45-48. *)
Definition blend (a : xnum) (cond_p target_mean : R) : xnum :=
  match a with Fin a => Fin (a * cond_p + (1 - a) * target_mean) | _ => NaN end.
(** target_encode.rs 18-72; num.py 991-1000 passes [t.mean()] over all rows; [None]: panic, the mean is null ([get(0).unwrap()]). *)
Definition target_encode {A} (gb : list (A * R) -> list (A * list R)) (rows : list (@row A)) (min_samples_leaf smoothing : R) : option (list (A * xnum)) :=
  match targets rows with
  | [] => None
  | ts => let target_mean := mean_of ts in
    Some (map (fun g => (fst g, blend (alpha (length (snd g)) min_samples_leaf smoothing) (mean_of (snd g)) target_mean)) (gb (drop_nulls rows)))
  end.
(** woe_iv.rs 22-50 get_woe_frame: category, good_pct, bad_pct, woe. *)
Definition woe_frame {A} (gb : list (A * R) -> list (A * list R)) (rows : list (@row A)) : list (A * (R * R * R)) :=
  let g := map (fun g => (fst g, (INR (length (snd g)), Rsum (snd g)))) (gb (drop_nulls rows)) in
  let cnt := Rsum (map (fun r => fst (snd r)) g) in
  let goods := Rsum (map (fun r => snd (snd r)) g) in
  map (fun r => let good_pct := (snd (snd r) + 1) / (goods + 2) in
                let bad_pct := (fst (snd r) - snd (snd r) + 1) / (cnt - goods + 2) in
                (fst r, (good_pct, bad_pct, ln (good_pct / bad_pct)))) g.
(** woe_iv.rs 52-60 pl_woe_discrete. *)
Definition woe_discrete {A} (gb : list (A * R) -> list (A * list R)) (rows : list (@row A)) : list (A * R) :=
  map (fun r => (fst r, snd (snd r))) (woe_frame gb rows).
(** woe_iv.rs 62-75 pl_iv and num.py 695-725 info_value_discrete. *)
Definition info_value_discrete {A} (gb : list (A * R) -> list (A * list R)) (rows : list (@row A)) : list (A * R) :=
  map (fun r => (fst r, (fst (fst (snd r)) - snd (fst (snd r))) * snd (snd r))) (woe_frame gb rows).
Definition info_value_discrete_sum {A} (gb : list (A * R) -> list (A * list R)) (rows : list (@row A)) : R :=
  Rsum (map snd (info_value_discrete gb rows)).
(** num.py 617-624 woe (and 684-692 info_value): x is filtered by [is_finite] before it is cut into bins, the target is not;
    [df!] in woe_iv.rs 23-26 fails on columns of different lengths ([None]).  [qcut] maps the values to the labels of their
    bins. *)
Definition finite_values (x : list (option xnum)) : list R := flat_map (fun v => match v with Some (Fin r) => [r] | _ => [] end) x.
Definition binned {A} (qcut : list R -> list A) (x : list (option xnum)) (target : list (option R)) : option (list (@row A)) :=
  let brk := qcut (finite_values x) in
  if Nat.eqb (length brk) (length target) then Some (combine (map Some brk) target) else None.
Definition woe {A} (gb : list (A * R) -> list (A * list R)) (qcut : list R -> list A) (x : list (option xnum)) (target : list (option R)) : option (list (A * R)) :=
  option_map (woe_discrete gb) (binned qcut x target).
Definition info_value {A} (gb : list (A * R) -> list (A * list R)) (qcut : list R -> list A) (x : list (option xnum)) (target : list (option R)) : option R :=
  option_map (info_value_discrete_sum gb) (binned qcut x target).
