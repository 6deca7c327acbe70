(** Model of python/polars_ds/modeling/transforms.py 26-306: impute, conditional_impute, center, scale, robust_scale, winsorize.
    Each learns statistics from a frame and returns one expression per column. Over exact reals with infinities and NaN; the
    statistics of columns holding NaN, infinities or other things than numbers are left open ([odd]). impute with
    [method = "mode"] is not modelled. *)
From Coq Require Import Reals String Bool.
From Flocq Require Import Core.Raux.
From Coq Require Import List.
From Verif Require Import MetricSpec WStatsSpec WStatsModel MetricModel PipeModel WinsModel.
Import ListNotations.
Open Scope R_scope.
Open Scope list_scope.

Definition reals (c : column) : option rcol :=
  traverse (fun v => match v with Null => Some None | Num (Fin r) => Some (Some r) | _ => None end) c.
Definition pvar (l : list R) : R := Rsum (map (fun a => (a - mean_of l) ^ 2) l) / INR (length l).
Definition lmin (l : list R) : R := match l with [] => 0 | a :: l' => fold_left Rmin l' a end.
Definition lmax (l : list R) : R := match l with [] => 0 | a :: l' => fold_left Rmax l' a end.
(** Quotient of two numbers that may be infinite or NaN; signed zeros are not told apart. *)
Definition xquot (a b : xnum) : xnum :=
  match a, b with
  | Fin x, Fin y => xdiv x y
  | NaN, _ | _, NaN => NaN
  | Fin _, _ => Fin 0
  | PInf, Fin y => if Rlt_dec y 0 then NInf else PInf
  | NInf, Fin y => if Rlt_dec y 0 then PInf else NInf
  | _, _ => NaN
  end.
Definition xsub (a b : xnum) : xnum := xadd a (xneg b).
(** An expression that maps the cells of one column. *)
Definition map_expr (c : string) (h : cell -> option cell) : expr :=
  fun f => match lookup c f with Some v => option_map (fun w => [(c, w)]) (traverse h v) | None => None end.
(** Arithmetic with a learned value that may be null. *)
Definition num_cell (g : xnum -> option xnum) (v : cell) : option cell :=
  match v with Null => Some Null | Num x => Some (match g x with Some y => Num y | None => Null end) | _ => None end.
Definition fill_cell (m : xnum) (v : cell) : option cell := match v with Null => Some (Num m) | _ => Some v end.
Definition per_column (k : string -> column -> option expr) (f : frame) (cs : list string) : option (list expr) :=
  traverse (fun c => match lookup c f with Some v => k c v | None => None end) cs.
(** polars' clip on one number: NaN stays. *)
Definition xclip (lo hi x : xnum) : xnum :=
  match x with
  | NaN => NaN
  | _ => match lo, hi with
         | Fin l, Fin h => match x with Fin v => Fin (clip l h v) | PInf => Fin h | _ => Fin l end
         | _, _ => x
         end
  end.

Section T.
Variable odd : string -> column -> option xnum.
(** A polars aggregate: null on columns without values. *)
Definition stat (tag : string) (g : list R -> R) (v : column) : option xnum :=
  match reals v with Some x => match values x with [] => None | l => Some (Fin (g l)) end | None => odd tag v end.
Definition qstat (tag : string) (q : R) (m : qmethod) (v : column) : option xnum :=
  match reals v with Some x => option_map Fin (quantile (values x) q m) | None => odd tag v end.

(** transforms.py 26-50 impute; [fill_null(None)] is an error. *)
Definition fill_with (c : string) (s : option xnum) : option expr := option_map (fun m => map_expr c (fill_cell m)) s.
Definition impute_mean : frame -> list string -> option (list expr) := per_column (fun c v => fill_with c (stat "mean" mean_of v)).
Definition impute_median : frame -> list string -> option (list expr) := per_column (fun c v => fill_with c (stat "median" median_of v)).
(** transforms.py 158-170 center *)
Definition omap2 (g : xnum -> xnum -> xnum) (x : xnum) (s : option xnum) : option xnum := option_map (g x) s.
Definition center : frame -> list string -> option (list expr) :=
  per_column (fun c v => Some (map_expr c (num_cell (fun x => omap2 xsub x (stat "mean" mean_of v))))).
(** transforms.py 173-224 scale. min_max subtracts the two statistics in Python: null is a TypeError. *)
Definition scale_standard : frame -> list string -> option (list expr) :=
  per_column (fun c v => let m := stat "mean" mean_of v in let s := stat "std" (fun l => sqrt (pvar l)) v in
    Some (map_expr c (num_cell (fun x => match m, s with Some m, Some s => Some (xquot (xsub x m) s) | _, _ => None end)))).
Definition between (c : string) (lo hi : option xnum) : option expr :=
  match lo, hi with Some l, Some h => Some (map_expr c (num_cell (fun x => Some (xquot (xsub x l) (xsub h l))))) | _, _ => None end.
Definition scale_min_max : frame -> list string -> option (list expr) :=
  per_column (fun c v => between c (stat "min" lmin v) (stat "max" lmax v)).
Definition scale_abs_max : frame -> list string -> option (list expr) :=
  per_column (fun c v => let m := stat "abs_max" (fun l => Rmax (Rabs (lmin l)) (Rabs (lmax l))) v in
    Some (map_expr c (num_cell (fun x => omap2 xquot x m)))).
(** transforms.py 227-265 robust_scale and 268-306 winsorize *)
Definition levels_ok (q_low q_high : R) : bool :=
  if Rlt_dec 1 q_low then false else if Rlt_dec q_low 0 then false else if Rlt_dec 1 q_high then false
  else if Rlt_dec q_high 0 then false else if Rle_dec q_high q_low then false else true.
Definition robust_scale (q_low q_high : R) (m : qmethod) (f : frame) (cs : list string) : option (list expr) :=
  if levels_ok q_low q_high then per_column (fun c v => between c (qstat "q1" q_low m v) (qstat "q2" q_high m v)) f cs else None.
Definition winsorize_fit (q_low q_high : R) (m : qmethod) (f : frame) (cs : list string) : option (list expr) :=
  if levels_ok q_low q_high
  then per_column (fun c v => Some (map_expr c (num_cell (fun x => Some match qstat "q1" q_low m v, qstat "q2" q_high m v with
                                                                     | Some l, Some h => xclip l h x | _, _ => x end)))) f cs
  else None.
(** transforms.py 53-112 conditional_impute: learned where the condition is false, used where it is true. *)
Definition where_false (b v : column) : column :=
  map snd (filter (fun p => match fst p with BoolC false => true | _ => false end) (combine b v)).
Definition when_then (b : column) (m : cell) (v : column) : column :=
  map (fun p => match fst p with BoolC true => m | _ => snd p end) (combine b v).
Definition cond_expr (c : string) (r : expr) (m : cell) : expr :=
  fun f => match lookup c f, r f with
           | Some v, Some [(_, b)] => if Nat.eqb (length b) (length v) then Some [(c, when_then b m v)] else None
           | _, _ => None
           end.
Definition conditional_impute (g : list R -> R) (rules : list (string * expr)) (f : frame) : option (list expr) :=
  traverse (fun cr => match lookup (fst cr) f, snd cr f with
                      | Some v, Some [(_, b)] => if Nat.eqb (length b) (length v)
                          then Some (cond_expr (fst cr) (snd cr) (match stat "impute" g (where_false b v) with Some m => Num m | None => Null end)) else None
                      | _, _ => None
                      end) rules.
End T.
(** As a fitting function of a blueprint (pipeline.py 404, 496, 513, 526, 617). *)
Definition as_func (t : frame -> list string -> option (list expr)) (f : frame) (cs : option (list string)) : option (list expr) :=
  match cs with Some cs => t f cs | None => None end.
