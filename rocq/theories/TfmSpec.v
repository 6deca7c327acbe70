(** Specification vocabulary for fitted transforms. *)
From Coq Require Import Reals String Bool.
From Coq Require Import List.
From Verif Require Import MetricSpec WStatsSpec WStatsModel WinsModel PipeModel PipeSpec TfmModel.
Import ListNotations.

(** A column of known real numbers and nulls. *)
Definition real_col (x : list (option R)) : column := map (fun o => match o with Some r => Num (Fin r) | None => Null end) x.
Definition num_col (x : list (option xnum)) : column := map (fun o => match o with Some r => Num r | None => Null end) x.
Definition numeric (f : frame) (cs : list string) : Prop := forall c, In c cs -> exists x, lookup c f = Some (real_col x).
Definition trained (f : frame) (cs : list string) : Prop := forall c, In c cs -> exists x, lookup c f = Some (real_col x) /\ values x <> [].
(** Fitted on frame f, the transform turns column y of any frame into [P x y], where x is the training column; other columns,
    and the columns' order, stay. *)
Definition acts (T : frame -> list string -> option (list expr)) (P : rcol -> rcol -> column) : Prop :=
  forall f cs, NoDup cs -> trained f cs -> exists es, T f cs = Some es /\
    forall g, numeric g cs -> exists g', with_columns es g = Some g' /\ names g' = names g /\
      (forall d, ~ In d cs -> lookup d g' = lookup d g) /\
      forall c x y, In c cs -> lookup c f = Some (real_col x) -> lookup c g = Some (real_col y) -> lookup c g' = Some (P x y).
Definition least (l : list R) (m : R) : Prop := In m l /\ forall x, In x l -> (m <= x)%R.
Open Scope R_scope.
(** Nulls replaced by m. *)
Definition filled (m : R) (y : rcol) : rcol := map (fun o => Some (match o with Some v => v | None => m end)) y.
(** The q-quantile of the known values of a column that has some. *)
Definition qval (x : rcol) (q : R) (m : qmethod) : R := match quantile (values x) q m with Some v => v | None => 0 end.
(** Distance from the mean in (population) standard deviations; place between two marks. *)
Definition zscore (l : list R) (v : R) : R := (v - mean_of l) / sqrt (pvar l).
Definition unit_pos (lo hi v : R) : R := (v - lo) / (hi - lo).
(** Columns of truth values; the known numbers of the rows where a condition is false, and the value learned from them. *)
Definition bool_col (b : list (option bool)) : column := map (fun o => match o with Some v => BoolC v | None => Null end) b.
Definition false_rows (b : list (option bool)) (x : rcol) : list R :=
  values (map snd (filter (fun p => match fst p with Some false => true | _ => false end) (combine b x))).
Definition learned (G : list R -> R) (b : list (option bool)) (x : rcol) : cell :=
  match false_rows b x with [] => Null | l => Num (Fin (G l)) end.
