(** Model of the Gini coefficient and of the multiclass AUC (python/polars_ds/exprs/metrics.py). *)
From Coq Require Import Bool List Arith ZArith QArith.
From Verif Require Import PairSums QSum TrapzModel RocModel.
Import ListNotations.
Open Scope Z_scope.

Section M.
Context {K : Type} (leb : K -> K -> bool).

(** metrics.py 391-406 query_gini: [query_roc_auc(actual, pred) * 2.0 - 1.0], in exact arithmetic. *)
Definition query_gini (actual : list (option Z)) (pred : list (option K)) : out Q :=
  match roc_auc leb actual pred with OVal q => OVal (q * 2 - 1)%Q | ONan => ONan | OErr => OErr | OPanic => OPanic end.

(** metrics.py 542, 546: [a == i], cast to UInt32 by [query_roc_auc]; null stays null. *)
Definition is_class (i : nat) (actual : list (option Z)) : list (option Z) :=
  map (option_map (fun v => if v =? Z.of_nat i then 1 else 0)) actual.
(** metrics.py 543, 547: [p.list.get(i)]; None when some list has no such element (polars raises). *)
Fixpoint list_get (i : nat) (pred : list (option (list K))) : option (list (option K)) :=
  match pred with
  | [] => Some []
  | None :: p' => option_map (cons None) (list_get i p')
  | Some l :: p' => match nth_error l i with Some v => option_map (cons (Some v)) (list_get i p') | None => None end
  end.
Definition class_auc (actual : list (option Z)) (pred : list (option (list K))) (i : nat) : out Q :=
  match list_get i pred with None => OErr | Some p => roc_auc leb (is_class i actual) p end.

(** [pl.sum_horizontal]: an error in any operand is an error, otherwise NaN in any operand is NaN. *)
Fixpoint sum_horizontal (l : list (out Q)) : out Q :=
  match l with
  | [] => OVal 0%Q
  | a :: l' => match a, sum_horizontal l' with
               | OPanic, _ | _, OPanic => OPanic
               | OErr, _ | _, OErr => OErr
               | ONan, _ | _, ONan => ONan
               | OVal x, OVal y => OVal (x + y)%Q
               end
  end.
Definition scale (c : Q) (a : out Q) : out Q := match a with OVal x => OVal (c * x)%Q | o => o end.
Definition over (c : Q) (a : out Q) : out Q := match a with OVal x => OVal (x / c)%Q | o => o end.
(** [a.sum()] of the boolean column: the rows of class [i]. *)
Definition class_count (i : nat) (actual : list (option Z)) : Z := zsum (fun x => x) (flat (is_class i actual)).

Inductive strategy := Macro | Weighted.
(** metrics.py 522-557 query_multi_roc_auc (with at least one class and one row). *)
Definition query_multi_roc_auc (actual : list (option Z)) (pred : list (option (list K))) (n_classes : nat) (s : strategy) : out Q :=
  match s with
  | Macro => over (inject_Z (Z.of_nat n_classes)) (sum_horizontal (map (class_auc actual pred) (seq 0 n_classes)))
  | Weighted =>
      over (inject_Z (zlen actual))
        (sum_horizontal (map (fun i => scale (inject_Z (class_count i actual)) (class_auc actual pred i)) (seq 0 n_classes)))
  end.
End M.
