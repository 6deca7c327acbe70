(** Model of python/polars_ds/eda/diagnosis.py: the reports and column inferences of DIA that return data (not figures).
    A column is a list of optional values (None = null); [V] is any type of values with decidable equality, NaN being one value
    as in polars' n_unique.  Thresholds and probabilities are rational numbers and products are not rounded. *)
From Coq Require Import Ascii String Bool List Arith ZArith QArith.
Import ListNotations.
Open Scope nat_scope.

Inductive result (A : Type) := Value (a : A) | Raise.
Arguments Value {A}. Arguments Raise {A}.

(** The part of a polars data type the class looks at (diagnosis.py 55-99). *)
Inductive dtype :=
| DInt | DFloat | DDecimal | DStr | DBool | DCat
| DListFloat | DListInt | DListBool | DListStr
| DOther.
Definition is_numeric t := match t with DInt | DFloat | DDecimal => true | _ => false end.

Section Dia.
Context {V : Type} (veq : forall a b : V, {a = b} + {a <> b}).
Definition cell := option V.
Record column := { name : string; ty : dtype; vals : list cell }.
Definition frame := list column.
Definition ceq : forall a b : cell, {a = b} + {a <> b}.
Proof. decide equality. Defined.

(** diagnosis.py 55-60: [df.select(selector).collect_schema().names()]. *)
Definition of_type (p : dtype -> bool) (f : frame) : list string := map name (filter (fun c => p (ty c)) f).
Definition numerics := of_type is_numeric.
Definition strs := of_type (fun t => match t with DStr => true | _ => false end).
Definition bools := of_type (fun t => match t with DBool => true | _ => false end).
Definition cats := of_type (fun t => match t with DCat => true | _ => false end).
Definition ints := of_type (fun t => match t with DInt => true | _ => false end).
Definition floats := of_type (fun t => match t with DFloat => true | _ => false end).
Definition list_floats := of_type (fun t => match t with DListFloat => true | _ => false end).
Definition list_ints := of_type (fun t => match t with DListInt => true | _ => false end).
Definition list_bool := of_type (fun t => match t with DListBool => true | _ => false end).
Definition list_str := of_type (fun t => match t with DListStr => true | _ => false end).
(** diagnosis.py 88-98. *)
Definition simple_types (f : frame) : list string :=
  numerics f ++ strs f ++ bools f ++ cats f ++ list_floats f ++ list_ints f ++ list_bool f ++ list_str f.
Definition memb (l : list string) (x : string) : bool := existsb (String.eqb x) l.
(** diagnosis.py 99. *)
Definition other_types (f : frame) : list string := filter (fun x => negb (memb (simple_types f) x)) (map name f).

(** polars n_unique (null is a value), null_count, len. *)
Definition n_unique (c : column) : nat := length (nodup ceq (vals c)).
Definition is_null (o : cell) : bool := match o with None => true | Some _ => false end.
Definition null_count (c : column) : nat := length (filter is_null (vals c)).
Definition len (c : column) : nat := length (vals c).

Definition pick (p : column -> bool) (f : frame) : list string := map name (filter p f).
(** diagnosis.py 520-539 infer_high_null. *)
Definition infer_high_null (threshold : Q) (f : frame) : list string :=
  pick (fun c => Qle_bool (inject_Z (Z.of_nat (len c)) * threshold)%Q (inject_Z (Z.of_nat (null_count c)))) f.
(** diagnosis.py 541-569 infer_discrete: the boolean and categorical columns are left out of what is checked. *)
Definition qlt (a b : Q) : bool := negb (Qle_bool b a).
Definition infer_discrete (threshold : Q) (max_val_cnt : nat) (f : frame) : list string :=
  let out := bools f ++ cats f in
  let to_check := filter (fun c => negb (memb out (name c))) f in
  pick (fun c => Nat.ltb (n_unique c) max_val_cnt || qlt (inject_Z (Z.of_nat (n_unique c))) (threshold * inject_Z (Z.of_nat (len c)))%Q) to_check.
(** diagnosis.py 571-602 infer_const. *)
Definition infer_const (include_null : bool) (f : frame) : list string :=
  if include_null then pick (fun c => Nat.eqb (n_unique c) 1 || Nat.ltb 0 (null_count c) && Nat.eqb (n_unique c) 2) f
  else pick (fun c => Nat.eqb (n_unique c) 1) f.
(** diagnosis.py 604-635 infer_binary. *)
Definition infer_binary (include_null : bool) (f : frame) : list string :=
  if include_null then pick (fun c => Nat.eqb (n_unique c) 2 || Nat.ltb 0 (null_count c) && Nat.eqb (n_unique c) 3) f
  else pick (fun c => Nat.eqb (n_unique c) 2) f.
(** diagnosis.py 637-673 infer_k_distinct. *)
Definition infer_k_distinct (k : Z) (include_null : bool) (f : frame) : result (list string) :=
  if (k <? 1)%Z then Raise
  else
    let k := Z.to_nat k in
    Value (if include_null then pick (fun c => Nat.eqb (n_unique c) k || Nat.ltb 0 (null_count c) && Nat.eqb (n_unique c) (k + 1)) f
           else pick (fun c => Nat.eqb (n_unique c) k) f).
End Dia.
Arguments column : clear implicits.
Arguments frame : clear implicits.
Arguments Build_column {V}.

(** ** Validation reports.  A rule is what its expression evaluates to. *)
Fixpoint has_dup (l : list string) : bool :=
  match l with [] => false | x :: r => memb r x || has_dup r end.
(** diagnosis.py 236-266 col_validation: [rule] = (root name kept by [name.keep()], value, message); selecting two expressions of
    the same name is an error in polars. *)
Definition col_validation (rules : list (string * option bool * string)) : result (list (string * string)) :=
  if has_dup (map (fun r => fst (fst r)) rules) then Raise
  else Value (map (fun r => (fst (fst r), snd r)) (filter (fun r => match snd (fst r) with Some b => negb b | None => false end) rules)).

(** pl.all_horizontal: Kleene conjunction. *)
Definition kand (a b : option bool) : option bool :=
  match a, b with
  | Some false, _ | _, Some false => Some false
  | Some true, x => x
  | x, Some true => x
  | None, None => None
  end.
Definition all_horizontal (l : list (option bool)) : option bool := fold_left kand l (Some true).
(** [list.sort()] on strings: by bytes. *)
Fixpoint sinsert (x : string) (l : list string) : list string :=
  match l with [] => [x] | y :: r => if String.leb x y then x :: y :: r else y :: sinsert x r end.
Fixpoint ssort (l : list string) : list string := match l with [] => [] | x :: r => sinsert x (ssort r) end.
(** [list.arg_min()] on booleans: the first false, else the first true; nulls are skipped. *)
Fixpoint first_idx (b : bool) (i : nat) (l : list (option bool)) : option nat :=
  match l with [] => None | Some c :: r => if Bool.eqb b c then Some i else first_idx b (S i) r | None :: r => first_idx b (S i) r end.
Definition arg_min (l : list (option bool)) : option nat :=
  match first_idx false 0 l with Some i => Some i | None => first_idx true 0 l end.
(** diagnosis.py 268-336 row_validation: [rules] = (name, one value per row); [keep] = the id column ("__index__" if none is
    given) and columns_to_keep (at least one rule), [ids] the values kept of each row.  A reason is a list of rule names (all_reasons) or one. *)
Inductive reason := All (l : list string) | One (s : option string).
Definition row_validation {I : Type} (keep : list string) (ids : list I) (rules : list (string * list (option bool))) (all_reasons : bool)
  : result (list (I * reason)) :=
  let names := map fst rules in
  if has_dup names then Raise
  else if has_dup (keep ++ names) then Raise
  else
    let row i := map (fun r => nth i (snd r) None) rules in
    let bad := filter (fun p => match all_horizontal (row (snd p)) with Some b => negb b | None => false end) (combine ids (seq 0 (length ids))) in
    Value (map (fun p => (fst p,
      if all_reasons then
        All (ssort (flat_map (fun q => match snd q with Some true => [] | _ => [fst q] end) (combine names (row (snd p)))))
      else One (match arg_min (row (snd p)) with Some i => nth_error names i | None => None end))) bad).

(** ** infer_prob.  [Bad]: NaN or an infinity. *)
Inductive fl := Val (q : Q) | Bad.
(** [is_between(0.0, 1.0).all()]: nulls are ignored. *)
Definition between01 (x : fl) : bool := match x with Val q => Qle_bool 0%Q q && Qle_bool q 1 | Bad => false end.
Definition prob_col (l : list (option fl)) : bool := forallb (fun o => match o with Some x => between01 x | None => true end) l.
(** One list: entries non-negative and the sum within 1e-6 of 1 (a sum with NaN or an infinity is not). *)
Definition qsum (l : list Q) : Q := fold_right Qplus (0%Q) l.
Definition somes {A} (l : list (option A)) : list A := flat_map (fun o => match o with Some x => [x] | None => [] end) l.
Definition finite (x : fl) : bool := match x with Val _ => true | Bad => false end.
Definition value (x : fl) : Q := match x with Val q => q | Bad => 0%Q end.
Definition prob_list (l : list (option fl)) : bool :=
  let v := somes l in
  forallb (fun x => match x with Val q => Qle_bool 0%Q q | Bad => true end) v
  && (forallb finite v && qlt (qsum (map value v) - 1)%Q (1 # 1000000) && qlt (- (1 # 1000000))%Q (qsum (map value v) - 1)%Q).
Definition nmin (l : list nat) : nat := match l with [] => 0 | x :: r => fold_left Nat.min r x end.
Definition nmax (l : list nat) : nat := fold_left Nat.max l 0.
Definition same_len (l : list (option (list (option fl)))) : bool :=
  let n := map (@length _) (somes l) in Nat.eqb (nmin n) (nmax n).
(** diagnosis.py 492-518 infer_prob: [.row(0)] of a frame with one row per list (float columns give one value). *)
Definition infer_prob (fs : list (string * list (option fl))) (ls : list (string * list (option (list (option fl))))) (height : nat)
  : result (list string) :=
  if (match fs, ls with [], [] => true | _, _ => false end) || (negb (match ls with [] => true | _ => false end) && Nat.eqb height 0) then Raise
  else
    let okf := map (fun c => (fst c, prob_col (snd c))) fs in
    let okl := map (fun c => (fst c, match nth 0 (snd c) None with
                                      | Some l => prob_list l && same_len (snd c)
                                      | None => false
                                      end)) ls in
    Value (map fst (filter snd (okf ++ okl))).

(** ** Cached answers (functools.lru_cache on infer_high_null, infer_discrete, infer_const, infer_binary, infer_k_distinct):
    the cache holds the list object handed out, so the caller and the cache share it.  [Key]: the arguments; [evict]: the entries
    the bounded cache drops before the call. *)
Section Cache.
Context {Key : Type} (keq : forall a b : Key, {a = b} + {a <> b}) (compute : Key -> list string).
Definition cache := list (Key * list string).
Fixpoint lookup (k : Key) (m : cache) : option (list string) :=
  match m with [] => None | (k', v) :: r => if keq k k' then Some v else lookup k r end.
Fixpoint store (k : Key) (v : list string) (m : cache) : cache :=
  match m with [] => [] | (k', w) :: r => if keq k k' then (k', v) :: r else (k', w) :: store k v r end.
(** [Call k keep]: the method is called with k after the cache dropped the entries not in [keep].
    [Change k f]: the caller changes in place the list it got for k (f = what append, sort, clear, ... do). *)
Inductive op := Call (k : Key) (keep : Key -> bool) | Change (k : Key) (f : list string -> list string).
Definition step (m : cache) (o : op) : cache * option (list string) :=
  match o with
  | Call k keep =>
      let m := filter (fun e => keep (fst e)) m in
      match lookup k m with
      | Some v => (m, Some v)
      | None => ((k, compute k) :: m, Some (compute k))
      end
  | Change k f => match lookup k m with Some v => (store k (f v) m, None) | None => (m, None) end
  end.
Fixpoint answers (m : cache) (h : list op) : list (option (list string)) :=
  match h with [] => [] | o :: r => let '(m', a) := step m o in a :: answers m' r end.
End Cache.
