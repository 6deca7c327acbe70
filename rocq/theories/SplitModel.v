(** Model of python/polars_ds/sample_and_split/sample_and_split.py and
    python/polars_ds/partition/partition.py.
    A frame is the list of its rows, of any type [A]; an expression that yields one value per row is a function of
    the row.  Raised exceptions are explicit results. *)
From Coq Require Import String Ascii.
From Coq Require Import Bool List Arith ZArith.
From Flocq Require Import IEEE754.BinarySingleNaN.
From Verif Require Import Num F64 KdDemo CombModel CombSpec.
Import ListNotations.
Open Scope nat_scope.

Inductive exn := ValueErr | KeyErr | TypeErr.
Inductive outcome (A : Type) := Ret (a : A) | Raise (e : exn).
Arguments Ret {A}. Arguments Raise {A}.

(** Polars [filter] with a Boolean mask. *)
Definition keep {A} (mask : list bool) (rows : list A) : list A := map snd (filter fst (combine mask rows)).

(** A sample size: Python [int] or [float]. *)
Inductive rate := Count (n : Z) | Frac (v : f64).

(** sample_and_split.py 24-26 and 232, 260: [(pl.len() * value).cast(UInt32 or Int64)] and [int(n * v)]:
    binary64 product, truncated towards zero. *)
Definition cutoff (n : nat) (v : f64) : Z := Btrunc (nmul f64_ops (fi (Z.of_nat n)) v).

(** sample_and_split.py 20-36 _sampler_expr: the right hand side of the comparison, as a function of [pl.len()].
    Not modelled: a count above 2^32, which the UInt32 literal rejects. *)
Definition sampler (r : rate) : outcome (nat -> Z) :=
  match r with
  | Frac v => if nle f64_ops (fi 1) v || nle f64_ops v (nzero f64_ops) then Raise ValueErr else Ret (fun n => cutoff n v)
  | Count k => if (k <=? 0)%Z then Raise ValueErr else Ret (fun _ => k)
  end.

(** [pl.int_range(0, pl.len()).shuffle(seed)]: an oracle; see [shuffle_ok] in SplitSpec. *)
Definition below (sh : list nat) (t : Z) : list bool := map (fun v => (Z.of_nat v <? t)%Z) sh.

(** sample_and_split.py 39-53 sample. [shuffle n] is the shuffled row index of a frame of [n] rows. *)
Definition sample {A} (shuffle : nat -> list nat) (df : list A) (value : rate) : outcome (list A) :=
  match sampler value with
  | Raise e => Raise e
  | Ret t => let n := length df in Ret (keep (below (shuffle n) (t n)) df)
  end.

Section Over.
Context {A G : Type} (dec : forall x y : G, {x = y} + {x <> y}) (key : A -> G) (shuffle : G -> nat -> list nat).
(** [pl.int_range(0, pl.len()).shuffle(seed).over(key)]: every group of rows with one key gets its own shuffled
    index, handed out in row order.  [seen]: the keys of the rows before. *)
Fixpoint over_go (total : G -> nat) (seen : list G) (rows : list A) : list nat :=
  match rows with
  | [] => []
  | a :: rows' =>
      nth (count_occ dec seen (key a)) (shuffle (key a) (total (key a))) 0 :: over_go total (key a :: seen) rows'
  end.
Definition over (rows : list A) : list nat := over_go (count_occ dec (map key rows)) [] rows.
End Over.

Section Neutral.
Context {A C B : Type} (cdec : forall x y : C, {x = y} + {x <> y}) (bdec : forall x y : B, {x = y} + {x <> y}).
Definition pdec (x y : C * B) : {x = y} + {x <> y}.
Proof. decide equality. Defined.
(** sample_and_split.py 81-84: [by.value_counts().struct.field("count").min()], with [target_volume] if given.
    [None]: no row at all. *)
Definition min_count (bys : list B) : option Z :=
  match map (fun b => Z.of_nat (count_occ bdec bys b)) (nodup bdec bys) with
  | [] => None
  | z :: zs => Some (fold_left Z.min zs z)
  end.
Definition target (target_volume : option Z) (bys : list B) : option Z :=
  match min_count bys, target_volume with
  | Some m, Some t => Some (Z.min m t)
  | m, None => m
  | None, t => t
  end.
(** sample_and_split.py 86-101 volume_neutral.  [ctrl]: the control columns of a row ([unit] when there are none), so
    that [target.over(ctrl)] ranges over the rows of one control value. *)
Definition volume_neutral (ctrl : A -> C) (by_ : A -> B) (target_volume : option Z)
    (shuffle : C * B -> nat -> list nat) (df : list A) : list A :=
  let idx := over pdec (fun a => (ctrl a, by_ a)) shuffle df in
  keep (map (fun p => match target target_volume
                             (map by_ (filter (fun a => if cdec (ctrl a) (ctrl (snd p)) then true else false) df)) with
                      | Some t => (Z.of_nat (fst p) <? t)%Z
                      | None => false
                      end) (combine idx df)) df.
End Neutral.

(** Three-valued logic of Polars Booleans; [None] is null. *)
Definition knot (a : option bool) : option bool := option_map negb a.
Definition kor (a b : option bool) : option bool :=
  match a, b with
  | Some true, _ | _, Some true => Some true
  | Some false, Some false => Some false
  | _, _ => None
  end.
Definition kand (a b : option bool) : option bool :=
  match a, b with
  | Some false, _ | _, Some false => Some false
  | Some true, Some true => Some true
  | _, _ => None
  end.
(** [filter] drops the rows whose mask is null. *)
Definition is_true3 (a : option bool) : bool := match a with Some true => true | _ => false end.
Definition obdec (x y : option bool) : {x = y} + {x <> y}.
Proof. decide equality. apply bool_dec. Defined.

(** sample_and_split.py 160: [_sampler_expr(r, seed).over(c) | (~c)]; inside [over] the length is that of the group. *)
Definition down_filter {A} (df : list A) (c : A -> option bool) (t : nat -> Z) (shuffle : option bool -> nat -> list nat)
    : list (option bool) :=
  map (fun p => let '(v, a) := p in
                let m := count_occ obdec (map c df) (c a) in
                kor (Some (Z.of_nat v <? t m)%Z) (knot (c a)))
      (combine (over obdec c shuffle df) df).
(** sample_and_split.py 160: the filters of all the conditions, the [j]-th with its own shuffle. *)
Fixpoint down_filters {A} (df : list A) (conds : list ((A -> option bool) * rate))
    (shuffle : nat -> option bool -> nat -> list nat) (j : nat) : outcome (list (list (option bool))) :=
  match conds with
  | [] => Ret []
  | (c, r) :: rest =>
      match sampler r with
      | Raise e => Raise e
      | Ret t => match down_filters df rest shuffle (S j) with
                 | Raise e => Raise e
                 | Ret fs => Ret (down_filter df c t (shuffle j) :: fs)
                 end
      end
  end.
(** sample_and_split.py 161 [pl.lit(True).and_( *all_filters)]. *)
Definition and_all (n : nat) (fs : list (list (option bool))) : list (option bool) :=
  fold_left (fun acc f => map (fun p => kand (fst p) (snd p)) (combine acc f)) fs (repeat (Some true) n).
(** sample_and_split.py 104-161 downsample. *)
Definition downsample {A} (df : list A) (conds : list ((A -> option bool) * rate))
    (shuffle : nat -> option bool -> nat -> list nat) : outcome (list A) :=
  match down_filters df conds shuffle 0 with
  | Raise e => Raise e
  | Ret fs => Ret (keep (map is_true3 (and_all (length df) fs)) df)
  end.

(** sample_and_split.py 164-198 random_cols.  [draw m] is [random.randrange(0, m)] and [math.comb] is [binom]: the generator is not seeded, the
    argument [seed] is not used.  Not modelled: a negative [k]. *)
Definition random_cols {N} (dec : forall x y : N, {x = y} + {x <> y}) (draw : nat -> nat)
    (all_columns : list N) (k : nat) (kept : option (list N)) : outcome (list N) :=
  let '(out, pool) := match kept with
                      | None => ([], all_columns)
                      | Some ks => (ks, filter (fun c => if in_dec dec c ks then false else true) all_columns)
                      end in
  let pool_size := (Z.of_nat (length all_columns) - Z.of_nat (length out))%Z in
  if (pool_size <? Z.of_nat k)%Z then Raise ValueErr
  else match nth_error (combos k pool) (draw (binom (Z.to_nat pool_size) k)) with
       | Some cols => Ret (out ++ cols)
       | None => Raise TypeErr
       end.

(** sample_and_split.py 223-240 split_by_ratio, one float.  [frames[(True,)]] raises when no row has the key. *)
Definition split_single {A} (shuffle : nat -> list nat) (df : list A) (ratio : f64) : outcome (list (list A)) :=
  if nle f64_ops ratio (nzero f64_ops) || nle f64_ops (fi 1) ratio then Raise ValueErr
  else let tt := below (shuffle (length df)) (cutoff (length df) ratio) in
       let train := keep tt df in
       let test := keep (map negb tt) df in
       match train, test with
       | [], _ | _, [] => Raise KeyErr
       | _, _ => Ret [train; test]
       end.

(** [sort("__tt")]: by insertion; the keys are distinct, so every sorting algorithm gives this order. *)
Fixpoint insert_row {A} (p : nat * A) (l : list (nat * A)) : list (nat * A) :=
  match l with
  | [] => [p]
  | q :: l' => if fst p <=? fst q then p :: l else q :: insert_row p l'
  end.
Definition sort_rows {A} (l : list (nat * A)) : list (nat * A) := fold_right insert_row [] l.
(** [DataFrame.slice(start, length)]. *)
Definition slice {A} (l : list A) (start len : nat) : list A := firstn len (skipn start l).
(** sample_and_split.py 256-266: the loop. Not modelled: negative ratios. *)
Fixpoint slices {A} (n : nat) (rows : list A) (start : nat) (ratios : list f64) : list (list A) :=
  match ratios with
  | [] => []
  | v :: ratios' =>
      let len := Z.to_nat (cutoff n v) in
      slice rows start len :: slices n rows (start + len) ratios'
  end.
(** Python's built-in [sum] over floats before version 3.12: left to right in binary64, starting from 0. *)
Definition py_sum (l : list f64) : f64 := fold_left (nadd f64_ops) l (nzero f64_ops).
(** sample_and_split.py 241-266 split_by_ratio, several floats. *)
Definition split_list {A} (sum : list f64 -> f64) (shuffle : nat -> list nat) (df : list A) (ratios : list f64) : outcome (list (list A)) :=
  match ratios with
  | [r] => split_single shuffle df r
  | _ =>
      let s := sum ratios in
      if negb (nle f64_ops s (fi 1) && nle f64_ops (fi 1) s) then Raise ValueErr
      else let rows := map snd (sort_rows (combine (shuffle (length df)) df)) in
           Ret (slices (length rows) rows 0 ratios)
  end.

(** Values of the partition columns: strings (or categoricals), Booleans, null. *)
Inductive cell := CNull | CBool (b : bool) | CStr (s : string).
Definition cell_dec (x y : cell) : {x = y} + {x <> y}.
Proof. decide equality. apply bool_dec. apply string_dec. Defined.
(** Python's [str] on the values of a key. *)
Definition py_str (c : cell) : string :=
  match c with
  | CNull => "None"
  | CBool true => "True"
  | CBool false => "False"
  | CStr s => s
  end%string.
(** partition.py 52: [separator.join(str(k) for k in keys)]. *)
Definition part_name (separator : string) (keys : list cell) : string := String.concat separator (map py_str keys).

Section Part.
Context {A : Type} (key : A -> list cell).
Definition kdec := list_eq_dec cell_dec.
(** [partition_by(by, as_dict=True)] with its default [maintain_order]: keys by first appearance, rows in order. *)
Definition first_seen (l : list (list cell)) : list (list cell) := rev (nodup kdec (rev l)).
Definition partition_by (df : list A) : list (list cell * list A) :=
  map (fun k => (k, filter (fun a => if kdec (key a) k then true else false) df)) (first_seen (map key df)).
End Part.

(** Python [dict] assignment: a new name goes last, an existing name keeps its place and gets the new value. *)
Fixpoint dict_set {V} (d : list (string * V)) (name : string) (v : V) : list (string * V) :=
  match d with
  | [] => [(name, v)]
  | (n, w) :: d' => if string_dec n name then (n, v) :: d' else (n, w) :: dict_set d' name v
  end.
Fixpoint dict_get {V} (d : list (string * V)) (name : string) : option V :=
  match d with
  | [] => None
  | (n, w) :: d' => if string_dec n name then Some w else dict_get d' name
  end.
(** partition.py 51-54 PartitionHelper.__init__: the dict comprehension. *)
Definition parts {A} (separator : string) (key : A -> list cell) (df : list A) : list (string * list A) :=
  fold_left (fun d kv => dict_set d (part_name separator (fst kv)) (snd kv)) (partition_by key df) [].
(** partition.py 72-93 apply; [None]: the function raised. *)
Definition apply_parts {A B} (func : string -> list A -> option B) (ps : list (string * list A)) : list (string * B) :=
  fold_left (fun o p => match func (fst p) (snd p) with Some b => dict_set o (fst p) b | None => o end) ps [].
