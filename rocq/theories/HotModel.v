(** Model of python/polars_ds/modeling/transforms.py 115-155 linear_impute, 309-357 one_hot_encode, 360-391 rank_hot_encode,
    394-423 _encoder_default_value, 426-588 target_encode, woe_encode, iv_encode, 591-618 polynomial_features.
    Frames and expressions as in PipeModel; the type of a column is read off its cells, so that a column of nulls counts as
    text. Over exact reals with infinities and NaN. *)
From Coq Require Import Reals String Bool.
From Coq Require Import List.
From Verif Require Import MetricSpec WStatsSpec WStatsModel MetricModel PipeModel TfmModel EncSpec EncModel.
Import ListNotations.
Open Scope R_scope.
Open Scope list_scope.

Definition is_text (v : column) : bool := forallb (fun c => match c with Str _ | Null => true | _ => false end) v.
Definition texts (v : column) : list string := flat_map (fun c => match c with Str s => [s] | _ => [] end) v.
(** list.sort on strings: by bytes. *)
Fixpoint sinsert (a : string) (l : list string) : list string :=
  match l with [] => [a] | b :: l' => if String.leb a b then a :: l else b :: sinsert a l' end.
Definition ssort (l : list string) : list string := fold_right sinsert [] l.
(** unique().drop_nulls().cast(String).implode().list.sort() *)
Definition levels (v : column) : list string := ssort (nodup string_dec (texts v)).
Definition flag (b : bool) : cell := Num (Fin (if b then 1 else 0)).
(** pl.col(c).eq_missing(u).cast(UInt8).alias(out) *)
Definition hot_expr (out c u : string) : expr :=
  fun f => match lookup c f with
           | Some v => if is_text v then Some [(out, map (fun x => flag match x with Str s => String.eqb s u | _ => false end) v)] else None
           | None => None
           end.
(** transforms.py 309-357; [None]: an exception. *)
Definition one_hot (sep : string) (drop_first : bool) (f : frame) (cs : list string) : option (list expr) :=
  if forallb (fun c => mem c (names f)) cs && distinct cs
  then
    let es := flat_map (fun c => match lookup c f with
      | Some v => if is_text v then let u := levels v in
          if Nat.ltb 1 (length u) then map (fun s => hot_expr (c ++ sep ++ s)%string c s) (skipn (if drop_first then 1 else 0)%nat u) else []
          else []
      | None => [] end) cs in
    match es with [] => None | _ => Some es end
  else None.

(** transforms.py 360-391: replace_strict refuses repeated old values; values not in the ranking and nulls become null. *)
Fixpoint rank_of (s : string) (ranking : list string) : option nat :=
  match ranking with [] => None | r :: rs => if String.eqb r s then Some 0%nat else option_map S (rank_of s rs) end.
Definition rank_expr (c : string) (ranking : list string) (i : nat) (out : string) : expr :=
  fun f => match lookup c f with
           | Some v => if is_text v && distinct ranking
               then Some [(out, map (fun x => match x with
                    | Str s => match rank_of s ranking with Some k => flag (Nat.leb i k) | None => Num (Fin (-1)) end
                    | _ => Num (Fin (-1)) end) v)] else None
           | None => None
           end.
Definition rank_hot (c : string) (ranking : list string) : option (list expr) :=
  if Nat.leb (length ranking) 1 then None
  else Some (map (fun ir => rank_expr c ranking (fst ir) (c ++ ">=" ++ snd ir)%string) (combine (seq 1 (length ranking - 1)) (tl ranking))).

(** transforms.py 591-618; itertools.combinations_with_replacement. *)
Fixpoint cwr {A} (d : nat) (l : list A) {struct d} : list (list A) :=
  match d with
  | O => [[]]
  | S d' => (fix go l := match l with [] => [] | a :: l' => map (cons a) (cwr d' (a :: l')) ++ go l' end) l
  end.
Definition xmul (a b : xnum) : xnum :=
  match a, b with
  | Fin x, Fin y => Fin (x * y)
  | NaN, _ | _, NaN => NaN
  | Fin x, (PInf | NInf) as i | (PInf | NInf) as i, Fin x =>
      if Req_EM_T x 0 then NaN else if Rlt_dec 0 x then i else xneg i
  | PInf, PInf | NInf, NInf => PInf
  | _, _ => NInf
  end.
Definition mul_cell (a b : cell) : option cell :=
  match a, b with
  | Num x, Num y => Some (Num (xmul x y))
  | Null, (Null | Num _) | Num _, Null => Some Null
  | _, _ => None
  end.
Definition mul_col (a b : column) : option column :=
  if Nat.eqb (length a) (length b) then traverse (fun p => mul_cell (fst p) (snd p)) (combine a b) else None.
(** pl.reduce(lambda acc, x: acc * x, exprs): the first column, multiplied by the others from left to right. *)
Fixpoint reduce_mul (acc : column) (cs : list string) (f : frame) : option column :=
  match cs with
  | [] => Some acc
  | c :: cs' => match lookup c f with
                | Some v => match mul_col acc v with Some a => reduce_mul a cs' f | None => None end
                | None => None
                end
  end.
Definition prod_expr (comb : list string) (out : string) : expr :=
  fun f => match comb with
           | [] => None
           | c :: cs => match lookup c f with
                        | Some v => option_map (fun w => [(out, w)]) (reduce_mul v cs f)
                        | None => None
                        end
           end.
Definition two_names (comb : list string) : bool := Nat.ltb 1 (length (nodup string_dec comb)).
Definition polynomial_features (cs : list string) (degree : nat) (interaction_only : bool) : option (list expr) :=
  if Nat.leb degree 1 then None
  else Some (map (fun comb => prod_expr comb (String.concat "*" comb)) (filter (fun comb => negb interaction_only || two_names comb) (cwr degree cs))).

(** transforms.py 394-423 *)
Inductive default_arg := DNone | DNum (x : xnum) | DWord (s : string).
Definition default_value (target : column) (d : default_arg) : option (option xnum) :=
  match d with
  | DNone => Some None
  | DNum x => Some (Some x)
  | DWord s => if String.eqb s "null" then Some None else if String.eqb s "zero" then Some (Some (Fin 0))
               else if String.eqb s "mean" then
                 match reals target with Some x => Some (match values x with [] => None | l => Some (Fin (mean_of l)) end) | None => None end
               else None
  end.
(** replace_strict(old, new, default=default) *)
Definition dict_expr (c : string) (table : list (string * xnum)) (d : option xnum) : expr :=
  fun f => match lookup c f with
           | Some v => if is_text v && distinct (map fst table)
               then Some [(c, map (fun x => let v := match x with
                    | Str s => match find (fun p => String.eqb (fst p) s) table with Some p => Some (snd p) | None => d end
                    | _ => d end in match v with Some y => Num y | None => Null end) v)] else None
           | None => None
           end.
Definition text_rows (v : column) (t : rcol) : list (@row string) :=
  combine (map (fun x => match x with Str s => Some s | _ => None end) v) t.
(** transforms.py 426-588: one dictionary per text column. [table]: target_encode, woe or iv of exprs/num.py. *)
Definition encoder (table : list (@row string) -> option (list (string * xnum))) (target : string) (d : default_arg)
    (f : frame) (cs : list string) : option (list expr) :=
  if forallb (fun c => mem c (names f)) cs && distinct cs
  then match filter (fun c => match lookup c f with Some v => is_text v | None => false end) cs, lookup target f with
       | [], _ | _, None => None
       | valid, Some t => match default_value t d, reals t with
           | Some dv, Some x =>
               traverse (fun c => match lookup c f with
                                  | Some v => option_map (fun tb => dict_expr c tb dv) (table (text_rows v x))
                                  | None => None end) valid
           | _, _ => None
           end
       end
  else None.
Definition target_encode_fit gb (m s : R) := encoder (fun rows => target_encode gb rows m s).
Definition woe_encode_fit gb := encoder (fun rows => Some (map (fun p => (fst p, Fin (snd p))) (woe_discrete gb rows))).
Definition iv_encode_fit gb := encoder (fun rows => Some (map (fun p => (fst p, Fin (snd p))) (info_value_discrete gb rows))).

(** transforms.py 115-155: [coeffs] is what lin_reg returned on the training frame (with the bias last). sum_horizontal
    ignores nulls. *)
Fixpoint lin_sum (coeffs : list R) (xs : list (option R)) : R :=
  match coeffs, xs with
  | b :: bs, x :: xs' => (match x with Some v => v * b | None => 0 end) + lin_sum bs xs'
  | _, _ => 0
  end.
Definition linear_fill (coeffs : list R) (add_bias : bool) (features : list rcol) (y : rcol) : rcol :=
  map (fun i => match nth i y None with
                | Some v => Some v
                | None => Some (lin_sum coeffs (map (fun x => nth i x None) features) + (if add_bias then last coeffs 0 else 0))
                end) (seq 0 (length y)).
