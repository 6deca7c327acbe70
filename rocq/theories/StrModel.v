(** Model of src/str_ext: is_stopword.rs, nearest_str.rs, str_cleaning.rs, and the broadcasting /
    parallel driver shared by the pairwise distances (generic_str_distancer.rs, hamming.rs,
    levenshtein.rs, osa.rs, lcs_seq.rs, jaro.rs, fuzz.rs, overlap.rs, sorensen_dice.rs,
    str_jaccard.rs, tversky.rs).  The distance functions themselves (crate rapidfuzz) are
    parameters. *)
From Coq Require Import String Ascii Bool List Arith ZArith.
From Verif Require Import KdModel PyKdModel KnnExprModel StrSpec StopWords.
Import ListNotations.
Open Scope nat_scope.

(** UTF-8 bytes of a literal. *)
Fixpoint bytes_of (s : string) : list nat :=
  match s with EmptyString => [] | String a s' => nat_of_ascii a :: bytes_of s' end.

(** [<str as Ord>::cmp]: byte-wise lexicographic comparison. *)
Fixpoint str_cmp (a b : list nat) : comparison :=
  match a, b with
  | [], [] => Eq
  | [], _ :: _ => Lt
  | _ :: _, [] => Gt
  | x :: a', y :: b' => match Nat.compare x y with Eq => str_cmp a' b' | c => c end
  end.

(** core::slice::binary_search_by as shipped with the pinned toolchain's standard library:
    [while size > 1 { half = size / 2; mid = base + half;
                      base = if f(mid) == Greater { base } else { mid }; size -= half }]
    then one final comparison.  [None] = Err.  The fuel [size] is enough (the size at least
    shrinks by one); running out would return [None]. *)
Fixpoint bs_loop (fuel : nat) (f : nat -> comparison) (base size : nat) : nat :=
  match fuel with
  | 0 => base
  | S fuel' =>
      if 1 <? size then
        let half := size / 2 in
        let mid := base + half in
        let base' := match f mid with Gt => base | _ => mid end in
        bs_loop fuel' f base' (size - half)
      else base
  end.
Definition binary_search (l : list (list nat)) (x : list nat) : option nat :=
  match length l with
  | 0 => None
  | size =>
      let f := fun i => str_cmp (nth i l []) x in
      let base := bs_loop size f 0 size in
      match f base with Eq => Some base | _ => None end
  end.

(** is_stopword.rs:7-14  pl_is_stopword, a column of byte strings. *)
Definition is_stop (s : list nat) : bool :=
  match binary_search (map bytes_of EN_STOPWORDS) s with Some _ => true | None => false end.
Definition pl_is_stopword (c : column (list nat)) : column bool :=
  map (map (option_map is_stop)) c.

(** ** nearest_str.rs *)

(** A slot of a string array: [valid] and the bytes stored in it.  [values_iter] returns the stored
    bytes whatever the validity. *)
Definition slot := (bool * chars)%type.

(** [Args::score_cutoff]: rapidfuzz reports a distance only when it does not exceed the cutoff. *)
Definition with_cutoff (d : option nat) (cutoff : nat) : option nat :=
  match d with Some n => if n <=? cutoff then Some n else None | None => None end.

(** nearest_str.rs:13-33 and 35-57 (levenshtein_nearest, hamming_nearest): same loop, the Hamming
    error on unequal lengths being skipped like a missing distance.  [best = None] stands for
    [usize::MAX] (no distance reaches it). *)
Fixpoint nearest_loop (dist : chars -> option nat) (l : list chars) (best : option nat)
    (cutoff : nat) (nearest : option chars) : option chars :=
  match l with
  | [] => nearest
  | w :: l' =>
      match with_cutoff (dist w) cutoff with
      | None => nearest_loop dist l' best cutoff nearest
      | Some d =>
          if d =? 0 then Some w
          else if match best with None => true | Some b => d <? b end
          then nearest_loop dist l' (Some d) d (Some w)
          else nearest_loop dist l' best cutoff nearest
      end
  end.
(** nearest_str.rs:59-72: the single row of the output. *)
Definition pl_nearest_str (dist : chars -> option nat) (c : list (list slot)) (cutoff : nat)
  : option chars :=
  nearest_loop dist (concat (map (map snd) c)) None cutoff None.

(** ** str_cleaning.rs *)

(** [str::split_whitespace] *)
Fixpoint split_ws (cur : chars) (s : chars) : list chars :=
  match s with
  | [] => match cur with [] => [] | _ => [cur] end
  | c :: s' =>
      if is_whitespace c then
        match cur with [] => split_ws [] s' | _ => cur :: split_ws [] s' end
      else split_ws (cur ++ [c]) s'
  end.
Definition split_whitespace (s : chars) : list chars := split_ws [] s.

(** [Itertools::join(" ")] *)
Fixpoint join_sp (l : list chars) : chars :=
  match l with
  | [] => []
  | [w] => w
  | w :: l' => w ++ 32%Z :: join_sp l'
  end.

(** polars-core [apply_into_string_amortized]: one buffer for the whole column, cleared before each
    non-null row and handed to the closure; null rows stay null. *)
Fixpoint apply_amortized (f : chars -> chars -> chars) (c : list (option chars)) (buf : chars)
  : list (option chars) :=
  match c with
  | [] => []
  | None :: c' => None :: apply_amortized f c' buf
  | Some s :: c' =>
      let buf := [] in
      let buf := f s buf in
      Some buf :: apply_amortized f c' buf
  end.

(** str_cleaning.rs:26-32 *)
Definition remove_non_ascii (c : list (option chars)) : list (option chars) :=
  apply_amortized (fun s _ => filter is_ascii s) c [].
(** str_cleaning.rs:34-40; [nfd] is the canonical decomposition (crate unicode-normalization). *)
Definition remove_diacritics (nfd : chars -> chars) (c : list (option chars)) : list (option chars) :=
  apply_amortized (fun s _ => filter is_ascii (nfd s)) c [].
(** str_cleaning.rs:65-78; [buf.push_str], not an assignment. *)
Definition map_words (mapping : chars -> option chars) (c : list (option chars)) : list (option chars) :=
  apply_amortized (fun s buf =>
    buf ++ join_sp (map (fun w => match mapping w with Some v => v | None => w end)
                        (split_whitespace s))) c [].
(** str_cleaning.rs:80-85 *)
Definition normalize_whitespace (c : list (option chars)) : list (option chars) :=
  apply_amortized (fun s _ => join_sp (split_whitespace s)) c [].

(** ** Pairwise distances *)

Inductive result (X : Type) := Ok (x : X) | ShapeMismatch | Panic.
Arguments Ok {X}. Arguments ShapeMismatch {X}. Arguments Panic {X}.
Definition of_option {X} (o : option X) : result X := match o with Some x => Ok x | None => Panic end.

Section Pairwise.
Context {S Y : Type}.
(** The distance of two strings; [None] = null (only pl_hamming without padding on unequal lengths). *)
Variable f : S -> S -> option Y.

(** apply_nonnull_values_generic (generic_str_distancer.rs:55, 61) or the explicit closure of
    hamming.rs:39-48 *)
Definition apply1 (r : S) (c : list (option S)) : list (option Y) :=
  map (fun o => match o with None => None | Some s => f s r end) c.
(** binary_elementwise_values (generic_str_distancer.rs:100, 106) or hamming.rs:72-85, on slices of
    equal length *)
Definition apply2 (c1 c2 : list (option S)) : list (option Y) :=
  map (fun p => match p with (Some a, Some b) => f a b | _ => None end) (combine c1 c2).

(** The body shared by pl_hamming, pl_hamming_padded, pl_hamming_filter (hamming.rs:24-260),
    pl_levenshtein and its variants (levenshtein.rs:45-240), pl_osa, pl_lcs_seq, pl_jaro, pl_jw,
    pl_fuzz, pl_overlap_coeff, pl_sorensen_dice, pl_str_jaccard, pl_tversky_sim
    (tversky.rs:43-87): [par = Some (threads, schedule)] when [can_parallel].
    [ChunkedArray::slice(offset, len)] takes [len] cells from [offset] on, whatever the chunks. *)
Definition pairwise (c1 c2 : column S) (par : parallelism) : result (list (option Y)) :=
  let ca1 := cells c1 in
  let ca2 := cells c2 in
  if length ca2 =? 1 then
    match ca2 with
    | Some r :: _ =>
        match par with
        | Some (n, sched) =>
            of_option (chunked n sched (length ca1)
              (fun offset len => Some (apply1 r (firstn len (skipn offset ca1)))))
        | None => Ok (apply1 r ca1)
        end
    | _ => Panic                                                    (* ca2.get(0).unwrap() *)
    end
  else if length ca1 =? length ca2 then
    match par with
    | Some (n, sched) =>
        of_option (chunked n sched (length ca1)
          (fun offset len => Some (apply2 (firstn len (skipn offset ca1)) (firstn len (skipn offset ca2)))))
    | None => Ok (apply2 ca1 ca2)
    end
  else ShapeMismatch.
End Pairwise.
