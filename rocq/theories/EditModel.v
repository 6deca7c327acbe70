(** Model of the edit distances: levenshtein.rs, hamming.rs, osa.rs, lcs_seq.rs, fuzz.rs and, in python/polars_ds/exprs/string.py,
    filter_by_levenshtein (43-75), filter_by_hamming (78-112), str_hamming (115-145), str_lcs_seq (571-604), similar_to_vocab (663-710).
    The crate rapidfuzz is external: its Levenshtein, Damerau-Levenshtein, optimal string alignment and longest common subsequence
    numbers are parameters with the contract below. *)
From Coq Require Import String Bool List Arith ZArith Reals.
From Verif Require Import KnnExprModel StrSpec StrModel EditSpec.
Import ListNotations.
Open Scope nat_scope.
Open Scope list_scope.

(** What the four algorithms of rapidfuzz compute. *)
Record rapidfuzz := { lev : chars -> chars -> nat; dlev : chars -> chars -> nat; osa : chars -> chars -> nat; lcs : chars -> chars -> nat }.
Definition rapidfuzz_ok (z : rapidfuzz) : Prop := forall a b,
  least_of (fun n => steps edit n a b) (lev z a b) /\ least_of (fun n => steps edit_or_swap n a b) (dlev z a b) /\
  least_of (fun n => aligned n a b) (osa z a b) /\ longest_common a b (lcs z a b).

(** rapidfuzz hamming::distance: Err on different lengths; with pad(true) the rest of the longer word counts. *)
Fixpoint hamming (a b : chars) : option nat :=
  match a, b with
  | [], [] => Some 0
  | x :: a', y :: b' => option_map (fun n => if Z.eqb x y then n else S n) (hamming a' b')
  | _, _ => None
  end.
Fixpoint hamming_padded (a b : chars) : nat :=
  match a, b with
  | [], _ => length b
  | _, [] => length a
  | x :: a', y :: b' => (if Z.eqb x y then 0 else 1) + hamming_padded a' b'
  end.

(** Normalised similarities of rapidfuzz: 1 - distance / maximum, 1 when the maximum is 0. *)
Definition norm_sim (d m : nat) : R := if Nat.eqb m 0 then 1%R else (1 - INR d / INR m)%R.
Section Sims.
Variable z : rapidfuzz.
Definition max_len (a b : chars) : nat := Nat.max (length a) (length b).
(** levenshtein.rs 31-43, osa.rs, lcs_seq.rs 8-16, fuzz.rs (ratio = normalised indel similarity). *)
Definition lev_sim (a b : chars) : R := norm_sim (lev z a b) (max_len a b).
Definition dlev_sim (a b : chars) : R := norm_sim (dlev z a b) (max_len a b).
Definition osa_sim (a b : chars) : R := norm_sim (osa z a b) (max_len a b).
Definition lcs_dist (a b : chars) : nat := max_len a b - lcs z a b.
Definition lcs_sim (a b : chars) : R := norm_sim (lcs_dist a b) (max_len a b).
Definition indel (a b : chars) : nat := length a + length b - 2 * lcs z a b.
Definition fuzz_ratio (a b : chars) : R := norm_sim (indel a b) (length a + length b).

(** levenshtein.rs 20-28 and 64-130 (pl_levenshtein_filter); the UInt32 literal of string.py 69-75: abs(bound); overflow raises. *)
Definition is_some {A} (o : option A) : bool := match o with Some _ => true | None => false end.
Definition within_lev (bound : nat) (a b : chars) : option bool := Some (is_some (with_cutoff (Some (lev z a b)) bound)).
Definition u32_max : Z := 4294967295.
Definition filter_by_levenshtein (bound : Z) (c other : column chars) (par : parallelism) : option (result (list (option bool))) :=
  if (Z.abs bound <=? u32_max)%Z then Some (pairwise (within_lev (Z.abs_nat bound)) c other par) else None.
(** hamming.rs 12-22 and 168-235 (pl_hamming_filter): Err counts as false.  string.py 103-112: [pad] is not passed on, a negative
    bound is no UInt32. *)
Definition within_ham (bound : nat) (a b : chars) : option bool := Some (is_some (with_cutoff (hamming a b) bound)).
Definition filter_by_hamming (bound : Z) (pad : bool) (c other : column chars) (par : parallelism) : option (result (list (option bool))) :=
  if ((0 <=? bound) && (bound <=? u32_max))%Z then Some (pairwise (within_ham (Z.to_nat bound)) c other par) else None.
(** string.py 134-145. *)
Definition str_hamming (pad : bool) (c other : column chars) (par : parallelism) : result (list (option nat)) :=
  if pad then pairwise (fun a b => Some (hamming_padded a b)) c other par else pairwise hamming c other par.

(** similar_to_vocab.  Kleene logic of polars' all_horizontal / any_horizontal; sum_horizontal counts null as 0. *)
Inductive vocab_metric := LV | DLV | OSA | JW.
Inductive strategy := All | Any | Avg.
Definition kall (l : list (option bool)) : option bool :=
  if existsb (fun o => match o with Some false => true | _ => false end) l then Some false
  else if existsb (fun o => match o with None => true | _ => false end) l then None else Some true.
Definition kany (l : list (option bool)) : option bool :=
  if existsb (fun o => match o with Some true => true | _ => false end) l then Some true
  else if existsb (fun o => match o with None => true | _ => false end) l then None else Some false.
Definition geb (x t : R) : bool := if Rle_dec t x then true else false.
Definition sum_horizontal (l : list (option R)) : R := fold_right (fun o s => (match o with Some x => x | None => 0 end + s)%R) 0%R l.
Definition row_similar (sim : chars -> chars -> R) (vocab : list chars) (thr : R) (st : strategy) (o : option chars) : option bool :=
  let sims := map (fun w => option_map (fun s => sim s w) o) vocab in
  match st with
  | All => kall (map (option_map (fun x => geb x thr)) sims)
  | Any => kany (map (option_map (fun x => geb x thr)) sims)
  | Avg => Some (geb (sum_horizontal sims / INR (length vocab)) thr)
  end.
(** string.py 690-710; [None]: raises ("jw" passes return_sim, which str_jw does not have: TypeError). *)
Definition similar_to_vocab (vocab : list chars) (thr : R) (me : vocab_metric) (st : strategy) (c : list (option chars)) : option (list (option bool)) :=
  match me with
  | LV => Some (map (row_similar lev_sim vocab thr st) c)
  | DLV => Some (map (row_similar dlev_sim vocab thr st) c)
  | OSA => Some (map (row_similar osa_sim vocab thr st) c)
  | JW => None
  end.
End Sims.

(** string.py 595-604: the plugin function that str_lcs_seq asks for, and the functions that lcs_seq.rs 18-60 exports. *)
Definition lcs_symbol (return_sim : bool) : string := if return_sim then "pl_lcs_seq_sim" else "pl_lcs_seq".
Definition lcs_exported : list string := ["pl_lcs_seq"; "pl_lcs_sim"]%string.
