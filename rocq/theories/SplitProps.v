(** C70-C76: sampling, splitting and partitioning a frame. *)
From Coq Require Import String Ascii.
From Coq Require Import Bool List Arith ZArith Reals Permutation.
From Flocq Require Import Core IEEE754.BinarySingleNaN.
From Verif Require Import Num F64 KdDemo SplitModel SplitSpec SplitPropsLemmas SplitProofs2 SplitParts.
Import ListNotations.
Open Scope nat_scope.

(** C70.  [sample] returns rows of the frame in their original order, none twice, and as many as asked:
    min(value, n) for an int, the share of n (rounded down) for a float. *)
Theorem C70_sample : forall A sh (df : list A) r, shuffles sh -> small (length df) -> valid_rate r ->
  exists out, sample sh df r = Ret out /\ subseq out df /\ sized r (length df) (length out).
Proof. exact @sample_ok. Qed.
Print Assumptions C70_sample.
(** ... rejects other sizes ... *)
Theorem C70_sample_rejects : forall A sh (df : list A) r, invalid_rate r -> sample sh df r = Raise ValueErr.
Proof. exact @sample_bad. Qed.
Print Assumptions C70_sample_rejects.
(** ... and can return every subset of rows. *)
Theorem C70_every_subset : forall A (df s : list A), subseq s df -> s <> [] ->
  exists sh, shuffles sh /\ sample sh df (Count (Z.of_nat (length s))) = Ret s.
Proof. exact @sample_every. Qed.
Print Assumptions C70_every_subset.
Example C70_case : sample (fun n => rev (seq 0 n)) [10; 20; 30; 40; 50] (Count 2) = Ret [40; 50] /\
  sample (fun n => rev (seq 0 n)) [10; 20; 30; 40; 50] (Frac (fz 1 (-1))) = Ret [40; 50] /\ shuffles (fun n => rev (seq 0 n)).
Proof. split; [reflexivity|split; [reflexivity|exact rev_shuffles]]. Qed.

(** C71.  [split_by_ratio] with one ratio: every row goes to exactly one of train and test, in the original order, and
    train is the asked share; unless that share is no row or all rows. *)
Theorem C71_train_test : forall A sh (df : list A) v,
  shuffles sh -> small (length df) -> is_finite v = true -> (0 < B2R v < 1)%R ->
  exists k, share (length df) k (B2R v) /\
  (0 < k < length df -> exists train test, split_single sh df v = Ret [train; test] /\ merge train test df /\ length train = k) /\
  (k = 0 \/ k = length df -> split_single sh df v = Raise KeyErr).
Proof. exact @split_ok. Qed.
Print Assumptions C71_train_test.
(** A valid ratio on a non-empty frame can raise KeyError: one row, ratio 0.5, whatever the seed. *)
Theorem C71_small_frame_refuted : exists (df : list nat) v, df <> [] /\ is_finite v = true /\ (0 < B2R v < 1)%R /\
  forall sh, shuffles sh -> split_single sh df v = Raise KeyErr.
Proof.
  exists [7], (fz 1 (-1)). split; [discriminate|]. destruct half_ok as [F E]. split; [exact F|]. rewrite E.
  split; [exact half_range|exact split_keyerror].
Qed.
Print Assumptions C71_small_frame_refuted.
Example C71_case : split_single (fun n => rev (seq 0 n)) [10; 20; 30; 40; 50] (fz 1 (-1)) = Ret [[40; 50]; [10; 20; 30]].
Proof. reflexivity. Qed.

(** C72.  [split_by_ratio] with several ratios that Python's sum accepts: the pieces are consecutive runs of the frame
    reordered by the shuffle, the i-th being the i-th share of the rows, and at most as many rows as there are ratios
    are in no piece (fewer when the ratios sum to exactly 1). *)
Theorem C72_split : forall A sh (df : list A) ratios,
  shuffles sh -> small (length df) -> Forall ratio_in ratios ->
  2 <= length ratios -> (Z.of_nat (length ratios) <= 2 ^ 19)%Z ->
  nle f64_ops (py_sum ratios) (fi 1) = true -> nle f64_ops (fi 1) (py_sum ratios) = true ->
  let n := length df in
  exists pieces rest order, split_list py_sum sh df ratios = Ret pieces /\
    order = concat pieces ++ rest /\ Permutation order df /\
    (forall i k a, nth_error (sh n) i = Some k -> nth_error df i = Some a -> nth_error order k = Some a) /\
    Forall2 (fun v p => share n (length p) (B2R v)) ratios pieces /\
    length rest <= length ratios /\ (rsum ratios = 1%R -> length rest < length ratios).
Proof. exact @split_several. Qed.
Print Assumptions C72_split.
(** The same for any other way of summing that is as accurate (the compensated sum of Python 3.12). *)
Theorem C72_split_any_sum : forall A sum sh (df : list A) ratios,
  shuffles sh -> small (length df) -> Forall ratio_in ratios ->
  2 <= length ratios -> (Z.of_nat (length ratios) <= 2 ^ 19)%Z ->
  nle f64_ops (sum ratios) (fi 1) = true -> nle f64_ops (fi 1) (sum ratios) = true ->
  (Rabs (rsum ratios - 1) <= INR (length ratios) * bpow radix2 (-53))%R ->
  let n := length df in
  exists pieces rest order, split_list sum sh df ratios = Ret pieces /\
    order = concat pieces ++ rest /\ Permutation order df /\
    (forall i k a, nth_error (sh n) i = Some k -> nth_error df i = Some a -> nth_error order k = Some a) /\
    Forall2 (fun v p => share n (length p) (B2R v)) ratios pieces /\
    length rest <= length ratios /\ (rsum ratios = 1%R -> length rest < length ratios).
Proof. exact @split_list_ok. Qed.
Print Assumptions C72_split_any_sum.
Theorem C72_rejects : forall A (sum : list f64 -> f64) sh (df : list A) ratios, length ratios <> 1 ->
  nle f64_ops (sum ratios) (fi 1) = false \/ nle f64_ops (fi 1) (sum ratios) = false ->
  split_list sum sh df ratios = Raise ValueErr.
Proof. exact @split_rejects. Qed.
Print Assumptions C72_rejects.
(** Rows are lost: three rows split in halves give two pieces of one row. *)
Theorem C72_all_rows_refuted : exists sh (df : list nat) ratios pieces, shuffles sh /\ rsum ratios = 1%R /\
  split_list py_sum sh df ratios = Ret pieces /\ length (concat pieces) < length df.
Proof.
  exists (fun n => seq 0 n), [10; 20; 30], [fz 1 (-1); fz 1 (-1)], [[10]; [20]].
  split; [exact id_shuffles|]. split; [cbn [rsum]; rewrite (proj2 half_ok); exact two_halves|]. split; [reflexivity|].
  repeat constructor.
Qed.
Print Assumptions C72_all_rows_refuted.
(** 0.7, 0.2, 0.1 are rejected as not summing to 1 (left-to-right sum). *)
Theorem C72_702010_refuted : forall A sh (df : list A), split_list py_sum sh df [f07; f02; f01] = Raise ValueErr.
Proof. exact @split_702010. Qed.
Print Assumptions C72_702010_refuted.
Example C72_case : split_list py_sum (fun n => rev (seq 0 n)) [10; 20; 30; 40] [fz 1 (-1); fz 1 (-2); fz 1 (-2)] = Ret [[40; 30]; [20]; [10]] /\
  nle f64_ops (py_sum [fz 1 (-1); fz 1 (-2); fz 1 (-2)]) (fi 1) = true /\
  nle f64_ops (fi 1) (py_sum [fz 1 (-1); fz 1 (-2); fz 1 (-2)]) = true.
Proof. split; [reflexivity|split; reflexivity]. Qed.

(** C73.  [volume_neutral]: within one control value every segment present keeps the same number of rows, the least of
    the sizes of the segments of that control value and of [target_volume]. *)
Theorem C73_volume_neutral : forall A C B (cdec : forall x y : C, {x = y} + {x <> y}) (bdec : forall x y : B, {x = y} + {x <> y})
    (ctrl : A -> C) (by_ : A -> B) tv sh df c b,
  group_shuffles sh -> 0 < count (seg cdec bdec ctrl by_ c b) df ->
  exists T, least (fun x => tv = Some x \/ exists b', 0 < count (seg cdec bdec ctrl by_ c b') df /\ x = Z.of_nat (count (seg cdec bdec ctrl by_ c b') df)) T /\
    Z.of_nat (count (seg cdec bdec ctrl by_ c b) (volume_neutral cdec bdec ctrl by_ tv sh df)) = Z.max 0 T.
Proof. exact @volume_neutral_ok. Qed.
Print Assumptions C73_volume_neutral.
Theorem C73_rows : forall A C B (cdec : forall x y : C, {x = y} + {x <> y}) (bdec : forall x y : B, {x = y} + {x <> y})
    (ctrl : A -> C) (by_ : A -> B) tv sh df, subseq (volume_neutral cdec bdec ctrl by_ tv sh df) df.
Proof. exact @volume_neutral_sub. Qed.
Print Assumptions C73_rows.
Example C73_case : volume_neutral Nat.eq_dec Nat.eq_dec fst snd None (fun _ n => rev (seq 0 n))
  [(0, 1); (0, 1); (0, 2); (1, 1); (1, 1); (1, 1); (1, 2); (1, 2)] = [(0, 1); (0, 2); (1, 1); (1, 1); (1, 2); (1, 2)].
Proof. reflexivity. Qed.

(** C74.  [downsample] with conditions of which at most one is not false on any row: of the rows where a condition is
    true the asked share stays (and likewise, as a group of their own, of those where it is null); the rows where all
    conditions are false all stay. *)
Theorem C74_downsample : forall A (df : list A) conds sh,
  (forall j, group_shuffles (sh j)) -> small (length df) ->
  (forall c r, In (c, r) conds -> valid_rate r) ->
  (forall i j c r c' r' a, nth_error conds i = Some (c, r) -> nth_error conds j = Some (c', r') -> i <> j ->
     In a df -> c a <> Some false -> c' a = Some false) ->
  exists out, downsample df conds sh = Ret out /\ subseq out df /\
    (forall c r, In (c, r) conds ->
       sized r (count (fun a => eq3 (c a) (Some true)) df) (count (fun a => eq3 (c a) (Some true)) out) /\
       sized r (count (fun a => eq3 (c a) None) df) (count (fun a => eq3 (c a) None) out)) /\
    (forall p, (forall a c r, In a df -> p a = true -> In (c, r) conds -> c a = Some false) -> filter p out = filter p df).
Proof. exact @downsample_ok3. Qed.
Print Assumptions C74_downsample.
Theorem C74_rejects : forall A (df : list A) c r sh, invalid_rate r -> downsample df [(c, r)] sh = Raise ValueErr.
Proof. exact @downsample_invalid. Qed.
Print Assumptions C74_rejects.
(** "Downsamples on the subsets where the condition is true": rows where it is null are dropped as well. *)
Theorem C74_null_rows_refuted : exists (df : list nat) c r sh out, (forall j : nat, group_shuffles (sh j)) /\
  downsample df [(c, r)] sh = Ret out /\
  count (fun a => negb (eq3 (c a) (Some true))) out < count (fun a => negb (eq3 (c a) (Some true))) df.
Proof.
  exists [5; 5; 1; 1; 2], cond_null, (Count 1), (fun _ _ n => seq 0 n), [5; 1; 2].
  split; [intros j g; exact id_shuffles|]. split; [reflexivity|]. repeat constructor.
Qed.
Print Assumptions C74_null_rows_refuted.
(** The documented equivalence of "y == 1 at 0.5, y == 2 at 0.5" with "1 <= y <= 2 at 0.5" fails, for every seed. *)
Theorem C74_equivalence_refuted : exists df : list nat,
  forall sh, (forall j, group_shuffles (sh j)) ->
    downsample df [((fun y => Some (y =? 1)), Frac (fz 1 (-1))); ((fun y => Some (y =? 2)), Frac (fz 1 (-1)))] sh = Ret [] /\
    exists a, downsample df [((fun y => Some ((1 <=? y) && (y <=? 2))), Frac (fz 1 (-1)))] sh = Ret [a].
Proof. exact downsample_not_equiv. Qed.
Print Assumptions C74_equivalence_refuted.
Example C74_case : downsample [1; 1; 1; 2; 2; 3] [((fun y => Some (y =? 1)), Count 2); ((fun y => Some (y =? 2)), Frac (fz 1 (-1)))] (fun _ _ n => seq 0 n)
  = Ret [1; 1; 2; 3].
Proof. reflexivity. Qed.

(** C75.  [random_cols]: the kept columns followed by k distinct columns outside them, in the order of [all_columns];
    an error exactly when there are not enough ... *)
Theorem C75_random_cols : forall N (dec : forall x y : N, {x = y} + {x <> y}) draw all k kept,
  draws draw -> NoDup all -> NoDup (kept_list kept) -> incl (kept_list kept) all ->
  (length all < length (kept_list kept) + k -> random_cols dec draw all k kept = Raise ValueErr) /\
  (length (kept_list kept) + k <= length all -> exists sel, random_cols dec draw all k kept = Ret (kept_list kept ++ sel) /\
     length sel = k /\ subseq sel all /\ (forall x, In x sel -> ~ In x (kept_list kept))).
Proof. exact @random_cols_ok. Qed.
Print Assumptions C75_random_cols.
(** ... and every such choice can come out. *)
Theorem C75_every_choice : forall N (dec : forall x y : N, {x = y} + {x <> y}) all k kept sel,
  NoDup all -> NoDup (kept_list kept) -> incl (kept_list kept) all ->
  subseq sel all -> length sel = k -> (forall x, In x sel -> ~ In x (kept_list kept)) ->
  exists draw, draws draw /\ random_cols dec draw all k kept = Ret (kept_list kept ++ sel).
Proof. exact @random_cols_every. Qed.
Print Assumptions C75_every_choice.
(** With kept columns outside the pool (say a target column): an error although there are enough columns, or a column
    that can never be selected. *)
Theorem C75_enough_columns_refuted : exists (all keep : list nat), NoDup all /\ NoDup keep /\ (forall x, In x keep -> ~ In x all) /\
  forall draw, random_cols Nat.eq_dec draw all 2 (Some keep) = Raise ValueErr.
Proof. exact random_cols_shortage. Qed.
Print Assumptions C75_enough_columns_refuted.
Theorem C75_never_selected_refuted : exists (all keep : list nat), NoDup all /\ NoDup keep /\ (forall x, In x keep -> ~ In x all) /\
  exists x, In x all /\ forall draw, draws draw -> random_cols Nat.eq_dec draw all 1 (Some keep) <> Ret (keep ++ [x]).
Proof. exact random_cols_never. Qed.
Print Assumptions C75_never_selected_refuted.
Example C75_case : random_cols Nat.eq_dec (fun m => m - 1) [1; 2; 3; 4] 2 (Some [2]) = Ret [2; 3; 4].
Proof. reflexivity. Qed.

(** C76.  [PartitionHelper]: when distinct keys have distinct names, the part of a name holds exactly the rows with
    that key, in order, there are no other parts, and together they hold every row once. *)
Theorem C76_parts : forall A (sep : string) (key : A -> list cell) (df : list A),
  (forall a b, In a df -> In b df -> part_name sep (key a) = part_name sep (key b) -> key a = key b) ->
  let ps := parts sep key df in
  NoDup (map fst ps) /\
  (forall a, In a df -> dict_get ps (part_name sep (key a)) = Some (filter (fun b => if kdec (key b) (key a) then true else false) df)) /\
  (forall nm rows, dict_get ps nm = Some rows -> exists a, In a df /\ nm = part_name sep (key a)) /\
  Permutation (concat (map snd ps)) df.
Proof. exact @parts_all. Qed.
Print Assumptions C76_parts.
(** The names are distinct when the one-character separator occurs in no value and no column holds two values that
    print alike. *)
Theorem C76_distinct_names : forall A (key : A -> list cell) c (df : list A),
  (forall a b, In a df -> In b df -> length (key a) = length (key b)) ->
  (forall a x, In a df -> In x (key a) -> ~ has c (py_str x)) ->
  (forall a b i x y, In a df -> In b df -> nth_error (key a) i = Some x -> nth_error (key b) i = Some y -> py_str x = py_str y -> x = y) ->
  forall a b, In a df -> In b df -> part_name (String c "") (key a) = part_name (String c "") (key b) -> key a = key b.
Proof. exact @names_distinct_sep. Qed.
Print Assumptions C76_distinct_names.
(** Otherwise rows disappear: ("a|b", "c") and ("a", "b|c"); a null and the text "None". *)
Theorem C76_rows_lost_refuted : exists (df : list (string * string)),
  length (concat (map snd (parts "|" (fun r => [CStr (fst r); CStr (snd r)]) df))) < length df.
Proof. exists [("a|b", "c"); ("a", "b|c")]%string. apply le_n. Qed.
Print Assumptions C76_rows_lost_refuted.
Theorem C76_null_lost_refuted : exists (df : list cell), length (concat (map snd (parts "|" (fun c => [c]) df))) < length df.
Proof. exists [CNull; CStr "None"]. apply le_n. Qed.
Print Assumptions C76_null_lost_refuted.
(** [apply]: the result has the function's value under every part name for which it did not raise, and nothing else. *)
Theorem C76_apply : forall A B (func : string -> list A -> option B) (ps : list (string * list A)), NoDup (map fst ps) ->
  forall nm, dict_get (apply_parts func ps) nm = match dict_get ps nm with Some rows => func nm rows | None => None end.
Proof. exact @apply_ok. Qed.
Print Assumptions C76_apply.
Example C76_case : parts "|" (fun r : string * bool => [CStr (fst r); CBool (snd r)]) [("x", true); ("y", false); ("x", true)]%string
  = [("x|True", [("x", true); ("x", true)]); ("y|False", [("y", false)])]%string.
Proof. reflexivity. Qed.
