(** Lemmas closing the theorems of SplitProps, and their concrete cases. *)
From Coq Require Import String Ascii.
From Coq Require Import Bool List Arith ZArith Reals Lra Lia Permutation.
From Flocq Require Import Core IEEE754.BinarySingleNaN.
From Verif Require Import Num F64 KdDemo F64Facts SplitModel SplitSpec SplitProofs SplitProofs2 SplitParts.
Import ListNotations.
Open Scope nat_scope.

Lemma sample_ok {A} sh (df : list A) r : shuffles sh -> small (length df) -> valid_rate r ->
  exists out, sample sh df r = Ret out /\ subseq out df /\ sized r (length df) (length out).
Proof.
  intros Hs Sm Hr. destruct (sampler_valid r Hr) as (t & Et & Sz). unfold sample. rewrite Et.
  destruct (sample_gen sh df (t (length df)) Hs) as [S L].
  eexists. split; [reflexivity|]. split; [exact S|]. rewrite L. now apply Sz.
Qed.
Lemma sample_bad {A} sh (df : list A) r : invalid_rate r -> sample sh df r = Raise ValueErr.
Proof. intros H. unfold sample. now rewrite sampler_invalid. Qed.
Lemma sample_every {A} (df s : list A) : subseq s df -> s <> [] -> exists sh, shuffles sh /\ sample sh df (Count (Z.of_nat (length s))) = Ret s.
Proof.
  intros H NE. destruct (every_sample df s (length s) H eq_refl) as (sh & Hs & E). exists sh. split; [exact Hs|].
  unfold sample, sampler. destruct (Z.leb_spec (Z.of_nat (length s)) 0) as [L|L].
  - destruct s; [contradiction|]. cbn in L. lia.
  - now rewrite E.
Qed.

Lemma half_ok : is_finite (fz 1 (-1)) = true /\ B2R (fz 1 (-1)) = (/ 2)%R.
Proof. split; [reflexivity|]. cbn. unfold F2R. cbn. lra. Qed.
Lemma half_range : (0 < / 2 < 1)%R.
Proof. lra. Qed.
Lemma two_halves : (/ 2 + (/ 2 + 0) = 1)%R.
Proof. lra. Qed.
Lemma id_shuffles : shuffles (fun n => seq 0 n).
Proof. intros n. reflexivity. Qed.
Lemma rev_shuffles : shuffles (fun n => rev (seq 0 n)).
Proof. intros n. symmetry. apply Permutation_rev. Qed.

Lemma split_ok {A} sh (df : list A) v : shuffles sh -> small (length df) -> is_finite v = true -> (0 < B2R v < 1)%R ->
  exists k, share (length df) k (B2R v) /\
  (0 < k < length df -> exists train test, split_single sh df v = Ret [train; test] /\ merge train test df /\ length train = k) /\
  (k = 0 \/ k = length df -> split_single sh df v = Raise KeyErr).
Proof.
  intros Hs Sm F B. destruct (split_single_ok sh df v Hs Sm F B) as (S & H1 & H2).
  exists (Z.to_nat (cutoff (length df) v)). split; [exact S|]. split; [exact H1|exact H2].
Qed.
Lemma split_keyerror : forall sh, shuffles sh -> split_single sh [7] (fz 1 (-1)) = Raise KeyErr.
Proof.
  intros sh H. destruct half_ok as [F E].
  destruct (split_single_ok sh [7] (fz 1 (-1)) H) as (S & _ & H2); [unfold small; cbn; lia|exact F|rewrite E; lra|].
  apply H2. left. reflexivity.
Qed.

Lemma split_several {A} sh (df : list A) ratios : shuffles sh -> small (length df) -> Forall ratio_in ratios ->
  2 <= length ratios -> (Z.of_nat (length ratios) <= 2 ^ 19)%Z ->
  nle f64_ops (py_sum ratios) (fi 1) = true -> nle f64_ops (fi 1) (py_sum ratios) = true ->
  let n := length df in
  exists pieces rest order, split_list py_sum sh df ratios = Ret pieces /\
    order = concat pieces ++ rest /\ Permutation order df /\
    (forall i k a, nth_error (sh n) i = Some k -> nth_error df i = Some a -> nth_error order k = Some a) /\
    Forall2 (fun v p => share n (length p) (B2R v)) ratios pieces /\
    length rest <= length ratios /\ (rsum ratios = 1%R -> length rest < length ratios).
Proof. intros. apply split_list_ok; auto. now apply py_sum_one. Qed.
Lemma split_rejects {A} (sum : list f64 -> f64) sh (df : list A) ratios : length ratios <> 1 ->
  nle f64_ops (sum ratios) (fi 1) = false \/ nle f64_ops (fi 1) (sum ratios) = false ->
  split_list sum sh df ratios = Raise ValueErr.
Proof.
  intros L H. unfold split_list. destruct ratios as [|r [|r' l]]; [| cbn in L; lia|];
    destruct H as [-> | ->]; cbn [negb andb]; rewrite ?andb_false_r; reflexivity.
Qed.
Lemma split_drops_row : exists pieces, split_list py_sum (fun n => seq 0 n) [10; 20; 30] [fz 1 (-1); fz 1 (-1)] = Ret pieces /\
  pieces = [[10]; [20]].
Proof. eexists. split; reflexivity. Qed.
Definition f07 := fz 3152519739159347 (-52).
Definition f02 := fz 3602879701896397 (-54).
Definition f01 := fz 3602879701896397 (-55).
Lemma split_702010 {A} sh (df : list A) : split_list py_sum sh df [f07; f02; f01] = Raise ValueErr.
Proof. apply split_rejects; [discriminate|]. right. reflexivity. Qed.

Lemma downsample_ok3 {A} (df : list A) conds sh :
  (forall j, group_shuffles (sh j)) -> small (length df) ->
  (forall c r, In (c, r) conds -> valid_rate r) ->
  (forall i j c r c' r' a, nth_error conds i = Some (c, r) -> nth_error conds j = Some (c', r') -> i <> j ->
     In a df -> c a <> Some false -> c' a = Some false) ->
  exists out, downsample df conds sh = Ret out /\ subseq out df /\
    (forall c r, In (c, r) conds ->
       sized r (count (fun a => eq3 (c a) (Some true)) df) (count (fun a => eq3 (c a) (Some true)) out) /\
       sized r (count (fun a => eq3 (c a) None) df) (count (fun a => eq3 (c a) None) out)) /\
    (forall p, (forall a c r, In a df -> p a = true -> In (c, r) conds -> c a = Some false) -> filter p out = filter p df).
Proof.
  intros Hs Sm Hv Hd. destruct (downsample_ok df conds sh Hs Sm Hv Hd) as (out & E & S & Q & K).
  exists out. split; [exact E|]. split; [exact S|]. split; [|exact K].
  intros c r I.
  assert (X : forall g l, count (fun a => eq3 (c a) g) l = count (is3 g c) l).
  { intros g l. apply count_ext. intros a. unfold is3, eq3. destruct (obdec (c a) g) as [->|N].
    - destruct g as [[]|]; reflexivity.
    - destruct (c a) as [[]|], g as [[]|]; cbn; congruence. }
  rewrite !X. split; apply Q; auto; discriminate.
Qed.
Lemma downsample_invalid {A} (df : list A) c r sh : invalid_rate r -> downsample df [(c, r)] sh = Raise ValueErr.
Proof. intros H. unfold downsample, down_filters. now rewrite sampler_invalid. Qed.
Definition cond_null (x : nat) : option bool := match x with 5 => None | _ => Some (x =? 1) end.
Lemma downsample_null : exists out, downsample [5; 5; 1; 1; 2] [(cond_null, Count 1)] (fun _ _ n => seq 0 n) = Ret out /\ out = [5; 1; 2].
Proof. eexists. split; reflexivity. Qed.
Lemma downsample_not_equiv : exists df : list nat,
  (forall sh, (forall j, group_shuffles (sh j)) ->
    downsample df [((fun y => Some (y =? 1)), Frac (fz 1 (-1))); ((fun y => Some (y =? 2)), Frac (fz 1 (-1)))] sh = Ret [] /\
    exists a, downsample df [((fun y => Some ((1 <=? y) && (y <=? 2))), Frac (fz 1 (-1)))] sh = Ret [a]).
Proof.
  exists [1; 2]. intros sh H.
  assert (E1 : forall j g, sh j g 1 = [0]).
  { intros j g. specialize (H j g 1). cbn in H. apply Permutation_sym in H. now apply Permutation_length_1_inv in H. }
  assert (E2 : forall j g, sh j g 2 = [0; 1] \/ sh j g 2 = [1; 0]).
  { intros j g. specialize (H j g 2). cbn in H. apply Permutation_sym in H. apply Permutation_length_2_inv in H. tauto. }
  assert (C1 : (fun n => cutoff n (fz 1 (-1))) 1 = 0%Z) by reflexivity.
  assert (C2 : (fun n => cutoff n (fz 1 (-1))) 2 = 1%Z) by reflexivity.
  assert (SM : sampler (Frac (fz 1 (-1))) = Ret (fun n => cutoff n (fz 1 (-1)))) by reflexivity.
  unfold downsample, down_filters. rewrite SM. cbv beta iota.
  revert C1 C2. generalize (fun n => cutoff n (fz 1 (-1))) as q. clear SM.
  assert (Q : forall q : nat -> Z, q 1 = 0%Z -> q 2 = 1%Z ->
    keep (map is_true3 (and_all (length [1; 2]) [down_filter [1; 2] (fun y => Some (y =? 1)) q (sh 0);
                                                 down_filter [1; 2] (fun y => Some (y =? 2)) q (sh 1)])) [1; 2] = [] /\
    exists a, keep (map is_true3 (and_all (length [1; 2]) [down_filter [1; 2] (fun y => Some ((1 <=? y) && (y <=? 2))) q (sh 0)])) [1; 2] = [a]).
  { intros q Q1 Q2. unfold down_filter, over. cbn -[Z.ltb Z.of_nat]. rewrite !E1, !Q1. cbn -[Z.ltb Z.of_nat]. split; [reflexivity|].
    rewrite Q2. destruct (E2 0 (Some true)) as [-> | ->]; cbn; eexists; reflexivity. }
  intros q C1 C2. destruct (Q q C1 C2) as [K1 [a K2]]. split; [now rewrite K1|exists a; now rewrite K2].
Qed.

Lemma random_cols_shortage : exists (all keep : list nat), NoDup all /\ NoDup keep /\ (forall x, In x keep -> ~ In x all) /\
  forall draw, random_cols Nat.eq_dec draw all 2 (Some keep) = Raise ValueErr.
Proof.
  exists [1; 2], [9]. split; [|split; [|split]].
  - repeat constructor; cbn; lia.
  - repeat constructor; cbn; lia.
  - cbn. lia.
  - reflexivity.
Qed.
Lemma random_cols_never : exists (all keep : list nat), NoDup all /\ NoDup keep /\ (forall x, In x keep -> ~ In x all) /\
  exists x, In x all /\ forall draw, draws draw -> random_cols Nat.eq_dec draw all 1 (Some keep) <> Ret (keep ++ [x]).
Proof.
  exists [1; 2; 3], [9]. split; [|split; [|split]].
  - repeat constructor; cbn; lia.
  - repeat constructor; cbn; lia.
  - cbn. lia.
  - exists 3. split; [cbn; tauto|]. intros draw H. specialize (H 2). change (random_cols Nat.eq_dec draw [1; 2; 3] 1 (Some [9])) with (match nth_error [[1]; [2]; [3]] (draw 2) with Some cols => Ret ([9] ++ cols) | None => Raise TypeErr end).
    assert (draw 2 < 2) by (apply H; lia). destruct (draw 2) as [|[|n]]; cbn; try discriminate; lia.
Qed.

Lemma same_eq {A} (key : A -> list cell) k df : filter (same key k) df = filter (fun a => if kdec (key a) k then true else false) df.
Proof. reflexivity. Qed.
Lemma parts_all {A} (sep : string) (key : A -> list cell) (df : list A) :
  (forall a b, In a df -> In b df -> part_name sep (key a) = part_name sep (key b) -> key a = key b) ->
  let ps := parts sep key df in
  NoDup (map fst ps) /\
  (forall a, In a df -> dict_get ps (part_name sep (key a)) = Some (filter (fun b => if kdec (key b) (key a) then true else false) df)) /\
  (forall nm rows, dict_get ps nm = Some rows -> exists a, In a df /\ nm = part_name sep (key a)) /\
  Permutation (concat (map snd ps)) df.
Proof. exact (parts_ok key sep df). Qed.
Definition key_ab (r : string * string) : list cell := [CStr (fst r); CStr (snd r)].
Lemma parts_lost : let df := [("a|b", "c"); ("a", "b|c")]%string in
  parts "|" key_ab df = [("a|b|c"%string, [("a", "b|c")%string])].
Proof. reflexivity. Qed.
Lemma parts_lost_null : let df := [CNull; CStr "None"] in
  parts "|" (fun c => [c]) df = [("None"%string, [CStr "None"])].
Proof. reflexivity. Qed.
