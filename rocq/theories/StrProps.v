(** C37-C41: the string expressions. *)
From Coq Require Import String Reals Bool List Arith ZArith.
From Verif Require Import Num KdModel PyKdModel KnnExprModel KnnExprSpec.
From Verif Require Import StrSetSpec StrSetModel StrSetProofs StrSpec StopWords StrModel StrProofs StrPropsLemmas.
Import ListNotations.
Open Scope nat_scope.

(** C37.  The similarities are the named ratios of numbers of n-grams ... *)
Theorem C37_set_similarities : forall n w1 w2 a b i u d e alpha beta,
  1 <= n -> w1 <> [] -> w2 <> [] ->
  card (gram n w1) a -> card (gram n w2) b ->
  card (fun g => gram n w1 g /\ gram n w2 g) i -> card (fun g => gram n w1 g \/ gram n w2 g) u ->
  card (fun g => gram n w1 g /\ ~ gram n w2 g) d -> card (fun g => gram n w2 g /\ ~ gram n w1 g) e ->
  (str_jaccard w1 w2 n = Val (INR i / INR u) /\
   sorensen_dice w1 w2 n = Val (2 * INR i / (INR a + INR b)) /\
   overlap_coeff w1 w2 n = Val (INR i / Rmin (INR a) (INR b)) /\
   (INR i + alpha * INR d + beta * INR e <> 0 ->
    tversky_sim w1 w2 n alpha beta = Val (INR i / (INR i + alpha * INR d + beta * INR e))))%R.
Proof. exact sims_by_cardinality. Qed.
Print Assumptions C37_set_similarities.
(** (such numbers always exist) *)
Theorem C37_cards_exist : forall n w1 w2, 1 <= n -> w1 <> [] -> w2 <> [] -> exists a b i u d e,
  card (gram n w1) a /\ card (gram n w2) b /\
  card (fun g => gram n w1 g /\ gram n w2 g) i /\ card (fun g => gram n w1 g \/ gram n w2 g) u /\
  card (fun g => gram n w1 g /\ ~ gram n w2 g) d /\ card (fun g => gram n w2 g /\ ~ gram n w1 g) e.
Proof. exact cards_exist. Qed.
Print Assumptions C37_cards_exist.
(** ... lie in [0, 1] ... *)
Theorem C37_range : forall w1 w2 n, 1 <= n -> w1 <> [] -> w2 <> [] ->
  forall alpha beta, (0 <= alpha)%R -> (0 <= beta)%R ->
  (exists r, str_jaccard w1 w2 n = Val r /\ 0 <= r <= 1)%R /\
  (exists r, sorensen_dice w1 w2 n = Val r /\ 0 <= r <= 1)%R /\
  (exists r, overlap_coeff w1 w2 n = Val r /\ 0 <= r <= 1)%R /\
  ((0 < alpha)%R -> (0 < beta)%R -> exists r, tversky_sim w1 w2 n alpha beta = Val r /\ 0 <= r <= 1)%R.
Proof. exact sims_range. Qed.
Print Assumptions C37_range.
(** ... are symmetric ... *)
Theorem C37_symmetric : forall w1 w2 n alpha beta,
  str_jaccard w1 w2 n = str_jaccard w2 w1 n /\ sorensen_dice w1 w2 n = sorensen_dice w2 w1 n /\
  overlap_coeff w1 w2 n = overlap_coeff w2 w1 n /\
  tversky_sim w1 w2 n alpha beta = tversky_sim w2 w1 n beta alpha.
Proof. exact sims_symm. Qed.
Print Assumptions C37_symmetric.
(** ... are 1 on equal words, Jaccard exactly when the gram sets are equal ... *)
Theorem C37_self : forall w n alpha beta, 1 <= n -> w <> [] ->
  str_jaccard w w n = Val 1 /\ sorensen_dice w w n = Val 1 /\ overlap_coeff w w n = Val 1 /\ tversky_sim w w n alpha beta = Val 1.
Proof. exact sims_self. Qed.
Print Assumptions C37_self.
Theorem C37_one_iff : forall w1 w2 n, 1 <= n -> w1 <> [] -> w2 <> [] ->
  (str_jaccard w1 w2 n = Val 1 <-> forall g, gram n w1 g <-> gram n w2 g).
Proof. exact jaccard_one. Qed.
Print Assumptions C37_one_iff.
(** ... and are related as the documentation says. *)
Theorem C37_dice_jaccard : forall w1 w2 n, 1 <= n -> w1 <> [] -> w2 <> [] ->
  exists j d, str_jaccard w1 w2 n = Val j /\ sorensen_dice w1 w2 n = Val d /\ (j = d / (2 - d))%R.
Proof. exact dice_jaccard. Qed.
Print Assumptions C37_dice_jaccard.
Theorem C37_tversky_jaccard : forall w1 w2 n, 1 <= n -> w1 <> [] -> w2 <> [] ->
  tversky_sim w1 w2 n 1 1 = str_jaccard w1 w2 n.
Proof. exact tversky_jaccard. Qed.
Print Assumptions C37_tversky_jaccard.
Theorem C37_tversky_dice : forall w1 w2 n, 1 <= n -> w1 <> [] -> w2 <> [] ->
  tversky_sim w1 w2 n (1/2) (1/2) = sorensen_dice w1 w2 n.
Proof. exact tversky_dice. Qed.
Print Assumptions C37_tversky_dice.
Example C37_case : 1 <= 2 /\ demo_w1 <> [] /\ demo_w2 <> [].
Proof. exact demo_night_ok. Qed.
Example C37_value : str_jaccard demo_w1 demo_w2 2 = Val (1 / 7).
Proof. exact demo_night. Qed.
(** With an empty word every similarity is NaN, even between equal (empty) words; n = 0 panics. *)
Theorem C37_empty_refuted : forall w n alpha beta,
  str_jaccard [] w n = NaN /\ sorensen_dice [] w n = NaN /\ overlap_coeff [] w n = NaN /\
  tversky_sim [] w n alpha beta = NaN.
Proof. exact sims_empty. Qed.
Print Assumptions C37_empty_refuted.
Theorem C37_zero_ngram : forall w1 w2 alpha beta, w1 <> [] -> w2 <> [] ->
  str_jaccard w1 w2 0 = Panics /\ sorensen_dice w1 w2 0 = Panics /\ overlap_coeff w1 w2 0 = Panics /\
  tversky_sim w1 w2 0 alpha beta = Panics.
Proof. exact sims_zero_ngram. Qed.
Print Assumptions C37_zero_ngram.

(** C38.  The stop word test is exact membership; nulls stay null and the chunks keep their sizes. *)
Theorem C38_stopword : forall c i s, nth_error (cells c) i = Some (Some s) ->
  exists b, nth_error (cells (pl_is_stopword c)) i = Some (Some b) /\
    (b = true <-> exists w, In w EN_STOPWORDS /\ bytes_of w = s).
Proof. exact pl_is_stopword_cell. Qed.
Print Assumptions C38_stopword.
Theorem C38_shape : forall c,
  map (@List.length _) (pl_is_stopword c) = map (@List.length _) c /\
  forall i, nth_error (cells (pl_is_stopword c)) i =
    option_map (option_map is_stop) (nth_error (cells c) i).
Proof. exact pl_is_stopword_spec. Qed.
Print Assumptions C38_shape.
Example C38_case : map is_stop (map bytes_of ["the"; "thee"; "a"; ""; "yourselves"]%string) = [true; false; true; false; true].
Proof. vm_compute. reflexivity. Qed.

(** C39.  [nearest_str] over a vocabulary without nulls, for any metric. *)
Theorem C39_nearest : forall dist c cutoff vocab,
  c = map (map (fun w => (true, w))) vocab ->
  nearest_within dist (concat vocab) cutoff (pl_nearest_str dist c cutoff).
Proof. exact nearest_no_nulls. Qed.
Print Assumptions C39_nearest.
Example C39_case : vocab_demo = map (map (fun w => (true, w))) [[[97; 98; 99]; [97; 98; 100]]; [[97]; [97; 98; 99]]]%Z.
Proof. exact vocab_demo_ok. Qed.
Example C39_value : pl_nearest_str (lev_to [97; 98; 100; 100]%Z) vocab_demo 3 = Some [97; 98; 100]%Z.
Proof. exact nearest_demo. Qed.
(** With nulls the answer may be the content of a null cell, which is not a vocabulary word. *)
Theorem C39_null_refuted :
  exists word c cutoff w, pl_nearest_str (lev_to word) c cutoff = Some w /\ ~ In (true, w) (concat c).
Proof. exact nearest_null_slot. Qed.
Print Assumptions C39_null_refuted.

(** C40.  Cleaning.  Every string has exactly one list of words. *)
Theorem C40_words : (forall s, exists l, words_of s l) /\ (forall s l l', words_of s l -> words_of s l' -> l = l').
Proof. split; [exact words_exist|exact words_functional]. Qed.
Print Assumptions C40_words.
Theorem C40_normalize_whitespace : forall c, length (normalize_whitespace c) = length c /\
  (forall i, nth_error c i = Some None -> nth_error (normalize_whitespace c) i = Some None) /\
  forall i s, nth_error c i = Some (Some s) ->
    exists t, nth_error (normalize_whitespace c) i = Some (Some t) /\ tidy t /\
      (forall l, words_of s l <-> words_of t l) /\ (tidy s -> t = s).
Proof. exact normalize_full. Qed.
Print Assumptions C40_normalize_whitespace.
Theorem C40_normalize_idempotent : forall c, normalize_whitespace (normalize_whitespace c) = normalize_whitespace c.
Proof. exact normalize_idem. Qed.
Print Assumptions C40_normalize_idempotent.
Theorem C40_remove_non_ascii : forall c, length (remove_non_ascii c) = length c /\
  (forall i, nth_error c i = Some None -> nth_error (remove_non_ascii c) i = Some None) /\
  forall i s, nth_error c i = Some (Some s) ->
    exists t, nth_error (remove_non_ascii c) i = Some (Some t) /\ kept (fun x => (x < 128)%Z) s t.
Proof. exact remove_non_ascii_spec. Qed.
Print Assumptions C40_remove_non_ascii.
Theorem C40_remove_non_ascii_idempotent : forall c, remove_non_ascii (remove_non_ascii c) = remove_non_ascii c.
Proof. exact remove_non_ascii_idem. Qed.
Print Assumptions C40_remove_non_ascii_idempotent.
(** [nfd] is the canonical decomposition (crate unicode-normalization); ASCII text is its own. *)
Theorem C40_remove_diacritics : forall nfd c, length (remove_diacritics nfd c) = length c /\
  (forall i, nth_error c i = Some None -> nth_error (remove_diacritics nfd c) i = Some None) /\
  forall i s, nth_error c i = Some (Some s) ->
    exists t, nth_error (remove_diacritics nfd c) i = Some (Some t) /\ kept (fun x => (x < 128)%Z) (nfd s) t.
Proof. exact remove_diacritics_spec. Qed.
Print Assumptions C40_remove_diacritics.
Theorem C40_remove_diacritics_idempotent : forall nfd c,
  (forall s, Forall (fun x => (x < 128)%Z) s -> nfd s = s) ->
  remove_diacritics nfd (remove_diacritics nfd c) = remove_diacritics nfd c.
Proof. exact remove_diacritics_idem. Qed.
Print Assumptions C40_remove_diacritics_idempotent.
Theorem C40_map_words : forall mapping c, length (map_words mapping c) = length c /\
  (forall i, nth_error c i = Some None -> nth_error (map_words mapping c) i = Some None) /\
  forall i s l, nth_error c i = Some (Some s) -> words_of s l ->
    exists l' t, replaced mapping l l' /\ spaced l' t /\ nth_error (map_words mapping c) i = Some (Some t).
Proof. exact map_words_full. Qed.
Print Assumptions C40_map_words.
Theorem C40_map_words_words : forall mapping c i s l t,
  (forall w v, mapping w = Some v -> v <> [] /\ no_ws v) ->
  nth_error c i = Some (Some s) -> words_of s l -> nth_error (map_words mapping c) i = Some (Some t) ->
  words_of t (map (fun w => match mapping w with Some v => v | None => w end) l).
Proof. exact map_words_words. Qed.
Print Assumptions C40_map_words_words.
Example C40_normalized : normalize_whitespace messy = [Some [97; 98; 32; 99]%Z; None; Some []; Some [233; 97; 8364; 98]%Z].
Proof. exact messy_normalized. Qed.
Example C40_ascii : remove_non_ascii messy = [Some [32; 9; 97; 98; 32; 32; 10; 99]%Z; None; Some []; Some [97; 98]%Z].
Proof. exact messy_ascii. Qed.
Example C40_mapped : map_words map_demo messy = [Some [120; 32; 99]%Z; None; Some []; Some [233; 97; 8364; 98]%Z].
Proof. exact messy_mapped. Qed.
Example C40_mapping_case : forall w v, map_demo w = Some v -> v <> [] /\ no_ws v.
Proof. exact map_demo_ok. Qed.

(** C41.  Pairwise distances: rows, nulls, errors, parallel execution and chunking. *)
Theorem C41_rows : forall A Y (f : A -> A -> option Y) c1 c2 par,
  par_ok par ->
  (length (cells c2) = length (cells c1) /\ length (cells c2) <> 1 \/ exists r, cells c2 = [Some r]) ->
  exists out, pairwise f c1 c2 par = Ok out /\ length out = length (cells c1) /\
    forall i a, nth_error (cells c1) i = Some a ->
      exists b, (nth_error (cells c2) i = Some b \/ cells c2 = [b]) /\
        nth_error out i = Some (match a, b with Some x, Some y => f x y | _, _ => None end).
Proof. exact @pairwise_rows. Qed.
Print Assumptions C41_rows.
Theorem C41_nulls : forall A Y (f : A -> A -> Y) c1 c2 par out,
  par_ok par -> pairwise (fun a b => Some (f a b)) c1 c2 par = Ok out ->
  length out = length (cells c1) /\
  forall i, i < length (cells c1) ->
    (nth_error out i = Some None <->
     nth_error (cells c1) i = Some None \/ (length (cells c2) <> 1 /\ nth_error (cells c2) i = Some None)).
Proof. exact @pairwise_nulls. Qed.
Print Assumptions C41_nulls.
Theorem C41_shape_error : forall A Y (f : A -> A -> option Y) c1 c2 par, par_ok par ->
  (pairwise f c1 c2 par = ShapeMismatch <->
   length (cells c2) <> 1 /\ length (cells c1) <> length (cells c2)).
Proof. exact @pairwise_errors. Qed.
Print Assumptions C41_shape_error.
Theorem C41_parallel : forall A Y (f : A -> A -> option Y) c1 c2 par, par_ok par ->
  pairwise f c1 c2 par = pairwise f c1 c2 None.
Proof. exact @pairwise_par. Qed.
Print Assumptions C41_parallel.
Theorem C41_chunks : forall A Y (f : A -> A -> option Y) c1 c2 d1 d2 par par',
  par_ok par -> par_ok par' -> cells c1 = cells d1 -> cells c2 = cells d2 ->
  pairwise f c1 c2 par = pairwise f d1 d2 par'.
Proof. exact @pairwise_chunks. Qed.
Print Assumptions C41_chunks.
Example C41_case : par_ok pair_par /\ length (cells pair_c2) = length (cells pair_c1) /\ length (cells pair_c2) <> 1.
Proof. exact pair_demo_ok. Qed.
Example C41_value : pairwise (fun a b => Some (lev a b)) pair_c1 pair_c2 pair_par = Ok [Some 1; None; None; Some 2].
Proof. exact pair_demo. Qed.
(** A null second argument of length 1 panics instead of giving nulls. *)
Theorem C41_null_scalar_refuted : exists c1 c2 : column chars,
  cells c2 = [None] /\ pairwise (fun a b => Some (lev a b)) c1 c2 None = Panic.
Proof. exact null_scalar_panics. Qed.
Print Assumptions C41_null_scalar_refuted.
