(** Demo data, witnesses and the property lemmas of the string expressions. *)
From Coq Require Import String Ascii Bool List Arith ZArith Reals Lia Lra Permutation.
From Verif Require Import Num KdModel PyKdModel KnnExprModel KnnExprSpec KnnExprProofs.
From Verif Require Import StrSetSpec StrSetModel StrSetProofs StrSpec StopWords StrModel StrProofs.
Import ListNotations.
Open Scope nat_scope.

(** ** C37 *)
Lemma cards_exist n w1 w2 : 1 <= n -> w1 <> [] -> w2 <> [] -> exists a b i u d e,
  card (gram n w1) a /\ card (gram n w2) b /\
  card (fun g => gram n w1 g /\ gram n w2 g) i /\ card (fun g => gram n w1 g \/ gram n w2 g) u /\
  card (fun g => gram n w1 g /\ ~ gram n w2 g) d /\ card (fun g => gram n w2 g /\ ~ gram n w1 g) e.
Proof.
  intros Hn H1 H2. destruct (helper_spec w1 w2 n Hn H1 H2) as (a & b & i & E & Ca & Cb & Ci & Cu & Cd & Ce & _).
  exists a, b, i, (a + b - i), (a - i), (b - i). repeat split; auto.
Qed.

Lemma sims_by_cardinality n w1 w2 a b i u d e alpha beta :
  1 <= n -> w1 <> [] -> w2 <> [] ->
  card (gram n w1) a -> card (gram n w2) b ->
  card (fun g => gram n w1 g /\ gram n w2 g) i -> card (fun g => gram n w1 g \/ gram n w2 g) u ->
  card (fun g => gram n w1 g /\ ~ gram n w2 g) d -> card (fun g => gram n w2 g /\ ~ gram n w1 g) e ->
  (str_jaccard w1 w2 n = Val (INR i / INR u) /\
   sorensen_dice w1 w2 n = Val (2 * INR i / (INR a + INR b)) /\
   overlap_coeff w1 w2 n = Val (INR i / Rmin (INR a) (INR b)) /\
   (INR i + alpha * INR d + beta * INR e <> 0 ->
    tversky_sim w1 w2 n alpha beta = Val (INR i / (INR i + alpha * INR d + beta * INR e))))%R.
Proof.
  intros Hn H1 H2 Ca Cb Ci Cu Cd Ce. repeat split.
  - now apply jaccard_card.
  - now apply dice_card.
  - now apply overlap_card.
  - intro Hz. rewrite (tversky_card w1 w2 n Hn H1 H2 alpha beta i d e Ci Cd Ce). now apply fdiv_val.
Qed.

Lemma sims_zero_ngram w1 w2 alpha beta : w1 <> [] -> w2 <> [] ->
  str_jaccard w1 w2 0 = Panics /\ sorensen_dice w1 w2 0 = Panics /\ overlap_coeff w1 w2 0 = Panics /\
  tversky_sim w1 w2 0 alpha beta = Panics.
Proof. intros H1 H2. destruct w1, w2; try congruence. repeat split; reflexivity. Qed.

Definition demo_w1 : bytes := [110; 105; 103; 104; 116].           (* night *)
Definition demo_w2 : bytes := [110; 97; 99; 104; 116].             (* nacht *)
Lemma demo_night : str_jaccard demo_w1 demo_w2 2 = Val (1 / 7).
Proof.
  unfold str_jaccard. replace (str_set_sim_helper demo_w1 demo_w2 2) with (Some (4, 4, 1)) by reflexivity.
  rewrite fdiv_val; [|apply INR_nz; lia]. f_equal. cbn [Nat.add Nat.sub]. cbn [INR]. lra.
Qed.
Lemma demo_night_ok : 1 <= 2 /\ demo_w1 <> [] /\ demo_w2 <> [].
Proof. repeat split; try discriminate. lia. Qed.

(** ** C39 *)
Fixpoint lev (a : chars) : chars -> nat :=
  fix lev_a (b : chars) : nat :=
    match a, b with
    | [], _ => length b
    | _, [] => length a
    | x :: a', y :: b' =>
        if Z.eqb x y then lev a' b' else S (Nat.min (Nat.min (lev a' b) (lev_a b')) (lev a' b'))
    end.
Definition lev_to (word : chars) (w : chars) : option nat := Some (lev word w).
(** The vocabulary ["abc"; null; "abd"] and the query word "ab": both words are at distance 1. *)
Definition vocab_demo : list (list slot) :=
  [[(true, [97; 98; 99]%Z); (true, [97; 98; 100]%Z)]; [(true, [97]%Z); (true, [97; 98; 99]%Z)]].
Lemma vocab_demo_ok : vocab_demo = map (map (fun w => (true, w)))
  [[[97; 98; 99]; [97; 98; 100]]; [[97]; [97; 98; 99]]]%Z.
Proof. reflexivity. Qed.
Lemma nearest_demo : pl_nearest_str (lev_to [97; 98; 100; 100]%Z) vocab_demo 3 = Some [97; 98; 100]%Z.
Proof. vm_compute. reflexivity. Qed.
Lemma nearest_demo_tie : pl_nearest_str (lev_to [97; 98]%Z) vocab_demo 3 = Some [97; 98; 99]%Z.
Proof. vm_compute. reflexivity. Qed.
Lemma nearest_demo_none : pl_nearest_str (lev_to [120; 121; 122; 120]%Z) vocab_demo 3 = None.
Proof. vm_compute. reflexivity. Qed.

(** A null cell (stored as an empty string) is offered as a vocabulary word. *)
Definition vocab_null : list (list slot) := [[(false, []); (true, [98; 99; 100; 101]%Z)]].
Lemma nearest_null_slot :
  exists word c cutoff w, pl_nearest_str (lev_to word) c cutoff = Some w /\ ~ In (true, w) (concat c).
Proof.
  exists [97]%Z, vocab_null, 3, []. split; [vm_compute; reflexivity|].
  cbn. intros [H|[H|[]]]; discriminate.
Qed.

(** ** C40 demos *)
Definition messy : list (option chars) :=
  [Some [32; 9; 97; 98; 32; 32; 10; 99; 12288]%Z; None; Some []; Some [233; 97; 8364; 98]%Z].
Lemma messy_normalized : normalize_whitespace messy =
  [Some [97; 98; 32; 99]%Z; None; Some []; Some [233; 97; 8364; 98]%Z].
Proof. vm_compute. reflexivity. Qed.
Lemma messy_ascii : remove_non_ascii messy =
  [Some [32; 9; 97; 98; 32; 32; 10; 99]%Z; None; Some []; Some [97; 98]%Z].
Proof. vm_compute. reflexivity. Qed.
Definition map_demo (w : chars) : option chars :=
  if list_eq_dec Z.eq_dec w [97; 98]%Z then Some [120]%Z else None.
Lemma messy_mapped : map_words map_demo messy =
  [Some [120; 32; 99]%Z; None; Some []; Some [233; 97; 8364; 98]%Z].
Proof. vm_compute. reflexivity. Qed.
Lemma map_demo_ok : forall w v, map_demo w = Some v -> v <> [] /\ no_ws v.
Proof.
  intros w v. unfold map_demo. destruct list_eq_dec; [|discriminate]. intro H; injection H as <-.
  split; [discriminate|]. intros c [<-|[]]. reflexivity.
Qed.

(** ** C41 *)
Lemma pairwise_rows {A Y} (f : A -> A -> option Y) c1 c2 par :
  par_ok par ->
  (length (cells c2) = length (cells c1) /\ length (cells c2) <> 1 \/ exists r, cells c2 = [Some r]) ->
  exists out, pairwise f c1 c2 par = Ok out /\ length out = length (cells c1) /\
    forall i a, nth_error (cells c1) i = Some a ->
      exists b, (nth_error (cells c2) i = Some b \/ cells c2 = [b]) /\
        nth_error out i = Some (match a, b with Some x, Some y => f x y | _, _ => None end).
Proof.
  intros PO Hc. rewrite (pairwise_spec f c1 c2 par PO). destruct Hc as [[L N1]|[r Er]].
  - assert (E : (match cells c2 with
      | [Some r] => Ok (map (fun a => cell_spec f a (Some r)) (cells c1))
      | [None] => Panic
      | _ => if length (cells c1) =? length (cells c2)
             then Ok (map (fun p => cell_spec f (fst p) (snd p)) (combine (cells c1) (cells c2)))
             else ShapeMismatch end)
      = Ok (map (fun p => cell_spec f (fst p) (snd p)) (combine (cells c1) (cells c2)))).
    { rewrite L, Nat.eqb_refl. destruct (cells c2) as [|[r|] [|? ?]]; auto; cbn in N1; congruence. }
    rewrite E. eexists. split; [reflexivity|]. rewrite map_length, combine_length.
    split; [lia|]. intros i a Ha.
    assert (Hi : i < length (cells c2)) by (rewrite L; apply nth_error_Some; congruence).
    destruct (nth_error (cells c2) i) as [b|] eqn:Hb; [|apply nth_error_None in Hb; lia].
    exists b. split; auto. rewrite nth_error_map.
    assert (X : nth_error (combine (cells c1) (cells c2)) i = Some (a, b)).
    { clear - Ha Hb. revert i Ha Hb. generalize (cells c2) as l2, (cells c1) as l1.
      intros l2 l1. revert l2. induction l1 as [|x l1 IH]; intros [|y l2] [|i] Ha Hb; cbn in *; try discriminate; auto.
      congruence. }
    now rewrite X.
  - rewrite Er. eexists; split; [reflexivity|]. rewrite map_length. split; auto.
    intros i a Ha. exists (Some r). split; auto. now rewrite nth_error_map, Ha.
Qed.

Lemma pairwise_nulls {A Y} (f : A -> A -> Y) c1 c2 par out :
  par_ok par -> pairwise (fun a b => Some (f a b)) c1 c2 par = Ok out ->
  length out = length (cells c1) /\
  forall i, i < length (cells c1) ->
    (nth_error out i = Some None <->
     nth_error (cells c1) i = Some None \/ (length (cells c2) <> 1 /\ nth_error (cells c2) i = Some None)).
Proof.
  intros PO E.
  assert (Hc : length (cells c2) = length (cells c1) /\ length (cells c2) <> 1 \/ exists r, cells c2 = [Some r]).
  { rewrite (pairwise_spec _ c1 c2 par PO) in E. destruct (cells c2) as [|[r|] [|b l2]]; try discriminate.
    - destruct (Nat.eqb_spec (length (cells c1)) (length (@nil (option A)))); [|discriminate]. left. cbn in *. lia.
    - right. eauto.
    - destruct (Nat.eqb_spec (length (cells c1)) (length (Some r :: b :: l2))); [|discriminate]. left. cbn in *. lia.
    - destruct (Nat.eqb_spec (length (cells c1)) (length (None :: b :: l2))); [|discriminate]. left. cbn in *. lia. }
  destruct (pairwise_rows (fun a b => Some (f a b)) c1 c2 par PO Hc) as (out' & E' & L & R).
  rewrite E in E'. injection E' as <-. split; auto. intros i Hi.
  destruct (nth_error (cells c1) i) as [a|] eqn:Ha; [|apply nth_error_None in Ha; lia].
  destruct (R i a Ha) as (b & Hb & ->). destruct a as [x|]; [|intuition].
  destruct b as [y|].
  - split; [discriminate|]. intros [K|[K1 K2]]; [discriminate|]. destruct Hb as [Hb|Hb]; [congruence|].
    rewrite Hb in K1. cbn in K1. lia.
  - split; auto. intros _. right. destruct Hc as [[L2 N1]|[r Er]].
    + split; auto. destruct Hb as [Hb|Hb]; auto. rewrite Hb in N1. cbn in N1. lia.
    + exfalso. rewrite Er in Hb. destruct Hb as [Hb|Hb]; [|discriminate]. destruct i as [|[|i]]; cbn in Hb; discriminate.
Qed.

Lemma pairwise_errors {A Y} (f : A -> A -> option Y) c1 c2 par : par_ok par ->
  (pairwise f c1 c2 par = ShapeMismatch <->
   length (cells c2) <> 1 /\ length (cells c1) <> length (cells c2)).
Proof.
  intro PO. rewrite (pairwise_spec f c1 c2 par PO).
  destruct (cells c2) as [|[r|] [|b l2]]; cbn [length].
  - destruct (Nat.eqb_spec (length (cells c1)) 0); split; try discriminate; auto; lia.
  - split; [discriminate|lia].
  - destruct (Nat.eqb_spec (length (cells c1)) (Datatypes.S (Datatypes.S (length l2)))); split; try discriminate; auto; lia.
  - split; [discriminate|lia].
  - destruct (Nat.eqb_spec (length (cells c1)) (Datatypes.S (Datatypes.S (length l2)))); split; try discriminate; auto; lia.
Qed.

Lemma pairwise_par {A Y} (f : A -> A -> option Y) c1 c2 par : par_ok par ->
  pairwise f c1 c2 par = pairwise f c1 c2 None.
Proof. intro PO. rewrite (pairwise_spec f c1 c2 par PO). symmetry. apply pairwise_spec. exact I. Qed.

(** Only the cells matter, not the chunks. *)
Lemma pairwise_chunks {A Y} (f : A -> A -> option Y) c1 c2 d1 d2 par par' :
  par_ok par -> par_ok par' -> cells c1 = cells d1 -> cells c2 = cells d2 ->
  pairwise f c1 c2 par = pairwise f d1 d2 par'.
Proof. intros P P' E1 E2. rewrite (pairwise_spec f c1 c2 par P), (pairwise_spec f d1 d2 par' P'), E1, E2. reflexivity. Qed.

(** The Hamming distance without padding: undefined on unequal lengths. *)
Definition hamming_of (a b : chars) : option nat :=
  if length a =? length b
  then Some (length (filter (fun p => negb (Z.eqb (fst p) (snd p))) (combine a b))) else None.

Lemma null_scalar_panics : exists c1 c2 : column chars,
  cells c2 = [None] /\ pairwise (fun a b => Some (lev a b)) c1 c2 None = Panic.
Proof. exists [[Some [97]%Z; None]], [[None]]. split; reflexivity. Qed.

Definition pair_c1 : column chars := [[Some [97; 98]%Z; None]; [Some [97]%Z; Some []]].
Definition pair_c2 : column chars := [[Some [97; 99]%Z]; [Some [97]%Z; None; Some [97; 98]%Z]].
Definition pair_par : parallelism := Some (3, [2; 0; 1]).
Lemma pair_demo_ok : par_ok pair_par /\ length (cells pair_c2) = length (cells pair_c1) /\ length (cells pair_c2) <> 1.
Proof.
  split; [|cbn; lia]. split; [lia|]. change (seq 0 3) with [0; 1; 2].
  apply perm_trans with [0; 2; 1]; [apply perm_swap|]. apply perm_skip, perm_swap.
Qed.
Lemma pair_demo : pairwise (fun a b => Some (lev a b)) pair_c1 pair_c2 pair_par = Ok [Some 1; None; None; Some 2].
Proof. vm_compute. reflexivity. Qed.
Lemma pair_demo_hamming : pairwise hamming_of pair_c1 pair_c2 pair_par = Ok [Some 1; None; None; None].
Proof. vm_compute. reflexivity. Qed.

(** ** C40 *)
Lemma join_spaced : forall l, spaced l (join_sp l).
Proof.
  induction l as [|w [|v l] IH]; cbn [join_sp]; [constructor|constructor|]. constructor. exact IH.
Qed.
Lemma normalize_full c : length (normalize_whitespace c) = length c /\
  (forall i, nth_error c i = Some None -> nth_error (normalize_whitespace c) i = Some None) /\
  forall i s, nth_error c i = Some (Some s) ->
    exists t, nth_error (normalize_whitespace c) i = Some (Some t) /\ tidy t /\
      (forall l, words_of s l <-> words_of t l) /\ (tidy s -> t = s).
Proof.
  split; [apply normalize_spec|]. split.
  - intros i H. rewrite normalize_rows, nth_error_map, H. reflexivity.
  - intros i s H. destruct (proj2 (normalize_spec c) i s H) as (t & E & T & W). exists t. split; auto. split; auto. split; auto.
    intro Ts. rewrite normalize_rows, nth_error_map, H in E. cbn [option_map] in E. injection E as <-. now apply tidy_fixed.
Qed.
Lemma words_functional s l l' : words_of s l -> words_of s l' -> l = l'.
Proof. intros H H'. now rewrite (words_split _ _ H), (words_split _ _ H'). Qed.
Lemma map_words_full mapping c : length (map_words mapping c) = length c /\
  (forall i, nth_error c i = Some None -> nth_error (map_words mapping c) i = Some None) /\
  forall i s l, nth_error c i = Some (Some s) -> words_of s l ->
    exists l' t, replaced mapping l l' /\ spaced l' t /\ nth_error (map_words mapping c) i = Some (Some t).
Proof.
  destruct (map_words_spec mapping c) as (A & B & C). split; auto. split; auto. intros i s l H W.
  eexists _, _. split; [|split; [apply join_spaced|exact (C i s l H W)]].
  unfold replaced. clear. induction l as [|w l IH]; cbn [map]; constructor; auto. destruct (mapping w); auto.
Qed.
Lemma words_exist s : exists l, words_of s l.
Proof. exists (split_whitespace s). apply split_whitespace_words. Qed.
