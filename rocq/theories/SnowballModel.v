(** Model of the Snowball English stemmer: src/str_ext/snowball/among.rs, snowball_env.rs,
    algorithms/english_stemmer.rs and src/str_ext/snowball_stem.rs.

    A string is its list of UTF-8 bytes; cursors are the code's i32 values.  Every operation that
    can panic (slicing at a non-boundary, [split_at], indexing) returns [Panic]; a loop that runs
    out of fuel returns [Spin], which stands for non-termination. *)
From Coq Require Import String Ascii Bool List ZArith.
From Verif Require Import StrModel.
Import ListNotations.
Open Scope Z_scope.

Definition bytes := list Z.
Definition lit (s : string) : bytes := map Z.of_nat (bytes_of s).
Definition zlen {A} (l : list A) : Z := Z.of_nat (length l).
Definition byte_at (s : bytes) (i : Z) : option Z :=
  if (i <? 0) then None else nth_error s (Z.to_nat i).

(** [(byte as i8) < -0x40]: a UTF-8 continuation byte. *)
Definition is_cont (b : Z) : bool := (128 <=? b) && (b <? 192).

(** [str::is_char_boundary] *)
Definition is_char_boundary (s : bytes) (i : Z) : bool :=
  if i =? 0 then true
  else if i =? zlen s then true
  else match byte_at s i with Some b => negb (is_cont b) | None => false end.

(** snowball_env.rs:4-12 *)
Record env := mkEnv { cur : bytes; cursor : Z; limit : Z; lb : Z; bra : Z; ket : Z }.

Inductive res (A : Type) := Done (a : A) (e : env) | Panic | Spin.
Arguments Done {A}. Arguments Panic {A}. Arguments Spin {A}.
Definition M (A : Type) := env -> res A.
Definition ret {A} (a : A) : M A := fun e => Done a e.
Definition bind {A B} (m : M A) (k : A -> M B) : M B :=
  fun e => match m e with Done a e' => k a e' | Panic => Panic | Spin => Spin end.
Notation "x <- m ;; k" := (bind m (fun x => k)) (at level 61, m at next level, right associativity).
Notation "m ;;; k" := (bind m (fun _ => k)) (at level 61, right associativity).
Definition get : M env := fun e => Done e e.
Definition set_cursor (c : Z) : M unit := fun e => Done tt (mkEnv (cur e) c (limit e) (lb e) (bra e) (ket e)).
Definition set_bra (c : Z) : M unit := fun e => Done tt (mkEnv (cur e) (cursor e) (limit e) (lb e) c (ket e)).
Definition set_ket (c : Z) : M unit := fun e => Done tt (mkEnv (cur e) (cursor e) (limit e) (lb e) (bra e) c).
Definition set_lb (c : Z) : M unit := fun e => Done tt (mkEnv (cur e) (cursor e) (limit e) c (bra e) (ket e)).
Definition get_cursor : M Z := fun e => Done (cursor e) e.
Definition get_limit : M Z := fun e => Done (limit e) e.
Definition get_lb : M Z := fun e => Done (lb e) e.
Definition panic {A} : M A := fun _ => Panic.
Definition spin {A} : M A := fun _ => Spin.
(** [if !m { return false }; k] *)
Definition andthen (m k : M bool) : M bool := b <- m ;; if b then k else ret false.
Infix "&?" := andthen (at level 60, right associativity).

(** [len as i32] *)
Definition i32_of (n : Z) : Z := (n + 2 ^ 31) mod 2 ^ 32 - 2 ^ 31.

(** snowball_env.rs:15-25  create *)
Definition create (value : bytes) : env :=
  let len := i32_of (zlen value) in mkEnv value 0 len 0 0 len.

(** [str::split_at(i)]: panics off a character boundary. *)
Definition split_at (s : bytes) (i : Z) : option (bytes * bytes) :=
  if is_char_boundary s i then Some (firstn (Z.to_nat i) s, skipn (Z.to_nat i) s) else None.

(** snowball_env.rs:39-60  replace_s *)
Definition replace_s (b k : Z) (s : bytes) : M Z := fun e =>
  let adjustment := zlen s - (k - b) in
  match split_at (cur e) b, split_at (cur e) k with
  | Some (lhs, _), Some (_, rhs) =>
      let result := lhs ++ s ++ rhs in
      let new_cursor := if k <=? cursor e then cursor e + adjustment
                        else if b <? cursor e then b else cursor e in
      Done adjustment (mkEnv result new_cursor (limit e + adjustment) (lb e) (bra e) (ket e))
  | _, _ => Panic
  end.

(** [s.starts_with(p)] *)
Fixpoint starts_with (s p : bytes) : bool :=
  match p, s with
  | [], _ => true
  | _ :: _, [] => false
  | x :: p', y :: s' => (x =? y) && starts_with s' p'
  end.

(** [while !is_char_boundary(i) { i += 1 }] and the downward variant. *)
Fixpoint up_to_boundary (fuel : nat) (s : bytes) (i : Z) : option Z :=
  match fuel with
  | O => None
  | S fuel' => if is_char_boundary s i then Some i else up_to_boundary fuel' s (i + 1)
  end.
Fixpoint down_to_boundary (fuel : nat) (s : bytes) (i : Z) : option Z :=
  match fuel with
  | O => None
  | S fuel' => if is_char_boundary s i then Some i else down_to_boundary fuel' s (i - 1)
  end.

(** snowball_env.rs:64-77  eq_s *)
Definition eq_s (s : bytes) : M bool := fun e =>
  if limit e <=? cursor e then Done false e
  else match split_at (cur e) (cursor e) with
       | None => Panic
       | Some (_, tl) =>
           if starts_with tl s then
             match up_to_boundary (S (length (cur e))) (cur e) (cursor e + zlen s) with
             | None => Spin
             | Some c => Done true (mkEnv (cur e) c (limit e) (lb e) (bra e) (ket e))
             end
           else Done false e
       end.

(** snowball_env.rs:81-95  eq_s_b.  [cursor as usize - s.len()] is guarded by the first test when
    limit_backward >= 0. *)
Definition eq_s_b (s : bytes) : M bool := fun e =>
  if cursor e - lb e <? zlen s then Done false e
  else if negb (is_char_boundary (cur e) (cursor e - zlen s)) then Done false e
  else match split_at (cur e) (cursor e - zlen s) with
       | None => Panic
       | Some (_, tl) =>
           if starts_with tl s
           then Done true (mkEnv (cur e) (cursor e - zlen s) (limit e) (lb e) (bra e) (ket e))
           else Done false e
       end.

(** snowball_env.rs:98-102 and 256-258  slice_from, slice_del *)
Definition slice_from (s : bytes) : M bool := fun e => (replace_s (bra e) (ket e) s ;;; ret true) e.
Definition slice_del : M bool := slice_from [].

(** snowball_env.rs:105-110  next_char *)
Definition next_char : M unit := fun e =>
  match up_to_boundary (S (length (cur e))) (cur e) (cursor e + 1) with
  | None => Spin
  | Some c => Done tt (mkEnv (cur e) c (limit e) (lb e) (bra e) (ket e))
  end.
(** snowball_env.rs:113-118  previous_char *)
Definition previous_char : M unit := fun e =>
  match down_to_boundary (S (length (cur e))) (cur e) (cursor e - 1) with
  | None => Spin
  | Some c => Done tt (mkEnv (cur e) c (limit e) (lb e) (bra e) (ket e))
  end.

(** snowball_env.rs:120-134  hop: [while res < limit && !boundary(res) { res += 1 }] *)
Fixpoint hop_up (fuel : nat) (s : bytes) (lim i : Z) : option Z :=
  match fuel with
  | O => None
  | S fuel' => if (i <? lim) && negb (is_char_boundary s i) then hop_up fuel' s lim (i + 1) else Some i
  end.
Fixpoint hop_loop (delta : nat) (s : bytes) (lim r : Z) : option (option Z) :=
  match delta with
  | O => Some (Some r)
  | S d => if lim <=? r then Some None
           else match hop_up (S (length s)) s lim (r + 1) with
                | None => None
                | Some r' => hop_loop d s lim r'
                end
  end.
Definition hop (delta : nat) : M bool := fun e =>
  match hop_loop delta (cur e) (limit e) (cursor e) with
  | None => Spin
  | Some None => Done false e
  | Some (Some r) => Done true (mkEnv (cur e) r (limit e) (lb e) (bra e) (ket e))
  end.
(** snowball_env.rs:140-154  hop_back *)
Fixpoint hop_down (fuel : nat) (s : bytes) (low i : Z) : option Z :=
  match fuel with
  | O => None
  | S fuel' => if (low <? i) && negb (is_char_boundary s i) then hop_down fuel' s low (i - 1) else Some i
  end.
Fixpoint hop_back_loop (delta : nat) (s : bytes) (low r : Z) : option (option Z) :=
  match delta with
  | O => Some (Some r)
  | S d => if r <=? low then Some None
           else match hop_down (S (length s)) s low (r - 1) with
                | None => None
                | Some r' => hop_back_loop d s low r'
                end
  end.
Definition hop_back (delta : nat) : M bool := fun e =>
  match hop_back_loop delta (cur e) (lb e) (cursor e) with
  | None => Spin
  | Some None => Done false e
  | Some (Some r) => Done true (mkEnv (cur e) r (limit e) (lb e) (bra e) (ket e))
  end.

(** [str::chars().next()]: decode the first code point. *)
Definition first_char (s : bytes) : option Z :=
  match s with
  | [] => None
  | b0 :: t =>
      if b0 <? 128 then Some b0
      else
        let c1 := nth 0 t 0 mod 64 in
        if b0 <? 224 then Some (b0 mod 32 * 64 + c1)
        else
          let c2 := nth 1 t 0 mod 64 in
          if b0 <? 240 then Some (b0 mod 16 * 4096 + c1 * 64 + c2)
          else Some (b0 mod 8 * 262144 + c1 * 4096 + c2 * 64 + nth 2 t 0 mod 64)
  end.

(** A grouping: bitmap, min and max code point.  [chars[(ch >> 3)] & (1 << (ch & 7))]; the index
    panics out of range.  [None] = panic. *)
Definition grouping := (list Z * Z * Z)%type.
Definition in_group (g : grouping) (ch : Z) : option bool :=
  let '(bits, mn, mx) := g in
  if (mx <? ch) || (ch <? mn) then Some false
  else let c := ch - mn in
       match byte_at bits (Z.shiftr c 3) with
       | None => None
       | Some b => Some (negb (Z.land b (Z.shiftl 1 (Z.land c 7)) =? 0))
       end.

(** The character at the cursor: [self.current[self.cursor as usize..].chars().next()]. *)
Definition char_here : M (option Z) := fun e =>
  match split_at (cur e) (cursor e) with
  | None => Panic
  | Some (_, tl) => Done (first_char tl) e
  end.
Definition lift_group (g : grouping) (ch : Z) : M bool :=
  match in_group g ch with None => panic | Some b => ret b end.

(** snowball_env.rs:175-192  in_grouping *)
Definition in_grouping (g : grouping) : M bool :=
  e <- get ;;
  if limit e <=? cursor e then ret false
  else c <- char_here ;;
       match c with
       | Some ch => b <- lift_group g ch ;; if b then next_char ;;; ret true else ret false
       | None => ret false
       end.
(** snowball_env.rs:194-213  in_grouping_b *)
Definition in_grouping_b (g : grouping) : M bool :=
  e <- get ;;
  if cursor e <=? lb e then ret false
  else previous_char ;;;
       c <- char_here ;;
       match c with
       | Some ch => next_char ;;; (b <- lift_group g ch ;;
                    if b then previous_char ;;; ret true else ret false)
       | None => ret false
       end.
(** snowball_env.rs:215-232  out_grouping *)
Definition out_grouping (g : grouping) : M bool :=
  e <- get ;;
  if limit e <=? cursor e then ret false
  else c <- char_here ;;
       match c with
       | Some ch => b <- lift_group g ch ;; if b then ret false else next_char ;;; ret true
       | None => ret false
       end.
(** snowball_env.rs:234-253  out_grouping_b *)
Definition out_grouping_b (g : grouping) : M bool :=
  e <- get ;;
  if cursor e <=? lb e then ret false
  else previous_char ;;;
       c <- char_here ;;
       match c with
       | Some ch => next_char ;;; (b <- lift_group g ch ;;
                    if b then ret false else previous_char ;;; ret true)
       | None => ret false
       end.

(** snowball_env.rs:260-268  insert *)
Definition insert (b k : Z) (s : bytes) : M unit :=
  adjustment <- replace_s b k s ;;
  e <- get ;;
  (if b <=? bra e then set_bra (bra e + adjustment) else ret tt) ;;;
  (if b <=? ket e then set_ket (ket e + adjustment) else ret tt).

(** among.rs:3-8; the optional method is [None] in every table of the English stemmer. *)
Record among := Among { a_str : bytes; a_link : Z; a_res : Z }.

(** snowball_env.rs:295-306: [for lvar in common..w.len()]; [rem] is the rest of [w] from [lvar] on,
    [at c] the text byte compared with it.  Returns (diff, common); [None]: index out of range. *)
Fixpoint cmp_fwd (text : bytes) (c l : Z) (w : bytes) (common : Z) : option (Z * Z) :=
  match w with
  | [] => Some (0, common)
  | x :: w' =>
      if c + common =? l then Some (-1, common)
      else match byte_at text (c + common) with
           | None => None
           | Some y => if y - x =? 0 then cmp_fwd text c l w' (common + 1) else Some (y - x, common)
           end
  end.
(** snowball_env.rs:370-382: [for lvar in (0..w.len() - common).rev()]; [w] is the rest of the
    reversed string. *)
Fixpoint cmp_bwd (text : bytes) (c low : Z) (w : bytes) (common : Z) : option (Z * Z) :=
  match w with
  | [] => Some (0, common)
  | x :: w' =>
      if c - common =? low then Some (-1, common)
      else match byte_at text (c - common - 1) with
           | None => None
           | Some y => if y - x =? 0 then cmp_bwd text c low w' (common + 1) else Some (y - x, common)
           end
  end.

(** snowball_env.rs:290-326 / 361-402, the binary search; [cmp w common] compares entry string [w]
    (or its reverse) with the text, skipping the first [common] bytes.  [w.len() - common]
    underflowing, or an index out of range, is a panic.  Result: (i, common_i). *)
Inductive search_res := SFound (i : nat) (common_i : Z) | SPanic | SSpin.
Fixpoint among_search (fuel : nat) (tab : list among) (cmp : bytes -> Z -> option (Z * Z))
    (i j : nat) (common_i common_j : Z) (inspected : bool) : search_res :=
  match fuel with
  | O => SSpin
  | S fuel' =>
      let k := (i + (j - i) / 2)%nat in
      let common := Z.min common_i common_j in
      match nth_error tab k with
      | None => SPanic
      | Some w =>
          if zlen (a_str w) <? common then SPanic
          else match cmp (a_str w) common with
          | None => SPanic
          | Some (diff, common) =>
              let '(i', j', ci, cj) :=
                if diff <? 0 then (i, k, common_i, common) else (k, j, common, common_j) in
              if (j' - i' <=? 1)%nat then
                if (0 <? i')%nat then SFound i' ci
                else if (j' =? i')%nat then SFound i' ci
                else if inspected then SFound i' ci
                else among_search fuel' tab cmp i' j' ci cj true
              else among_search fuel' tab cmp i' j' ci cj inspected
          end
      end
  end.

(** snowball_env.rs:328-346 / 403-421: follow the links to the first entry matched completely. *)
Inductive chain_res := CFound (w : among) | CNone | CPanic | CSpin.
Fixpoint among_chain (fuel : nat) (tab : list among) (i : Z) (common_i : Z) : chain_res :=
  match fuel with
  | O => CSpin
  | S fuel' =>
      match nth_error tab (Z.to_nat i) with
      | None => CPanic
      | Some w =>
          if zlen (a_str w) <=? common_i then CFound w
          else if a_link w <? 0 then CNone
          else among_chain fuel' tab (a_link w) common_i
      end
  end.

Definition among_fuel (tab : list among) : nat := S (S (length tab)).

(** snowball_env.rs:278-347  find_among *)
Definition find_among (tab : list among) : M Z := fun e =>
  let c := cursor e in
  let cmp := fun w common => cmp_fwd (cur e) c (limit e) (skipn (Z.to_nat common) w) common in
  match among_search (among_fuel tab) tab cmp 0 (length tab) 0 0 false with
  | SPanic => Panic
  | SSpin => Spin
  | SFound i common_i =>
      match among_chain (among_fuel tab) tab (Z.of_nat i) common_i with
      | CPanic => Panic
      | CSpin => Spin
      | CNone => Done 0 e
      | CFound w => Done (a_res w) (mkEnv (cur e) (c + zlen (a_str w)) (limit e) (lb e) (bra e) (ket e))
      end
  end.
(** snowball_env.rs:349-422  find_among_b *)
Definition find_among_b (tab : list among) : M Z := fun e =>
  let c := cursor e in
  let cmp := fun w common => cmp_bwd (cur e) c (lb e) (skipn (Z.to_nat common) (rev w)) common in
  match among_search (among_fuel tab) tab cmp 0 (length tab) 0 0 false with
  | SPanic => Panic
  | SSpin => Spin
  | SFound i common_i =>
      match among_chain (among_fuel tab) tab (Z.of_nat i) common_i with
      | CPanic => Panic
      | CSpin => Spin
      | CNone => Done 0 e
      | CFound w => Done (a_res w) (mkEnv (cur e) (c - zlen (a_str w)) (limit e) (lb e) (bra e) (ket e))
      end
  end.

(** ** english_stemmer.rs *)

(** english_stemmer.rs:11-15 *)
Definition A_0 : list among :=
  [Among (lit "arsen") (-1) (-1); Among (lit "commun") (-1) (-1); Among (lit "gener") (-1) (-1)].
(** english_stemmer.rs:17-21 *)
Definition A_1 : list among :=
  [Among (lit "'") (-1) (1); Among (lit "'s'") (0) (1); Among (lit "'s") (-1) (1)].
(** english_stemmer.rs:23-30 *)
Definition A_2 : list among :=
  [Among (lit "ied") (-1) (2); Among (lit "s") (-1) (3); Among (lit "ies") (1) (2);
   Among (lit "sses") (1) (1); Among (lit "ss") (1) (-1); Among (lit "us") (1) (-1)].
(** english_stemmer.rs:32-46 *)
Definition A_3 : list among :=
  [Among (lit "") (-1) (3); Among (lit "bb") (0) (2); Among (lit "dd") (0) (2);
   Among (lit "ff") (0) (2); Among (lit "gg") (0) (2); Among (lit "bl") (0) (1);
   Among (lit "mm") (0) (2); Among (lit "nn") (0) (2); Among (lit "pp") (0) (2);
   Among (lit "rr") (0) (2); Among (lit "at") (0) (1); Among (lit "tt") (0) (2);
   Among (lit "iz") (0) (1)].
(** english_stemmer.rs:48-55 *)
Definition A_4 : list among :=
  [Among (lit "ed") (-1) (2); Among (lit "eed") (0) (1); Among (lit "ing") (-1) (2);
   Among (lit "edly") (-1) (2); Among (lit "eedly") (3) (1); Among (lit "ingly") (-1) (2)].
(** english_stemmer.rs:57-82 *)
Definition A_5 : list among :=
  [Among (lit "anci") (-1) (3); Among (lit "enci") (-1) (2); Among (lit "ogi") (-1) (13);
   Among (lit "li") (-1) (15); Among (lit "bli") (3) (12); Among (lit "abli") (4) (4);
   Among (lit "alli") (3) (8); Among (lit "fulli") (3) (9); Among (lit "lessli") (3) (14);
   Among (lit "ousli") (3) (10); Among (lit "entli") (3) (5); Among (lit "aliti") (-1) (8);
   Among (lit "biliti") (-1) (12); Among (lit "iviti") (-1) (11); Among (lit "tional") (-1) (1);
   Among (lit "ational") (14) (7); Among (lit "alism") (-1) (8); Among (lit "ation") (-1) (7);
   Among (lit "ization") (17) (6); Among (lit "izer") (-1) (6); Among (lit "ator") (-1) (7);
   Among (lit "iveness") (-1) (11); Among (lit "fulness") (-1) (9); Among (lit "ousness") (-1) (10)].
(** english_stemmer.rs:84-94 *)
Definition A_6 : list among :=
  [Among (lit "icate") (-1) (4); Among (lit "ative") (-1) (6); Among (lit "alize") (-1) (3);
   Among (lit "iciti") (-1) (4); Among (lit "ical") (-1) (4); Among (lit "tional") (-1) (1);
   Among (lit "ational") (5) (2); Among (lit "ful") (-1) (5); Among (lit "ness") (-1) (5)].
(** english_stemmer.rs:96-115 *)
Definition A_7 : list among :=
  [Among (lit "ic") (-1) (1); Among (lit "ance") (-1) (1); Among (lit "ence") (-1) (1);
   Among (lit "able") (-1) (1); Among (lit "ible") (-1) (1); Among (lit "ate") (-1) (1);
   Among (lit "ive") (-1) (1); Among (lit "ize") (-1) (1); Among (lit "iti") (-1) (1);
   Among (lit "al") (-1) (1); Among (lit "ism") (-1) (1); Among (lit "ion") (-1) (2);
   Among (lit "er") (-1) (1); Among (lit "ous") (-1) (1); Among (lit "ant") (-1) (1);
   Among (lit "ent") (-1) (1); Among (lit "ment") (15) (1); Among (lit "ement") (16) (1)].
(** english_stemmer.rs:117-117 *)
Definition A_8 : list among :=
  [Among (lit "e") (-1) (1); Among (lit "l") (-1) (2)].
(** english_stemmer.rs:119-128 *)
Definition A_9 : list among :=
  [Among (lit "succeed") (-1) (-1); Among (lit "proceed") (-1) (-1);
   Among (lit "exceed") (-1) (-1); Among (lit "canning") (-1) (-1);
   Among (lit "inning") (-1) (-1); Among (lit "earring") (-1) (-1);
   Among (lit "herring") (-1) (-1); Among (lit "outing") (-1) (-1)].
(** english_stemmer.rs:130-149 *)
Definition A_10 : list among :=
  [Among (lit "andes") (-1) (-1); Among (lit "atlas") (-1) (-1); Among (lit "bias") (-1) (-1);
   Among (lit "cosmos") (-1) (-1); Among (lit "dying") (-1) (3); Among (lit "early") (-1) (9);
   Among (lit "gently") (-1) (7); Among (lit "howe") (-1) (-1); Among (lit "idly") (-1) (6);
   Among (lit "lying") (-1) (4); Among (lit "news") (-1) (-1); Among (lit "only") (-1) (10);
   Among (lit "singly") (-1) (11); Among (lit "skies") (-1) (2); Among (lit "skis") (-1) (1);
   Among (lit "sky") (-1) (-1); Among (lit "tying") (-1) (5); Among (lit "ugly") (-1) (8)].

(** english_stemmer.rs:152-156 *)
Definition G_v : grouping := ([17; 65; 16; 1], 97, 121).
Definition G_v_WXY : grouping := ([1; 17; 65; 208; 1], 89, 121).
Definition G_valid_LI : grouping := ([55; 141; 2], 99, 116).

(** The 'golab loops: [loop { if test {break}; if cursor >= limit {fail}; next_char }]. *)
Fixpoint goto_fwd (fuel : nat) (test : M bool) : M bool :=
  match fuel with
  | O => spin
  | S fuel' =>
      b <- test ;;
      if b then ret true
      else e <- get ;;
           if limit e <=? cursor e then ret false
           else next_char ;;; goto_fwd fuel' test
  end.
Fixpoint goto_bwd (fuel : nat) (test : M bool) : M bool :=
  match fuel with
  | O => spin
  | S fuel' =>
      b <- test ;;
      if b then ret true
      else e <- get ;;
           if cursor e <=? lb e then ret false
           else previous_char ;;; goto_bwd fuel' test
  end.
(** Fuel: one step per byte is enough, since the cursor moves at every turn. *)
Definition text_fuel (e : env) : nat := S (S (length (cur e))).

Definition mark_bra : M unit := c <- get_cursor ;; set_bra c.
Definition mark_ket : M unit := c <- get_cursor ;; set_ket c.

(** english_stemmer.rs:185-201: the body of 'lab6 with its two assignments to the cursor. *)
Definition vowel_y : M bool :=
  v_5 <- get_cursor ;;
  b <- (in_grouping G_v &? (mark_bra ;;; eq_s (lit "y") &? (mark_ket ;;; ret true))) ;;
  set_cursor v_5 ;;; ret b.

(** english_stemmer.rs:182-214: 'replab3. *)
Fixpoint prelude_rep (fuel : nat) (y_found : bool) : M bool :=
  match fuel with
  | O => spin
  | S fuel' =>
      v_4 <- get_cursor ;;
      e <- get ;;
      b <- goto_fwd (text_fuel e) vowel_y ;;
      if b then slice_from (lit "Y") ;;; prelude_rep fuel' true
      else set_cursor v_4 ;;; ret y_found
  end.

(** english_stemmer.rs:165-218  r_prelude; returns context.b_Y_found.  ([slice_from] and
    [slice_del] always return true, so the [return false] branches are dead.) *)
Definition r_prelude : M bool :=
  v_1 <- get_cursor ;;
  (mark_bra ;;; b <- eq_s (lit "'") ;; if b then mark_ket ;;; slice_del ;;; ret tt else ret tt) ;;;
  set_cursor v_1 ;;;
  v_2 <- get_cursor ;;
  y_found <- (mark_bra ;;; b <- eq_s (lit "y") ;;
              if b then mark_ket ;;; slice_from (lit "Y") ;;; ret true else ret false) ;;
  set_cursor v_2 ;;;
  v_3 <- get_cursor ;;
  e <- get ;;
  y_found' <- prelude_rep (text_fuel e) y_found ;;
  set_cursor v_3 ;;; ret y_found'.

(** english_stemmer.rs:220-288  r_mark_regions; returns (i_p1, i_p2). *)
Definition r_mark_regions : M (Z * Z) :=
  p <- get_limit ;;
  v_1 <- get_cursor ;;
  a <- find_among A_0 ;;
  e <- get ;;
  at_p1 <- (if a =? 0 then
              set_cursor v_1 ;;;
              goto_fwd (text_fuel e) (in_grouping G_v) &? goto_fwd (text_fuel e) (out_grouping G_v)
            else ret true) ;;
  r <- (if at_p1 then
          p1 <- get_cursor ;;
          at_p2 <- (goto_fwd (text_fuel e) (in_grouping G_v) &? goto_fwd (text_fuel e) (out_grouping G_v)) ;;
          if at_p2 then p2 <- get_cursor ;; ret (p1, p2) else ret (p1, p)
        else ret (p, p)) ;;
  set_cursor v_1 ;;; ret r.

(** english_stemmer.rs:290-318  r_shortv *)
Definition r_shortv : M bool :=
  e <- get ;;
  let v_1 := limit e - cursor e in
  b <- (out_grouping_b G_v_WXY &? in_grouping_b G_v &? out_grouping_b G_v) ;;
  if b then ret true
  else l <- get_limit ;; set_cursor (l - v_1) ;;;
       out_grouping_b G_v &? in_grouping_b G_v &?
       (e' <- get ;; if lb e' <? cursor e' then ret false else ret true).

(** english_stemmer.rs:320-332  r_R1, r_R2 (the same code with i_p1 / i_p2) *)
Definition r_R (p : Z) : M bool := c <- get_cursor ;; ret (p <=? c).

(** [env.cursor = env.limit - v] *)
Definition restore (v : Z) : M unit := l <- get_limit ;; set_cursor (l - v).
Definition from_limit : M Z := e <- get ;; ret (limit e - cursor e).

(** english_stemmer.rs:334-397  r_Step_1a *)
Definition r_Step_1a : M bool :=
  v_1 <- from_limit ;;
  mark_ket ;;;
  a <- find_among_b A_1 ;;
  (if a =? 0 then restore v_1 else mark_bra ;;; slice_del ;;; ret tt) ;;;
  mark_ket ;;;
  among_var <- find_among_b A_2 ;;
  if among_var =? 0 then ret false
  else mark_bra ;;;
    if among_var =? 1 then slice_from (lit "ss")
    else if among_var =? 2 then
      v_2 <- from_limit ;;
      b <- hop_back 2 ;;
      if b then slice_from (lit "i") else restore v_2 ;;; slice_from (lit "ie")
    else if among_var =? 3 then
      e <- get ;;
      if cursor e <=? lb e then ret false
      else previous_char ;;;
           e <- get ;;
           b <- goto_bwd (text_fuel e) (in_grouping_b G_v) ;;
           if b then slice_del else ret false
    else ret true.

(** [let c = env.cursor; env.insert(c, c, "e"); env.cursor = c] *)
Definition insert_e : M bool :=
  c <- get_cursor ;; insert c c (lit "e") ;;; set_cursor c ;;; ret true.

(** english_stemmer.rs:399-466  r_Step_1b *)
Definition r_Step_1b (p1 : Z) : M bool :=
  mark_ket ;;;
  among_var <- find_among_b A_4 ;;
  if among_var =? 0 then ret false
  else mark_bra ;;;
    if among_var =? 1 then r_R p1 &? slice_from (lit "ee")
    else if among_var =? 2 then
      v_1 <- from_limit ;;
      e <- get ;;
      b <- goto_bwd (text_fuel e) (in_grouping_b G_v) ;;
      if negb b then ret false
      else restore v_1 ;;;
        slice_del ;;;
        v_3 <- from_limit ;;
        among_var <- find_among_b A_3 ;;
        if among_var =? 0 then ret false
        else restore v_3 ;;;
          if among_var =? 1 then insert_e
          else if among_var =? 2 then
            mark_ket ;;;
            e <- get ;;
            if cursor e <=? lb e then ret false
            else previous_char ;;; mark_bra ;;; slice_del
          else if among_var =? 3 then
            c <- get_cursor ;;
            if negb (c =? p1) then ret false
            else v_4 <- from_limit ;;
                 r_shortv &? (restore v_4 ;;; insert_e)
          else ret true
    else ret true.

(** english_stemmer.rs:468-498  r_Step_1c *)
Definition r_Step_1c : M bool :=
  mark_ket ;;;
  v_1 <- from_limit ;;
  b <- eq_s_b (lit "y") ;;
  (if b then ret true else restore v_1 ;;; eq_s_b (lit "Y")) &?
  (mark_bra ;;;
   out_grouping_b G_v &?
   (e <- get ;; if lb e <? cursor e then slice_from (lit "i") else ret false)).

(** [else if among_var == r { slice_from(s) }] chains. *)
Fixpoint case_from (l : list (Z * bytes)) (among_var : Z) : option bytes :=
  match l with
  | [] => None
  | (r, s) :: l' => if among_var =? r then Some s else case_from l' among_var
  end.
Definition step2_cases : list (Z * bytes) :=
  [(1, lit "tion"); (2, lit "ence"); (3, lit "ance"); (4, lit "able"); (5, lit "ent"); (6, lit "ize");
   (7, lit "ate"); (8, lit "al"); (9, lit "ful"); (10, lit "ous"); (11, lit "ive"); (12, lit "ble");
   (14, lit "less")].
(** english_stemmer.rs:500-578  r_Step_2 *)
Definition r_Step_2 (p1 : Z) : M bool :=
  mark_ket ;;;
  among_var <- find_among_b A_5 ;;
  if among_var =? 0 then ret false
  else mark_bra ;;; r_R p1 &?
    match case_from step2_cases among_var with
    | Some s => slice_from s
    | None =>
        if among_var =? 13 then eq_s_b (lit "l") &? slice_from (lit "og")
        else if among_var =? 15 then in_grouping_b G_valid_LI &? slice_del
        else ret true
    end.

Definition step3_cases : list (Z * bytes) :=
  [(1, lit "tion"); (2, lit "ate"); (3, lit "al"); (4, lit "ic"); (5, [])].
(** english_stemmer.rs:580-641  r_Step_3 *)
Definition r_Step_3 (p1 p2 : Z) : M bool :=
  mark_ket ;;;
  among_var <- find_among_b A_6 ;;
  if among_var =? 0 then ret false
  else mark_bra ;;; r_R p1 &?
    match case_from step3_cases among_var with
    | Some s => slice_from s
    | None => if among_var =? 6 then r_R p2 &? slice_del else ret true
    end.

(** english_stemmer.rs:643-678  r_Step_4 *)
Definition r_Step_4 (p2 : Z) : M bool :=
  mark_ket ;;;
  among_var <- find_among_b A_7 ;;
  if among_var =? 0 then ret false
  else mark_bra ;;; r_R p2 &?
    (if among_var =? 1 then slice_del
     else if among_var =? 2 then
       v_1 <- from_limit ;;
       b <- eq_s_b (lit "s") ;;
       (if b then ret true else restore v_1 ;;; eq_s_b (lit "t")) &? slice_del
     else ret true).

(** english_stemmer.rs:680-728  r_Step_5 *)
Definition r_Step_5 (p1 p2 : Z) : M bool :=
  mark_ket ;;;
  among_var <- find_among_b A_8 ;;
  if among_var =? 0 then ret false
  else mark_bra ;;;
    if among_var =? 1 then
      v_1 <- from_limit ;;
      b <- r_R p2 ;;
      (if b then ret true
       else restore v_1 ;;;
            r_R p1 &?
            (v_2 <- from_limit ;;
             s <- r_shortv ;;
             if s then ret false else restore v_2 ;;; ret true)) &? slice_del
    else if among_var =? 2 then r_R p2 &? eq_s_b (lit "l") &? slice_del
    else ret true.

(** english_stemmer.rs:730-740  r_exception2 *)
Definition r_exception2 : M bool :=
  mark_ket ;;;
  a <- find_among_b A_9 ;;
  if a =? 0 then ret false
  else mark_bra ;;; e <- get ;; if lb e <? cursor e then ret false else ret true.

Definition exception1_cases : list (Z * bytes) :=
  [(1, lit "ski"); (2, lit "sky"); (3, lit "die"); (4, lit "lie"); (5, lit "tie"); (6, lit "idl");
   (7, lit "gentl"); (8, lit "ugli"); (9, lit "earli"); (10, lit "onli"); (11, lit "singl")].
(** english_stemmer.rs:742-801  r_exception1 *)
Definition r_exception1 : M bool :=
  mark_bra ;;;
  among_var <- find_among A_10 ;;
  if among_var =? 0 then ret false
  else mark_ket ;;;
    e <- get ;;
    if cursor e <? limit e then ret false
    else match case_from exception1_cases among_var with
         | Some s => slice_from s
         | None => ret true
         end.

(** english_stemmer.rs:812-823: the body of 'lab3. *)
Definition is_Y : M bool :=
  v_2 <- get_cursor ;;
  b <- (mark_bra ;;; eq_s (lit "Y") &? (mark_ket ;;; ret true)) ;;
  set_cursor v_2 ;;; ret b.
Fixpoint postlude_rep (fuel : nat) : M bool :=
  match fuel with
  | O => spin
  | S fuel' =>
      v_1 <- get_cursor ;;
      e <- get ;;
      b <- goto_fwd (text_fuel e) is_Y ;;
      if b then slice_from (lit "y") ;;; postlude_rep fuel'
      else set_cursor v_1 ;;; ret true
  end.
(** english_stemmer.rs:803-840  r_postlude *)
Definition r_postlude (y_found : bool) : M bool :=
  if negb y_found then ret false
  else e <- get ;; postlude_rep (text_fuel e).

(** english_stemmer.rs:842-904  stem *)
Definition stem : M bool :=
  v_1 <- get_cursor ;;
  x <- r_exception1 ;;
  if x then ret true
  else
    set_cursor v_1 ;;;
    v_2 <- get_cursor ;;
    h <- hop 3 ;;
    if negb h then set_cursor v_2 ;;; ret true
    else
      set_cursor v_1 ;;;
      y_found <- r_prelude ;;
      p <- r_mark_regions ;;
      c <- get_cursor ;; set_lb c ;;;
      l <- get_limit ;; set_cursor l ;;;
      v_5 <- from_limit ;;
      r_Step_1a ;;;
      restore v_5 ;;;
      v_6 <- from_limit ;;
      x2 <- r_exception2 ;;
      (if x2 then ret tt
       else
         restore v_6 ;;;
         v_7 <- from_limit ;; r_Step_1b (fst p) ;;; restore v_7 ;;;
         v_8 <- from_limit ;; r_Step_1c ;;; restore v_8 ;;;
         v_9 <- from_limit ;; r_Step_2 (fst p) ;;; restore v_9 ;;;
         v_10 <- from_limit ;; r_Step_3 (fst p) (snd p) ;;; restore v_10 ;;;
         v_11 <- from_limit ;; r_Step_4 (snd p) ;;; restore v_11 ;;;
         v_12 <- from_limit ;; r_Step_5 (fst p) (snd p) ;;; restore v_12) ;;;
      b <- get_lb ;; set_cursor b ;;;
      v_13 <- get_cursor ;;
      r_postlude y_found ;;;
      set_cursor v_13 ;;; ret true.

(** snowball_stem.rs:7-15  snowball; [parses_f64] is [s.parse::<f64>().is_ok()], [is_stopword] the
    binary search of is_stopword.rs.  [None]: panic or non-termination. *)
Definition snowball (parses_f64 is_stopword : bytes -> bool) (s : bytes) (no_stopwords : bool)
  : option bytes :=
  if parses_f64 s || (no_stopwords && is_stopword s) then Some []
  else match stem (create s) with
       | Done _ e => Some (cur e)
       | _ => None
       end.
