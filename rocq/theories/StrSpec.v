(** Specification vocabulary for the string expressions other than the n-gram similarities. *)
From Coq Require Import List Arith ZArith.
Import ListNotations.

(** Characters are Unicode code points. *)
Definition chars := list Z.
Definition is_whitespace (c : Z) : bool :=   (* the Unicode White_Space property *)
  ((9 <=? c) && (c <=? 13) || (c =? 32) || (c =? 133) || (c =? 160) || (c =? 5760)
   || (8192 <=? c) && (c <=? 8202) || (c =? 8232) || (c =? 8233) || (c =? 8239) || (c =? 8287)
   || (c =? 12288))%Z%bool.
Definition is_ascii (c : Z) : bool := (c <? 128)%Z.

Definition all_ws (s : chars) : Prop := forall c, In c s -> is_whitespace c = true.
Definition no_ws (s : chars) : Prop := forall c, In c s -> is_whitespace c = false.

(** [words_of s l]: the maximal whitespace-free pieces of [s], in order, are [l]. *)
Inductive words_of : chars -> list chars -> Prop :=
| words_nil : forall gap, all_ws gap -> words_of gap []
| words_cons : forall gap w rest l,
    all_ws gap -> w <> [] -> no_ws w ->
    (rest = [] \/ exists c rest', rest = c :: rest' /\ is_whitespace c = true) ->
    words_of rest l -> words_of (gap ++ w ++ rest) (w :: l).

(** Every whitespace character of [s] is a plain space strictly between two non-blank characters. *)
Definition tidy (s : chars) : Prop :=
  forall a c b, s = a ++ c :: b -> is_whitespace c = true ->
    c = 32%Z /\
    (exists a' x, a = a' ++ [x] /\ is_whitespace x = false) /\
    (exists y b', b = y :: b' /\ is_whitespace y = false).

(** [kept P s t]: [t] is [s] with exactly the characters violating [P] deleted. *)
Inductive kept (P : Z -> Prop) : chars -> chars -> Prop :=
| kept_nil : kept P [] []
| kept_keep : forall c s t, P c -> kept P s t -> kept P (c :: s) (c :: t)
| kept_drop : forall c s t, ~ P c -> kept P s t -> kept P (c :: s) t.

(** [res] is the first string of [vocab] at minimal distance among those within [cutoff]; [dist]
    is the distance to the query word, [None] where the metric is undefined. *)
Definition nearest_within (dist : chars -> option nat) (vocab : list chars) (cutoff : nat)
    (res : option chars) : Prop :=
  match res with
  | None => forall w d, In w vocab -> dist w = Some d -> cutoff < d
  | Some w => exists i d, nth_error vocab i = Some w /\ dist w = Some d /\ d <= cutoff /\
      forall j w' d', nth_error vocab j = Some w' -> dist w' = Some d' ->
        d <= d' /\ (j < i -> d < d')
  end.

(** [spaced l t]: [t] is the pieces [l] written one after the other with one space in between. *)
Inductive spaced : list chars -> chars -> Prop :=
| spaced_nil : spaced [] []
| spaced_one : forall w, spaced [w] w
| spaced_more : forall w v l t, spaced (v :: l) t -> spaced (w :: v :: l) (w ++ 32%Z :: t).

(** [replaced mapping l l']: [l'] is [l] with every mapped word replaced. *)
Definition replaced (mapping : chars -> option chars) : list chars -> list chars -> Prop :=
  Forall2 (fun w v => mapping w = Some v \/ (mapping w = None /\ v = w)).
