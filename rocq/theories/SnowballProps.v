(** C42: the Snowball stemmer on every UTF-8 string shorter than 2^31 bytes (the code casts the
    length to i32). *)
From Coq Require Import String List ZArith.
From Verif Require Import SnowballSpec SnowballModel SnowballPropsLemmas.
Import ListNotations.
Open Scope Z_scope.

(** C42.  Stemming always returns (no panic, no endless loop), the result is valid UTF-8 and is no
    longer than the input.  [pf] is "parses as a float", [isw] "is a stop word". *)
Theorem C42_stem_total : forall pf isw s no_sw, utf8 s -> zlen s < 2 ^ 31 ->
  exists r, snowball pf isw s no_sw = Some r /\ utf8 r /\ zlen r <= zlen s.
Proof. exact snowball_total. Qed.
Print Assumptions C42_stem_total.
(** Words of one or two characters are returned unchanged. *)
Theorem C42_short_words : forall pf isw cs, Forall utf8_char cs -> (length cs < 3)%nat -> zlen (concat cs) < 2 ^ 31 ->
  pf (concat cs) = false -> snowball pf isw (concat cs) false = Some (concat cs).
Proof. exact snowball_short. Qed.
Print Assumptions C42_short_words.
(** Numbers, and stop words when asked, give the empty string. *)
Theorem C42_removed : forall pf isw s no_sw, pf s = true \/ (no_sw = true /\ isw s = true) ->
  snowball pf isw s no_sw = Some [].
Proof. exact snowball_removed. Qed.
Print Assumptions C42_removed.
Definition none (_ : list Z) : bool := false.
Example C42_case : map (fun s => snowball none none (lit s) false)
    ["running"; "hoped"; "generously"; "skies"; "yearly"; "'tis"; "boy"; "ab"]%string =
  map (fun s => Some (lit s)) ["run"; "hope"; "generous"; "sky"; "year"; "tis"; "boy"; "ab"]%string.
Proof. vm_compute. reflexivity. Qed.
(** "naïveté" with its two-byte characters *)
Example C42_case_utf8 : snowball none none [110; 97; 195; 175; 118; 101; 116; 195; 169; 115] false
  = Some [110; 97; 195; 175; 118; 101; 116; 195; 169].
Proof. vm_compute. reflexivity. Qed.
Example C42_case_ok : utf8 [110; 195; 175] /\ zlen [110; 195; 175] < 2 ^ 31.
Proof.
  split; [|reflexivity]. exists [[110]; [195; 175]]. split; [|reflexivity].
  repeat constructor; discriminate.
Qed.
