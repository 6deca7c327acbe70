(** Model of src/num_ext/benford.rs (first digit counts). *)
From Coq Require Import Bool List ZArith Ascii.
From Verif Require Import RocModel.
Import ListNotations.
Open Scope Z_scope.

(** benford.rs 6-16 first_digit: [%] and [/] truncate towards zero; [None]: out of fuel (excluded in DigitProofs). *)
Fixpoint digit_loop (fuel : nat) (v d : Z) : option Z :=
  if v =? 0 then Some d else match fuel with O => None | S f => digit_loop f (Z.quot v 10) (Z.rem v 10) end.
Definition first_digit (u : Z) : option Z := digit_loop (S (Z.to_nat (Z.log2 (Z.abs u)))) u 0.

(** A slot of a column: validity and physical value; [into_no_null_iter] reads the physical value of every slot. *)
Definition slots (T : Type) := list (bool * T).
(** [out[idx] += 1] on a fixed array of ten u32; [None]: panic. *)
Definition count_at (out : option (list Z)) (idx : option Z) : option (list Z) :=
  match out, idx with
  | Some out, Some i => if (0 <=? i) && (i <? 10) then Some (bump (Z.to_nat i) out) else None
  | _, _ => None
  end.
Definition ten_zeros : list Z := repeat 0 10.
(** benford.rs 18-77, integer dtypes ([d.abs()] is the identity for the unsigned ones), and 112-117: the list [out[1..]]. *)
Definition first_digit_cnt (col : slots Z) : option (list Z) :=
  option_map (@tl Z) (fold_left (fun out x => count_at out (option_map Z.abs (first_digit (snd x)))) col (Some ten_zeros)).

(** benford.rs 78-109, float dtypes: a value is [None] when not finite, otherwise the text Rust's [Display]
    prints for its absolute value (plain decimal notation). *)
Definition to_digit (c : ascii) : option Z :=
  let n := Z.of_nat (nat_of_ascii c) in if (48 <=? n) && (n <=? 57) then Some (n - 48) else None.
Definition skip_char (c : ascii) : bool := Ascii.eqb c "0" || Ascii.eqb c ".".
Definition text_digit (t : list ascii) : option Z :=
  to_digit (match filter (fun c => negb (skip_char c)) t with [] => "0"%char | c :: _ => c end).
Definition first_digit_cnt_text (col : slots (option (list ascii))) : option (list Z) :=
  option_map (@tl Z) (fold_left (fun out x => match snd x with None => out | Some t => count_at out (text_digit t) end) col (Some ten_zeros)).
