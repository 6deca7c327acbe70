(** Model of src/num_ext/isotonic_regression.rs.

    The Rust code works on [f64] slices mutated in place.  The model is parametrised by the
    arithmetic so that the same definitions are used with exact rationals and with binary64.
    [None] stands for a Rust panic (index out of bounds, usize underflow with overflow checks) and
    for exhausted fuel; the theorems show that neither occurs in a release build. *)
From Coq Require Import Bool List ZArith QArith Arith.
From Verif Require Import Num F64.
Import ListNotations.

(** [l[i] = v]; out of bounds panics. *)
Definition aset {A} (l : list A) (i : nat) (v : A) : option (list A) :=
  if i <? length l then Some (firstn i l ++ v :: skipn (S i) l) else None.

Open Scope nat_scope.

Section Iso.
Context {T : Type} (add mul div : T -> T -> T) (ge : T -> T -> bool) (le0 : T -> bool) (one : T).

(** isotonic_regression.rs 38-43: [while i + 1 < n && xb >= x[i + 1]]. *)
Fixpoint fwd (fuel : nat) (x w : list T) (n i : nat) (sb wb xb : T) : option (nat * T * T * T) :=
  match fuel with
  | O => None
  | S fuel' =>
      if S i <? n then
        match nth_error x (S i) with
        | None => None
        | Some xn =>
            if ge xb xn then
              match nth_error w (S i) with
              | None => None
              | Some wn =>
                  let sb' := add sb (mul wn xn) in
                  let wb' := add wb wn in
                  fwd fuel' x w n (S i) sb' wb' (div sb' wb')
              end
            else Some (i, sb, wb, xb)
        end
      else Some (i, sb, wb, xb)
  end.

(** isotonic_regression.rs 44-49: [while b > 0 && x[b - 1] >= xb]. *)
Fixpoint bwd (x w : list T) (b : nat) (sb wb xb : T) : option (nat * T * T * T) :=
  match b with
  | O => Some (O, sb, wb, xb)
  | S b' =>
      match nth_error x b' with
      | None => None
      | Some xp =>
          if ge xp xb then
            match nth_error w b' with
            | None => None
            | Some wp =>
                let sb' := add sb (mul wp xp) in
                let wb' := add wb wp in
                bwd x w b' sb' wb' (div sb' wb')
            end
          else Some (b, sb, wb, xb)
      end
  end.

(** isotonic_regression.rs 30-57: the main loop; [b], [xpre], [wpre] are [b], [xb_pre], [wb_pre]. *)
Fixpoint iso_loop (fuel : nat) (x w : list T) (r : list nat) (n b i : nat) (xpre wpre : T)
  : option (list T * list nat * nat) :=
  if i <? n then
    match fuel with
    | O => None
    | S fuel' =>
        match nth_error x i, nth_error w i with
        | Some xb, Some wb =>
            let merged :=
              if ge xpre xb then
                let sb := add (mul wpre xpre) (mul wb xb) in
                let wb' := add wb wpre in
                match fwd (S n) x w n i sb wb' (div sb wb') with
                | None => None
                | Some (i', sb', wb'', xb') =>
                    match bwd x w b sb' wb'' xb' with
                    | None => None
                    | Some (b', _, wb3, xb3) => Some (b', i', wb3, xb3)
                    end
                end
              else Some (S b, i, wb, xb) in
            match merged with
            | None => None
            | Some (b', i', wb', xb') =>
                match aset x b' xb', aset w b' wb', aset r (S b') (S i') with
                | Some x', Some w', Some r' => iso_loop fuel' x' w' r' n b' (S i') xb' wb'
                | _, _, _ => None
                end
            end
        | _, _ => None
        end
    end
  else Some (x, r, b).

(** isotonic_regression.rs 64-66: [for i in t..=f { x[i] = xk; }]. *)
Fixpoint fill_n (cnt : nat) (x : list T) (t : nat) (v : T) : option (list T) :=
  match cnt with
  | O => Some x
  | S c => match aset x t v with None => None | Some x' => fill_n c x' (S t) v end
  end.

(** [t - 1] on [usize]: with overflow checks (debug profile) it panics at 0, in release it wraps. *)
Definition usize_pred (checked : bool) (t : nat) : option Z :=
  match t with
  | O => if checked then None else Some (2 ^ 64 - 1)%Z
  | S t' => Some (Z.of_nat t')
  end.

(** isotonic_regression.rs 59-68: [for k in (0..=b).rev()]. *)
Fixpoint expand (checked : bool) (k : nat) (r : list nat) (x : list T) (f : Z) : option (list T) :=
  match nth_error r k, nth_error x k with
  | Some t, Some xk =>
      match fill_n (Z.to_nat (f - Z.of_nat t + 1)) x t xk with
      | None => None
      | Some x' =>
          match usize_pred checked t with
          | None => None
          | Some f' => match k with O => Some x' | S k' => expand checked k' r x' f' end
          end
      end
  | _, _ => None
  end.

(** isotonic_regression.rs 19-69. *)
Definition iso_run (checked : bool) (x w : list T) : option (list T) :=
  let n := length x in
  let r := repeat O (S n) in
  match aset r 0 0 with
  | None => None
  | Some r =>
      match aset r 1 1, nth_error x 0, nth_error w 0 with
      | Some r, Some x0, Some w0 =>
          match iso_loop n x w r n 0 1 x0 w0 with
          | None => None
          | Some (x', r', b) => expand checked b r' x' (Z.of_nat n - 1)
          end
      | _, _, _ => None
      end
  end.

Inductive iso_out := IsoOk (l : list (option T)) | IsoErr | IsoPanic.

(** [to_vec_null_aware] restricted to what is used: the values when there is no null. *)
Fixpoint no_nulls {A} (l : list (option A)) : option (list A) :=
  match l with
  | [] => Some []
  | None :: _ => None
  | Some a :: l => match no_nulls l with None => None | Some l' => Some (a :: l') end
  end.

Definition rev_if {A} (increasing : bool) (l : list A) : list A := if increasing then l else rev l.

(** pl_isotonic_regression, isotonic_regression.rs 71-132; [weights = None] is
    [has_weights = false].  The [f64] cast of the inputs is done by the Python wrapper
    (python/polars_ds/exprs/num.py 1003-1034). *)
Definition pl_isotonic (checked : bool) (y : list (option T)) (weights : option (list (option T)))
  (increasing : bool) : iso_out :=
  if length y <=? 1 then IsoOk y
  else
    match no_nulls y with
    | None => IsoErr
    | Some yv =>
        let w :=
          match weights with
          | Some wc =>
              if negb (length wc =? length yv) then None
              else match no_nulls wc with
                   | None => None
                   | Some wv => if existsb le0 wv then None else Some (rev_if increasing wv)
                   end
          | None => Some (repeat one (length yv))
          end in
        match w with
        | None => IsoErr
        | Some wv =>
            match iso_run checked (rev_if increasing yv) wv with
            | None => IsoPanic
            | Some out => IsoOk (map Some (rev_if increasing out))
            end
        end
    end.
End Iso.
Arguments IsoOk {T} l.
Arguments IsoErr {T}.
Arguments IsoPanic {T}.

(** The expression in exact arithmetic, and on the binary64 values the code uses. *)
Definition isotonic_q : bool -> list (option Q) -> option (list (option Q)) -> bool -> iso_out :=
  pl_isotonic Qplus Qmult Qdiv (fun a b => Qle_bool b a) (fun a => Qle_bool a 0) 1%Q.
Definition isotonic_f64 : bool -> list (option f64) -> option (list (option f64)) -> bool -> iso_out :=
  pl_isotonic (T := f64) (nadd f64_ops) (nmul f64_ops) (ndiv f64_ops) (fun a b : f64 => nle f64_ops b a)
    (fun a : f64 => nle f64_ops a (nzero f64_ops)) (none f64_ops).
