(** Model of src/num_ext/psi.rs and of its Python wrappers [psi], [psi_w_breakpoints], [psi_discrete]
    (num.py 401-597).  Percentages and logarithms are real numbers ([None]: NaN, from 0/0); values range over any
    type with a total order and a largest element [inf] (f64 without NaN, as filtered in Python). *)
From Coq Require Import Bool List ZArith Reals.
From Verif Require Import PairSums RocModel.
Import ListNotations.
Open Scope Z_scope.

(** psi.rs 57-64: share of the column total, at least 0.0001. *)
Definition pct (total cnt : Z) : option R :=
  if total =? 0 then None else Some (Rmax (IZR cnt / IZR total) (1 / 10000)).
(** psi.rs 66-72. *)
Definition psi_bin (b a : option R) : option R :=
  match b, a with Some b, Some a => Some ((b - a) * ln (b / a))%R | _, _ => None end.

Record psi_row (K : Type) := mkpsi { p_brk : K; p_base : option R; p_act : option R; p_psi : option R }.
Arguments mkpsi {K}. Arguments p_brk {K}. Arguments p_base {K}. Arguments p_act {K}. Arguments p_psi {K}.

(** psi.rs 40-73 psi_frame; the three columns have one length. *)
Definition psi_frame {K} (bp : list K) (cnt1 cnt2 : list Z) : list (psi_row K) :=
  let t1 := zsum (fun x => x) cnt1 in
  let t2 := zsum (fun x => x) cnt2 in
  map (fun r => match r with (b, (c1, c2)) => mkpsi b (pct t1 c1) (pct t2 c2) (psi_bin (pct t1 c1) (pct t2 c2)) end)
      (combine bp (combine cnt1 cnt2)).

(** [psi_bin.sum()]. *)
Fixpoint rsum (l : list (option R)) : option R :=
  match l with
  | [] => Some 0%R
  | None :: _ => None
  | Some x :: l' => match rsum l' with Some s => Some (x + s)%R | None => None end
  end.
Definition psi_total {K} (rep : list (psi_row K)) : option R := rsum (map p_psi rep).

Section P.
Context {K : Type} (leb : K -> K -> bool) (inf : K).

(** [bp.binary_search(x)] on strictly ascending breakpoints: in both outcomes the index is the number of
    breakpoints below [x]. *)
Definition bucket (bp : list K) (x : K) : nat := length (filter (fun b => klt leb b x) bp).
(** psi.rs 16-38 psi_with_bps_helper; [None]: [c[i]] out of bounds. *)
Definition psi_counts (s bp : list K) : option (list Z) :=
  fold_left (fun acc x => match acc with
    | None => None
    | Some c => if (bucket bp x <? length c)%nat then Some (bump (bucket bp x) c) else None
    end) s (Some (repeat 0 (length bp))).

(** psi.rs 75-95 pl_psi_w_bps behind num.py 544-597 psi_w_breakpoints. *)
Definition psi_w_breakpoints (baseline new : list K) (breakpoints : list K) : option (list (psi_row K)) :=
  let bp := breakpoints ++ [inf] in
  match psi_counts baseline bp, psi_counts new bp with
  | Some c1, Some c2 => Some (psi_frame bp c1 c2)
  | _, _ => None
  end.

(** num.py 454-472 psi: Polars' [qcut] with quantile breakpoints [qs] labels a value with the smallest breakpoint
    that is not below it ([inf] beyond the last); [value_counts] and [sort] then give the distinct labels in
    ascending order with their counts. *)
Definition qlabel (qs : list K) (x : K) : K :=
  match filter (fun b => leb x b) qs with [] => inf | b :: _ => b end.
Definition psi_brk (qs ref : list K) : list K := keys leb (map (fun x => (qlabel qs x, 0)) ref).
Definition psi_ref_counts (qs ref : list K) : list Z :=
  map (fun b => zlen (filter (fun x => keq leb (qlabel qs x) b) ref)) (psi_brk qs ref).
(** psi.rs 97-118 pl_psi_report behind [psi]. *)
Definition psi (qs new ref : list K) : option (list (psi_row K)) :=
  match psi_counts new (psi_brk qs ref) with
  | Some c => Some (psi_frame (psi_brk qs ref) (psi_ref_counts qs ref) c)
  | None => None
  end.
End P.

Section D.
Context {K : Type} (dec : forall a b : K, {a = b} + {a <> b}).
Definition okey (a b : option K) : bool :=   (* join keys: nulls match nothing (Polars' default) *)
  match a, b with Some a, Some b => if dec a b then true else false | _, _ => false end.
Definition oeq (a b : option K) : bool :=    (* values: null is a value of its own *)
  match a, b with Some a, Some b => if dec a b then true else false | None, None => true | _, _ => false end.
(** [value_counts()]: distinct values (null included) with their counts; the order is irrelevant here. *)
Fixpoint distinct (l : list (option K)) : list (option K) :=
  match l with [] => [] | a :: l' => if existsb (oeq a) l' then distinct l' else a :: distinct l' end.
Definition value_counts (l : list (option K)) : list (option K * Z) :=
  map (fun v => (v, zlen (filter (oeq v) l))) (distinct l).

(** One row of the joined frame: the two category columns and the two counts after [fill_null(0)];
    the outer option of a category is "no row on this side". *)
Record drow := mkd { d_base : option (option K); d_act : option (option K); d_bcnt : Z; d_acnt : Z }.
(** psi.rs 120-142: full join of the counts of the new data (left) and of the baseline (right). *)
Definition full_join (act base : list (option K * Z)) : list drow :=
  flat_map (fun a => match filter (fun b => okey (fst a) (fst b)) base with
    | [] => [mkd None (Some (fst a)) 0 (snd a)]
    | ms => map (fun b => mkd (Some (fst b)) (Some (fst a)) (snd b) (snd a)) ms
    end) act ++
  map (fun b => mkd (Some (fst b)) None (snd b) 0)
      (filter (fun b => negb (existsb (fun a => okey (fst a) (fst b)) act)) base).
(** psi.rs 143-164: percentages and contributions. *)
Definition psi_discrete (new baseline : list (option K)) : list (psi_row drow) :=
  let j := full_join (value_counts new) (value_counts baseline) in
  psi_frame j (map d_bcnt j) (map d_acnt j).
End D.
