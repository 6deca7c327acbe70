(** Specification vocabulary for pipelines. *)
From Coq Require Import Reals String Bool.
From Coq Require Import List.
From Verif Require Import MetricSpec PipeModel.
Import ListNotations.

(** Running the blueprint's steps on a frame, each fitted step on the frame the earlier steps left. *)
Inductive reaches (sql : string -> frame -> option frame) : list bstep -> frame -> frame -> Prop :=
| reaches_nil f : reaches sql [] f f
| reaches_plain s ss f g h : apply_df sql s f = Some g -> reaches sql ss g h -> reaches sql (Plain s :: ss) f h
| reaches_fit fs es ss f g h : fit fs f = Some es -> with_columns es f = Some g -> reaches sql ss g h -> reaches sql (Fit fs :: ss) f h.
(** Frames polars can build: no two columns of one name. *)
Definition proper (f : frame) : Prop := NoDup (names f).
(** The frame with its names lower-cased if asked, else upper-cased if asked; the columns are untouched. *)
Definition recased (lower upper : string -> string) (l u : bool) (f d : frame) : Prop :=
  names d = map (fun x => if l then lower x else if u then upper x else x) (names f) /\ map snd d = map snd f /\ proper d.
Definition sql_ok (sql : string -> frame -> option frame) : Prop := forall s f g, proper f -> sql s f = Some g -> proper g.
(** The expressions of a step, and the fitted functions that only write the columns they were given. *)
Definition step_exprs (s : step) : list expr := match s with Select es | WithColumns es => es | Sql _ => [] | Filter e => [e] end.
Definition writes_only (fn : frame -> option (list string) -> option (list expr)) : Prop :=
  forall f cs es, fn f (Some cs) = Some es -> forall g o, evals es g = Some o -> incl (names o) cs.
Definition never_writes (t : string) (es : list expr) : Prop := forall f o, evals es f = Some o -> ~ In t (names o).
(** Rows of two frames with the same columns, one after the other. *)
Definition vstack (f g : frame) : frame := map (fun pq => (fst (fst pq), snd (fst pq) ++ snd (snd pq))) (combine f g).
Definition height (h : nat) (f : frame) : Prop := Forall (fun p => length (snd p) = h) f.
(** An expression whose value in a row depends on that row alone. *)
Definition rowwise (e : expr) : Prop :=
  forall f g h k o o', names f = names g -> height h f -> height k g -> e f = Some o -> e g = Some o' ->
    height h o /\ height k o' /\ names o = names o' /\ e (vstack f g) = Some (vstack o o').
Definition rowwise_step (s : step) : Prop := match s with Sql _ => False | _ => Forall rowwise (step_exprs s) end.
(** Steps that cannot change column t. *)
Definition protects (t : string) (s : bstep) : Prop :=
  match s with
  | Fit fs => writes_only (func fs) /\ In t (exclude fs) /\ cols fs <> None
  | Plain (WithColumns es) => never_writes t es
  | Plain (Filter _) | Plain (Select _) | Plain (Sql _) => False
  end.
