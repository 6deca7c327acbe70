(** Model of python/polars_ds/modeling/pipeline.py and _structures.py: blueprints, fitting, pipelines, JSON.
    Frames are lists of named columns. A polars expression is any function from frames to output columns ([None]: polars
    raises), so user expressions, selectors and aggregations are all covered; broadcasting is up to the expression.
    Exceptions are not told apart ([None]). SQL is an arbitrary function. Lazy and eager evaluation coincide. *)
From Coq Require Import Reals String Bool.
From Coq Require Import List.
From Verif Require Import MetricSpec.
Import ListNotations.
Open Scope list_scope.

Inductive cell := Null | Num (x : xnum) | Str (s : string) | BoolC (b : bool).
Definition column := list cell.
Definition frame := list (string * column).
Definition names (f : frame) : list string := map fst f.
Definition lookup (c : string) (f : frame) : option column := option_map snd (find (fun p => String.eqb (fst p) c) f).
Definition mem (c : string) (l : list string) : bool := existsb (String.eqb c) l.
Fixpoint distinct (l : list string) : bool := match l with [] => true | a :: l' => negb (mem a l') && distinct l' end.
Definition expr := frame -> option frame.
Definition col_expr (c : string) : expr := fun f => option_map (fun v => [(c, v)]) (lookup c f).
(** pl.all().exclude(names) *)
Definition all_exclude (cols : list string) : expr := fun f => Some (filter (fun p => negb (mem (fst p) cols)) f).
Definition alias (e : expr) (n : string) : expr := fun f => match e f with Some [(_, v)] => Some [(n, v)] | _ => None end.
Fixpoint evals (es : list expr) (f : frame) : option frame :=
  match es with
  | [] => Some []
  | e :: es' => match e f, evals es' f with Some o, Some o' => Some (o ++ o') | _, _ => None end
  end.
(** polars DataFrame.select / with_columns; two outputs of one name are a DuplicateError. *)
Definition select (es : list expr) (f : frame) : option frame :=
  match evals es f with Some o => if distinct (names o) then Some o else None | None => None end.
Definition put (o f : frame) : frame :=
  map (fun p => match lookup (fst p) o with Some v => (fst p, v) | None => p end) f ++ filter (fun p => negb (mem (fst p) (names f))) o.
Definition with_columns (es : list expr) (f : frame) : option frame :=
  match evals es f with Some o => if distinct (names o) then Some (put o f) else None | None => None end.
Definition pick (m c : column) : column := map snd (filter (fun q => match fst q with BoolC true => true | _ => false end) (combine m c)).
Definition filter_by (e : expr) (f : frame) : option frame :=
  match e f with Some [(_, m)] => Some (map (fun p => (fst p, pick m (snd p))) f) | _ => None end.
Definition rename_all (g : string -> string) (f : frame) : option frame :=
  let o := map (fun p => (g (fst p), snd p)) f in if distinct (names o) then Some o else None.

(** _structures.py 38-55 PLContext and PipelineStep. *)
Inductive step := Select (es : list expr) | WithColumns (es : list expr) | Sql (s : string) | Filter (e : expr).
(** _structures.py 13-30 FitStep; [cols = None] calls the function without columns. *)
Record fit_step := { func : frame -> option (list string) -> option (list expr); cols : option expr; exclude : list string }.
Definition fit (fs : fit_step) (f : frame) : option (list expr) :=
  match cols fs with
  | None => func fs f None
  | Some e => match select [e] f with
              | Some o => func fs f (Some (filter (fun c => negb (mem c (exclude fs))) (names o)))
              | None => None
              end
  end.
Inductive bstep := Fit (fs : fit_step) | Plain (s : step).

Record blueprint := { b_df : frame; b_name : string; b_target : option string; b_in : list string; b_steps : list bstep;
  b_exclude : list string; b_lower : bool; b_upper : bool }.
(** pipeline.py 63-78 *)
Record pipeline := { p_name : string; p_target : option string; p_in : list string; p_out : list string; p_steps : list step;
  p_ensure_in : bool; p_ensure_out : bool; p_lower : bool; p_upper : bool }.

Section M.
Variables lower upper : string -> string.
Variable sql : string -> frame -> option frame.

(** _structures.py 92-101 apply_df *)
Definition apply_df (s : step) (f : frame) : option frame :=
  match s with
  | Select es => select es f
  | WithColumns es => with_columns es f
  | Sql q => sql q f
  | Filter e => filter_by e f
  end.
Fixpoint run (ss : list step) (f : frame) : option frame :=
  match ss with [] => Some f | s :: ss' => match apply_df s f with Some g => run ss' g | None => None end end.
Definition cased (l u : bool) (df : frame) : option frame :=
  if l then rename_all lower df else if u then rename_all upper df else Some df.
(** pipeline.py 278-330 Blueprint.__init__ *)
Definition new_blueprint (df : frame) (name : string) (target : option string) (excl : list string) (l u : bool) : option blueprint :=
  match cased l u df with
  | Some d => Some {| b_df := d; b_name := name; b_target := target; b_in := names d; b_steps := [];
                      b_exclude := match target with None => excl | Some t => t :: excl end; b_lower := l; b_upper := u |}
  | None => None
  end.
Definition add (b : blueprint) (ss : list bstep) : blueprint :=
  {| b_df := b_df b; b_name := b_name b; b_target := b_target b; b_in := b_in b; b_steps := b_steps b ++ ss;
     b_exclude := b_exclude b; b_lower := b_lower b; b_upper := b_upper b |}.
(** pipeline.py 624-634 drop (by names) and 636-651 rename. *)
Definition drop (b : blueprint) (cs : list string) : blueprint := add b [Plain (Select [all_exclude cs])].
Definition rename (b : blueprint) (d : list (string * string)) : blueprint :=
  drop (add b [Plain (WithColumns (map (fun kv => alias (col_expr (fst kv)) (snd kv)) d))]) (map fst d).
(** A step that is fitted: pipeline.py 404, 496, 513, 526, 615-621, 678-684 ... *)
Definition add_fit (b : blueprint) (fn : frame -> option (list string) -> option (list expr)) (e : expr) : blueprint :=
  add b [Fit {| func := fn; cols := Some e; exclude := b_exclude b |}].
(** pipeline.py 653-687 one_hot_encode: with [drop_cols] the columns given are dropped afterwards. *)
Definition one_hot_step (b : blueprint) (fn : frame -> option (list string) -> option (list expr)) (cs : list string) (drop_cols : bool) : blueprint :=
  let b' := add_fit b fn (fun f => evals (map col_expr cs) f) in if drop_cols then drop b' cs else b'.
(** pipeline.py 384-389 cast_bools; [cast] converts one boolean cell. *)
Definition cast_bools (b : blueprint) (is_bool : column -> bool) (cast : cell -> cell) : blueprint :=
  add b [Plain (WithColumns [fun f => Some (map (fun p => (fst p, map cast (snd p))) (filter (fun p => is_bool (snd p)) f))])].

(** pipeline.py 919-948 materialize *)
Fixpoint fit_all (ss : list bstep) (f : frame) : option (list step * frame) :=
  match ss with
  | [] => Some ([], f)
  | s :: ss' =>
    match s with
    | Fit fs => match fit fs f with
                | Some es => match with_columns es f with
                             | Some g => match fit_all ss' g with Some (ts, h) => Some (WithColumns es :: ts, h) | None => None end
                             | None => None
                             end
                | None => None
                end
    | Plain p => match apply_df p f with
                 | Some g => match fit_all ss' g with Some (ts, h) => Some (p :: ts, h) | None => None end
                 | None => None
                 end
    end
  end.
Definition materialize (b : blueprint) : option pipeline :=
  match fit_all (b_steps b) (b_df b) with
  | Some (ts, g) => Some {| p_name := b_name b; p_target := b_target b; p_in := b_in b; p_out := names g; p_steps := ts;
                            p_ensure_in := false; p_ensure_out := true; p_lower := b_lower b; p_upper := b_upper b |}
  | None => None
  end.
(** pipeline.py 200-216 ensure_features_io *)
Definition ensure_features_io (p : pipeline) (i o : bool) : pipeline :=
  {| p_name := p_name p; p_target := p_target p; p_in := p_in p; p_out := p_out p; p_steps := p_steps p; p_ensure_in := i; p_ensure_out := o;
     p_lower := p_lower p; p_upper := p_upper p |}.
(** pipeline.py 95-115 and 218-267 transform *)
Definition plan (p : pipeline) (df : frame) : option frame :=
  if p_ensure_in p && negb (forallb (fun c => mem c (p_in p)) (names df) && forallb (fun c => mem c (names df)) (p_in p)) then None
  else match cased (p_lower p) (p_upper p) df with
       | Some f => match run (p_steps p) f with
                   | Some g => if p_ensure_out p then select (map col_expr (p_out p)) g else Some g
                   | None => None
                   end
       | None => None
       end.
Definition transform := plan.
Definition transform_separate (p : pipeline) (df : frame) : option (frame * frame) :=
  match plan p df, p_target p with
  | Some g, Some t => match select [all_exclude [t]] g, select [col_expr t] g with Some x, Some y => Some (x, y) | _, _ => None end
  | _, _ => None
  end.
(** pipeline.py 950-971 *)
Definition blueprint_transform (b : blueprint) (df : frame) : option frame :=
  match materialize b with Some p => transform p df | None => None end.
End M.

(** JSON trees. *)
Inductive json := JNull | JBool (b : bool) | JStr (s : string) | JList (l : list json) | JObj (kv : list (string * json)).
Definition key (k : string) (j : json) : option json :=
  match j with JObj kv => option_map snd (find (fun p => String.eqb (fst p) k) kv) | _ => None end.
Fixpoint traverse {A B} (g : A -> option B) (l : list A) : option (list B) :=
  match l with [] => Some [] | a :: l' => match g a, traverse g l' with Some b, Some l'' => Some (b :: l'') | _, _ => None end end.
Definition as_str (j : json) : option string := match j with JStr s => Some s | _ => None end.
Definition as_bool (j : json) : option bool := match j with JBool b => Some b | _ => None end.
Definition as_list (j : json) : option (list json) := match j with JList l => Some l | _ => None end.
Definition as_opt_str (j : json) : option (option string) := match j with JNull => Some None | JStr s => Some (Some s) | _ => None end.
Definition obind {A B} (o : option A) (g : A -> option B) : option B := match o with Some a => g a | None => None end.

Section J.
(** polars' Expr.meta.serialize and Expr.deserialize. *)
Variable ser : expr -> string.
Variable deser : string -> option expr.

(** _structures.py 74-90 to_json and 57-69 from_json *)
Definition step_to_json (s : step) : json :=
  match s with
  | Select es => JObj [("context"%string, JStr "select"); ("action"%string, JList (map (fun e => JStr (ser e)) es))]
  | WithColumns es => JObj [("context"%string, JStr "with_columns"); ("action"%string, JList (map (fun e => JStr (ser e)) es))]
  | Sql q => JObj [("context"%string, JStr "sql"); ("action"%string, JStr q)]
  | Filter e => JObj [("context"%string, JStr "filter"); ("action"%string, JStr (ser e))]
  end.
Definition step_from_json (j : json) : option step :=
  obind (key "context" j) (fun c => obind (as_str c) (fun c => obind (key "action" j) (fun a =>
    if String.eqb c "select" then obind (as_list a) (fun l => option_map Select (traverse (fun x => obind (as_str x) deser) l))
    else if String.eqb c "with_columns" then obind (as_list a) (fun l => option_map WithColumns (traverse (fun x => obind (as_str x) deser) l))
    else if String.eqb c "sql" then option_map Sql (as_str a)
    else if String.eqb c "filter" then obind (as_str a) (fun s => option_map Filter (deser s))
    else None))).
(** pipeline.py 117-131 to_dict and 154-184 from_dict *)
Definition to_dict (p : pipeline) : json :=
  JObj [("name"%string, JStr (p_name p)); ("target"%string, match p_target p with Some t => JStr t | None => JNull end);
        ("feature_names_in_"%string, JList (map JStr (p_in p))); ("feature_names_out_"%string, JList (map JStr (p_out p)));
        ("transforms"%string, JList (map step_to_json (p_steps p))); ("ensure_features_in"%string, JBool (p_ensure_in p));
        ("ensure_features_out"%string, JBool (p_ensure_out p)); ("lowercase"%string, JBool (p_lower p)); ("uppercase"%string, JBool (p_upper p))].
Definition flag (k : string) (j : json) : option bool := match key k j with None => Some false | Some v => as_bool v end.
Definition from_dict (j : json) : option pipeline :=
  obind (obind (key "name" j) as_str) (fun n => obind (obind (key "transforms" j) as_list) (fun ts =>
  obind (obind (key "target" j) as_opt_str) (fun t =>
  obind (obind (obind (key "feature_names_in_" j) as_list) (traverse as_str)) (fun i =>
  obind (obind (obind (key "feature_names_out_" j) as_list) (traverse as_str)) (fun o =>
  obind (obind (key "ensure_features_in" j) as_bool) (fun ei => obind (obind (key "ensure_features_out" j) as_bool) (fun eo =>
  obind (flag "lowercase" j) (fun l => obind (flag "uppercase" j) (fun u =>
  obind (traverse step_from_json ts) (fun ss =>
  Some {| p_name := n; p_target := t; p_in := i; p_out := o; p_steps := ss; p_ensure_in := ei; p_ensure_out := eo; p_lower := l; p_upper := u |})))))))))).
End J.
