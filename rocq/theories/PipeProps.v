(** C100: blueprints and pipelines. *)
From Coq Require Import Reals String Bool.
From Coq Require Import List.
From Verif Require Import MetricSpec PipeModel PipeSpec PipeProofs TtestModel.
Import ListNotations.

(** Transforming the training frame with the fitted pipeline gives what fitting saw, and its columns are the declared ones. *)
Theorem C100_fit_transform : forall lower upper sql df name t ex l u steps, sql_ok sql -> proper df ->
  forall b, new_blueprint lower upper df name t ex l u = Some b ->
  exists d, recased lower upper l u df d /\
    (forall p, materialize sql (add b steps) = Some p ->
       exists g, reaches sql steps d g /\ transform lower upper sql p df = Some g /\ p_out p = names g /\ p_target p = t /\ p_in p = names d) /\
    (forall g, reaches sql steps d g -> exists p, materialize sql (add b steps) = Some p).
Proof. exact fit_transform. Qed.
Print Assumptions C100_fit_transform.
(** A blueprint holds its frame with the names in the case asked for; it is refused exactly when two names then clash. *)
Theorem C100_casing : forall lower upper df name t ex l u, proper df ->
  (forall b, new_blueprint lower upper df name t ex l u = Some b -> recased lower upper l u df (b_df b) /\ b_in b = names (b_df b)) /\
  ((exists b, new_blueprint lower upper df name t ex l u = Some b) <-> exists d, recased lower upper l u df d) /\
  ((exists d, recased lower upper l u df d) <-> NoDup (map (fun x => if l then lower x else if u then upper x else x) (names df))).
Proof. exact casing_thm. Qed.
Print Assumptions C100_casing.
(** Whatever frame is transformed, the output has exactly the columns seen at fitting, in that order. *)
Theorem C100_output_columns : forall lower upper sql p df g, p_ensure_out p = true -> transform lower upper sql p df = Some g -> names g = p_out p.
Proof. exact out_names. Qed.
Print Assumptions C100_output_columns.
(** Checking the input: refused if columns are missing or extra, otherwise no effect. *)
Theorem C100_ensure_in : forall lower upper sql p df, p_ensure_in p = true ->
  ((exists c, In c (names df) /\ ~ In c (p_in p)) \/ (exists c, In c (p_in p) /\ ~ In c (names df)) -> transform lower upper sql p df = None) /\
  ((forall c, In c (names df) <-> In c (p_in p)) -> transform lower upper sql p df = transform lower upper sql (ensure_features_io p false (p_ensure_out p)) df).
Proof. exact ensure_in_iff. Qed.
Print Assumptions C100_ensure_in.
(** With lower-cased names the check refuses the training frame itself. *)
Theorem C100_ensure_in_cased_refuted : exists df b p, new_blueprint lowercase lowercase df "p" None [] true false = Some b /\
  materialize (fun _ _ => None) b = Some p /\ transform lowercase lowercase (fun _ _ => None) p df <> None /\
  transform lowercase lowercase (fun _ _ => None) (ensure_features_io p true true) df = None.
Proof. exact ensure_in_cased. Qed.
Print Assumptions C100_ensure_in_cased_refuted.
(** Fitted steps that write only the columns given to them leave the target alone. *)
Theorem C100_target_kept : forall sql ss t f g, reaches sql ss f g -> Forall (protects t) ss -> lookup t g = lookup t f.
Proof. exact target_kept. Qed.
Print Assumptions C100_target_kept.
(** But one_hot_encode drops it, and lower-casing the names or cast_bools lets it change. *)
Theorem C100_target_dropped_refuted : exists df b p g, new_blueprint lowercase lowercase df "p" (Some "y"%string) [] false false = Some b /\
  materialize (fun _ _ => None) (one_hot_step b (fun _ cs => match cs with Some cs => Some (map col_expr cs) | None => None end) ["x"; "y"]%string true) = Some p /\
  transform lowercase lowercase (fun _ _ => None) p df = Some g /\ In "y"%string (names df) /\ ~ In "y"%string (names g).
Proof. exact one_hot_drops. Qed.
Print Assumptions C100_target_dropped_refuted.
Theorem C100_target_cased_refuted : forall fn,
  (forall f cs, fn f (Some cs) = Some (map (fun c => alias (fun g => option_map (fun v => [(c, map (fun _ => Null) v)]) (lookup c g)) c) cs)) ->
  writes_only fn /\ exists df b p g, new_blueprint lowercase lowercase df "p" (Some "Y"%string) [] true false = Some b /\
  materialize (fun _ _ => None) (add_fit b fn (all_exclude [])) = Some p /\ transform lowercase lowercase (fun _ _ => None) p df = Some g /\
  lookup "Y" df = Some [Num (Fin 1)] /\ lookup "y" g = Some [Null].
Proof. exact lower_unprotected. Qed.
Print Assumptions C100_target_cased_refuted.
Theorem C100_target_cast_refuted : exists df b p g, new_blueprint lowercase lowercase df "p" (Some "y"%string) [] false false = Some b /\
  materialize (fun _ _ => None) (cast_bools b (fun _ => true) (fun _ => Num (Fin 1))) = Some p /\
  transform lowercase lowercase (fun _ _ => None) p df = Some g /\ lookup "y" df = Some [BoolC true] /\ lookup "y" g = Some [Num (Fin 1)].
Proof. exact cast_changes. Qed.
Print Assumptions C100_target_cast_refuted.
(** Separating features and target loses nothing. *)
Theorem C100_separate : forall lower upper sql p df g t, transform lower upper sql p df = Some g -> proper g -> p_target p = Some t ->
  (In t (names g) -> exists x y v, transform_separate lower upper sql p df = Some (x, y) /\ names x = filter (fun c => negb (String.eqb c t)) (names g) /\
     (forall c, c <> t -> lookup c x = lookup c g) /\ lookup t g = Some v /\ y = [(t, v)]) /\
  (~ In t (names g) -> transform_separate lower upper sql p df = None).
Proof. exact separate_thm. Qed.
Print Assumptions C100_separate.
(** Renaming to names not in use keeps all the data. *)
Theorem C100_rename : forall sql b d f, proper f -> b_df b = f -> b_steps b = [] -> incl (map fst d) (names f) -> NoDup (map snd d) ->
  (forall v, In v (map snd d) -> ~ In v (names f)) ->
  exists p g, materialize sql (rename b d) = Some p /\ reaches sql (b_steps (rename b d)) f g /\
    (forall k v, In (k, v) d -> lookup v g = lookup k f) /\
    (forall c, In c (names f) -> ~ In c (map fst d) -> lookup c g = lookup c f) /\
    (forall c, In c (names g) <-> In c (map snd d) \/ (In c (names f) /\ ~ In c (map fst d))).
Proof. exact rename_thm. Qed.
Print Assumptions C100_rename.
(** Exchanging two names loses both columns. *)
Theorem C100_rename_refuted : exists df b p g, new_blueprint lowercase lowercase df "p" None [] false false = Some b /\
  materialize (fun _ _ => None) (rename b [("a", "b"); ("b", "a")]%string) = Some p /\ transform lowercase lowercase (fun _ _ => None) p df = Some g /\
  names df = ["a"; "b"; "c"]%string /\ names g = ["c"%string].
Proof. exact rename_swap. Qed.
Print Assumptions C100_rename_refuted.
(** Saving and loading a pipeline gives the same pipeline, if polars reads back the expressions it wrote. *)
Theorem C100_json : forall ser deser p, (forall s e, In s (p_steps p) -> In e (step_exprs s) -> deser (ser e) = Some e) ->
  from_dict deser (to_dict ser p) = Some p.
Proof. exact json_thm. Qed.
Print Assumptions C100_json.
Theorem C100_json_old : forall deser n t i o ts ei eo p, from_dict deser (JObj [("name"%string, n); ("target"%string, t); ("feature_names_in_"%string, i);
   ("feature_names_out_"%string, o); ("transforms"%string, ts); ("ensure_features_in"%string, ei); ("ensure_features_out"%string, eo)]) = Some p ->
   p_lower p = false /\ p_upper p = false.
Proof. exact json_old. Qed.
Print Assumptions C100_json_old.
(** Transforming in batches gives the same rows as transforming all at once, if every step works row by row. *)
Theorem C100_batches : forall lower upper sql p f g h k o o', Forall rowwise_step (p_steps p) -> names f = names g -> height h f -> height k g ->
  transform lower upper sql p f = Some o -> transform lower upper sql p g = Some o' ->
  transform lower upper sql p (vstack f g) = Some (vstack o o').
Proof. exact batch_thm. Qed.
Print Assumptions C100_batches.
Theorem C100_rowwise : (forall c, rowwise (col_expr c)) /\ (forall cs, rowwise (all_exclude cs)) /\ (forall e n, rowwise e -> rowwise (alias e n)).
Proof. exact (conj col_rw (conj exclude_rw alias_rw)). Qed.
Print Assumptions C100_rowwise.
Example C100_case : let df := [("A"%string, [Num (Fin 1); Null]); ("y"%string, [BoolC true; BoolC false])] in
  exists b p, new_blueprint lowercase lowercase df "p" (Some "y"%string) [] true false = Some b /\ proper df /\ sql_ok (fun _ _ => None) /\
    materialize (fun _ _ => None) (add b [Fit {| func := fun f cs => option_map (map col_expr) cs; cols := Some (all_exclude []); exclude := b_exclude b |};
      Plain (Filter (col_expr "y"))]) = Some p /\
    transform lowercase lowercase (fun _ _ => None) p df = Some [("a"%string, [Num (Fin 1)]); ("y"%string, [BoolC true])] /\
    Forall rowwise_step (p_steps p) /\ (forall deser ser, (forall e, deser (ser e) = Some e) -> from_dict deser (to_dict ser p) = Some p).
Proof. exact demo_pipe. Qed.
