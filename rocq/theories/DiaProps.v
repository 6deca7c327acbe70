(** Property C113: what the data inspection assistant (DIA) reports about a frame.  Vocabulary: DiaSpec.v. *)
From Coq Require Import String Bool List Arith ZArith QArith Sorted Permutation Lia.
From Verif Require Import DiaModel DiaSpec DiaProofs DiaProofs2.
Import ListNotations.
Open Scope string_scope.
Open Scope nat_scope.
Open Scope list_scope.

(** Every column is listed once, in one group or among the other types. *)
Theorem C113_types : forall (V : Type) (f : frame V), NoDup (map name f) -> Permutation (simple_types f ++ other_types f) (map name f).
Proof. intros V. exact types. Qed.
Print Assumptions C113_types.
Definition demo : frame nat :=
  [Build_column "a" DInt [Some 1; None; Some 1]; Build_column "b" DBool [Some 0; Some 1; Some 0]; Build_column "c" DStr [Some 1; Some 2; Some 3];
   Build_column "d" DOther [None; None; None]].
Example C113_demo : NoDup (map name demo) /\ simple_types demo = ["a"; "c"; "b"] /\ other_types demo = ["d"] /\
  infer_k_distinct Nat.eq_dec 3 false demo = Value ["c"].
Proof. split; [apply has_dup_iff; reflexivity|]. repeat split. Qed.

(** infer_high_null: the share of nulls is at least the threshold ... *)
Theorem C113_high_null : forall (V : Type) (t : Q) (f : frame V),
  chosen name (fun c => (inject_Z (Z.of_nat (length (vals c))) * t <= inject_Z (Z.of_nat (nulls (vals c))))%Q) f (infer_high_null t f).
Proof. intros V. exact high_null. Qed.
Print Assumptions C113_high_null.
(** ... so a column that does not have more than the threshold is reported. *)
Theorem C113_high_null_refuted : exists (f : frame nat) (c : column nat) (t : Q), In c f /\ In (name c) (infer_high_null t f) /\
  ~ (inject_Z (Z.of_nat (length (vals c))) * t < inject_Z (Z.of_nat (nulls (vals c))))%Q.
Proof. exists [Build_column "a" DInt [Some 1; None; None; None]], (Build_column "a" DInt [Some 1; None; None; None]), (3 # 4)%Q.
  split; [now left|]. split; [now left|]. cbn. intro H. vm_compute in H. discriminate. Qed.
Print Assumptions C113_high_null_refuted.

(** infer_k_distinct (infer_const, infer_binary: k = 1, 2) on columns without nulls. *)
Theorem C113_k_distinct_partial : forall (V : Type) veq k b (f : frame V), (1 <= k)%Z -> Forall (fun c => ~ In None (vals c)) f ->
  exists o, infer_k_distinct veq k b f = Value o /\ chosen name (fun c => distinct (known (vals c)) (Z.to_nat k)) f o.
Proof. intros V veq. exact (k_full veq). Qed.
Print Assumptions C113_k_distinct_partial.
(** In general null is one more value; with include_null a column with k known values and nulls is reported as well. *)
Theorem C113_k_distinct_any : forall (V : Type) veq k (f : frame V), (1 <= k)%Z ->
  (exists o, infer_k_distinct veq k false f = Value o /\ chosen name (fun c => distinct (vals c) (Z.to_nat k)) f o) /\
  (exists o, infer_k_distinct veq k true f = Value o /\
     chosen name (fun c => distinct (vals c) (Z.to_nat k) \/ In None (vals c) /\ distinct (known (vals c)) (Z.to_nat k)) f o).
Proof. intros V veq. exact (k_out veq). Qed.
Print Assumptions C113_k_distinct_any.
Theorem C113_const_binary : forall (V : Type) veq b (f : frame V),
  infer_k_distinct veq 1 b f = Value (infer_const veq b f) /\ infer_k_distinct veq 2 b f = Value (infer_binary veq b f) /\
  forall k, (k < 1)%Z -> infer_k_distinct veq k b f = Raise.
Proof. intros V veq b f. exact (conj (const_k veq b f) (conj (binary_k veq b f) (fun k => k_bad veq k b f))). Qed.
Print Assumptions C113_const_binary.
(** A column with a single known value and a null is reported as binary, whether nulls are to be included or not. *)
Theorem C113_binary_refuted : exists (f : frame nat) (c : column nat), In c f /\ distinct (known (vals c)) 1 /\
  forall b, In (name c) (infer_binary Nat.eq_dec b f).
Proof.
  exists demo, (Build_column "a" DInt [Some 1; None; Some 1]). split; [now left|]. split.
  - exists [1]. split; [repeat constructor; tauto|]. split; [cbn; tauto|easy].
  - intros []; now left.
Qed.
Print Assumptions C113_binary_refuted.

(** infer_discrete: among the columns that are neither boolean nor categorical. *)
Theorem C113_discrete_partial : forall (V : Type) veq (t : Q) m (f : frame V), NoDup (map name f) ->
  chosen name (fun c => ty c <> DBool /\ ty c <> DCat /\ exists d, distinct (vals c) d /\
     (d < m \/ (inject_Z (Z.of_nat d) < t * inject_Z (Z.of_nat (length (vals c))))%Q)) f (infer_discrete veq t m f).
Proof. intros V veq. exact (discrete veq). Qed.
Print Assumptions C113_discrete_partial.
(** No boolean or categorical column is ever reported as discrete; a column with more than max_val_cnt values can be. *)
Theorem C113_discrete_refuted :
  (exists (f : frame nat) c, In c f /\ ty c = DBool /\ distinct (vals c) 2 /\ ~ In (name c) (infer_discrete Nat.eq_dec (1 # 10) 100 f)) /\
  (exists (f : frame nat) c m d, In c f /\ distinct (vals c) d /\ m < d /\ In (name c) (infer_discrete Nat.eq_dec 1 m f)).
Proof.
  split.
  - exists demo, (Build_column "b" DBool [Some 0; Some 1; Some 0]). split; [right; now left|]. split; [easy|]. split; [now apply (n_unique_iff Nat.eq_dec)|].
    cbv. intuition discriminate.
  - exists demo, (Build_column "a" DInt [Some 1; None; Some 1]), 1, 2. split; [now left|]. split; [now apply (n_unique_iff Nat.eq_dec)|]. split; [lia|]. now left.
Qed.
Print Assumptions C113_discrete_refuted.

(** col_validation: one rule per column. *)
Theorem C113_col_validation_partial : forall rules, NoDup (map (fun r => fst (fst r)) rules) ->
  exists out, col_validation rules = Value out /\ forall c m, In (c, m) out <-> In (c, Some false, m) rules.
Proof. exact col_ok. Qed.
Print Assumptions C113_col_validation_partial.
Theorem C113_col_validation_refuted : (forall rules, ~ NoDup (map (fun r => fst (fst r)) rules) -> col_validation rules = Raise) /\
  col_validation [("a", Some true, "no nulls"); ("a", Some false, "positive")] = Raise.
Proof. exact (conj col_dup eq_refl). Qed.
Print Assumptions C113_col_validation_refuted.
Example C113_col_case : col_validation [("a", Some true, "no nulls"); ("b", Some false, "positive"); ("c", None, "sorted")] = Value [("b", "positive")].
Proof. reflexivity. Qed.

(** row_validation reports exactly the rows on which some rule is false, in order, with the first such rule; with all_reasons it
    lists the rules that are not true (false or null). *)
Theorem C113_row_validation : forall (I : Type) (keep : list string) (ids : list I) rules,
  NoDup (keep ++ map fst rules) -> Forall (fun r => length (snd r) = length ids) rules ->
  exists idxs, StronglySorted lt idxs /\ (forall i, In i idxs <-> i < length ids /\ exists r, In r rules /\ fails i r) /\
  (exists out, row_validation keep ids rules false = Value out /\
     Forall2 (fun i e => nth_error ids i = Some (fst e) /\ exists s, snd e = One (Some s) /\ first_failing i rules s) idxs out) /\
  (exists out, row_validation keep ids rules true = Value out /\
     Forall2 (fun i e => nth_error ids i = Some (fst e) /\ exists l, snd e = All l /\ names_of (not_true i) rules l) idxs out).
Proof. intros I. exact rows_ok. Qed.
Print Assumptions C113_row_validation.
Theorem C113_reasons_partial : forall i rules l, (forall r, In r rules -> nth_error (snd r) i <> Some None) ->
  names_of (not_true i) rules l -> names_of (fails i) rules l.
Proof. exact names_exact. Qed.
Print Assumptions C113_reasons_partial.
Definition rules2 := [("y", [Some true; None; Some false]); ("x", [Some true; Some false; Some false]); ("w", [None; Some true; Some false])].
Example C113_row_case : NoDup (["id"] ++ map fst rules2) /\
  row_validation ["id"] [10; 20; 30] rules2 false = Value [(20, One (Some "x")); (30, One (Some "y"))] /\
  row_validation ["id"] [10; 20; 30] rules2 true = Value [(20, All ["x"; "y"]); (30, All ["w"; "x"; "y"])].
Proof. split; [apply has_dup_iff; reflexivity|]. split; reflexivity. Qed.
(** A rule that is null on a row is no reason to report the row, but is listed as a reason when the row is reported. *)
Theorem C113_reasons_refuted : exists rules i out l, row_validation ["id"] [10; 20; 30] rules true = Value out /\
  In (nth i [10; 20; 30] 0, All l) out /\ exists s r, In s l /\ In r rules /\ fst r = s /\ ~ fails i r /\
  (forall r', In r' rules -> fst r' = s -> r' = r).
Proof.
  exists rules2, 1. eexists _, ["x"; "y"]. split; [reflexivity|]. split; [now left|]. exists "y", ("y", [Some true; None; Some false]).
  split; [right; now left|]. split; [now left|]. split; [easy|]. split; [discriminate|]. intros r' [<-|[<-|[<-|[]]]]; easy.
Qed.
Print Assumptions C113_reasons_refuted.
(** Rule names must be new. *)
Theorem C113_row_names : forall (I : Type) (keep : list string) (ids : list I) rules, ~ NoDup (keep ++ map fst rules) ->
  forall b, row_validation keep ids rules b = Raise.
Proof. intros I. exact row_dup. Qed.
Print Assumptions C113_row_names.

(** infer_prob: float columns are checked in full; of a column of lists only the first row is. *)
Theorem C113_prob_partial : forall fs ls h, (fs <> [] \/ ls <> []) -> (ls <> [] -> 0 < h) -> exists a b,
  infer_prob fs ls h = Value (a ++ b) /\
  chosen fst (fun c => Forall (fun x => exists q, x = Val q /\ (0 <= q <= 1)%Q) (known (snd c))) fs a /\
  chosen fst (fun c => exists l, nth 0 (snd c) None = Some l /\ class_probs l /\ one_length (snd c)) ls b.
Proof. exact prob_out. Qed.
Print Assumptions C113_prob_partial.
Definition good_list : list (option fl) := [Some (Val (1 # 4)); Some (Val (3 # 4))].
Definition bad_list : list (option fl) := [Some (Val (-3 # 1)); Some (Val (9 # 1))].
Theorem C113_prob_refuted :
  (exists c l, infer_prob [] [c] 2 = Value [fst c] /\ In (Some l) (snd c) /\ ~ class_probs l) /\
  (exists c, infer_prob [] [c] 2 = Value [] /\ Forall class_probs (known (snd c)) /\ known (snd c) <> [] /\ one_length (snd c)) /\
  infer_prob [] [] 5 = Raise.
Proof.
  split; [|split; [|easy]].
  - exists ("p", [Some good_list; Some bad_list]), bad_list. split; [reflexivity|]. split; [right; now left|]. intros [F _]. inversion F as [|? ? (q & E & H) _]; subst.
    injection E as <-. vm_compute in H. now apply H.
  - exists ("p", [None; Some good_list]). split; [reflexivity|]. split; [|split; [discriminate|exists 2; repeat constructor]]. constructor; [|constructor].
    apply prob_list_iff. reflexivity.
Qed.
Print Assumptions C113_prob_refuted.
(** A column of class probabilities of one length is found when its first row is known. *)
Theorem C113_prob_found : forall fs nm v rest h l, 0 < h -> nth 0 v None = Some l -> Forall class_probs (known v) -> one_length v ->
  exists a b, infer_prob fs ((nm, v) :: rest) h = Value (a ++ nm :: b).
Proof. exact prob_found. Qed.
Print Assumptions C113_prob_found.

(** Cached answers: every call of a history is answered as if computed, whatever the cache drops ... *)
Theorem C113_cache_partial : forall (Key : Type) keq (compute : Key -> list string) h,
  Forall (fun o => exists k keep, o = Call k keep) h ->
  Forall2 (fun o a => forall k keep, o = Call k keep -> a = Some (compute k)) h (answers keq compute [] h).
Proof. intros Key keq compute h. exact (calls_ok keq compute h [] (fun k v f => match f with end)). Qed.
Print Assumptions C113_cache_partial.
(** ... unless the caller changes a list it was given. *)
Theorem C113_cache_refuted : exists (compute : nat -> list string) h, 
  answers Nat.eq_dec compute [] (h ++ [Call 1 (fun _ => true)]) <> answers Nat.eq_dec compute [] h ++ [Some (compute 1)].
Proof. exists (fun _ => ["a"; "b"]), [Call 1 (fun _ => true); Change 1 (fun l => "target" :: l)]. discriminate. Qed.
Print Assumptions C113_cache_refuted.
