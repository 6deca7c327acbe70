(** Proofs about the model of partition.py. *)
From Coq Require Import String Ascii.
From Coq Require Import Bool List Arith ZArith Lia Permutation.
From Verif Require Import KdProofs SplitModel SplitSpec.
Import ListNotations.
Open Scope nat_scope.

Section Dict.
Context {V : Type}.
Lemma dict_set_new (d : list (string * V)) n v : ~ In n (map fst d) -> dict_set d n v = d ++ [(n, v)].
Proof.
  induction d as [|[m w] d IH]; cbn; [reflexivity|]. intros H.
  destruct (string_dec m n); [destruct H; now left|]. rewrite IH; [reflexivity|]. tauto.
Qed.
Lemma fold_set_new {T} (f : T -> string) (g : T -> V) : forall (l : list T) d, NoDup (map fst d ++ map f l) ->
  fold_left (fun d x => dict_set d (f x) (g x)) l d = d ++ map (fun x => (f x, g x)) l.
Proof.
  induction l as [|x l IH]; intros d H; cbn; [now rewrite app_nil_r|]. cbn in H.
  rewrite dict_set_new.
  - rewrite IH; [now rewrite <- app_assoc|]. rewrite map_app. cbn. rewrite <- app_assoc. exact H.
  - apply NoDup_remove_2 in H. rewrite in_app_iff in H. tauto.
Qed.
Lemma dict_get_in (d : list (string * V)) n v : NoDup (map fst d) -> In (n, v) d -> dict_get d n = Some v.
Proof.
  induction d as [|[m w] d IH]; cbn; [intros _ []|]. intros H [E|I].
  - injection E as -> ->. destruct (string_dec n n); [reflexivity|contradiction].
  - inversion H; subst. destruct (string_dec m n) as [->|]; [|now apply IH].
    destruct H2. apply in_map_iff. now exists (n, v).
Qed.
Lemma dict_get_none (d : list (string * V)) n : ~ In n (map fst d) -> dict_get d n = None.
Proof. induction d as [|[m w] d IH]; cbn; [reflexivity|]. intros H. destruct (string_dec m n); [destruct H; now left|]. apply IH. tauto. Qed.
End Dict.

Section Part.
Context {A : Type} (key : A -> list cell).
Definition same (k : list cell) (a : A) : bool := if kdec (key a) k then true else false.
Lemma first_seen_in l k : In k (first_seen l) <-> In k l.
Proof. unfold first_seen. rewrite <- in_rev, nodup_In, <- in_rev. reflexivity. Qed.
Lemma first_seen_nodup l : NoDup (first_seen l).
Proof. unfold first_seen. apply NoDup_rev, NoDup_nodup. Qed.
Lemma same_true k a : same k a = true <-> key a = k.
Proof. unfold same. destruct (kdec (key a) k); split; congruence. Qed.

Lemma groups_perm : forall ks (df : list A), NoDup ks -> (forall a, In a df -> In (key a) ks) ->
  Permutation (concat (map (fun k => filter (same k) df) ks)) df.
Proof.
  intros ks df ND. induction df as [|a df IH]; intros H.
  - assert (E : concat (map (fun k => filter (same k) (@nil A)) ks) = []) by (clear; induction ks; cbn; auto). now rewrite E.
  - assert (I : In (key a) ks) by (apply H; now left). apply in_split in I. destruct I as (l1 & l2 & E).
    specialize (IH (fun b Hb => H b (or_intror Hb))).
    assert (X : forall l, ~ In (key a) l -> map (fun k => filter (same k) (a :: df)) l = map (fun k => filter (same k) df) l).
    { intros l Hl. apply map_ext_in. intros k Ik. cbn. destruct (same k a) eqn:S; [|reflexivity].
      apply same_true in S. subst. contradiction. }
    rewrite E in ND. apply NoDup_remove_2 in ND. rewrite in_app_iff in ND.
    rewrite E in IH |- *. rewrite map_app, concat_app in IH |- *. cbn [map concat] in IH |- *.
    rewrite !X by tauto. cbn [filter]. rewrite (proj2 (same_true (key a) a) eq_refl).
    cbn [app]. rewrite <- Permutation_middle. apply perm_skip. exact IH.
Qed.

Context (sep : string).
Notation name := (part_name sep).
Definition names_distinct (df : list A) : Prop := forall a b, In a df -> In b df -> name (key a) = name (key b) -> key a = key b.
Lemma parts_eq df : names_distinct df ->
  parts sep key df = map (fun k => (name k, filter (same k) df)) (first_seen (map key df)) /\
  NoDup (map name (first_seen (map key df))).
Proof.
  intros D.
  assert (ND : NoDup (map name (first_seen (map key df)))).
  { assert (DI : forall k k', In k (first_seen (map key df)) -> In k' (first_seen (map key df)) -> name k = name k' -> k = k').
    { intros k k' I I' E. apply first_seen_in, in_map_iff in I, I'. destruct I as (a & <- & Ia), I' as (b & <- & Ib). now apply D. }
    pose proof (first_seen_nodup (map key df)) as N. revert DI N. generalize (first_seen (map key df)) as l.
    induction l as [|k l IH]; intros DI N; cbn; [constructor|]. inversion N; subst. constructor.
    - intros I. apply in_map_iff in I. destruct I as (k' & E & I). apply DI in E; [subst; contradiction|now right|now left].
    - apply IH; [|assumption]. intros x y Ix Iy. apply DI; now right. }
  split; [|exact ND]. unfold parts.
  rewrite (fold_set_new (fun kv => name (fst kv)) (fun kv => snd kv)).
  - unfold partition_by. rewrite map_map. reflexivity.
  - unfold partition_by. rewrite map_map. exact ND.
Qed.
Lemma parts_ok df : names_distinct df ->
  let ps := parts sep key df in
  NoDup (map fst ps) /\
  (forall a, In a df -> dict_get ps (name (key a)) = Some (filter (same (key a)) df)) /\
  (forall nm rows, dict_get ps nm = Some rows -> exists a, In a df /\ nm = name (key a)) /\
  Permutation (concat (map snd ps)) df.
Proof.
  intros D ps. destruct (parts_eq df D) as [E ND]. fold ps in E.
  assert (NF : NoDup (map fst ps)) by (rewrite E, map_map; exact ND).
  split; [exact NF|]. split; [|split].
  - intros a Ia. apply dict_get_in; [exact NF|]. rewrite E. apply in_map_iff. exists (key a). split; [reflexivity|].
    apply first_seen_in, in_map, Ia.
  - intros nm rows G. destruct (in_dec string_dec nm (map fst ps)) as [I|N].
    + rewrite E, map_map in I. apply in_map_iff in I. destruct I as (k & <- & I). apply first_seen_in, in_map_iff in I.
      destruct I as (a & <- & Ia). now exists a.
    + rewrite dict_get_none in G by exact N. discriminate.
  - rewrite E, map_map. cbn [snd]. apply groups_perm; [apply first_seen_nodup|]. intros a Ia. apply first_seen_in, in_map, Ia.
Qed.
End Part.

(** * When the names are distinct *)
Lemma append_sep_inj c : forall x x' r r', ~ has c x -> ~ has c x' ->
  append x (String c r) = append x' (String c r') -> x = x' /\ r = r'.
Proof.
  induction x as [|d x IH]; intros [|d' x'] r r' H H' E; cbn in *.
  - injection E as ->. now split.
  - injection E as <- _. tauto.
  - injection E as -> _. tauto.
  - injection E as <- E. destruct (IH x' r r') as [-> ->]; tauto.
Qed.
Lemma concat_inj c : forall l l', length l = length l' -> Forall (fun s => ~ has c s) l -> Forall (fun s => ~ has c s) l' ->
  String.concat (String c "") l = String.concat (String c "") l' -> l = l'.
Proof.
  induction l as [|x l IH]; intros [|x' l'] L F F' E; try discriminate; [reflexivity|].
  inversion F; inversion F'; subst. cbn in L. injection L as L.
  destruct l as [|y l], l' as [|y' l']; try discriminate.
  - cbn in E. now subst.
  - change (append x (String c (String.concat (String c "") (y :: l))) = append x' (String c (String.concat (String c "") (y' :: l')))) in E.
    apply append_sep_inj in E; [|assumption|assumption]. destruct E as [-> E]. f_equal. apply IH; [exact L|assumption|assumption|exact E].
Qed.
Lemma names_distinct_sep {A} (key : A -> list cell) c (df : list A) :
  (forall a b, In a df -> In b df -> length (key a) = length (key b)) ->
  (forall a x, In a df -> In x (key a) -> ~ has c (py_str x)) ->
  (forall a b i x y, In a df -> In b df -> nth_error (key a) i = Some x -> nth_error (key b) i = Some y -> py_str x = py_str y -> x = y) ->
  names_distinct key (String c "") df.
Proof.
  intros HL HS HI a b Ia Ib E. unfold part_name in E.
  apply concat_inj in E.
  - specialize (HI a b). specialize (HL a b Ia Ib). revert E HL. assert (HI' := fun i x y => HI i x y Ia Ib). clear HI. revert HI'.
    generalize (key a) as k, (key b) as k'. clear. induction k as [|x k IH]; intros [|y k'] HI E L; try discriminate; [reflexivity|].
    cbn in E. injection E as E1 E2. f_equal; [apply (HI 0 x y eq_refl eq_refl E1)|].
    apply IH; [intros i; apply (HI (S i))|exact E2|now injection L].
  - rewrite !map_length. now apply HL.
  - apply Forall_map, Forall_forall. intros x Ix. now apply (HS a).
  - apply Forall_map, Forall_forall. intros x Ix. now apply (HS b).
Qed.

(** * apply *)
Lemma apply_ok {A B} (func : string -> list A -> option B) (ps : list (string * list A)) : NoDup (map fst ps) ->
  forall nm, dict_get (apply_parts func ps) nm = match dict_get ps nm with Some rows => func nm rows | None => None end.
Proof.
  intros N nm. unfold apply_parts.
  assert (G : forall l d, NoDup (map fst l) -> (forall x, In x (map fst l) -> ~ In x (map fst d)) ->
    dict_get (fold_left (fun o p => match func (fst p) (snd p) with Some b => dict_set o (fst p) b | None => o end) l d) nm
    = match dict_get d nm with Some b => Some b | None => match dict_get l nm with Some rows => func nm rows | None => None end end).
  { clear. induction l as [|[m rows] l IH]; intros d N H.
    - cbn. destruct (dict_get d nm); reflexivity.
    - inversion N; subst. cbn [fold_left fst snd]. 
      assert (Gapp : forall b, dict_get (d ++ [(m, b)]) nm = match dict_get d nm with Some x => Some x | None => if string_dec m nm then Some b else None end).
      { intros b. clear. induction d as [|[k w] d IH]; cbn; [reflexivity|]. destruct (string_dec k nm); [reflexivity|exact IH]. }
      destruct (func m rows) as [b|] eqn:F.
      + rewrite dict_set_new by (apply H; now left). rewrite IH; [|assumption|].
        * rewrite Gapp. destruct (dict_get d nm); [reflexivity|]. cbn. destruct (string_dec m nm) as [->|]; [now rewrite F|reflexivity].
        * intros x Ix. rewrite map_app, in_app_iff. cbn. intros [Hd|[->|[]]]; [|contradiction]. apply (H x); [now right|exact Hd].
      + rewrite IH; [|assumption|intros x Ix; apply H; now right].
        destruct (dict_get d nm); [reflexivity|]. cbn. destruct (string_dec m nm) as [->|]; [|reflexivity].
        rewrite F, dict_get_none by assumption. reflexivity. }
  rewrite G; [reflexivity|exact N|intros x _ []].
Qed.
