From Coq Require Import Bool List Arith Lia.
From Verif Require Import LzModel LzSpec.
Import ListNotations.

Lemma contains_in p s : contains p s = true <-> In p s.
Proof. unfold contains. destruct (in_dec phrase_dec p s); split; auto; discriminate. Qed.

Lemma prefix_firstn {A} (q w : list A) : prefix_of q w <-> (1 <= length q <= length w)%nat /\ q = firstn (length q) w.
Proof.
  unfold prefix_of. split.
  - intros [N (r & ->)]. rewrite app_length, firstn_app, firstn_all, Nat.sub_diag, firstn_O, app_nil_r.
    split; [|reflexivity]. destruct q; [congruence|cbn; lia].
  - intros [L E]. split; [intros ->; cbn in L; lia|]. exists (skipn (length q) w). rewrite E at 1. now rewrite firstn_skipn.
Qed.

Lemma skipn_plus {A} : forall m n (l : list A), skipn m (skipn n l) = skipn (n + m) l.
Proof. intros m n. induction n as [|n IH]; intros l; [reflexivity|]. destruct l; cbn; [now rewrite skipn_nil|apply IH]. Qed.
Lemma loop_parse : forall fuel bits ind inc s, (length bits < ind + inc + fuel)%nat -> (1 <= inc)%nat -> (ind <= length bits)%nat ->
  (forall n, (1 <= n < inc)%nat -> (ind + n <= length bits)%nat -> In (firstn n (skipn ind bits)) s) ->
  exists ps rest, lz_loop fuel bits ind inc s = Some (rev ps ++ s) /\ lz_parse s (skipn ind bits) ps rest.
Proof.
  induction fuel as [|fuel IH]; intros bits ind inc s F I L P.
  - cbn [lz_loop]. rewrite (proj2 (Nat.leb_gt _ _)) by lia. exists [], (skipn ind bits). split; [reflexivity|]. constructor.
    intros q Hq. apply prefix_firstn in Hq. destruct Hq as [Lq Eq]. rewrite skipn_length in Lq. rewrite Eq. apply P; lia.
  - cbn [lz_loop]. destruct (Nat.leb_spec (ind + inc) (length bits)) as [Le|Gt].
    + destruct (contains (firstn inc (skipn ind bits)) s) eqn:C.
      * apply contains_in in C. apply IH; [lia|lia|lia|]. intros n Hn Ln. destruct (Nat.eq_dec n inc) as [->|]; [exact C|apply P; lia].
      * assert (NC : ~ In (firstn inc (skipn ind bits)) s) by (intros X; apply contains_in in X; congruence).
        destruct (IH bits (ind + inc)%nat 1%nat (firstn inc (skipn ind bits) :: s)) as (ps & rest & E & R); [lia|lia|lia|intros; lia|].
        exists (firstn inc (skipn ind bits) :: ps), rest. split; [rewrite E; cbn [rev]; now rewrite <- app_assoc|].
        rewrite <- (firstn_skipn inc (skipn ind bits)) at 1. rewrite skipn_plus.
        constructor; [| exact NC | | exact R].
        -- intros X. apply (f_equal (@length bool)) in X. rewrite firstn_length, skipn_length in X. cbn in X. lia.
        -- intros q Hq Ne. apply prefix_firstn in Hq. destruct Hq as [Lq Eq]. rewrite firstn_length, skipn_length in Lq.
           rewrite firstn_firstn in Eq. replace (min (length q) inc) with (length q) in Eq by lia. rewrite Eq. apply P; [|lia].
           split; [lia|]. destruct (Nat.eq_dec (length q) inc) as [X|]; [rewrite X in Eq; congruence|lia].
    + exists [], (skipn ind bits). split; [reflexivity|]. constructor.
      intros q Hq. apply prefix_firstn in Hq. destruct Hq as [Lq Eq]. rewrite skipn_length in Lq. rewrite Eq. apply P; lia.
Qed.

Definition bit (b : option bool) : bool := match b with Some b => b | None => false end.
Theorem lempel_ziv_ok col : exists ps rest, lz_parse [] (map bit col) ps rest /\ lempel_ziv col = Some (length ps).
Proof.
  destruct (loop_parse (length (map bit col)) (map bit col) 0 1 []) as (ps & rest & E & R); [lia|lia|lia|intros; lia|].
  exists ps, rest. split; [exact R|]. unfold lempel_ziv. fold bit. rewrite E. cbn [option_map]. now rewrite app_nil_r, rev_length.
Qed.

(** Facts about parses. *)
Lemma parse_concat {A} (seen : list (list A)) w ps rest : lz_parse seen w ps rest -> w = concat ps ++ rest.
Proof. induction 1 as [|seen p w ps rest _ _ _ _ IH]; cbn; [reflexivity|]. now rewrite IH, app_assoc. Qed.
Lemma parse_new {A} (seen : list (list A)) w ps rest : lz_parse seen w ps rest -> NoDup ps /\ forall p, In p ps -> p <> [] /\ ~ In p seen.
Proof.
  induction 1 as [|seen p w ps rest N S P _ [ND IH]]; [split; [constructor|intros p []]|]. split.
  - constructor; [|exact ND]. intros H. apply IH in H. apply H. now left.
  - intros q [<-|Hq]; [auto|]. destruct (IH q Hq) as [H1 H2]. split; [exact H1|]. intros H. apply H2. now right.
Qed.
Lemma parse_length {A} (seen : list (list A)) w ps rest : lz_parse seen w ps rest -> (length ps <= length w)%nat.
Proof.
  induction 1 as [|seen p w ps rest N S P _ IH]; cbn; [lia|]. rewrite app_length. destruct p; [congruence|cbn; lia].
Qed.
Lemma parse_nonempty {A} (w : list A) ps rest : lz_parse [] w ps rest -> w <> [] -> (1 <= length ps)%nat.
Proof.
  intros H N. inversion H as [seen w' P E1 E2|]; subst; [|cbn; lia]. exfalso. destruct (P rest). 
  split; [exact N|]. exists []. now rewrite app_nil_r.
Qed.
(** The parse is unique. *)
Lemma app_split {A} (p q w v : list A) : p ++ w = q ++ v -> (exists r, q = p ++ r) \/ (exists r, p = q ++ r).
Proof.
  revert q. induction p as [|a p IH]; intros [|b q] E; cbn in *; eauto. injection E as <- E. destruct (IH q E) as [(r & ->)|(r & ->)]; eauto.
Qed.
Theorem parse_unique {A} (seen : list (list A)) w ps rest ps' rest' : lz_parse seen w ps rest -> lz_parse seen w ps' rest' -> ps = ps' /\ rest = rest'.
Proof.
  intros H. revert ps' rest'. induction H as [seen w P|seen p w ps rest N S P H IH]; intros ps' rest' H'.
  - inversion H' as [? ? P'|? p' w' ? ? N' S' P' H'']; subst; [auto|]. exfalso. apply S', P. split; [exact N'|]. now exists w'.
  - inversion H' as [? ? P' E1 E2|? p' w' ? ? N' S' P' H'' E1 E2]; subst.
    + exfalso. apply S, P'. split; [exact N|]. now exists w.
    + assert (p = p').
      { destruct (app_split p p' w w' (eq_sym E2)) as [(r & ->)|(r & ->)].
        - destruct r as [|a r]; [now rewrite app_nil_r|]. exfalso. apply S, P'; [split; [exact N|eauto]|].
          intros X. apply (f_equal (@length A)) in X. rewrite app_length in X. cbn in X. lia.
        - destruct r as [|a r]; [now rewrite app_nil_r|]. exfalso. apply S', P; [split; [exact N'|eauto]|].
          intros X. apply (f_equal (@length A)) in X. rewrite app_length in X. cbn in X. lia. }
      subst p'. apply app_inv_head in E2. subst w'. destruct (IH _ _ H'') as [-> ->]. auto.
Qed.
