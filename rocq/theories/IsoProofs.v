(** The array algorithm of isotonic_regression.rs maintains a stack of blocks of consecutive rows.
    First part: generic in the arithmetic.  Second part: exact arithmetic, optimality. *)
From Coq Require Import Bool List ZArith QArith Arith Lia Lqa Sorted.
From Verif Require Import Num F64 IsoModel IsoSpec.
Import ListNotations.
Open Scope nat_scope.

(** * Array updates *)
Lemma aset_some {A} (l : list A) i v : i < length l -> aset l i v = Some (firstn i l ++ v :: skipn (S i) l).
Proof. intros H. unfold aset. now rewrite (proj2 (Nat.ltb_lt _ _) H). Qed.
Lemma aset_inv {A} (l l' : list A) i v : aset l i v = Some l' ->
  i < length l /\ l' = firstn i l ++ v :: skipn (S i) l.
Proof. unfold aset. destruct (i <? length l) eqn:E; [|discriminate]. intros [= <-]. split; [now apply Nat.ltb_lt|reflexivity]. Qed.
Lemma aset_length {A} (l l' : list A) i v : aset l i v = Some l' -> length l' = length l.
Proof.
  intros H. apply aset_inv in H. destruct H as [H ->]. rewrite app_length, firstn_length. cbn [length].
  rewrite skipn_length. lia.
Qed.
Lemma aset_firstn {A} (l l' : list A) i v : aset l i v = Some l' -> firstn (S i) l' = firstn i l ++ [v].
Proof.
  intros H. apply aset_inv in H. destruct H as [H ->]. rewrite firstn_app, firstn_firstn, firstn_length.
  replace (S i - min i (length l)) with 1 by lia. replace (min (S i) i) with i by lia. reflexivity.
Qed.
Lemma aset_firstn_le {A} (l l' : list A) i k v : aset l i v = Some l' -> k <= i -> firstn k l' = firstn k l.
Proof.
  intros H K. apply aset_inv in H. destruct H as [H ->]. rewrite firstn_app, firstn_firstn, firstn_length.
  replace (k - min i (length l)) with 0 by lia. replace (min k i) with k by lia. cbn. apply app_nil_r.
Qed.
Lemma aset_skipn {A} (l l' : list A) i k v : aset l i v = Some l' -> i < k -> skipn k l' = skipn k l.
Proof.
  intros H K. apply aset_inv in H. destruct H as [H ->]. rewrite skipn_app, firstn_length, skipn_all2 by (rewrite firstn_length; lia).
  replace (k - min i (length l)) with (S (k - S i)) by lia. rewrite List.skipn_cons. cbn [app].
  assert (E : forall (m : list A) a b, skipn a (skipn b m) = skipn (b + a) m).
  { induction m as [|y m IH]; intros a b; destruct b; cbn; try reflexivity.
    - now rewrite skipn_nil.
    - apply IH. }
  rewrite (E l (k - S i) (S i)). f_equal. lia.
Qed.
Lemma nth_firstn {A} (l : list A) k i : i < k -> nth_error (firstn k l) i = nth_error l i.
Proof. revert k i. induction l as [|a l IH]; intros [|k] [|i] H; cbn; try lia; try reflexivity. apply IH. lia. Qed.
Lemma firstn_le {A} (l : list A) (a b : nat) m1 m2 : a <= b -> firstn b l = m1 ++ m2 -> length m1 = a -> firstn a l = m1.
Proof.
  intros H E L. rewrite <- (Nat.min_l a b H), <- firstn_firstn, E, <- L, firstn_app, firstn_all, Nat.sub_diag. cbn. apply app_nil_r.
Qed.
Lemma skipn_head {A} (l : list A) i a m : skipn i l = a :: m -> nth_error l i = Some a /\ skipn (S i) l = m /\ i < length l.
Proof.
  revert l. induction i as [|i IH]; intros [|y l]; cbn [skipn]; try discriminate.
  - intros [= -> ->]. cbn. repeat split; lia.
  - intros E. apply IH in E. cbn. intuition lia.
Qed.

Section Generic.
Context {T : Type} (add mul div : T -> T -> T) (ge : T -> T -> bool).
(** [P] holds of every input row; [G v w els]: a finished block with value [v], weight [w] made of
    the rows [els]; [K s w els]: a block under construction with weighted sum [s]. *)
Context (P : T -> T -> Prop) (G K : T -> T -> list (T * T) -> Prop).
Context (G_one : forall x w, P x w -> G x w [(x, w)])
        (K_init : forall va wa ea x w, G va wa ea -> P x w -> ge va x = true ->
                    K (add (mul wa va) (mul w x)) (add w wa) (ea ++ [(x, w)]))
        (K_fwd : forall s w e x wx, K s w e -> P x wx -> ge (div s w) x = true ->
                    K (add s (mul wx x)) (add w wx) (e ++ [(x, wx)]))
        (K_bwd : forall va wa ea s w e, G va wa ea -> K s w e -> ge va (div s w) = true ->
                    K (add s (mul wa va)) (add w wa) (ea ++ e))
        (K_G : forall s w e, K s w e -> G (div s w) w e).

Record blk := mkb { bv : T; bw : T; be : list (T * T) }.
Definition okb (b : blk) : Prop := G (bv b) (bw b) (be b) /\ be b <> [].
(** Rows covered by a stack (top first), block boundaries, and output. *)
Fixpoint fe (s : list blk) : list (T * T) := match s with [] => [] | b :: s => fe s ++ be b end.
Fixpoint rs (s : list blk) : list nat := match s with [] => [0] | b :: s' => rs s' ++ [length (fe s)] end.
Fixpoint outs (s : list blk) : list T := match s with [] => [] | b :: s' => outs s' ++ repeat (bv b) (length (be b)) end.
Definition chain := Sorted (fun newer older => ge (bv older) (bv newer) = false).
Definition vals (s : list blk) := map bv (rev s).
Definition wts (s : list blk) := map bw (rev s).

Lemma vals_cons b s : vals (b :: s) = vals s ++ [bv b].
Proof. unfold vals. cbn. now rewrite map_app. Qed.
Lemma wts_cons b s : wts (b :: s) = wts s ++ [bw b].
Proof. unfold wts. cbn. now rewrite map_app. Qed.
Lemma vals_len s : length (vals s) = length s.
Proof. unfold vals. now rewrite map_length, rev_length. Qed.
Lemma wts_len s : length (wts s) = length s.
Proof. unfold wts. now rewrite map_length, rev_length. Qed.
Lemma rs_len s : length (rs s) = S (length s).
Proof. induction s as [|b s IH]; [reflexivity|]. cbn [rs length]. rewrite app_length, IH. cbn. lia. Qed.
Lemma fe_len s : Forall okb s -> length s <= length (fe s).
Proof.
  induction 1 as [|b s H F IH]; [cbn; lia|]. cbn [fe length]. rewrite app_length.
  destruct H as [_ H]. destruct (be b); [contradiction|]. cbn. lia.
Qed.

Lemma fwd_ok n x w : length x = n -> length w = n ->
  forall rest fuel i s wb e,
    skipn (S i) x = map fst rest -> skipn (S i) w = map snd rest -> length rest < fuel -> i < n ->
    Forall (fun p => P (fst p) (snd p)) rest -> K s wb e ->
    exists i' s' wb' e' rest',
      fwd add mul div ge fuel x w n i s wb (div s wb) = Some (i', s', wb', div s' wb') /\
      i <= i' < n /\ skipn (S i') x = map fst rest' /\ skipn (S i') w = map snd rest' /\
      e' ++ rest' = e ++ rest /\ length e' = length e + (i' - i) /\
      Forall (fun p => P (fst p) (snd p)) rest' /\ K s' wb' e'.
Proof.
  intros Lx Lw. induction rest as [|[xn wn] rest IH]; intros fuel i s wb e Sx Sw Fu In FP HK.
  - destruct fuel as [|fuel]; [lia|]. exists i, s, wb, e, []. cbn [fwd].
    assert (E : S i <? n = false).
    { apply Nat.ltb_ge. apply (f_equal (@length _)) in Sx. rewrite skipn_length in Sx. cbn in Sx. lia. }
    rewrite E. rewrite Nat.sub_diag, Nat.add_0_r. repeat split; auto; lia.
  - destruct fuel as [|fuel]; [lia|]. cbn [map fst snd] in Sx, Sw.
    pose proof Sx as Sx0. pose proof Sw as Sw0.
    apply skipn_head in Sx. destruct Sx as (Nx & Sx & Lx'). apply skipn_head in Sw. destruct Sw as (Nw & Sw & Lw').
    inversion FP as [|? ? P0 P1]; subst. cbn [fst snd] in P0.
    cbn [fwd]. rewrite (proj2 (Nat.ltb_lt _ _) Lx'), Nx.
    destruct (ge (div s wb) xn) eqn:GE.
    + rewrite Nw. cbv zeta.
      destruct (IH fuel (S i) (add s (mul wn xn)) (add wb wn) (e ++ [(xn, wn)])) as (i' & s' & wb' & e' & rest' & H1 & H2 & H3 & H4 & H5 & H6 & H7 & H8);
        auto; [cbn in Fu; lia|].
      exists i', s', wb', e', rest'. split; [exact H1|]. split; [lia|]. split; [exact H3|]. split; [exact H4|].
      split; [rewrite H5, <- app_assoc; reflexivity|]. split; [rewrite H6, app_length; cbn; lia|]. split; assumption.
    + exists i, s, wb, e, ((xn, wn) :: rest). rewrite Nat.sub_diag, Nat.add_0_r. repeat split; auto.
Qed.

Lemma bwd_ok x w : forall st s wb e,
    firstn (length st) x = vals st -> firstn (length st) w = wts st ->
    Forall okb st -> chain st -> K s wb e -> e <> [] ->
    exists s' wb' e' st',
      bwd add mul div ge x w (length st) s wb (div s wb) = Some (length st', s', wb', div s' wb') /\
      length st' <= length st /\ firstn (length st') x = vals st' /\ firstn (length st') w = wts st' /\
      (exists gone, st = gone ++ st') /\
      fe st' ++ e' = fe st ++ e /\ e' <> [] /\ K s' wb' e' /\ chain (mkb (div s' wb') wb' e' :: st').
Proof.
  induction st as [|b st IH]; intros s wb e Fx Fw Fo Ch HK Ne.
  - exists s, wb, e, []. cbn. repeat split; auto. exists []; reflexivity. repeat constructor.
  - cbn [length] in Fx, Fw. rewrite vals_cons in Fx. rewrite wts_cons in Fw.
    assert (Nx : nth_error x (length st) = Some (bv b)).
    { rewrite <- (nth_firstn x (S (length st))) by lia. rewrite Fx, nth_error_app2 by (rewrite vals_len; lia).
      rewrite vals_len, Nat.sub_diag. reflexivity. }
    assert (Nw : nth_error w (length st) = Some (bw b)).
    { rewrite <- (nth_firstn w (S (length st))) by lia. rewrite Fw, nth_error_app2 by (rewrite wts_len; lia).
      rewrite wts_len, Nat.sub_diag. reflexivity. }
    cbn [bwd length]. rewrite Nx. inversion Fo as [|? ? [Gb Nb] Fo']; subst.
    destruct (ge (bv b) (div s wb)) eqn:GE.
    + rewrite Nw. cbv zeta.
      destruct (IH (add s (mul (bw b) (bv b))) (add wb (bw b)) (be b ++ e)) as (s' & wb' & e' & st' & H1 & H2 & H3 & H4 & (gone & H5) & H6 & H7 & H8 & H9); auto.
      * apply (firstn_le x _ (S (length st)) _ [bv b]); [lia|exact Fx|apply vals_len].
      * apply (firstn_le w _ (S (length st)) _ [bw b]); [lia|exact Fw|apply wts_len].
      * now inversion Ch.
      * destruct (be b); [contradiction|discriminate].
      * exists s', wb', e', st'. split; [exact H1|]. split; [lia|]. split; [exact H3|]. split; [exact H4|].
        split; [exists (b :: gone); now rewrite H5|]. split; [rewrite H6; cbn [fe]; now rewrite app_assoc|]. auto.
    + exists s, wb, e, (b :: st). cbn [length]. rewrite vals_cons, wts_cons. repeat split; auto.
      exists []; reflexivity. constructor; [exact Ch|]. constructor. exact GE.
Qed.

(** Loop invariant of the main loop for the stack [b :: st] (top first) and the unread rows. *)
Record inv (inp : list (T * T)) (n : nat) (x w : list T) (r : list nat) (i : nat)
  (b : blk) (st : list blk) (rest : list (T * T)) : Prop := {
  i_x : length x = n; i_w : length w = n; i_r : length r = S n;
  i_fx : firstn (S (length st)) x = vals (b :: st);
  i_fw : firstn (S (length st)) w = wts (b :: st);
  i_fr : firstn (S (S (length st))) r = rs (b :: st);
  i_sx : skipn i x = map fst rest; i_sw : skipn i w = map snd rest;
  i_in : fe (b :: st) ++ rest = inp; i_len : length (fe (b :: st)) = i; i_n : length inp = n;
  i_ok : Forall okb (b :: st); i_ch : chain (b :: st);
  i_P : Forall (fun p => P (fst p) (snd p)) rest }.

Lemma inv_push inp n x w r i b st rest (st' : list blk) v wt e i' rest' :
  inv inp n x w r i b st rest -> i <= i' < n ->
  skipn (S i') x = map fst rest' -> skipn (S i') w = map snd rest' ->
  (exists gone, b :: st = gone ++ st') ->
  fe st' ++ e ++ rest' = inp -> length (fe st' ++ e) = S i' -> e <> [] -> G v wt e ->
  chain (mkb v wt e :: st') -> Forall (fun p => P (fst p) (snd p)) rest' ->
  exists x' w' r', aset x (length st') v = Some x' /\ aset w (length st') wt = Some w' /\
    aset r (S (length st')) (S i') = Some r' /\
    inv inp n x' w' r' (S i') (mkb v wt e) st' rest'.
Proof.
  intros I Hi Sx Sw (gone & Eg) Ein Elen Ne HG Ch FP. destruct I as [ix iw ir ifx ifw ifr isx isw iin ilen ilen2 iok ich iP].
  assert (Lst : length st' <= S (length st)).
  { apply (f_equal (@length _)) in Eg. rewrite app_length in Eg. cbn in Eg. lia. }
  assert (Fo' : Forall okb st'). { rewrite Eg in iok. apply Forall_app in iok. tauto. }
  assert (Lb : S (length st) <= i). { rewrite <- ilen. apply (fe_len (b :: st)). exact iok. }
  assert (Px : firstn (length st') x = vals st').
  { apply (firstn_le x _ (S (length st)) _ (map bv (rev gone))); [lia| |apply vals_len].
    rewrite ifx. unfold vals. now rewrite Eg, rev_app_distr, map_app. }
  assert (Pw : firstn (length st') w = wts st').
  { apply (firstn_le w _ (S (length st)) _ (map bw (rev gone))); [lia| |apply wts_len].
    rewrite ifw. unfold wts. now rewrite Eg, rev_app_distr, map_app. }
  assert (Pr : firstn (S (length st')) r = rs st').
  { assert (Q : exists m, rs (b :: st) = rs st' ++ m).
    { rewrite Eg. clear. induction gone as [|g gone [m IH]]; [exists []; now rewrite app_nil_r|].
      cbn [app rs]. rewrite IH. eexists. rewrite <- app_assoc. reflexivity. }
    destruct Q as [m Q]. apply (firstn_le r _ (S (S (length st))) _ m); [lia|congruence|apply rs_len]. }
  destruct (aset x (length st') v) as [x'|] eqn:Ex; [|rewrite aset_some in Ex by lia; discriminate].
  destruct (aset w (length st') wt) as [w'|] eqn:Ew; [|rewrite aset_some in Ew by lia; discriminate].
  destruct (aset r (S (length st')) (S i')) as [r'|] eqn:Er; [|rewrite aset_some in Er by lia; discriminate].
  exists x', w', r'. repeat (split; [reflexivity|]). constructor.
  - now rewrite (aset_length _ _ _ _ Ex).
  - now rewrite (aset_length _ _ _ _ Ew).
  - now rewrite (aset_length _ _ _ _ Er).
  - rewrite (aset_firstn _ _ _ _ Ex), Px, vals_cons. reflexivity.
  - rewrite (aset_firstn _ _ _ _ Ew), Pw, wts_cons. reflexivity.
  - rewrite (aset_firstn _ _ _ _ Er), Pr. cbn [rs fe be]. now rewrite Elen.
  - rewrite (aset_skipn _ _ _ _ _ Ex) by lia. exact Sx.
  - rewrite (aset_skipn _ _ _ _ _ Ew) by lia. exact Sw.
  - cbn [fe be]. rewrite <- app_assoc. exact Ein.
  - cbn [fe be]. exact Elen.
  - assumption.
  - constructor; [split; [exact HG|exact Ne]|exact Fo'].
  - exact Ch.
  - exact FP.
Qed.

Lemma loop_ok inp n : forall fuel x w r i b st rest,
  inv inp n x w r i b st rest -> length rest <= fuel ->
  exists x' w' r' b' st',
    iso_loop add mul div ge fuel x w r n (length st) i (bv b) (bw b) = Some (x', r', length st') /\
    inv inp n x' w' r' n b' st' [].
Proof.
  induction fuel as [|fuel IH]; intros x w r i b st rest I L.
  - destruct rest; [|cbn in L; lia].
    assert (E : i = n). { destruct I. rewrite <- i_n0, <- i_in0, <- i_len0, app_nil_r. reflexivity. }
    subst i. exists x, w, r, b, st. cbn [iso_loop]. rewrite Nat.ltb_irrefl. auto.
  - destruct rest as [|[xi wi] rest].
    { assert (E : i = n). { destruct I. rewrite <- i_n0, <- i_in0, <- i_len0, app_nil_r. reflexivity. }
      subst i. exists x, w, r, b, st. cbn [iso_loop]. rewrite Nat.ltb_irrefl. auto. }
    pose proof (i_sx _ _ _ _ _ _ _ _ _ I) as Sx. pose proof (i_sw _ _ _ _ _ _ _ _ _ I) as Sw.
    cbn [map fst snd] in Sx, Sw. apply skipn_head in Sx. apply skipn_head in Sw.
    destruct Sx as (Nx & Sx & Lx). destruct Sw as (Nw & Sw & Lw).
    pose proof (i_x _ _ _ _ _ _ _ _ _ I) as Ix. pose proof (i_w _ _ _ _ _ _ _ _ _ I) as Iw.
    assert (Lt : i < n) by lia.
    cbn [iso_loop]. rewrite (proj2 (Nat.ltb_lt _ _) Lt), Nx, Nw. cbv zeta.
    pose proof (i_P _ _ _ _ _ _ _ _ _ I) as FP. inversion FP as [|? ? P0 P1]; subst. cbn [fst snd] in P0.
    pose proof (i_ok _ _ _ _ _ _ _ _ _ I) as Ok. inversion Ok as [|? ? [Gb Nb] Ok']; subst.
    assert (Step : exists b' v wt st' e i' rest',
      (if ge (bv b) xi
       then match fwd add mul div ge (S (length x)) x w (length x) i (add (mul (bw b) (bv b)) (mul wi xi)) (add wi (bw b))
                    (div (add (mul (bw b) (bv b)) (mul wi xi)) (add wi (bw b))) with
            | Some (i', sb', wb'', xb') =>
                match bwd add mul div ge x w (length st) sb' wb'' xb' with
                | Some (b', _, wb3, xb3) => Some (b', i', wb3, xb3)
                | None => None
                end
            | None => None
            end
       else Some (S (length st), i, wi, xi)) = Some (b', i', wt, v) /\ b' = length st' /\
      i <= i' < length x /\
      skipn (S i') x = map fst rest' /\ skipn (S i') w = map snd rest' /\
      (exists gone, b :: st = gone ++ st') /\
      fe st' ++ e ++ rest' = inp /\ length (fe st' ++ e) = S i' /\ e <> [] /\ G v wt e /\
      chain (mkb v wt e :: st') /\ Forall (fun p => P (fst p) (snd p)) rest' /\ length rest' <= fuel).
    { pose proof (i_in _ _ _ _ _ _ _ _ _ I) as Iin. pose proof (i_len _ _ _ _ _ _ _ _ _ I) as Ilen.
      pose proof (i_ch _ _ _ _ _ _ _ _ _ I) as Ich.
      destruct (ge (bv b) xi) eqn:GE.
      - destruct (fwd_ok (length x) x w eq_refl Iw rest (S (length x)) i (add (mul (bw b) (bv b)) (mul wi xi)) (add wi (bw b)) (be b ++ [(xi, wi)]))
          as (i' & s' & wb' & e' & rest' & H1 & H2 & H3 & H4 & H5 & H6 & H7 & H8); auto.
        { apply (f_equal (@length _)) in Sx. rewrite skipn_length, map_length in Sx. lia. }
        rewrite H1.
        pose proof (i_fx _ _ _ _ _ _ _ _ _ I) as Fx. pose proof (i_fw _ _ _ _ _ _ _ _ _ I) as Fw.
        rewrite vals_cons in Fx. rewrite wts_cons in Fw.
        destruct (bwd_ok x w st s' wb' e') as (s2 & wb2 & e2 & st2 & B1 & B2 & B3 & B4 & (gone & B5) & B6 & B7 & B8 & B9).
        { apply (firstn_le x _ (S (length st)) _ [bv b]); [lia|exact Fx|apply vals_len]. }
        { apply (firstn_le w _ (S (length st)) _ [bw b]); [lia|exact Fw|apply wts_len]. }
        { exact Ok'. } { now inversion Ich. } { exact H8. }
        { intros E. rewrite E in H6. rewrite app_length in H6. cbn in H6. lia. }
        rewrite B1. exists (length st2), (div s2 wb2), wb2, st2, e2, i', rest'.
        split; [reflexivity|]. split; [reflexivity|]. split; [exact H2|]. split; [exact H3|]. split; [exact H4|].
        split; [exists (b :: gone); now rewrite B5|].
        split. { rewrite app_assoc, B6, <- app_assoc, H5. rewrite <- Iin. cbn [fe]. rewrite <- !app_assoc. reflexivity. }
        split. { rewrite B6, app_length, H6, <- Ilen || (rewrite B6, app_length, H6). cbn [fe] in *. rewrite !app_length in *. cbn [length] in *. lia. }
        split; [exact B7|]. split; [apply K_G; exact B8|]. split; [exact B9|]. split; [exact H7|].
        assert (E : length e' + length rest' = length (be b ++ [(xi, wi)]) + length rest)
          by (rewrite <- !app_length; now rewrite H5). cbn [length] in L. lia.
      - exists (S (length st)), xi, wi, (b :: st), [(xi, wi)], i, rest.
        split; [reflexivity|]. split; [reflexivity|]. split; [lia|]. split; [exact Sx|]. split; [exact Sw|].
        split; [exists []; reflexivity|]. split; [exact Iin|].
        split. { rewrite app_length, Ilen. cbn. lia. }
        split; [discriminate|]. split; [apply G_one; exact P0|].
        split. { constructor; [exact Ich|]. constructor. exact GE. }
        split; [exact P1|]. cbn in L. lia. }
    destruct Step as (b' & v & wt & st' & e & i' & rest' & E & -> & S1 & S2 & S3 & S4 & S5 & S6 & S7 & S8 & S9 & S10 & S11).
    rewrite E.
    destruct (inv_push _ _ _ _ _ _ _ _ _ st' v wt e i' rest' I S1 S2 S3 S4 S5 S6 S7 S8 S9 S10) as (x' & w' & r' & A1 & A2 & A3 & I').
    rewrite A1, A2, A3. apply (IH x' w' r' (S i') (mkb v wt e) st' rest' I' S11).
Qed.

Lemma fill_ok v : forall c (x : list T) t, t + c <= length x ->
  fill_n c x t v = Some (firstn t x ++ repeat v c ++ skipn (t + c) x).
Proof.
  induction c as [|c IH]; intros x t H; cbn [fill_n].
  - cbn. rewrite Nat.add_0_r, firstn_skipn. reflexivity.
  - destruct (aset x t v) as [x'|] eqn:E; [|rewrite aset_some in E by lia; discriminate].
    rewrite IH by (rewrite (aset_length _ _ _ _ E); lia).
    rewrite (aset_firstn _ _ _ _ E), (aset_skipn _ _ _ _ _ E) by lia.
    rewrite <- app_assoc. replace (S t + c) with (t + S c) by lia. reflexivity.
Qed.

Lemma outs_len s : length (outs s) = length (fe s).
Proof. induction s as [|b s IH]; [reflexivity|]. cbn [outs fe]. now rewrite !app_length, IH, repeat_length. Qed.

Lemma expand_ok r : forall st b x,
  Forall okb (b :: st) -> firstn (S (length st)) x = vals (b :: st) -> firstn (S (S (length st))) r = rs (b :: st) ->
  length (fe (b :: st)) <= length x ->
  expand false (length st) r x (Z.of_nat (length (fe (b :: st))) - 1)
    = Some (outs (b :: st) ++ skipn (length (fe (b :: st))) x) /\
  expand true (length st) r x (Z.of_nat (length (fe (b :: st))) - 1) = None.
Proof.
  induction st as [|b' st IH]; intros b x Ok Fx Fr L.
  - assert (Nx : nth_error x 0 = Some (bv b)) by (rewrite <- (nth_firstn x 1) by lia; cbn [length] in Fx; now rewrite Fx).
    assert (Nr : nth_error r 0 = Some 0) by (rewrite <- (nth_firstn r 2) by lia; cbn [length] in Fr; now rewrite Fr).
    cbn [length expand]. rewrite Nx, Nr. cbn [fe app] in *.
    rewrite fill_ok by lia.
    replace (Z.to_nat (Z.of_nat (length (be b)) - 1 - Z.of_nat 0 + 1)) with (length (be b)) by lia.
    cbn [outs app firstn usize_pred]. split; reflexivity.
  - set (st1 := b' :: st) in *. set (k := length st1).
    inversion Ok as [|? ? [_ Nb] Ok1]; subst.
    assert (Nx : nth_error x k = Some (bv b)).
    { rewrite <- (nth_firstn x (S k)) by lia. unfold k. rewrite Fx, vals_cons, nth_error_app2 by (rewrite vals_len; lia).
      rewrite vals_len, Nat.sub_diag. reflexivity. }
    assert (Nr : nth_error r k = Some (length (fe st1))).
    { rewrite <- (nth_firstn r (S (S k))) by lia. unfold k. rewrite Fr. cbn [rs].
      rewrite nth_error_app1 by (rewrite rs_len; lia).
      unfold st1. cbn [rs length]. rewrite nth_error_app2 by (rewrite rs_len; lia).
      rewrite rs_len, Nat.sub_diag. reflexivity. }
    assert (Lk : k <= length (fe st1)) by (apply fe_len; exact Ok1).
    assert (E1 : length (fe (b :: st1)) = length (fe st1) + length (be b)) by (cbn [fe]; apply app_length).
    assert (Ez : Z.to_nat (Z.of_nat (length (fe (b :: st1))) - 1 - Z.of_nat (length (fe st1)) + 1) = length (be b)) by lia.
    set (x' := firstn (length (fe st1)) x ++ repeat (bv b) (length (be b)) ++ skipn (length (fe st1) + length (be b)) x).
    assert (Ef : fill_n (length (be b)) x (length (fe st1)) (bv b) = Some x') by (apply fill_ok; lia).
    assert (Ep : forall c, usize_pred c (length (fe st1)) = Some (Z.of_nat (length (fe st1)) - 1)%Z).
    { intros c. assert (0 < length (fe st1)) by (unfold k, st1 in Lk |- *; cbn [length] in Lk; lia).
      destruct (length (fe st1)); [lia|]. cbn [usize_pred]. f_equal. lia. }
    assert (F' : firstn (S (length st)) x' = vals st1).
    { unfold x'. change (S (length st)) with k. rewrite firstn_app, firstn_firstn, firstn_length.
      replace (k - min (length (fe st1)) (length x)) with 0 by lia. rewrite Nat.min_l by lia.
      cbn [firstn]. rewrite app_nil_r.
      apply (firstn_le x _ (S k) _ [bv b]); [lia| |apply vals_len]. unfold k. rewrite Fx, vals_cons. reflexivity. }
    assert (R' : firstn (S (S (length st))) r = rs st1).
    { apply (firstn_le r _ (S (S k)) _ [length (fe (b :: st1))]); [unfold k, st1; cbn [length]; lia| |].
      - unfold k. rewrite Fr. reflexivity.
      - rewrite rs_len. reflexivity. }
    assert (Lx' : length x' = length x).
    { unfold x'. rewrite !app_length, firstn_length, repeat_length, skipn_length. lia. }
    assert (Sk : skipn (length (fe st1)) x' = repeat (bv b) (length (be b)) ++ skipn (length (fe (b :: st1))) x).
    { unfold x'. rewrite skipn_app, firstn_length, skipn_all2 by (rewrite firstn_length; lia).
      rewrite E1, Nat.min_l by lia. rewrite Nat.sub_diag. reflexivity. }
    destruct (IH b' x' Ok1 F' R') as [IH1 IH2]; [rewrite Lx'; fold st1; lia|].
    fold st1 in IH1, IH2.
    assert (Hs : forall c, expand c k r x (Z.of_nat (length (fe (b :: st1))) - 1)
              = expand c (length st) r x' (Z.of_nat (length (fe st1)) - 1)).
    { intros c. unfold k, st1. cbn [length]. cbn [expand]. change (S (length st)) with k.
      rewrite Nr, Nx. fold st1. rewrite Ez, Ef, Ep. reflexivity. }
    fold k. split.
    + rewrite Hs, IH1, Sk. cbn [outs]. rewrite app_assoc. reflexivity.
    + rewrite Hs. exact IH2.
Qed.

(** Summary of the run: the rows are split into consecutive blocks, the output repeats each block's
    value, consecutive block values are not [>=], and with overflow checks the function panics. *)
Lemma run_ok rows : 2 <= length rows -> Forall (fun p => P (fst p) (snd p)) rows ->
  exists s, fe s = rows /\ Forall okb s /\ chain s /\
    iso_run add mul div ge false (map fst rows) (map snd rows) = Some (outs s) /\
    iso_run add mul div ge true (map fst rows) (map snd rows) = None.
Proof.
  intros L FP. destruct rows as [|[x0 w0] rest]; [cbn in L; lia|].
  inversion FP as [|? ? P0 P1]; subst. cbn [fst snd] in P0.
  set (rows := (x0, w0) :: rest). set (n := length rows).
  assert (Ln : length (map fst rows) = n) by (unfold n; apply map_length).
  assert (En : n = S (length rest)) by reflexivity.
  set (r := 0 :: 1 :: repeat 0 (length rest)).
  assert (Er : forall c, iso_run add mul div ge c (map fst rows) (map snd rows) =
    match iso_loop add mul div ge n (map fst rows) (map snd rows) r n 0 1 x0 w0 with
    | None => None | Some (x', r', b) => expand c b r' x' (Z.of_nat n - 1) end).
  { intros c. unfold iso_run. rewrite Ln. unfold n at 1. cbn [length rows repeat].
    rewrite (aset_some _ 0) by (cbn; lia). cbn [firstn skipn app].
    rewrite (aset_some _ 1) by (cbn; lia). cbn [firstn skipn app]. reflexivity. }
  assert (I : inv rows n (map fst rows) (map snd rows) r 1 (mkb x0 w0 [(x0, w0)]) [] rest).
  { constructor; auto.
    - unfold n. apply map_length.
    - unfold r. cbn. rewrite repeat_length. reflexivity.
    - unfold rows. constructor; [split; [apply G_one; exact P0|discriminate]|constructor].
    - repeat constructor. }
  destruct (loop_ok rows n n _ _ _ _ _ _ _ I) as (x' & w' & r' & b' & st' & E & I'); [unfold n, rows; cbn; lia|].
  cbn [bv bw length] in E. rewrite E in Er.
  destruct I' as [ix iw ir ifx ifw ifr isx isw iin ilen iin2 iok ich iP].
  destruct (expand_ok r' st' b' x' iok ifx ifr) as [X1 X2]; [lia|].
  rewrite ilen in X1, X2. rewrite !Er, X1, X2.
  exists (b' :: st'). rewrite app_nil_r in iin. repeat split; auto.
  f_equal. rewrite skipn_all2 by lia. apply app_nil_r.
Qed.
End Generic.
