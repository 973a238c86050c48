(** Lemmas for XRing_Copy_Props: what a copy of a ring variable shows. *)
From Verif Require Import Base Arr Exn XRing_Spec XRing_Model XRing_Proofs.
From Verif Require Import GoSlice Algo_Proofs GoSlice_Proofs XSlice_Spec XSlice_Facts.
From Verif Require Import XRing_Heap_Spec XRing_Heap_Model XRing_Heap_Facts XRing_Heap_Proofs XRing_Copy_Spec.
Local Open Scope string_scope.
Local Open Scope list_scope.
Local Open Scope Z_scope.

Section Copy.
  Context {T : Type} (zero : T) (growth : Z -> Z -> Z).
  Implicit Types (h : heap T) (s : slice) (w : world T) (l : list T).
  Local Notation own w := (rbuf (rg w)).
  Local Notation good := (good zero).

  Lemma good_start w l : good w l -> 0 <= rst (rg w) /\ (rst (rg w) < GoSlice.len (own w) \/ rst (rg w) = 0 /\ GoSlice.len (own w) = 0) /\
    zlen l = rlen (rg w) /\ zlen l <= GoSlice.len (own w).
  Proof.
    intros (_ & VB & HL & HC & HS & HST & _). cbn [abs buf XRing_Model.st XRing_Model.len] in *.
    rewrite (elems_len _ _ VB) in *. lia.
  Qed.

  (** One event moves the start as [frontMoves] says, round the buffer. *)
  Lemma start_moves w l e : good w l -> exists k, startAfter e l (rg w) = rst (rg w) + frontMoves e l + k * GoSlice.len (own w).
  Proof.
    intros Hg. destruct (good_start w l Hg) as (H1 & H2 & H3 & H4).
    unfold startAfter, frontMoves. destruct e; try (exists 0; lia).
    - destruct (Z.ltb_spec (rst (rg w) - 1) 0); [exists 1|exists 0]; lia.
    - destruct l; [exists 0; lia|]. destruct (Z.eqb_spec (rst (rg w) + 1) (GoSlice.len (own w))); [exists (-1)|exists 0]; lia.
    - destruct l; [exists 0; lia|]. destruct (Z.eqb_spec (rst (rg w) + 1) (GoSlice.len (own w))); [exists (-1)|exists 0]; lia.
  Qed.

  Lemma own_same_first w l e x w1 es w2 l2 : good w l -> allowed (hp w) (own w) e -> ringEvent zero growth e w = (x, w1) ->
    history zero growth w1 (listAfter e l) es w2 l2 -> own w2 = own w -> own w1 = own w.
  Proof.
    intros Hg Ha E H Eo. destruct (event_ok' zero growth w l e x w1 Hg Ha E) as (_ & Hg1 & F & K).
    destruct K as [[K _]|[K _]]; [assumption|exfalso].
    destruct (history_ok zero growth _ _ _ _ _ H Hg1) as (_ & F2 & K2).
    assert (Gr : grows (hp w) (hp w1)) by apply F. apply grows_length in Gr.
    assert (VB : valid (hp w) (own w)) by apply Hg. apply valid_arr in VB.
    destruct K2 as [K2|K2]; [rewrite <- K2 in K|]; rewrite Eo in *; lia.
  Qed.

  Lemma start_history w l es w' l' : history zero growth w l es w' l' -> good w l -> own w' = own w ->
    exists k, rst (rg w') = rst (rg w) + frontShift es l + k * GoSlice.len (own w).
  Proof.
    intros H. induction H as [w l|w l e x w1 es w2 l2 Ha E H IH]; intros Hg Eo.
    - exists 0. cbn. lia.
    - pose proof (own_same_first w l e x w1 es w2 l2 Hg Ha E H Eo) as E1.
      destruct (event_ok' zero growth w l e x w1 Hg Ha E) as (_ & Hg1 & _ & K).
      destruct (IH Hg1 ltac:(congruence)) as [k Hk]. destruct (start_moves w l e Hg) as [k' Hk'].
      destruct K as [[_ K]|[K _]].
      + exists (k + k'). cbn [frontShift]. rewrite Hk, K, Hk', E1. lia.
      + exfalso. assert (VB : valid (hp w) (own w)) by apply Hg. apply valid_arr in VB. rewrite E1 in K. lia.
  Qed.

  (** At reads one cell of the buffer. *)
  Lemma at_cell w l i h' : good w l -> valid h' (own w) -> 0 <= i < zlen l ->
    RAt (rg w) i h' = (Ok (at_ zero (elems h' (own w)) (wrap (rg w) i)), h') /\ 0 <= wrap (rg w) i < GoSlice.len (own w).
  Proof.
    intros Hg V Hi. destruct (good_cell zero growth w l i Hg Hi) as (Hw & _). split; [|assumption].
    assert (ER : RAtRef (rg w) i h' = (Ok (GoSlice.arr (own w), off (own w) + wrap (rg w) i), h')).
    { pose proof (atRef_ok zero growth w l i Hg) as E0. replace ((0 <=? i) && (i <? zlen l)) with true in E0 by lia.
      unfold RAtRef in *. destruct (_ || _); [discriminate|]. cbv zeta in *.
      destruct ((0 <=? _) && _); [|discriminate]. reflexivity. }
    unfold RAt. erewrite xbind_ok by exact ER. unfold ld.
    assert (Hz : zget (elems h' (own w)) (wrap (rg w) i) = Some (at_ zero (elems h' (own w)) (wrap (rg w) i)))
      by (apply zget_at; rewrite elems_len; assumption).
    rewrite zget_elems in Hz by assumption. unfold cell in Hz.
    destruct (nth_error h' (GoSlice.arr (own w))); [|discriminate]. rewrite Hz. reflexivity.
  Qed.

  Lemma mod_unique a b n : 0 < n -> 0 <= a < n -> (exists k, a = b + k * n) -> a = b mod n.
  Proof. intros Hn Ha [k Hk]. apply (Z.mod_unique b n (- k) a); lia. Qed.

  (** What the copy shows while the ring keeps its buffer. *)
  Lemma shown w l es w' l' i : good w l -> history zero growth w l es w' l' -> own w' = own w -> 0 <= i < zlen l ->
    RAt (rg w) i (hp w') =
      (Ok (nth (Z.to_nat ((i - frontShift es l) mod GoSlice.len (own w))) l' zero), hp w').
  Proof.
    intros Hg H Eo Hi. destruct (history_ok zero growth _ _ _ _ _ H Hg) as (Hg' & _).
    assert (V' : valid (hp w') (own w)) by (rewrite <- Eo; apply Hg').
    destruct (at_cell w l i (hp w') Hg V' Hi) as [EA Hw]. rewrite EA. f_equal. f_equal.
    destruct (start_history w l es w' l' H Hg Eo) as [k Hk].
    destruct (good_start w' l' Hg') as (S1 & S2 & S3 & S4). destruct (good_start w l Hg) as (Q1 & Q2 & Q3 & Q4).
    destruct Hg' as (_ & _ & _ & _ & _ & _ & HB). cbn [abs buf XRing_Model.st XRing_Model.len] in HB.
    rewrite Eo in *. rewrite (elems_len _ _ V') in HB. rewrite HB by assumption.
    unfold at_. f_equal. f_equal. unfold slot, wrap in *. cbn [abs buf XRing_Model.st XRing_Model.len].
    rewrite Eo, (elems_len _ _ V').
    apply mod_unique; [lia| |].
    - destruct (Z.ltb_spec (if i + rst (rg w) >=? GoSlice.len (own w) then i + rst (rg w) - GoSlice.len (own w) else i + rst (rg w)) (rst (rg w'))); lia.
    - destruct (i + rst (rg w) >=? GoSlice.len (own w)) eqn:E1;
      match goal with |- context [if ?a <? ?b then _ else _] => destruct (Z.ltb_spec a b) end;
      [exists (-k)|exists (-k - 1)|exists (1 - k)|exists (-k)]; lia.
  Qed.

  (** Once the ring has moved to another buffer it leaves the old one alone. *)
  Lemma frozen s w l es w' l' : good w l -> history zero growth w l es w' l' -> valid (hp w) s ->
    GoSlice.arr (own w) <> GoSlice.arr s -> (forall e a i, In e es -> writes e a i -> ~ inLen s a i) ->
    elems (hp w') s = elems (hp w) s.
  Proof.
    intros Hg H V Hn Hw. destruct (history_ok zero growth _ _ _ _ _ H Hg) as (_ & F & _).
    eapply frame_elems; [exact F|exact V|]. intros a i Hin [[Ha _]|(e & He & Hwr)].
    - destruct Hin as [Hb _]. congruence.
    - now apply (Hw e a i).
  Qed.

  Lemma move_frozen s w l e x w1 : good w l -> allowed (hp w) (own w) e -> ringEvent zero growth e w = (x, w1) ->
    own w1 <> own w -> valid (hp w) s -> (forall a i, writes e a i -> ~ inLen s a i) ->
    elems (hp w1) s = elems (hp w) s /\ (List.length (hp w) <= GoSlice.arr (own w1))%nat.
  Proof.
    intros Hg Ha E Hm V Hw. destruct (event_ok' zero growth w l e x w1 Hg Ha E) as (_ & _ & _ & K).
    destruct K as [[K _]|[K _]]; [contradiction|]. split; [|assumption].
    pose proof (event_frame zero growth w l e x w1 Hg Ha E) as F.
    eapply frame_elems; [exact F|exact V|]. intros a i Hin [[Hb _]|Hwr]; [|now apply (Hw a i)].
    destruct Hin as [Hc _]. apply valid_arr in V. lia.
  Qed.

  Lemma slice_dec (s s' : slice) : s = s' \/ s <> s'.
  Proof.
    destruct s as [a o n c], s' as [a' o' n' c'].
    destruct (Nat.eq_dec a a'), (Z.eq_dec o o'), (Z.eq_dec n n'), (Z.eq_dec c c');
      try (right; congruence). left; congruence.
  Qed.

  (** A history until the ring moves for the first time. *)
  Lemma first_move w l es w' l' : good w l -> history zero growth w l es w' l' ->
    own w' = own w \/
    exists es1 e es2 w1 l1 x w2, es = es1 ++ e :: es2 /\ history zero growth w l es1 w1 l1 /\ own w1 = own w /\
      allowed (hp w1) (own w1) e /\ ringEvent zero growth e w1 = (x, w2) /\ own w2 <> own w1 /\
      history zero growth w2 (listAfter e l1) es2 w' l'.
  Proof.
    intros Hg H. induction H as [w l|w l e x w1 es w2 l2 Ha E H IH]; [now left|].
    destruct (slice_dec (own w1) (own w)) as [Eo|Eo].
    - destruct (event_ok' zero growth w l e x w1 Hg Ha E) as (_ & Hg1 & _).
      destruct (IH Hg1) as [E2|(es1 & e' & es2 & w3 & l3 & x' & w4 & -> & H1 & E1 & A1 & R1 & M1 & H2)]; [left; congruence|].
      right. exists (e :: es1), e', es2, w3, l3, x', w4. split; [reflexivity|]. split; [econstructor; eassumption|].
      split; [congruence|]. auto.
    - right. exists [], e, es, w, l, x, w1. split; [reflexivity|]. split; [constructor|]. auto.
  Qed.

  (** Additions only: the list grows at both ends. *)
  Lemma adds_list es l : Forall onlyAdds es -> exists pre post,
    fold_left (fun l e => listAfter e l) es l = pre ++ l ++ post /\ zlen pre = - frontShift es l.
  Proof.
    revert l. induction es as [|e es IH]; intros l H.
    - exists [], []. cbn. now rewrite app_nil_r.
    - inversion H as [|? ? He Hes]; subst. destruct (IH (listAfter e l) Hes) as (pre & post & E & Hp).
      cbn [fold_left frontShift]. rewrite E.
      destruct e; cbn [onlyAdds] in He; try contradiction; unfold listAfter in Hp |- *; cbn [dequeOp dequeStep snd frontMoves] in Hp |- *.
      + exists pre, (v :: post). rewrite <- app_assoc. split; [reflexivity|lia].
      + exists pre, (v :: post). rewrite <- app_assoc. split; [reflexivity|lia].
      + exists (pre ++ [v]), post. rewrite <- !app_assoc. split; [reflexivity|]. rewrite zlen_app, zlen_cons, zlen_nil, Hp. lia.
      + exists pre, post. split; [reflexivity|lia].
      + exists pre, post. split; [reflexivity|lia].
      + exists pre, post. split; [reflexivity|lia].
      + exists pre, post. split; [reflexivity|lia].
      + exists pre, post. split; [reflexivity|lia].
      + exists pre, post. split; [reflexivity|lia].
      + exists pre, post. split; [reflexivity|lia].
      + exists pre, post. split; [reflexivity|lia].
      + exists pre, post. split; [reflexivity|lia].
  Qed.
  Lemma history_list w l es w' l' : history zero growth w l es w' l' -> l' = fold_left (fun l e => listAfter e l) es l.
  Proof. intros H. induction H; [reflexivity|assumption]. Qed.

  Lemma adds_shown w l es w' l' i : good w l -> history zero growth w l es w' l' -> own w' = own w -> Forall onlyAdds es ->
    0 <= i < zlen l -> RAt (rg w) i (hp w') = (Ok (nth (Z.to_nat i) l zero), hp w').
  Proof.
    intros Hg H Eo Hadd Hi. rewrite (shown w l es w' l' i Hg H Eo Hi). f_equal. f_equal.
    destruct (history_ok zero growth _ _ _ _ _ H Hg) as (Hg' & _). destruct (good_start w' l' Hg') as (_ & _ & _ & HC).
    rewrite Eo in HC. rewrite (history_list _ _ _ _ _ H) in *.
    destruct (adds_list es l Hadd) as (pre & post & E & Hp). rewrite E in *. rewrite !zlen_app in HC.
    pose proof (zlen_nonneg pre). pose proof (zlen_nonneg post).
    rewrite Z.mod_small by lia. replace (Z.to_nat (i - frontShift es l)) with (List.length pre + Z.to_nat i)%nat
      by (unfold zlen in *; lia).
    rewrite app_nth2_plus, app_nth1; [reflexivity|unfold zlen in *; lia].
  Qed.
End Copy.
