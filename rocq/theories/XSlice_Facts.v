(** From the run lemmas to the vocabulary of XSlice_Spec. *)
From Verif Require Import Base Arr Exn GoSlice GoSlice_Proofs Iter_Model Iter_Spec Algo_Model Algo_Proofs
  XSlice_Model XSlice_Spec XSlice_Proofs.
Local Open Scope list_scope.
Local Open Scope Z_scope.

Lemma nth_error_skipn' {A} n (l : list A) i : nth_error (skipn n l) i = nth_error l (n + i).
Proof. revert l. induction n as [|n IH]; intros [|x l]; cbn; auto. now destruct i. Qed.

Section Facts.
  Context {T : Type}.
  Implicit Types (h : heap T) (s : slice).

  (** ** Iterators *)
  Lemma reach_bounds s it : 0 <= len s -> @reach T s it -> sl it = s /\ 0 <= pos it <= len s.
  Proof.
    intros Hs. assert (HA : forall h h' p it, @IteratorAt T s p h = (Ok it, h') -> sl it = s /\ 0 <= pos it <= len s).
    { intros h h' p it0. unfold IteratorAt. destruct ((p <? 0) || (len s <? p)) eqn:E; [discriminate|].
      intros H. injection H as <- <-. cbn. split; [reflexivity|lia]. }
    induction 1 as [h h' p it H|h h' it H|h h' it H|h h' it it' R [IH1 IH2] H|h h' it it' R [IH1 IH2] H|h h' it k it' R [IH1 IH2] H].
    - eauto.
    - eauto.
    - eauto.
    - cbn in H. destruct (pos it >=? len (sl it)) eqn:E; [discriminate|]. injection H as <- <-. rewrite IH1 in *. cbn. split; [reflexivity|lia].
    - cbn in H. destruct (pos it <=? 0) eqn:E; [discriminate|]. injection H as <- <-. rewrite IH1 in *. cbn. split; [reflexivity|lia].
    - cbn in H. destruct ((pos it + k <? 0) || (len (sl it) <? pos it + k)) eqn:E; [discriminate|]. injection H as <- <-.
      rewrite IH1 in *. cbn. split; [reflexivity|lia].
  Qed.

  Lemma get_spec h it : valid h (sl it) -> 0 <= pos it <= len (sl it) ->
    Get sliceOps it h = match zget (elems h (sl it)) (pos it) with Some x => (Ok x, h) | None => (Panic idx_msg, h) end.
  Proof.
    intros V Hp. destruct (valid_view _ _ V) as (pre & live & spare & post & W).
    rewrite (view_elems _ _ _ _ _ _ W). cbn. destruct (zget live (pos it)) as [x|] eqn:E.
    - eapply index_view; eassumption.
    - apply zget_none in E. pose proof (vw_len _ _ _ _ _ _ W). unfold index.
      replace ((0 <=? pos it) && (pos it <? len (sl it))) with false by lia. reflexivity.
  Qed.
  Lemma set_spec h it v : valid h (sl it) -> 0 <= pos it <= len (sl it) ->
    match zset (elems h (sl it)) (pos it) v with
    | Some l => exists h', Set_ sliceOps it v h = (Ok tt, h') /\ elems h' (sl it) = l
    | None => Set_ sliceOps it v h = (Panic idx_msg, h)
    end.
  Proof.
    intros V Hp. destruct (valid_view _ _ V) as (pre & live & spare & post & W).
    rewrite (view_elems _ _ _ _ _ _ W). cbn. pose proof (vw_len _ _ _ _ _ _ W).
    destruct (Z_lt_le_dec (pos it) (zlen live)).
    - rewrite zset_ok by lia. destruct (split_elem live (pos it)) as (a & x & b & -> & Ha); [lia|].
      rewrite <- Ha. eexists. split; [eapply assign_view; exact W|].
      replace (upd (a ++ x :: b) (Z.to_nat (zlen a)) v) with (a ++ v :: b).
      + eapply view_elems. eapply view_inplace_same; [exact W|]. zsimp. lia.
      + unfold zlen. now rewrite Nat2Z.id, upd_app.
    - rewrite (proj2 (zset_none live (pos it) v)) by lia. unfold assign.
      replace ((0 <=? pos it) && (pos it <? len (sl it))) with false by lia. reflexivity.
  Qed.

  (** ** Ranges *)
  Lemma part_split {A} (i j : Z) (l : list A) : 0 <= i <= j -> j <= zlen l ->
    exists pre post, l = pre ++ part i j l ++ post /\ zlen pre = i /\ zlen (part i j l) = j - i.
  Proof.
    intros Hi Hj. exists (firstn (Z.to_nat i) l), (skipn (Z.to_nat j) l). unfold part. split; [|split].
    - rewrite <- (firstn_skipn (Z.to_nat i) l) at 1. f_equal.
      rewrite <- (firstn_skipn (Z.to_nat (j - i)) (skipn (Z.to_nat i) l)) at 1. f_equal.
      rewrite skipn_skipn'. f_equal. lia.
    - unfold zlen in *. rewrite firstn_length. lia.
    - unfold zlen in *. rewrite firstn_length, skipn_length. lia.
  Qed.

  Lemma range_walk h s i j : valid h s -> 0 <= i <= j -> j <= len s ->
    walks sliceOps h (mkIt i s) (mkIt j s) (part i j (elems h s)).
  Proof.
    intros V Hi Hj. destruct (valid_view _ _ V) as (pre0 & live & spare & post0 & W).
    assert (Hl : zlen (elems h s) = len s) by (rewrite (view_elems _ _ _ _ _ _ W); symmetry; apply (vw_len _ _ _ _ _ _ W)).
    destruct (part_split i j (elems h s)) as (pre & post & E & Hpre & Hp); [lia|lia|].
    pose proof (walk _ _ _ _ (slice_lawful h s V) tt (part i j (elems h s)) pre post) as Wk.
    rewrite <- E, store_elems in Wk by assumption. rewrite Hp, Hpre in Wk. replace (i + (j - i)) with j in Wk by lia.
    now apply Wk.
  Qed.
  Lemma reverse_walk h s i j : valid h s -> 0 <= i <= j -> j <= len s ->
    walks (ReverseRandom sliceOps) h (Rev (mkIt (len s - i) s)) (Rev (mkIt (len s - j) s)) (part i j (rev (elems h s))).
  Proof.
    intros V Hi Hj. destruct (valid_view _ _ V) as (pre0 & live & spare & post0 & W).
    assert (Hl : zlen (rev (elems h s)) = len s)
      by (rewrite zlen_rev, (view_elems _ _ _ _ _ _ W); symmetry; apply (vw_len _ _ _ _ _ _ W)).
    destruct (part_split i j (rev (elems h s))) as (pre & post & E & Hpre & Hp); [lia|lia|].
    assert (LR : lawful (ReverseRandom (@sliceOps T)) (len s) (plugR (store h s)) (atR (len s) (fun i => mkIt i s))).
    { apply rev_lawful with sliceOps; [now apply slice_lawful|apply slice_prev|repeat split]. }
    pose proof (walk _ _ _ _ LR tt (part i j (rev (elems h s))) pre post) as Wk.
    rewrite <- E in Wk. unfold plugR in Wk. rewrite rev_involutive, store_elems in Wk by assumption.
    rewrite Hp, Hpre in Wk. replace (i + (j - i)) with j in Wk by lia. now apply Wk.
  Qed.

  Lemma part_all {A} (l : list A) : part 0 (zlen l) l = l.
  Proof. unfold part. cbn. rewrite Z.sub_0_r. unfold zlen. rewrite Nat2Z.id. apply firstn_all. Qed.

  Lemma elems_len h s : valid h s -> zlen (elems h s) = len s.
  Proof.
    intros V. destruct (valid_view _ _ V) as (pre0 & live & spare & post0 & W).
    rewrite (view_elems _ _ _ _ _ _ W); symmetry; apply (vw_len _ _ _ _ _ _ W).
  Qed.

  Lemma elems_cells h h' q : valid h q ->
    (forall i, off q <= i < off q + len q -> cell h' (arr q) i = cell h (arr q) i) -> elems h' q = elems h q.
  Proof.
    intros (H0 & H1 & d & Hd & Hl) Hc. unfold elems. unfold cell in Hc. rewrite Hd in Hc.
    rewrite (nth_error_nth _ _ _ Hd). assert (Hd' : len q = 0 \/ nth_error h' (arr q) = Some (nth (arr q) h' [])).
    { destruct (nth_error h' (arr q)) as [d'|] eqn:E; [right; now rewrite (nth_error_nth _ _ _ E)|left].
      destruct (Z.eq_dec (len q) 0) as [|N]; [assumption|exfalso]. specialize (Hc (off q) ltac:(lia)).
      symmetry in Hc. apply zget_none in Hc. lia. }
    destruct Hd' as [Hz|Hd']; [now rewrite Hz|]. rewrite Hd' in Hc. set (d' := nth (arr q) h' []) in *.
    assert (E : forall i, (i < Z.to_nat (len q))%nat -> nth_error (skipn (Z.to_nat (off q)) d') i = nth_error (skipn (Z.to_nat (off q)) d) i).
    { intros i Hi. specialize (Hc (off q + Z.of_nat i) ltac:(lia)). unfold zget in Hc.
      replace (off q + Z.of_nat i <? 0) with false in Hc by lia.
      rewrite !nth_error_skipn'. replace (Z.to_nat (off q) + i)%nat with (Z.to_nat (off q + Z.of_nat i)) by lia. exact Hc. }
    revert E. generalize (Z.to_nat (len q)), (skipn (Z.to_nat (off q)) d'), (skipn (Z.to_nat (off q)) d).
    induction n as [|n IH]; intros x y E; [reflexivity|]. pose proof (E 0%nat ltac:(lia)) as E0.
    destruct x as [|x xs], y as [|y ys]; cbn in E0; try discriminate; [reflexivity|].
    injection E0 as ->. cbn. f_equal. apply IH. intros i Hi. apply (E (S i)). lia.
  Qed.

  Lemma reverse_random_range_stuck h s j l k : valid h s -> j <= len s -> Z.of_nat k < j ->
    ~ walks (ReverseRandom sliceOps) h (Rev (mkIt (Z.of_nat k) s)) (Rev (mkIt j s)) l.
  Proof.
    intros V Hj. revert l.
    assert (HE : forall k, k < j -> Equal (ReverseRandom (@sliceOps T)) (Rev (mkIt k s)) (Rev (mkIt j s)) h <> (Ok true, h)).
    { intros k0 Hk0. cbn [Equal ReverseRandom sliceOps Base pos sl]. rewrite refl_eq. cbn [negb]. unfold xret. intros H.
      injection H. lia. }
    induction k as [|k IH]; intros l Hk W; inversion W; subst; clear W.
    - eapply HE; eassumption.
    - cbn in H1. discriminate.
    - eapply HE; eassumption.
    - assert (HN : Next (ReverseRandom (@sliceOps T)) (Rev (mkIt (Z.of_nat (S k)) s)) h = (Ok (Rev (mkIt (Z.of_nat k) s)), h)).
      { cbn [Next Prev ReverseRandom sliceOps Base pos sl]. unfold xbind.
        replace (Z.of_nat (S k) <=? 0) with false by (clear; symmetry; apply Z.leb_gt; lia).
        replace (Z.of_nat (S k) - 1) with (Z.of_nat k) by (clear; lia). reflexivity. }
      rewrite HN in H1. assert (b' = Rev (mkIt (Z.of_nat k) s)) as -> by congruence.
      revert H2. apply IH. clear - Hk. lia.
  Qed.
End Facts.

Section Ops.
  Context {T : Type} (zero : T) (growth : Z -> Z -> Z).
  Implicit Types (h : heap T) (s : slice).

  (** ** Insert *)
  Lemma insert_spec h s p q v : valid h s -> elems h s = p ++ q ->
    exists r h', Insert zero growth s (zlen p) v h = (Ok r, h') /\ valid h' r /\ elems h' r = p ++ v :: q /\
      writes_only h h' (fun a i => a = arr s /\ off s <= i <= off s + len s /\ i < off s + cap s).
  Proof.
    intros V E. destruct (valid_view _ _ V) as (pre & live & spare & post & W).
    rewrite (view_elems _ _ _ _ _ _ W) in E. subst live. destruct spare as [|y spare].
    - destruct (insert_grow zero growth h s pre p q v post W) as (c & Hc & EI).
      pose proof (view_fresh zero h (p ++ v :: q) c Hc) as W'.
      eexists _, _. split; [exact EI|]. split; [eapply view_valid; exact W'|]. split; [eapply view_elems; exact W'|].
      intros a i H1 _. now apply cell_extend.
    - pose proof (insert_room zero growth h s pre p q y v spare post W) as EI.
      pose proof (view_inplace h s pre (p ++ q) (y :: spare) post (p ++ v :: q) spare W) as W'.
      eexists _, _. split; [exact EI|]. split; [eapply view_valid; apply W'; zl|]. split; [eapply view_elems; apply W'; zl|].
      intros a i H1 H2. pose proof W as [V1 V2 V3 V4].
      apply (cell_inplace h s pre (p ++ q) (y :: spare) post (p ++ v :: q) spare a i W); [zl|]. intros Ha Hi.
      assert (G : i > off s + len s) by lia.
      zpos. rewrite !zget_app_r by (zsimp; lia). replace (i - off s - zlen (p ++ v :: q)) with (i - off s - zlen (p ++ q) - 1) by zl.
      set (k := i - off s - zlen (p ++ q)). replace k with (k - 1 + 1) at 2 by lia. rewrite zget_cons_S; [reflexivity|].
      subst k. zsimp. lia.
  Qed.

  Lemma delete_spec h s p x q : valid h s -> elems h s = p ++ x :: q ->
    exists r h', Delete s (zlen p) h = (Ok r, h') /\ valid h' r /\ elems h' r = p ++ q /\
      writes_only h h' (fun a i => a = arr s /\ off s <= i < off s + len s).
  Proof.
    intros V E. destruct (valid_view _ _ V) as (pre & live & spare & post & W).
    rewrite (view_elems _ _ _ _ _ _ W) in E. subst live.
    destruct (delete_exec growth h s pre p x q spare post W) as (y & ED).
    pose proof (view_inplace h s pre _ spare post (p ++ q) (y :: spare) W) as W'.
    eexists _, _. split; [exact ED|]. split; [eapply view_valid; apply W'; zl|]. split; [eapply view_elems; apply W'; zl|].
    intros a i H1 H2. pose proof W as [V1 V2 V3 V4].
    apply (cell_inplace h s pre (p ++ x :: q) spare post (p ++ q) (y :: spare) a i W); [zl|]. intros Ha Hi.
    assert (G : off s + len s <= i) by lia.
    zpos. rewrite !zget_app_r by (zsimp; lia). replace (i - off s - zlen (p ++ q)) with (i - off s - zlen (p ++ x :: q) + 1) by zl.
    rewrite zget_cons_S; [reflexivity|]. zsimp. lia.
  Qed.

  Lemma unordered_spec h s p x q : valid h s -> elems h s = p ++ x :: q ->
    exists r h', UnorderedDelete s (zlen p) h = (Ok r, h') /\ valid h' r /\
      (q = [] -> elems h' r = p) /\ (forall m z, q = m ++ [z] -> elems h' r = p ++ z :: m) /\
      writes_only h h' (fun a i => a = arr s /\ off s <= i < off s + len s).
  Proof.
    intros V E. destruct (valid_view _ _ V) as (pre & live & spare & post & W).
    rewrite (view_elems _ _ _ _ _ _ W) in E. subst live.
    assert (Hch : forall live' , zlen live' + 1 = zlen (p ++ x :: q) ->
      writes_only h (inplace h s pre live' (x :: spare) post) (fun a i => a = arr s /\ off s <= i < off s + len s)).
    { intros live' Hl a i H1 H2. pose proof W as [V1 V2 V3 V4].
      apply (cell_inplace h s pre (p ++ x :: q) spare post live' (x :: spare) a i W); [zl|]. intros Ha Hi.
      assert (G : off s + len s <= i) by lia.
      rewrite !zget_app_r by lia. replace (i - off s - zlen live') with (i - off s - zlen (p ++ x :: q) + 1) by lia.
      rewrite zget_cons_S; [reflexivity|]. lia. }
    destruct q as [|z m _] using rev_ind.
    - pose proof (unordered_last growth h s pre p x spare post W) as EU.
      pose proof (view_inplace h s pre _ spare post p (x :: spare) W) as W'.
      eexists _, _. split; [exact EU|]. split; [eapply view_valid; apply W'; zl|].
      split; [intros _; eapply view_elems; apply W'; zl|]. split; [intros [|] ? ?; discriminate|]. apply Hch. zl.
    - pose proof (unordered_exec growth h s pre p x m z spare post W) as EU.
      pose proof (view_inplace h s pre _ spare post (p ++ z :: m) (x :: spare) W) as W'.
      eexists _, _. split; [exact EU|]. split; [eapply view_valid; apply W'; zl|].
      split; [destruct m; discriminate|]. split; [|apply Hch; zl].
      intros m' z' Em. apply app_inj_tail in Em as [-> ->]. eapply view_elems. apply W'. zl.
  Qed.

  Lemma deletelast_spec h s p x : valid h s -> elems h s = p ++ [x] ->
    exists r, DeleteLast s h = (Ok r, h) /\ valid h r /\ elems h r = p.
  Proof.
    intros V E. destruct (valid_view _ _ V) as (pre & live & spare & post & W).
    rewrite (view_elems _ _ _ _ _ _ W) in E. subst live.
    pose proof (deletelast_exec growth h s pre p x spare post W) as ED.
    pose proof (view_inplace h s pre _ spare post p (x :: spare) W) as W'.
    assert (Eh : inplace h s pre p (x :: spare) post = h).
    { unfold inplace. apply upd_nth_self. rewrite (vw_arr _ _ _ _ _ _ W). f_equal. norm. reflexivity. }
    rewrite Eh in *. eexists. split; [exact ED|]. split; [eapply view_valid; apply W'; zl|eapply view_elems; apply W'; zl].
  Qed.

  Lemma append_spec h s vs : valid h s ->
    exists r h', append zero growth s vs h = (Ok r, h') /\ valid h' r /\ elems h' r = elems h s ++ vs /\
      writes_only h h' (fun a i => a = arr s /\ off s + len s <= i < off s + len s + zlen vs /\ i < off s + cap s).
  Proof.
    intros V. destruct (valid_view _ _ V) as (pre & live & spare & post & W).
    rewrite (view_elems _ _ _ _ _ _ W). pose proof W as [V1 V2 V3 V4].
    destruct (Z_lt_le_dec (zlen spare) (zlen vs)) as [Hg|Hr].
    - destruct (append_grow zero growth h s pre live vs spare post W Hg) as (c & Hc & EA).
      pose proof (view_fresh zero h (live ++ vs) c Hc) as W'.
      eexists _, _. split; [exact EA|]. split; [eapply view_valid; exact W'|]. split; [eapply view_elems; exact W'|].
      intros a i H1 _. now apply cell_extend.
    - destruct (split_at spare (zlen vs)) as (r & sp & -> & Hlr); [zl|].
      pose proof (append_room zero growth h s pre live vs r sp post W (eq_sym Hlr)) as EA.
      pose proof (view_inplace h s pre live (r ++ sp) post (live ++ vs) sp W) as W'.
      eexists _, _. split; [exact EA|]. split; [eapply view_valid; apply W'; zl|]. split; [eapply view_elems; apply W'; zl|].
      intros a i H1 H2.
      apply (cell_inplace h s pre live (r ++ sp) post (live ++ vs) sp a i W); [zl|]. intros Ha Hi.
      destruct (Z_lt_le_dec i (off s + len s)).
      + rewrite <- app_assoc. rewrite !(zget_app_l live) by lia. reflexivity.
      + assert (G : off s + len s + zlen vs <= i) by lia.
        rewrite (app_assoc live r sp). rewrite !(zget_app_r (live ++ _)) by (zsimp; lia). f_equal. zl.
  Qed.

  (** ** Copy, Reversed *)
  Lemma goHeap_nil h : goHeap h -> exists h2, h = [] :: h2.
  Proof. intros [H _]. destruct h; [discriminate|]. cbn in H. injection H as ->. eauto. Qed.

  Lemma assign_other h s i v : snd (assign s i v h) = h \/
    exists d d', nth_error h (arr s) = Some d /\ zlen d' = zlen d /\ snd (assign s i v h) = upd h (arr s) d'.
  Proof.
    unfold assign. destruct ((0 <=? i) && (i <? len s)); [|now left]. unfold st.
    destruct (nth_error h (arr s)) as [d|] eqn:E; [|now left].
    destruct (zset d (off s + i) v) as [d'|] eqn:F; [|now left]. right. exists d, d'. repeat split.
    unfold zset in F. destruct ((0 <=? off s + i) && (off s + i <? zlen d)); [|discriminate]. injection F as <-.
    apply zlen_upd.
  Qed.
  Lemma setMany_other s q ws : forall h, arr q <> arr s -> elems (setMany s ws h) q = elems h q.
  Proof.
    induction ws as [|[i v] ws IH]; intros h Hne; [reflexivity|].
    unfold setMany in *. cbn [runOps]. destruct (SetAt s i v h) as [r h1] eqn:E.
    specialize (IH h1 Hne). destruct (runOps _ ws h1) as [rs h2] eqn:F. cbn [snd] in *. rewrite IH.
    unfold SetAt in E. destruct (assign_other h s i v) as [H|(d & d' & _ & _ & H)]; rewrite E in H; cbn in H; subst h1; [reflexivity|].
    now apply elems_upd_other.
  Qed.
  Lemma setMany_nil ws h : setMany nilSlice ws h = h.
  Proof.
    revert h. induction ws as [|[i v] ws IH]; intros h; [reflexivity|]. unfold setMany in *. cbn [runOps].
    destruct (SetAt nilSlice i v h) as [r h1] eqn:E. assert (h1 = h).
    { unfold SetAt, assign in E. cbn [len nilSlice] in E. replace ((0 <=? i) && (i <? 0)) with false in E by lia.
      now injection E. }
    subst h1. specialize (IH h). destruct (runOps _ ws h) as [rs h2] eqn:F. cbn in *. assumption.
  Qed.

  Lemma fresh_independent h l n c : independent h (h ++ [l]) (mkSlice (List.length h) 0 n c).
  Proof.
    split; intros q V ws; pose proof (valid_arr _ _ V).
    - rewrite setMany_other by (cbn; lia). now apply elems_extend.
    - apply setMany_other. cbn. lia.
  Qed.
  Lemma nil_independent h : independent h h nilSlice.
  Proof. split; intros q V ws; [now rewrite setMany_nil|reflexivity]. Qed.

  Lemma copy_spec h s : goHeap h -> valid h s ->
    exists r h', Copy zero growth s h = (Ok r, h') /\ valid h' r /\ elems h' r = elems h s /\ independent h h' r.
  Proof.
    intros G V. destruct (valid_view _ _ V) as (pre & live & spare & post & W).
    rewrite (view_elems _ _ _ _ _ _ W). destruct (goHeap_nil h G) as [h2 Hh]. destruct live as [|x live].
    - exists nilSlice, h. pose proof (vw_len _ _ _ _ _ _ W) as Hl. unfold Copy. rewrite Hl. split; [reflexivity|].
      split; [|split; [reflexivity|apply nil_independent]].
      split; [cbn; lia|]. split; [cbn; lia|]. exists []. rewrite Hh. split; [reflexivity|cbn; lia].
    - destruct (copy_exec zero growth h s pre (x :: live) spare post h2 Hh W) as (c & Hc & E); [discriminate|].
      pose proof (view_fresh zero h (x :: live) c Hc) as W'. eexists _, _. split; [exact E|].
      split; [eapply view_valid; exact W'|]. split; [eapply view_elems; exact W'|apply fresh_independent].
  Qed.
  Lemma reversed_spec h s : goHeap h -> valid h s ->
    exists r h', Reversed zero s h = (Ok r, h') /\ valid h' r /\ elems h' r = rev (elems h s) /\ independent h h' r.
  Proof.
    intros G V. destruct (valid_view _ _ V) as (pre & live & spare & post & W).
    rewrite (view_elems _ _ _ _ _ _ W). destruct (goHeap_nil h G) as [h2 Hh]. destruct live as [|x live].
    - exists nilSlice, h. pose proof (vw_len _ _ _ _ _ _ W) as Hl. unfold Reversed. rewrite Hl. split; [reflexivity|].
      split; [|split; [reflexivity|apply nil_independent]].
      split; [cbn; lia|]. split; [cbn; lia|]. exists []. rewrite Hh. split; [reflexivity|cbn; lia].
    - pose proof (reversed_exec zero growth h s pre (x :: live) spare post W) as E. rewrite E by discriminate.
      pose proof (view_fresh zero h (rev (x :: live)) (zlen (rev (x :: live))) (Z.le_refl _)) as W'.
      rewrite Z.sub_diag in W'. cbn [Z.to_nat repeat] in W'. rewrite app_nil_r in W'.
      replace (zlen (x :: live)) with (zlen (rev (x :: live))) by apply zlen_rev.
      eexists _, _. split; [reflexivity|].
      split; [eapply view_valid; exact W'|]. split; [eapply view_elems; exact W'|apply fresh_independent].
  Qed.

  (** ** Writing through iterators *)
  Lemma fill_writes {St It} (o : ops St It T) v n : forall it (w : St), fillLoop o n it v w = writes o it (repeat v n) w.
  Proof.
    induction n as [|n IH]; intros it s; [reflexivity|]. cbn [fillLoop repeat writes]. unfold xbind.
    destruct (Set_ o it v s) as [[[]| |] s']; try reflexivity.
    destruct (Next o it s') as [[it'| |] s'']; try reflexivity. apply IH.
  Qed.

  Lemma modify_ok f h s r h' : f s h = (Ok r, h') -> modify f (h, s) = (Ok tt, (h', r)).
  Proof. intros E. unfold modify, xbind, xget, onVar. cbn. rewrite E. reflexivity. Qed.

  Lemma append_writes vs : forall h s, valid h s ->
    exists h' s', writes (AppendIterator zero (fun (_ : unit) => Append_ zero growth) (fun _ _ => true)) tt vs (h, s)
      = (Ok tt, (h', s')) /\ valid h' s' /\ elems h' s' = elems h s ++ vs.
  Proof.
    induction vs as [|v vs IH]; intros h s V.
    - exists h, s. rewrite app_nil_r. auto.
    - destruct (append_spec h s [v] V) as (r & h1 & E & V1 & E1 & _).
      destruct (IH h1 r V1) as (h' & s' & E2 & V2 & E3). exists h', s'. cbn [writes].
      erewrite xbind_ok by (apply modify_ok; exact E). erewrite xbind_ok by reflexivity.
      split; [exact E2|]. split; [exact V2|]. rewrite E3, E1, <- app_assoc. reflexivity.
  Qed.

  (** The iterator of a *Slice inserter: its memory cell is the third part of the state. *)
  Lemma insert_step h s p q v : valid h s -> elems h s = p ++ q ->
    exists h' s', Set_ (InsertIterator zero (liftOps sliceOps slice) (Insert_ zero growth)) tt v ((h, s), mkIt (zlen p) s)
      = (Ok tt, ((h', s'), mkIt (zlen p + 1) s')) /\ valid h' s' /\ elems h' s' = (p ++ [v]) ++ q.
  Proof.
    intros V E. destruct (insert_spec h s p q v V E) as (r & h' & EI & V' & E' & _).
    exists h', r. split; [|split; [exact V'|rewrite <- app_assoc; exact E']].
    cbn [Set_ InsertIterator]. unfold xbind at 1, xget at 1. cbn [snd].
    assert (HI : Insert_ zero growth (mkIt (zlen p) s) v (h, s) = (Ok (mkIt (zlen p) r), (h', r))).
    { unfold Insert_. unfold xbind at 1, checkIterator, xbind at 1, xget at 1. cbn [snd sl pos]. rewrite refl_eq. cbn [negb].
      unfold xret at 1. unfold xbind. rewrite (modify_ok _ h s r h' EI). reflexivity. }
    unfold xbind at 1, onSt at 1. rewrite HI.
    unfold xbind at 1, onSt at 1. cbn [Next liftOps]. unfold onSt at 1. cbn [Next sliceOps pos sl].
    pose proof (elems_len h' r V') as Hl. rewrite E' in Hl. zsimp. zpos.
    replace (zlen p >=? len r) with false by lia. unfold xret, xbind, xget, xput. reflexivity.
  Qed.
  Lemma insert_writes vs : forall h s p q, valid h s -> elems h s = p ++ q ->
    exists h' s', writes (InsertIterator zero (liftOps sliceOps slice) (Insert_ zero growth)) tt vs ((h, s), mkIt (zlen p) s)
      = (Ok tt, ((h', s'), mkIt (zlen p + zlen vs) s')) /\ valid h' s' /\ elems h' s' = p ++ vs ++ q.
  Proof.
    induction vs as [|v vs IH]; intros h s p q V E.
    - exists h, s. rewrite zlen_nil, Z.add_0_r. auto.
    - destruct (insert_step h s p q v V E) as (h1 & s1 & E1 & V1 & El1).
      destruct (IH h1 s1 (p ++ [v]) q V1 El1) as (h' & s' & E2 & V2 & El2). exists h', s'. cbn [writes].
      erewrite xbind_ok by exact E1. erewrite xbind_ok by reflexivity. rewrite zlen_snoc in E2. rewrite zlen_cons.
      replace (zlen p + (zlen vs + 1)) with (zlen p + 1 + zlen vs) by lia. split; [exact E2|]. split; [exact V2|].
      rewrite El2, <- app_assoc. reflexivity.
  Qed.
End Ops.
