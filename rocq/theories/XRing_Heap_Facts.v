(** Memory facts for the ring in memory: what grows, what stays, and the Go
    slice operations seen through the elements they show. *)
From Verif Require Import Base Arr Exn GoSlice Algo_Proofs GoSlice_Proofs XSlice_Spec XSlice_Facts XRing_Heap_Spec.
Local Open Scope list_scope.
Local Open Scope Z_scope.

Section Frames.
  Context {T : Type}.
  Implicit Types (h : heap T) (s : slice).

  (** Arrays never disappear or change length. *)
  Definition grows h h' : Prop :=
    forall a d, nth_error h a = Some d -> exists d', nth_error h' a = Some d' /\ zlen d' = zlen d.

  (** ... and only cells in [P] change. *)
  Definition frame (P : nat -> Z -> Prop) h h' : Prop :=
    grows h h' /\ forall a i, cell h a i <> None -> ~ P a i -> cell h' a i = cell h a i.

  Lemma grows_refl h : grows h h.
  Proof. intros a d H. eauto. Qed.
  Lemma grows_trans h h1 h2 : grows h h1 -> grows h1 h2 -> grows h h2.
  Proof.
    intros H1 H2 a d H. destruct (H1 a d H) as (d1 & Hd & E). destruct (H2 a d1 Hd) as (d2 & Hd2 & E2).
    exists d2. split; [assumption|lia].
  Qed.
  Lemma grows_length h h' : grows h h' -> (List.length h <= List.length h')%nat.
  Proof.
    intros G. destruct (Nat.le_gt_cases (List.length h) (List.length h')) as [|L]; [assumption|].
    assert (nth_error h (List.length h') <> None) as N by (apply nth_error_Some; lia).
    destruct (nth_error h (List.length h')) as [d|] eqn:E; [|contradiction].
    destruct (G _ _ E) as (d' & E' & _). assert (nth_error h' (List.length h') <> None) as N' by congruence.
    apply nth_error_Some in N'. lia.
  Qed.
  Lemma grows_valid h h' s : grows h h' -> valid h s -> valid h' s.
  Proof.
    intros G (H1 & H2 & d & Hd & H3). destruct (G _ _ Hd) as (d' & Hd' & E). split; [assumption|].
    split; [assumption|]. exists d'. split; [assumption|lia].
  Qed.
  Lemma grows_goHeap h h' : grows h h' -> goHeap h -> goHeap h'.
  Proof.
    intros G [H0 H1]. destruct (G _ _ H0) as (d & Hd & E). destruct (G _ _ H1) as (d1 & Hd1 & E1).
    apply zlen_0_nil in E, E1. subst. now split.
  Qed.
  Lemma grows_extend h d : grows h (h ++ d).
  Proof.
    intros a e H. exists e. split; [|reflexivity]. rewrite nth_error_app1; [assumption|].
    apply nth_error_Some. congruence.
  Qed.
  Lemma grows_upd h a d d' : nth_error h a = Some d -> zlen d' = zlen d -> grows h (upd h a d').
  Proof.
    intros H E b e Hb. destruct (Nat.eq_dec b a) as [->|N].
    - exists d'. split; [eapply nth_error_upd_same; eassumption|]. assert (e = d) by congruence. now subst.
    - exists e. split; [now rewrite nth_error_upd_other by congruence|reflexivity].
  Qed.
  Lemma grows_cell h h' a i : grows h h' -> cell h a i <> None -> cell h' a i <> None.
  Proof.
    unfold cell. intros G. destruct (nth_error h a) as [d|] eqn:E; [|congruence].
    destruct (G _ _ E) as (d' & -> & L). intros H N. apply H. apply zget_none. apply zget_none in N. lia.
  Qed.

  Lemma frame_refl P h : frame P h h.
  Proof. split; [apply grows_refl|reflexivity]. Qed.
  Lemma frame_trans (P Q R : nat -> Z -> Prop) h h1 h2 : frame P h h1 -> frame Q h1 h2 ->
    (forall a i, cell h a i <> None -> P a i \/ Q a i -> R a i) -> frame R h h2.
  Proof.
    intros [G1 F1] [G2 F2] HR. split; [eapply grows_trans; eassumption|]. intros a i Hc HnR.
    assert (~ P a i /\ ~ Q a i) as [NP NQ] by (split; intros ?; apply HnR; apply HR; auto).
    rewrite F2; [now apply F1| |assumption]. now apply (grows_cell h).
  Qed.
  Lemma frame_weaken (P Q : nat -> Z -> Prop) h h' : frame P h h' -> (forall a i, P a i -> Q a i) -> frame Q h h'.
  Proof. intros [G F] H. split; [assumption|]. intros a i Hc Hn. apply F; auto. Qed.
  Lemma frame_extend P h d : frame P h (h ++ d).
  Proof. split; [apply grows_extend|]. intros a i Hc _. now apply cell_extend. Qed.

  Lemma cell_arr h a i : cell h a i <> None -> (a < List.length h)%nat.
  Proof. unfold cell. intros H. apply nth_error_Some. intros E. rewrite E in H. congruence. Qed.
  Lemma cell_valid h s i : valid h s -> off s <= i < off s + cap s -> cell h (arr s) i <> None.
  Proof.
    intros (H1 & H2 & d & Hd & H3) Hi. unfold cell. rewrite Hd. intros N. apply zget_none in N. lia.
  Qed.
  Lemma frame_elems P h h' s : frame P h h' -> valid h s -> (forall a i, inLen s a i -> ~ P a i) ->
    elems h' s = elems h s.
  Proof.
    intros [G F] V H. apply elems_cells; [assumption|]. intros i Hi. apply F.
    - apply cell_valid; [assumption|]. destruct V as (_ & ? & _). lia.
    - apply H. split; [reflexivity|assumption].
  Qed.

  Lemma zget_elems h s i : valid h s -> 0 <= i < len s -> zget (elems h s) i = cell h (arr s) (off s + i).
  Proof.
    intros V Hi. destruct (valid_view _ _ V) as (pre & live & spare & post & W).
    rewrite (view_elems _ _ _ _ _ _ W). destruct W as [W1 W2 W3 W4]. unfold cell. rewrite W1.
    rewrite zget_app_r by lia. rewrite zget_app_l by lia. f_equal. lia.
  Qed.

  (** ** Operations *)
  Lemma index_ok h s i : valid h s ->
    index s i h = (match zget (elems h s) i with Some v => Ok v | None => Panic idx_msg end, h).
  Proof.
    intros V. unfold index. pose proof (elems_len h s V) as L.
    destruct ((0 <=? i) && (i <? len s)) eqn:E.
    - assert (0 <= i < len s) as Hi by lia. pose proof (zget_elems h s i V Hi) as G.
      destruct (zget_some (elems h s) i) as [x Hx]; [lia|]. rewrite Hx in *. unfold ld. unfold cell in G.
      destruct (nth_error h (arr s)); [|discriminate]. now rewrite <- G.
    - assert (zget (elems h s) i = None) as -> by (apply zget_none; lia). reflexivity.
  Qed.

  Lemma st_ok h a i v : cell h a i <> None -> exists h', st a i v h = (Ok tt, h') /\
    frame (fun b j => b = a /\ j = i) h h' /\ cell h' a i = Some v.
  Proof.
    unfold cell, st. destruct (nth_error h a) as [d|] eqn:E; [|congruence]. intros H.
    destruct (Z_lt_dec i 0) as [N|N]. { exfalso. apply H. apply zget_none. lia. }
    destruct (Z_lt_dec i (zlen d)) as [N2|N2]. 2:{ exfalso. apply H. apply zget_none. lia. }
    rewrite zset_ok by lia. eexists. split; [reflexivity|]. split; [split|].
    - apply grows_upd with d; [assumption|apply zlen_upd].
    - intros b j Hc Hn. unfold cell. destruct (Nat.eq_dec b a) as [->|M].
      + erewrite nth_error_upd_same by eassumption. rewrite E. unfold cell in Hc. rewrite E in Hc.
        unfold zget in *. destruct (j <? 0) eqn:Ej; [reflexivity|]. rewrite nth_error_upd_other; [reflexivity|].
        intros Q. apply Hn. split; [reflexivity|lia].
      + now rewrite nth_error_upd_other by congruence.
    - erewrite nth_error_upd_same by eassumption. unfold zget. replace (i <? 0) with false by lia.
      assert (nth_error d (Z.to_nat i) <> None) as Q by (apply nth_error_Some; unfold zlen in *; lia).
      destruct (nth_error d (Z.to_nat i)) eqn:E2; [|congruence]. eapply nth_error_upd_same. eassumption.
  Qed.

  Lemma zget_upd (l : list T) i j v : 0 <= i < zlen l ->
    zget (upd l (Z.to_nat i) v) j = if j =? i then Some v else zget l j.
  Proof.
    intros Hi. unfold zget, zlen in *. destruct (Z.ltb_spec j 0) as [N|N].
    - replace (j =? i) with false by lia. reflexivity.
    - rewrite nth_error_upd by lia. destruct (Nat.eqb_spec (Z.to_nat j) (Z.to_nat i)), (Z.eqb_spec j i); auto; lia.
  Qed.

  Lemma nth_error_ext (l l' : list T) : (forall n, nth_error l n = nth_error l' n) -> l = l'.
  Proof.
    revert l'. induction l as [|x l IH]; intros [|y l'] H; [reflexivity|discriminate (H 0%nat)..|].
    f_equal; [now injection (H 0%nat)|]. apply IH. intros n. apply (H (S n)).
  Qed.

  Lemma zget_ext (l l' : list T) : zlen l = zlen l' -> (forall i, 0 <= i < zlen l -> zget l i = zget l' i) -> l = l'.
  Proof.
    intros E H. apply nth_error_ext. intros n. destruct (Nat.lt_ge_cases n (List.length l)) as [L|L].
    - specialize (H (Z.of_nat n)). unfold zget, zlen in *. replace (Z.of_nat n <? 0) with false in H by lia.
      rewrite Nat2Z.id in H. apply H. lia.
    - assert (nth_error l n = None) as -> by now apply nth_error_None. symmetry. apply nth_error_None. unfold zlen in E. lia.
  Qed.

  Lemma assign_ok h s i v : valid h s -> 0 <= i < len s ->
    exists h', assign s i v h = (Ok tt, h') /\ frame (fun b j => b = arr s /\ j = off s + i) h h' /\
      elems h' s = upd (elems h s) (Z.to_nat i) v.
  Proof.
    intros V Hi. unfold assign. replace ((0 <=? i) && (i <? len s)) with true by lia.
    pose proof (elems_len h s V) as L.
    destruct (st_ok h (arr s) (off s + i) v) as (h' & E & F & C).
    { apply cell_valid; [assumption|]. destruct V as (_ & ? & _). lia. }
    exists h'. split; [assumption|]. split; [assumption|].
    assert (V' : valid h' s) by (apply (grows_valid h); [apply F|assumption]).
    apply zget_ext. { rewrite zlen_upd, !elems_len by assumption. reflexivity. }
    intros j Hj. rewrite elems_len in Hj by assumption. rewrite zget_upd by lia. rewrite !zget_elems by assumption.
    destruct (Z.eqb_spec j i) as [->|N]; [assumption|]. apply F.
    - apply cell_valid; [assumption|]. destruct V as (_ & ? & _). lia.
    - intros [_ Q]. lia.
  Qed.

  Lemma spread_ok h s : valid h s -> rd (arr s) (off s) (len s) h = (Ok (elems h s), h).
  Proof.
    intros V. destruct (valid_view _ _ V) as (pre & live & spare & post & W).
    rewrite (view_elems _ _ _ _ _ _ W). destruct W as [W1 W2 W3 W4]. eapply rd_view; eassumption.
  Qed.

  (** Part i..j of a slice, within its length. *)
  Lemma reslice_ok h s i j : valid h s -> 0 <= i <= j -> j <= cap s ->
    exists s', reslice s i j h = (Ok s', h) /\ valid h s' /\ arr s' = arr s /\ len s' = j - i /\ cap s' = cap s - i /\
      (i = 0 -> off s' = off s) /\ (forall a k, inCap s' a k -> inCap s a k) /\
      (j <= len s -> elems h s' = firstn (Z.to_nat (j - i)) (skipn (Z.to_nat i) (elems h s))).
  Proof.
    intros V Hi Hj. unfold reslice. replace ((0 <=? i) && (i <=? j) && (j <=? cap s)) with true by lia.
    eexists. split; [reflexivity|]. cbn [arr off len cap]. destruct V as (V1 & V2 & d & Hd & V3).
    split. { split; [cbn; destruct (_ =? 0); lia|]. split; [cbn; lia|]. exists d. split; [assumption|].
      cbn. destruct (Z.eqb_spec (cap s - i) 0); lia. }
    split; [reflexivity|]. split; [reflexivity|]. split; [reflexivity|].
    split. { intros ->. destruct (_ =? 0); lia. }
    split. { intros a k [Ha Hk]. cbn in *. split; [assumption|]. destruct (Z.eqb_spec (cap s - i) 0); lia. }
    intros Hl. unfold elems. cbn [arr off len cap]. destruct (Z.eqb_spec (cap s - i) 0) as [Z0|Z0].
    - replace (j - i) with 0 by lia. reflexivity.
    - rewrite skipn_firstn_comm. rewrite firstn_firstn, skipn_skipn'. f_equal; [lia|]. f_equal. lia.
  Qed.
End Frames.

Section Append.
  Context {T : Type} (zero : T) (growth : Z -> Z -> Z).
  Implicit Types (h : heap T) (s : slice).

  (** append(s, vs...): in place when it fits, in a fresh array otherwise. *)
  Lemma append_ok h s vs : valid h s ->
    exists s' h', append zero growth s vs h = (Ok s', h') /\ valid h' s' /\ elems h' s' = elems h s ++ vs /\
      frame (fun a i => a = arr s /\ off s + len s <= i < off s + len s + zlen vs /\ i < off s + cap s) h h' /\
      len s' = len s + zlen vs /\
      ((len s + zlen vs <= cap s /\ arr s' = arr s /\ off s' = off s /\ cap s' = cap s) \/
       (cap s < len s + zlen vs /\ arr s' = List.length h)).
  Proof.
    intros V. destruct (valid_view _ _ V) as (pre & live & spare & post & W). rewrite (view_elems _ _ _ _ _ _ W).
    assert (W0 := W). destruct W0 as [W1 W2 W3 W4].
    destruct (Z_le_gt_dec (zlen vs) (zlen spare)) as [L|L].
    - destruct (split_at spare (zlen vs)) as (r & sp & -> & Er); [zl|].
      pose proof (append_room zero growth h s pre live vs r sp post W (eq_sym Er)) as E.
      pose proof (view_inplace h s pre live (r ++ sp) post (live ++ vs) sp W ltac:(zl)) as W'.
      eexists _, _. split; [exact E|]. split; [eapply view_valid; exact W'|]. split; [eapply view_elems; exact W'|].
      split; [split|].
      + apply grows_upd with (pre ++ live ++ (r ++ sp) ++ post); [assumption|]. zl.
      + intros a i _ Hn. apply (cell_inplace h s pre live (r ++ sp) post (live ++ vs) sp a i W); [zl|]. intros Ha Hi.
        destruct (Z_lt_le_dec i (off s + len s)).
        * rewrite <- app_assoc. rewrite !(zget_app_l live) by lia. reflexivity.
        * assert (G : off s + len s + zlen vs <= i) by (destruct (Z_le_gt_dec (off s + len s + zlen vs) i); [assumption|]; exfalso; apply Hn; lia).
          rewrite (app_assoc live r sp). rewrite !(zget_app_r (live ++ _)) by (zsimp; lia). f_equal. zl.
      + cbn [len arr off cap]. split; [zl|]. left. repeat split; zl.
    - destruct (append_grow zero growth h s pre live vs spare post W ltac:(lia)) as (c & Hc & E).
      pose proof (view_fresh zero h (live ++ vs) c Hc) as W'.
      eexists _, _. split; [exact E|]. split; [eapply view_valid; exact W'|]. split; [eapply view_elems; exact W'|].
      split; [apply frame_extend|]. cbn [len arr off cap]. split; [zl|]. right. split; [zl|reflexivity].
  Qed.

End Append.

Section Make.
  Context {T : Type} (zero : T).
  Implicit Types (h : heap T).

  Lemma make_ok h n : 0 < n -> makeSlice zero n h
    = (Ok (mkSlice (List.length h) 0 n n), h ++ [repeat zero (Z.to_nat n)]).
  Proof.
    intros Hn. unfold makeSlice. replace (n <? 0) with false by lia. replace (n =? 0) with false by lia. reflexivity.
  Qed.
  Lemma make_valid h n : 0 < n -> valid (h ++ [repeat zero (Z.to_nat n)]) (mkSlice (List.length h) 0 n n) /\
    elems (h ++ [repeat zero (Z.to_nat n)]) (mkSlice (List.length h) 0 n n) = repeat zero (Z.to_nat n).
  Proof.
    intros Hn. split.
    - split; [cbn; lia|]. split; [cbn; lia|]. exists (repeat zero (Z.to_nat n)). cbn [arr off cap].
      rewrite nth_error_app2, Nat.sub_diag by lia. split; [reflexivity|]. rewrite zlen_repeat. lia.
    - unfold elems. cbn [arr off len]. rewrite app_nth2, Nat.sub_diag by lia. cbn [nth Z.to_nat skipn].
      rewrite firstn_all2; [reflexivity|]. rewrite repeat_length. lia.
  Qed.
End Make.
