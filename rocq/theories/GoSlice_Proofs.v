(** Facts about Go slices in the heap. *)
From Verif Require Import Base Arr Exn GoSlice Algo_Proofs.
Local Open Scope list_scope.
Local Open Scope Z_scope.

Lemma zlen_repeat {A} (x : A) n : zlen (repeat x n) = Z.of_nat n.
Proof. unfold zlen. now rewrite repeat_length. Qed.
#[export] Hint Rewrite @zlen_app @zlen_cons @zlen_nil @zlen_rev @zlen_upd @zlen_repeat : zlen.
Ltac zsimp := autorewrite with zlen in *.
Ltac zpos := repeat match goal with
  | l : list _ |- _ => lazymatch goal with
                       | _ : 0 <= zlen l |- _ => fail
                       | _ => pose proof (zlen_nonneg l)
                       end
  end.
Ltac zl := zpos; zsimp; lia.

Lemma nth_error_upd_same {A} (l : list A) n x y : nth_error l n = Some x -> nth_error (upd l n y) n = Some y.
Proof.
  revert n. induction l; intros [|n]; cbn; intros; try congruence. eauto.
Qed.
Lemma nth_error_upd_other {A} (l : list A) n k y : n <> k -> nth_error (upd l n y) k = nth_error l k.
Proof.
  revert n k. induction l; intros [|n] [|k]; cbn; intros; try congruence. auto.
Qed.
Lemma upd_upd {A} (l : list A) n x y : upd (upd l n x) n y = upd l n y.
Proof. revert n. induction l; intros [|n]; cbn; congruence. Qed.
Lemma upd_nth_self {A} (l : list A) n x : nth_error l n = Some x -> upd l n x = l.
Proof. revert n. induction l; intros [|n]; cbn; intros; try congruence. f_equal. auto. Qed.

Lemma firstn_zlen {A} (l r : list A) k : k = zlen l -> firstn (Z.to_nat k) (l ++ r) = l.
Proof. intros ->. unfold zlen. rewrite Nat2Z.id. rewrite firstn_app, Nat.sub_diag, firstn_all. cbn. apply app_nil_r. Qed.
Lemma skipn_zlen {A} (l r : list A) k : k = zlen l -> skipn (Z.to_nat k) (l ++ r) = r.
Proof. intros ->. unfold zlen. rewrite Nat2Z.id. rewrite skipn_app, Nat.sub_diag, skipn_all. reflexivity. Qed.

Lemma split_at {A} (l : list A) k : 0 <= k <= zlen l -> exists a b, l = a ++ b /\ zlen a = k.
Proof.
  intros H. exists (firstn (Z.to_nat k) l), (skipn (Z.to_nat k) l). split; [symmetry; apply firstn_skipn|].
  unfold zlen in *. rewrite firstn_length. lia.
Qed.
Lemma split_elem {A} (l : list A) k : 0 <= k < zlen l -> exists a x b, l = a ++ x :: b /\ zlen a = k.
Proof.
  intros H. destruct (split_at l k) as (a & b & -> & Ha); [lia|]. destruct b as [|x b]; [zsimp; lia|].
  exists a, x, b. auto.
Qed.

Section View.
  Context {T : Type}.
  Implicit Types (h : heap T) (s : slice).

  (** The array of [s] is [pre ++ live ++ spare ++ post]. *)
  Record view h s (pre live spare post : list T) : Prop := {
    vw_arr : nth_error h (arr s) = Some (pre ++ live ++ spare ++ post);
    vw_off : off s = zlen pre;
    vw_len : len s = zlen live;
    vw_cap : cap s = zlen live + zlen spare }.

  Lemma valid_view h s : valid h s -> exists pre live spare post, view h s pre live spare post.
  Proof.
    intros (H1 & H2 & d & Hd & H3).
    destruct (split_at d (off s)) as (pre & r & -> & E1); [lia|].
    destruct (split_at r (len s)) as (live & r2 & -> & E2); [zl|].
    destruct (split_at r2 (cap s - len s)) as (spare & post & -> & E3); [zl|].
    exists pre, live, spare, post. split; [assumption|lia..].
  Qed.
  Lemma view_valid h s pre live spare post : view h s pre live spare post -> valid h s.
  Proof.
    intros [V1 V2 V3 V4]. split; [zl|]. split; [zl|]. exists (pre ++ live ++ spare ++ post). split; [assumption|zl].
  Qed.
  Lemma view_elems h s pre live spare post : view h s pre live spare post -> elems h s = live.
  Proof.
    intros [V1 V2 V3 V4]. unfold elems. rewrite (nth_error_nth _ _ _ V1).
    rewrite skipn_zlen by assumption. now rewrite firstn_zlen.
  Qed.

  (** The heap with the array of [s] replaced. *)
  Definition inplace h s (pre live spare post : list T) : heap T := upd h (arr s) (pre ++ live ++ spare ++ post).

  Lemma view_inplace h s pre live spare post live' spare' :
    view h s pre live spare post -> zlen live' + zlen spare' = zlen live + zlen spare ->
    view (inplace h s pre live' spare' post) (mkSlice (arr s) (off s) (zlen live') (cap s)) pre live' spare' post.
  Proof.
    intros [V1 V2 V3 V4] E. split; cbn; try lia. eapply nth_error_upd_same. eassumption.
  Qed.
  Lemma view_inplace_same h s pre live spare post live' :
    view h s pre live spare post -> zlen live' = zlen live ->
    view (inplace h s pre live' spare post) s pre live' spare post.
  Proof.
    intros [V1 V2 V3 V4] E. split; try lia. eapply nth_error_upd_same. eassumption.
  Qed.
  Lemma inplace_id h s pre live spare post : view h s pre live spare post -> inplace h s pre live spare post = h.
  Proof. intros [V1 _ _ _]. now apply upd_nth_self. Qed.

  Lemma index_view h s pre live spare post i x : view h s pre live spare post ->
    zget live i = Some x -> index s i h = (Ok x, h).
  Proof.
    intros [V1 V2 V3 V4] Hx. apply zget_range in Hx as Hr. unfold index.
    replace ((0 <=? i) && (i <? len s)) with true by lia. unfold ld. rewrite V1.
    rewrite zget_app_r by lia. replace (off s + i - zlen pre) with i by lia.
    rewrite zget_app_l by lia. now rewrite Hx.
  Qed.

  Lemma assign_view h s pre p x q spare post v : view h s pre (p ++ x :: q) spare post ->
    assign s (zlen p) v h = (Ok tt, inplace h s pre (p ++ v :: q) spare post).
  Proof.
    intros [V1 V2 V3 V4]. zpos. unfold assign.
    replace ((0 <=? zlen p) && (zlen p <? len s)) with true by (zsimp; lia). unfold st. rewrite V1.
    replace (pre ++ (p ++ x :: q) ++ spare ++ post) with ((pre ++ p) ++ x :: q ++ spare ++ post)
      by (repeat rewrite <- ?app_assoc; reflexivity).
    replace (off s + zlen p) with (zlen (pre ++ p)) by zl. rewrite zset_mid. unfold inplace.
    do 2 f_equal. repeat rewrite <- ?app_assoc. reflexivity.
  Qed.

  (** Reading and writing a block. *)
  Lemma rd_view h a p l q i n : nth_error h a = Some (p ++ l ++ q) -> i = zlen p -> n = zlen l -> rd a i n h = (Ok l, h).
  Proof.
    intros H -> ->. zpos. unfold rd. rewrite H.
    replace ((0 <=? zlen p) && (0 <=? zlen l) && (zlen p + zlen l <=? zlen (p ++ l ++ q))) with true by (zsimp; lia).
    rewrite skipn_zlen by reflexivity. now rewrite firstn_zlen.
  Qed.
  Lemma wr_view h a p l q i l' : nth_error h a = Some (p ++ l ++ q) -> i = zlen p -> zlen l' = zlen l ->
    wr a i l' h = (Ok tt, upd h a (p ++ l' ++ q)).
  Proof.
    intros H -> E. zpos. unfold wr. rewrite H.
    replace ((0 <=? zlen p) && (zlen p + zlen l' <=? zlen (p ++ l ++ q))) with true by (zsimp; lia).
    rewrite firstn_zlen by reflexivity. do 4 f_equal. rewrite app_assoc. apply skipn_zlen. zl.
  Qed.

  Section Growing.
  Context (zero : T).

  Lemma view_fresh h live c : zlen live <= c ->
    view (h ++ [live ++ repeat zero (Z.to_nat (c - zlen live))]) (mkSlice (List.length h) 0 (zlen live) c)
      [] live (repeat zero (Z.to_nat (c - zlen live))) [].
  Proof.
    intros Hc. split; cbn; auto.
    - rewrite nth_error_app2, Nat.sub_diag by lia. cbn. now rewrite app_nil_r.
    - rewrite zlen_repeat. lia.
  Qed.

  Context (growth : Z -> Z -> Z).

  Lemma append_room h s pre live vs r spare post : view h s pre live (r ++ spare) post -> zlen vs = zlen r ->
    append zero growth s vs h
    = (Ok (mkSlice (arr s) (off s) (zlen (live ++ vs)) (cap s)), inplace h s pre (live ++ vs) spare post).
  Proof.
    intros [V1 V2 V3 V4] E. zpos. unfold append.
    replace (len s + zlen vs <=? cap s) with true by (zsimp; lia).
    erewrite xbind_ok.
    2:{ apply wr_view with (p := pre ++ live) (l := r) (q := spare ++ post).
        - rewrite V1. f_equal. now rewrite <- !app_assoc.
        - zl.
        - exact E. }
    unfold xret, inplace. replace (zlen (live ++ vs)) with (len s + zlen vs) by zl.
    repeat rewrite <- ?app_assoc. reflexivity.
  Qed.

  Lemma append_grow h s pre live vs spare post : view h s pre live spare post -> zlen spare < zlen vs ->
    exists c, zlen (live ++ vs) <= c /\
    append zero growth s vs h
    = (Ok (mkSlice (List.length h) 0 (zlen (live ++ vs)) c),
       h ++ [(live ++ vs) ++ repeat zero (Z.to_nat (c - zlen (live ++ vs)))]).
  Proof.
    intros [V1 V2 V3 V4] E. zpos. unfold append.
    replace (len s + zlen vs <=? cap s) with false by lia.
    set (c := Z.max _ _). exists c. split; [zl|].
    erewrite xbind_ok.
    2:{ apply rd_view with (p := pre) (l := live) (q := spare ++ post); [exact V1|exact V2|exact V3]. }
    unfold xbind, alloc, xret. replace (len s + zlen vs) with (zlen (live ++ vs)) by zl.
    now rewrite <- app_assoc.
  Qed.

  End Growing.

  (** A slice of an array not touched looks the same. *)
  Lemma elems_upd_other h s a d : arr s <> a -> elems (upd h a d) s = elems h s.
  Proof.
    intros Hne. unfold elems. do 2 f_equal.
    destruct (nth_error h (arr s)) as [e|] eqn:E.
    - rewrite (nth_error_nth _ _ _ E). apply nth_error_nth. rewrite nth_error_upd_other; congruence.
    - apply nth_error_None in E. rewrite !nth_overflow; [reflexivity|assumption|now rewrite length_upd].
  Qed.
  Lemma elems_extend h s d : (arr s < List.length h)%nat -> elems (h ++ d) s = elems h s.
  Proof. intros H. unfold elems. now rewrite app_nth1. Qed.
  Lemma valid_arr h s : valid h s -> (arr s < List.length h)%nat.
  Proof. intros (_ & _ & d & Hd & _). apply nth_error_Some. congruence. Qed.
  Lemma valid_extend h s d : valid h s -> valid (h ++ d) s.
  Proof.
    intros (H1 & H2 & e & He & H3). split; [assumption|]. split; [assumption|]. exists e. split; [|assumption].
    rewrite nth_error_app1; [assumption|]. apply nth_error_Some. congruence.
  Qed.
  Lemma valid_upd h s a d d' : nth_error h a = Some d -> zlen d' = zlen d -> valid h s -> valid (upd h a d') s.
  Proof.
    intros Ha Hl (H1 & H2 & e & He & H3). split; [assumption|]. split; [assumption|].
    destruct (Nat.eq_dec (arr s) a) as [<-|N].
    - exists d'. split; [eapply nth_error_upd_same; eassumption|]. assert (e = d) by congruence. subst. lia.
    - exists e. split; [now rewrite nth_error_upd_other by congruence|assumption].
  Qed.

  (** Cells. *)
  Lemma cell_extend h d a i : cell h a i <> None -> cell (h ++ d) a i = cell h a i.
  Proof.
    unfold cell. destruct (nth_error h a) as [e|] eqn:E; [|congruence]. intros _.
    rewrite nth_error_app1, E; [reflexivity|]. apply nth_error_Some. congruence.
  Qed.
  Lemma cell_inplace h s pre live spare post live' spare' a i : view h s pre live spare post ->
    zlen live' + zlen spare' = zlen live + zlen spare ->
    (a = arr s -> off s <= i < off s + cap s ->
       zget (live' ++ spare') (i - off s) = zget (live ++ spare) (i - off s)) ->
    cell (inplace h s pre live' spare' post) a i = cell h a i.
  Proof.
    intros [V1 V2 V3 V4] E H. unfold cell, inplace. destruct (Nat.eq_dec a (arr s)) as [->|N].
    2:{ now rewrite nth_error_upd_other by congruence. }
    rewrite (nth_error_upd_same _ _ _ _ V1), V1. zpos. rewrite V2 in H.
    destruct (Z_lt_le_dec i (zlen pre)).
    { now rewrite !zget_app_l by assumption. }
    rewrite !(zget_app_r pre) by assumption. rewrite !app_assoc.
    destruct (Z_lt_le_dec (i - zlen pre) (zlen live + zlen spare)).
    - rewrite (zget_app_l (live' ++ spare')), (zget_app_l (live ++ spare)) by (zsimp; lia).
      apply H; [reflexivity|lia].
    - rewrite !zget_app_r by (zsimp; lia). f_equal. zsimp. lia.
  Qed.
End View.
