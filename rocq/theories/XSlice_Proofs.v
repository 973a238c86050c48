(** Proofs about xslice. *)
From Verif Require Import Base Arr Exn GoSlice GoSlice_Proofs Iter_Model Iter_Spec Algo_Proofs XSlice_Model.
Local Open Scope exn_scope.
Local Open Scope list_scope.
Local Open Scope Z_scope.

Ltac norm := repeat progress (rewrite <- ?app_assoc; cbn [app]).

Section Ops.
  Context {T : Type} (zero : T) (growth : Z -> Z -> Z).
  Implicit Types (h : heap T) (s : slice).

  Lemma guard_ok (b : bool) {St A} (m : X St A) msg : b = false -> (if b then xpanic msg else m) = m.
  Proof. now intros ->. Qed.

  Lemma reslice_ok s i j h : 0 <= i <= j -> j <= cap s -> i < cap s ->
    reslice s i j h = (Ok (mkSlice (arr s) (off s + i) (j - i) (cap s - i)), h).
  Proof.
    intros. unfold reslice. replace ((0 <=? i) && (i <=? j) && (j <=? cap s)) with true by lia.
    replace (cap s - i =? 0) with false by lia. reflexivity.
  Qed.
  Lemma reslice_front s j h : 0 <= j <= cap s ->
    reslice s 0 j h = (Ok (mkSlice (arr s) (off s) j (cap s)), h).
  Proof.
    intros. unfold reslice. replace ((0 <=? 0) && (0 <=? j) && (j <=? cap s)) with true by lia.
    unfold xret. rewrite Z.add_0_r, !Z.sub_0_r. now destruct (cap s =? 0).
  Qed.

  (** ** Delete *)
  Lemma delete_exec h s pre p x q spare post : view h s pre (p ++ x :: q) spare post ->
    exists y, Delete s (zlen p) h
      = (Ok (mkSlice (arr s) (off s) (zlen (p ++ q)) (cap s)), inplace h s pre (p ++ q) (y :: spare) post).
  Proof.
    intros V. pose proof V as [V1 V2 V3 V4]. zpos. unfold Delete. zsimp.
    rewrite guard_ok by lia.
    destruct (Z.ltb_spec (zlen p) (len s - 1)).
    - unfold xbind at 1. erewrite xbind_ok by (apply reslice_ok; lia).
      erewrite xbind_ok by (apply reslice_ok; lia).
      unfold copy. cbn [arr off len].
      destruct q as [|z q _] using rev_ind; [zsimp; lia|]. zsimp.
      erewrite xbind_ok.
      2:{ apply rd_view with (p := pre ++ p ++ [x]) (l := q ++ [z]) (q := spare ++ post).
          - rewrite V1. f_equal. norm. reflexivity.
          - zl.
          - zl. }
      erewrite wr_view with (p := pre ++ p) (l := x :: q) (q := z :: spare ++ post).
      2:{ rewrite V1. f_equal. norm. reflexivity. }
      2:{ zl. }
      2:{ zl. }
      exists z. replace (len s - 1) with (zlen p + (zlen q + (0 + 1))) by lia. rewrite reslice_front by lia.
      unfold inplace. norm. reflexivity.
    - assert (q = []) as -> by (apply zlen_0_nil; zsimp; lia). zsimp.
      exists x. unfold xbind, xret. rewrite reslice_front by lia. rewrite app_nil_r.
      replace (len s - 1) with (zlen p + 0) by lia. f_equal. unfold inplace. symmetry. apply upd_nth_self. rewrite V1. f_equal. norm. reflexivity.
  Qed.
  Lemma delete_panic h s i : 0 <= len s -> ~ (0 <= i < len s) -> Delete s i h = (Panic "delete out of bound"%string, h).
  Proof. intros H0 H. unfold Delete. replace ((i <? 0) || (len s <=? i)) with true by lia. reflexivity. Qed.

  (** ** UnorderedDelete *)
  Lemma unordered_exec h s pre p x m z spare post : view h s pre (p ++ x :: m ++ [z]) spare post ->
    UnorderedDelete s (zlen p) h
      = (Ok (mkSlice (arr s) (off s) (zlen (p ++ z :: m)) (cap s)), inplace h s pre (p ++ z :: m) (x :: spare) post).
  Proof.
    intros V. pose proof V as [V1 V2 V3 V4]. zpos. unfold UnorderedDelete. zsimp.
    rewrite guard_ok by lia. replace (zlen p <? len s - 1) with true by lia.
    assert (El : len s - 1 = zlen (p ++ x :: m)) by zl.
    unfold xbind at 1. erewrite xbind_ok.
    2:{ eapply index_view; [exact V|]. rewrite El. replace (p ++ x :: m ++ [z]) with ((p ++ x :: m) ++ [z]) by (norm; reflexivity).
        apply zget_mid. }
    erewrite xbind_ok by (eapply index_view; [exact V|apply zget_mid]).
    erewrite xbind_ok by (eapply assign_view; exact V).
    assert (V' : view (inplace h s pre (p ++ z :: m ++ [z]) spare post) s pre ((p ++ z :: m) ++ z :: []) spare post).
    { norm. eapply view_inplace_same; [exact V|]. zl. }
    replace (len s - 1) with (zlen (p ++ z :: m)) by zl.
    rewrite (assign_view _ _ _ _ _ _ _ _ x V').
    rewrite reslice_front by (zsimp; lia). unfold inplace. rewrite upd_upd. zsimp. norm. reflexivity.
  Qed.
  Lemma unordered_last h s pre p x spare post : view h s pre (p ++ [x]) spare post ->
    UnorderedDelete s (zlen p) h
      = (Ok (mkSlice (arr s) (off s) (zlen p) (cap s)), inplace h s pre p (x :: spare) post).
  Proof.
    intros V. pose proof V as [V1 V2 V3 V4]. zpos. unfold UnorderedDelete. zsimp.
    rewrite guard_ok by lia. replace (zlen p <? len s - 1) with false by lia.
    unfold xbind, xret. rewrite reslice_front by lia. replace (len s - 1) with (zlen p) by lia.
    do 2 f_equal. unfold inplace. symmetry. apply upd_nth_self. rewrite V1. f_equal. norm. reflexivity.
  Qed.
  Lemma unordered_panic h s i : 0 <= len s -> ~ (0 <= i < len s) -> UnorderedDelete s i h = (Panic "delete out of bound"%string, h).
  Proof. intros H0 H. unfold UnorderedDelete. replace ((i <? 0) || (len s <=? i)) with true by lia. reflexivity. Qed.

  Lemma deletelast_exec h s pre p x spare post : view h s pre (p ++ [x]) spare post ->
    DeleteLast s h = (Ok (mkSlice (arr s) (off s) (zlen p) (cap s)), inplace h s pre p (x :: spare) post).
  Proof.
    intros V. pose proof V as [V1 V2 V3 V4]. zpos. zsimp. unfold DeleteLast.
    rewrite guard_ok by lia. rewrite reslice_front by lia. replace (len s - 1) with (zlen p) by lia.
    do 2 f_equal. unfold inplace. symmetry. apply upd_nth_self. rewrite V1. f_equal. norm. reflexivity.
  Qed.

  (** ** Insert *)

  (** Opening a gap in a slice that has just been extended by one. *)
  Definition gap (s : slice) (i : Z) (value : T) : X (heap T) slice :=
    d <- reslice s (i + 1) (len s) ;;
    c <- reslice s i (len s - 1) ;;
    copy d c ;;
    assign s i value ;;
    xret s.

  Lemma gap_exec h s pre p q v spare post : view h s pre (p ++ q ++ [v]) spare post -> q <> [] ->
    gap s (zlen p) v h = (Ok s, inplace h s pre (p ++ v :: q) spare post).
  Proof.
    intros V Hq. pose proof V as [V1 V2 V3 V4]. zpos. zsimp.
    assert (zlen q <> 0) by (intros E; apply zlen_0_nil in E; contradiction).
    unfold gap. erewrite xbind_ok by (apply reslice_ok; lia). erewrite xbind_ok by (apply reslice_ok; lia).
    unfold copy. cbn [arr off len]. rewrite Z.min_l by lia.
    unfold xbind at 1. erewrite xbind_ok.
    2:{ apply rd_view with (p := pre ++ p) (l := q) (q := v :: spare ++ post).
        - rewrite V1. f_equal. norm. reflexivity.
        - zl.
        - zl. }
    destruct q as [|y q]; [contradiction|]. zsimp.
    assert (Er : exists r, r = q ++ [v]) by (eexists; reflexivity). destruct Er as [r Er].
    erewrite wr_view with (p := pre ++ p ++ [y]) (l := r) (q := spare ++ post).
    2:{ rewrite V1, Er. f_equal. norm. reflexivity. }
    2:{ zl. }
    2:{ subst r. zl. }
    assert (V' : view (upd h (arr s) ((pre ++ p ++ [y]) ++ (y :: q) ++ spare ++ post)) s pre (p ++ y :: y :: q) spare post).
    { pose proof (view_inplace_same h s pre _ spare post (p ++ y :: y :: q) V) as H'. unfold inplace in H'.
      replace ((pre ++ p ++ [y]) ++ (y :: q) ++ spare ++ post) with (pre ++ (p ++ y :: y :: q) ++ spare ++ post) by (norm; reflexivity).
      apply H'. zl. }
    erewrite xbind_ok by (eapply assign_view; exact V'). unfold xret, inplace. now rewrite upd_upd.
  Qed.

  Lemma insert_room h s pre p q y v spare post : view h s pre (p ++ q) (y :: spare) post ->
    Insert zero growth s (zlen p) v h
      = (Ok (mkSlice (arr s) (off s) (zlen (p ++ v :: q)) (cap s)), inplace h s pre (p ++ v :: q) spare post).
  Proof.
    intros V. pose proof V as [V1 V2 V3 V4]. zpos. zsimp. unfold Insert. rewrite guard_ok by lia.
    pose proof (append_room zero growth h s pre (p ++ q) [v] [y] spare post V eq_refl) as EA.
    destruct (Z.ltb_spec (zlen p) (len s)).
    - erewrite xbind_ok by exact EA. assert (q <> []) by (intros ->; zsimp; lia).
      set (s1 := mkSlice _ _ _ _). fold (gap s1 (zlen p) v).
      assert (V' : view (inplace h s pre ((p ++ q) ++ [v]) spare post) s1 pre (p ++ q ++ [v]) spare post).
      { rewrite (app_assoc p). subst s1. apply view_inplace with (live := p ++ q) (spare := y :: spare); [exact V|zl]. }
      rewrite (gap_exec _ _ _ _ _ _ _ _ V'); [|assumption]. unfold inplace, s1. cbn [arr]. rewrite upd_upd.
      do 3 f_equal. zl.
    - assert (q = []) as -> by (apply zlen_0_nil; lia). rewrite app_nil_r in EA. rewrite EA. zsimp. reflexivity.
  Qed.

  Lemma insert_grow h s pre p q v post : view h s pre (p ++ q) [] post ->
    exists c, zlen (p ++ v :: q) <= c /\
    Insert zero growth s (zlen p) v h
      = (Ok (mkSlice (List.length h) 0 (zlen (p ++ v :: q)) c),
         h ++ [(p ++ v :: q) ++ repeat zero (Z.to_nat (c - zlen (p ++ v :: q)))]).
  Proof.
    intros V. pose proof V as [V1 V2 V3 V4]. zpos. unfold Insert. rewrite guard_ok by zl.
    destruct (append_grow zero growth h s pre (p ++ q) [v] [] post V) as (c & Hc & EA); [zl|].
    assert (Lz : zlen ((p ++ q) ++ [v]) = zlen (p ++ v :: q)) by zl.
    exists c. split; [lia|].
    destruct (Z.ltb_spec (zlen p) (len s)).
    - erewrite xbind_ok by exact EA. assert (q <> []) by (intros ->; zsimp; lia).
      set (s1 := mkSlice _ _ _ _). fold (gap s1 (zlen p) v).
      pose proof (view_fresh zero h ((p ++ q) ++ [v]) c Hc) as V'. fold s1 in V'.
      set (sp := repeat zero _) in *.
      assert (V2' : view (h ++ [((p ++ q) ++ [v]) ++ sp]) s1 [] (p ++ q ++ [v]) sp []) by (rewrite (app_assoc p); exact V').
      rewrite (gap_exec _ _ _ _ _ _ _ _ V2'); [|assumption]. unfold inplace, s1. cbn [arr].
      rewrite Lz. do 2 f_equal. rewrite app_nil_r. cbn [app]. unfold sp. rewrite Lz.
      replace (h ++ [((p ++ q) ++ [v]) ++ repeat zero (Z.to_nat (c - zlen (p ++ v :: q)))])
        with (h ++ (((p ++ q) ++ [v]) ++ repeat zero (Z.to_nat (c - zlen (p ++ v :: q)))) :: []) by reflexivity.
      now rewrite upd_app.
    - assert (q = []) as -> by (apply zlen_0_nil; zsimp; lia). rewrite app_nil_r in EA. exact EA.
  Qed.
  Lemma insert_panic h s i v : 0 <= len s -> ~ (0 <= i <= len s) -> Insert zero growth s i v h = (Panic "insert out of bound"%string, h).
  Proof. intros H0 H. unfold Insert. replace ((i <? 0) || (len s <? i)) with true by lia. reflexivity. Qed.


  (** ** Copy, Reversed *)
  Lemma copy_exec h s pre live spare post h2 : h = [] :: h2 -> view h s pre live spare post -> live <> [] ->
    exists c, zlen live <= c /\ Copy zero growth s h
      = (Ok (mkSlice (List.length h) 0 (zlen live) c), h ++ [live ++ repeat zero (Z.to_nat (c - zlen live))]).
  Proof.
    intros Hh V Hne. pose proof V as [V1 V2 V3 V4].
    assert (zlen live <> 0) by (intros E; apply zlen_0_nil in E; contradiction). zpos.
    unfold Copy. replace (len s =? 0) with false by lia.
    erewrite xbind_ok by (eapply rd_view; [exact V1|exact V2|exact V3]).
    destruct (append_grow zero growth h nilSlice [] [] live [] []) as (c & Hc & EA).
    - split; subst; reflexivity.
    - zl.
    - exists c. auto.
  Qed.

  Lemma reversed_loop s k : forall h pre a b spare post r rpre c rspare rpost,
    view h s pre (a ++ b) spare post -> view h r rpre (c ++ rev a) rspare rpost ->
    arr s <> arr r -> List.length b = k -> zlen c = zlen b ->
    reversedLoop k s r (len s - 1) (zlen a) h
    = (Ok tt, inplace h r rpre (rev (a ++ b)) rspare rpost).
  Proof.
    induction k as [|k IH]; intros h pre a b spare post r rpre c rspare rpost V W Hne Hb Hc; cbn [reversedLoop].
    - destruct b; [|discriminate]. assert (c = []) as -> by (apply zlen_0_nil; zsimp; lia).
      rewrite app_nil_r. cbn [app] in W. rewrite (inplace_id _ _ _ _ _ _ W). reflexivity.
    - destruct b as [|x b]; [discriminate|]. cbn [List.length] in Hb. pose proof V as [V1 V2 V3 V4]. zpos. zsimp.
      erewrite xbind_ok by (eapply index_view; [exact V|apply zget_mid]).
      destruct c as [|y c _] using rev_ind; [zsimp; lia|]. zsimp. rewrite <- app_assoc in W. cbn [app] in W.
      replace (len s - 1 - zlen a) with (zlen c) by lia.
      erewrite xbind_ok by (eapply assign_view; exact W).
      specialize (IH (inplace h r rpre (c ++ x :: rev a) rspare rpost) pre (a ++ [x]) b spare post r rpre c rspare rpost).
      rewrite zlen_snoc in IH. rewrite <- !app_assoc in IH. cbn [app] in IH. rewrite IH.
      + unfold inplace. now rewrite upd_upd.
      + split; try (zsimp; lia). unfold inplace. rewrite nth_error_upd_other by congruence. exact V1.
      + rewrite rev_app_distr. cbn [rev app]. eapply view_inplace_same; [exact W|]. zl.
      + assumption.
      + lia.
      + lia.
  Qed.

  Lemma reversed_exec h s pre live spare post : view h s pre live spare post -> live <> [] ->
    Reversed zero s h = (Ok (mkSlice (List.length h) 0 (zlen live) (zlen live)), h ++ [rev live]).
  Proof.
    intros V Hne. pose proof V as [V1 V2 V3 V4].
    assert (zlen live <> 0) by (intros E; apply zlen_0_nil in E; contradiction). zpos.
    unfold Reversed. replace (len s =? 0) with false by lia.
    unfold makeSlice. replace (len s <? 0) with false by lia. replace (len s =? 0) with false by lia.
    unfold xbind at 1. unfold alloc, xbind at 1. unfold xret at 1.
    set (r := mkSlice _ _ _ _). set (zs := repeat zero (Z.to_nat (len s))).
    assert (Lz : zlen zs = zlen live) by (unfold zs; zsimp; lia).
    assert (Ha : (arr s < List.length h)%nat) by (apply nth_error_Some; congruence).
    pose proof (reversed_loop s (List.length live) (h ++ [zs]) pre [] live spare post r [] zs [] []) as E.
    replace (Z.to_nat (len s)) with (List.length live) by (unfold zlen in *; lia).
    cbn [app rev] in E. rewrite zlen_nil in E. erewrite xbind_ok.
    2:{ apply E.
        - split; auto. rewrite nth_error_app1 by assumption. exact V1.
        - rewrite app_nil_r. unfold r. split; cbn; try lia.
          rewrite nth_error_app2, Nat.sub_diag by lia. cbn. now rewrite app_nil_r.
        - unfold r. cbn. lia.
        - reflexivity.
        - assumption. }
    unfold xret, inplace, r. cbn [arr app]. rewrite !app_nil_r.
    replace (h ++ [zs]) with (h ++ zs :: []) by reflexivity. rewrite upd_app. now rewrite V3.
  Qed.

End Ops.

(** ** Iterators *)
Section Iterators.
  Context {T : Type}.
  Implicit Types (h : heap T) (s : slice).

  (** The heap in which [s] shows [l]. *)
  Definition store h s (_ : unit) (l : list T) : heap T :=
    match nth_error h (arr s) with
    | Some d => upd h (arr s) (firstn (Z.to_nat (off s)) d ++ l ++ skipn (Z.to_nat (off s + len s)) d)
    | None => h
    end.

  Lemma store_view h s pre live spare post l : view h s pre live spare post ->
    store h s tt l = inplace h s pre l spare post.
  Proof.
    intros [V1 V2 V3 V4]. unfold store, inplace. rewrite V1. do 2 f_equal.
    - now rewrite firstn_zlen.
    - f_equal. rewrite app_assoc. rewrite skipn_zlen; [reflexivity|]. zl.
  Qed.
  Lemma store_elems h s : valid h s -> store h s tt (elems h s) = h.
  Proof.
    intros V. destruct (valid_view _ _ V) as (pre & live & spare & post & W).
    rewrite (store_view _ _ _ _ _ _ _ W), (view_elems _ _ _ _ _ _ W). now apply inplace_id.
  Qed.
  Lemma elems_store h s l : valid h s -> zlen l = len s -> elems (store h s tt l) s = l.
  Proof.
    intros V Hl. destruct (valid_view _ _ V) as (pre & live & spare & post & W).
    rewrite (store_view _ _ _ _ _ _ _ W). eapply view_elems. eapply view_inplace_same; [exact W|].
    pose proof (vw_len _ _ _ _ _ _ W). lia.
  Qed.

  Section Lawful.
  Context (h : heap T) (s : slice) (V : valid h s).

  Lemma refl_eq a : ReferenceEqual a a = true.
  Proof. unfold ReferenceEqual. now rewrite Nat.eqb_refl, Z.eqb_refl. Qed.

  Lemma slice_lawful : lawful sliceOps (len s) (store h s) (fun i => mkIt i s).
  Proof.
    destruct (valid_view _ _ V) as (pre & live & spare & post & W).
    split.
    - apply V.
    - intros [] l i Hl Hi. cbn. replace (i >=? len s) with false by lia. reflexivity.
    - intros [] l i x Hl Hx. cbn. rewrite (store_view _ _ _ _ _ _ _ W).
      eapply index_view; [|exact Hx]. eapply view_inplace_same; [exact W|]. rewrite Hl. apply (vw_len _ _ _ _ _ _ W).
    - intros [] l i j Hl Hi Hj. cbn. rewrite refl_eq. cbn. now rewrite Z.eqb_sym.
  Qed.
  Lemma slice_set : lawful_set sliceOps (len s) (store h s) (fun i => mkIt i s).
  Proof.
    destruct (valid_view _ _ V) as (pre & live & spare & post & W).
    intros [] l i x l' Hl Hset. cbn. rewrite !(store_view _ _ _ _ _ _ _ W).
    assert (Hi : 0 <= i < zlen l).
    { unfold zset in Hset. destruct ((0 <=? i) && (i <? zlen l)) eqn:B; [lia|discriminate]. }
    destruct (split_elem l i Hi) as (a & y & b & -> & <-). rewrite zset_mid in Hset. injection Hset as <-.
    erewrite assign_view.
    - unfold inplace. now rewrite upd_upd.
    - eapply view_inplace_same; [exact W|]. rewrite Hl. apply (vw_len _ _ _ _ _ _ W).
  Qed.
  Lemma slice_prev : lawful_prev sliceOps (len s) (store h s) (fun i => mkIt i s).
  Proof. intros [] l i Hl Hi. cbn. replace (i <=? 0) with false by lia. reflexivity. Qed.
  Lemma slice_random : lawful_random sliceOps (len s) (store h s) (fun i => mkIt i s).
  Proof.
    split.
    - intros [] l i k Hl Hi Hk. cbn. replace ((i + k <? 0) || (len s <? i + k)) with false by lia. reflexivity.
    - exists 0. intros [] l i Hl Hi. reflexivity.
  Qed.
  End Lawful.
End Iterators.
