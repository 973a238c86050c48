(** Lemmas about ranges and the plain methods of Slice. *)
From Verif Require Import Base Arr Exn GoSlice GoSlice_Proofs Iter_Model Iter_Spec Algo_Proofs
  XSlice_Model XSlice_Spec XSlice_Proofs XSlice_Facts.
Local Open Scope string_scope.
Local Open Scope list_scope.
Local Open Scope Z_scope.

Lemma part_len {T} i j (l : list T) : 0 <= i <= j -> j <= zlen l -> zlen (part i j l) = j - i.
Proof. intros Hi Hj. destruct (part_split i j l Hi Hj) as (a & b & _ & _ & H). exact H. Qed.

Lemma part_part {T} p q i j (l : list T) : 0 <= p <= q -> 0 <= i <= j -> j <= q - p ->
  part i j (part p q l) = part (p + i) (p + j) l.
Proof.
  intros Hp Hi Hj. unfold part. rewrite skipn_firstn_comm, firstn_firstn, skipn_skipn'. f_equal; [lia|]. f_equal. lia.
Qed.

Section Ranges.
  Context {St It T C : Type} (o : ops St It T) (n : Z) (plug : C -> list T -> St) (at_ : Z -> It).
  Hypothesis L : lawful o n plug at_.
  Hypothesis LR : lawful_random o n plug at_.

  Lemma range_walks w l p q : zlen l = n -> 0 <= p <= q -> q <= n -> walks o (plug w l) (at_ p) (at_ q) (part p q l).
  Proof.
    intros Hl Hp Hq. destruct (part_split p q l) as (pre & post & E & Hpre & Hm); [lia|lia|].
    pose proof (walk o n plug at_ L w (part p q l) pre post) as W. rewrite <- E, Hpre, Hm in W.
    replace (p + (q - p)) with q in W by lia. now apply W.
  Qed.
  Lemma range_distance w l p q : zlen l = n -> 0 <= p <= n -> 0 <= q <= n ->
    RangeDistance o (at_ p, at_ q) (plug w l) = (Ok (q - p), plug w l).
  Proof.
    intros Hl Hp Hq. destruct LR as [_ (p0 & HP)]. unfold RangeDistance. cbn [fst snd].
    erewrite xbind_ok by (apply HP; assumption). erewrite xbind_ok by (apply HP; assumption). unfold xret. do 2 f_equal. lia.
  Qed.
  Lemma sub_range w l p q i j : zlen l = n -> 0 <= p <= n -> 0 <= p + i <= n -> 0 <= p + j <= n ->
    SubRange o (at_ p, at_ q) i j (plug w l) = (Ok (at_ (p + i), at_ (p + j)), plug w l).
  Proof.
    intros Hl Hp Hi Hj. destruct LR as [HA _]. unfold SubRange. cbn [fst snd].
    erewrite xbind_ok by (apply HA; assumption). erewrite xbind_ok by (apply HA; assumption). reflexivity.
  Qed.
End Ranges.

Section Access.
  Context {T : Type}.
  Implicit Types (h : heap T) (s : slice).

  Lemma slice_parts h s p q i j : 0 <= p <= len s ->
    (0 <= p + i <= len s -> 0 <= p + j <= len s ->
       SubRange (@sliceOps T) (mkIt p s, mkIt q s) i j h = (Ok (mkIt (p + i) s, mkIt (p + j) s), h)) /\
    (~ (0 <= p + i <= len s /\ 0 <= p + j <= len s) ->
       SubRange (@sliceOps T) (mkIt p s, mkIt q s) i j h = (Panic "offset out of bound", h)) /\
    (forall s', (arr s', off s') <> (arr s, off s) ->
       Distance (@sliceOps T) (mkIt p s) (mkIt q s') h = (Panic "compare iterator of different slices", h) /\
       RangeDistance (@sliceOps T) (mkIt p s, mkIt q s') h = (Ok (q - p), h)).
  Proof.
    intros Hp.
    assert (HA : forall k, Add (@sliceOps T) (mkIt p s) k h =
      if (0 <=? p + k) && (p + k <=? len s) then (Ok (mkIt (p + k) s), h) else (Panic "offset out of bound", h)).
    { intros k. cbn [Add sliceOps pos sl].
      destruct (Z.leb_spec 0 (p + k)), (Z.leb_spec (p + k) (len s)), (Z.ltb_spec (p + k) 0), (Z.ltb_spec (len s) (p + k)); try lia; reflexivity. }
    split; [|split].
    - intros Hi Hj. unfold SubRange, xbind. cbn [fst]. rewrite HA. replace ((0 <=? p + i) && (p + i <=? len s)) with true by lia.
      rewrite HA. replace ((0 <=? p + j) && (p + j <=? len s)) with true by lia. reflexivity.
    - intros N. unfold SubRange, xbind. cbn [fst]. rewrite HA. destruct ((0 <=? p + i) && (p + i <=? len s)) eqn:E; [|reflexivity].
      rewrite HA. replace ((0 <=? p + j) && (p + j <=? len s)) with false by lia. reflexivity.
    - intros s' N. split; [|reflexivity]. unfold Distance, xbind. cbn [Equal sliceOps pos sl].
      assert (ReferenceEqual s s' = false) as ->; [|reflexivity].
      unfold ReferenceEqual. destruct (Nat.eqb_spec (arr s) (arr s')), (Z.eqb_spec (off s) (off s')); try reflexivity.
      exfalso. apply N. congruence.
  Qed.

  Lemma reads_ok h s : valid h s ->
    Len s = zlen (elems h s) /\ (Empty s = true <-> elems h s = []) /\ Len s <= Cap s /\
    (forall p x q, elems h s = p ++ x :: q -> At s (zlen p) h = (Ok x, h)) /\
    (forall i, ~ 0 <= i < Len s -> At s i h = (Panic idx_msg, h)) /\
    (forall x q, elems h s = x :: q -> First s h = (Ok x, h)) /\
    (forall p x, elems h s = p ++ [x] -> Last s h = (Ok x, h)) /\
    (elems h s = [] -> First s h = (Panic idx_msg, h) /\ Last s h = (Panic idx_msg, h)).
  Proof.
    intros V. pose proof (elems_len h s V) as Hl. destruct (valid_view _ _ V) as (pre & live & spare & post & W).
    pose proof (view_elems _ _ _ _ _ _ W) as E.
    assert (HI : forall i x, zget (elems h s) i = Some x -> index s i h = (Ok x, h)).
    { intros i x Hx. rewrite E in Hx. eapply index_view; eassumption. }
    assert (HP : forall i, ~ 0 <= i < len s -> index s i h = (Panic idx_msg, h)).
    { intros i Hi. unfold index. replace ((0 <=? i) && (i <? len s)) with false by lia. reflexivity. }
    unfold Len, Empty, Cap, At, First, Last. split; [now symmetry|]. split; [|split; [|split; [|split; [|split; [|split]]]]].
    - rewrite Z.eqb_eq, <- Hl. split; [apply zlen_0_nil|intros ->; reflexivity].
    - destruct V as (_ & V & _). lia.
    - intros p x q Eq. apply HI. rewrite Eq. apply zget_mid.
    - exact HP.
    - intros x q Eq. apply HI. now rewrite Eq.
    - intros p x Eq. apply HI. rewrite <- Hl, Eq, zlen_snoc. replace (zlen p + 1 - 1) with (zlen p) by lia. apply zget_mid.
    - intros Eq. rewrite Eq in Hl. change (zlen []) with 0 in Hl. split; apply HP; lia.
  Qed.

  Lemma set_ok h s i v : valid h s ->
    (0 <= i < Len s -> exists h', SetAt s i v h = (Ok tt, h') /\ valid h' s /\
       (forall p x q, elems h s = p ++ x :: q -> zlen p = i -> elems h' s = p ++ v :: q) /\
       cell h' (arr s) (off s + i) = Some v /\
       writes_only h h' (fun a k => a = arr s /\ k = off s + i)) /\
    (~ 0 <= i < Len s -> SetAt s i v h = (Panic idx_msg, h)).
  Proof.
    intros V. unfold Len, SetAt. split.
    - intros Hi. pose proof V as (V0 & V1 & d & Hd & Hdl). unfold assign. replace ((0 <=? i) && (i <? len s)) with true by lia.
      unfold st. rewrite Hd. rewrite (zset_ok d (off s + i) v) by lia. eexists. split; [reflexivity|].
      assert (Hlen : zlen (upd d (Z.to_nat (off s + i)) v) = zlen d) by apply zlen_upd.
      assert (Hnd := nth_error_upd_same h (arr s) d (upd d (Z.to_nat (off s + i)) v) Hd).
      split; [now apply (valid_upd h s (arr s) d)|]. split; [|split].
      + intros p x q E Hp. destruct (valid_view _ _ V) as (pre & live & spare & post & W).
        pose proof (view_elems _ _ _ _ _ _ W) as E'. rewrite E in E'. subst live.
        pose proof (assign_view h s pre p x q spare post v W) as EA. rewrite Hp in EA.
        unfold assign, st in EA. replace ((0 <=? i) && (i <? len s)) with true in EA by lia. rewrite Hd in EA.
        rewrite (zset_ok d (off s + i) v) in EA by lia. injection EA as ->.
        eapply view_elems. eapply view_inplace_same; [exact W|]. zsimp. lia.
      + unfold cell. rewrite Hnd. unfold zget. replace (off s + i <? 0) with false by lia.
        apply nth_error_upd_same with (x := nth (Z.to_nat (off s + i)) d v). apply nth_error_nth'. unfold zlen in Hdl. lia.
      + intros a k Hc N. unfold cell in *. destruct (Nat.eq_dec a (arr s)) as [->|Na].
        * rewrite Hnd. rewrite Hd in *. unfold zget. destruct (Z.ltb_spec k 0); [reflexivity|].
          apply nth_error_upd_other. intros Ek. apply N. split; [reflexivity|lia].
        * now rewrite nth_error_upd_other by congruence.
    - intros Hi. unfold assign. replace ((0 <=? i) && (i <? len s)) with false by lia. reflexivity.
  Qed.

  Lemma sub_ok h s i j : valid h s ->
    (0 <= i <= j -> j <= Cap s ->
       exists r, Sub s i j h = (Ok r, h) /\ valid h r /\ Len r = j - i /\
         (j <= Len s -> elems h r = part i j (elems h s)) /\
         forall k v, 0 <= k < j - i ->
           At r k h = (of_opt idx_msg (cell h (arr s) (off s + i + k)), h) /\
           (i + k < Len s -> SetAt r k v h = SetAt s (i + k) v h)) /\
    (~ (0 <= i <= j /\ j <= Cap s) -> Sub s i j h = (Panic "slice bounds out of range", h)).
  Proof.
    intros V. pose proof V as (V0 & V1 & d & Hd & Hdl). unfold Sub, Cap, Len, At, SetAt. split.
    - intros Hi Hj. unfold reslice. replace ((0 <=? i) && (i <=? j) && (j <=? cap s)) with true by lia.
      eexists. split; [reflexivity|]. cbn [len]. split; [|split; [reflexivity|split]].
      + unfold valid. cbn [off len cap arr]. split; [destruct (cap s - i =? 0); lia|]. split; [lia|]. exists d. split; [exact Hd|].
        destruct (Z.eqb_spec (cap s - i) 0); lia.
      + intros Hjl. unfold elems, part. cbn [len off arr]. rewrite skipn_firstn_comm, firstn_firstn, skipn_skipn'.
        destruct (Z.eqb_spec (cap s - i) 0) as [E|E].
        * replace (j - i) with 0 by lia. reflexivity.
        * f_equal; [lia|]. f_equal. lia.
      + intros k v Hk. replace (cap s - i =? 0) with false by lia. unfold index, assign. cbn [len off arr].
        replace ((0 <=? k) && (k <? j - i)) with true by lia. split.
        * unfold ld, cell. rewrite Hd. destruct (zget_some d (off s + i + k)) as [x Hx]; [lia|]. rewrite Hx. reflexivity.
        * intros Hik. replace ((0 <=? i + k) && (i + k <? len s)) with true by lia. now rewrite Z.add_assoc.
    - intros N. unfold reslice. replace ((0 <=? i) && (i <=? j) && (j <=? cap s)) with false by lia. reflexivity.
  Qed.
End Access.
