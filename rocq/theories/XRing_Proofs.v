(** Proofs about the ring. *)
From Verif Require Import Base Arr Exn XRing_Spec XRing_Model.

Section AtMore.
  Context {T : Type} (zero : T).
  Local Notation "d .[ i ]" := (at_ zero d i) (at level 2, format "d .[ i ]").

  Lemma at_over (l : list T) i : zlen l <= i -> l.[i] = zero.
  Proof. intros H. unfold at_. apply nth_overflow. unfold zlen in H. lia. Qed.

  Lemma at_app (l l' : list T) i : 0 <= i ->
    (l ++ l').[i] = if i <? zlen l then l.[i] else l'.[i - zlen l].
  Proof.
    intros Hi. unfold at_, zlen. destruct (Z.ltb_spec i (Z.of_nat (List.length l))).
    - rewrite app_nth1 by lia. reflexivity.
    - rewrite app_nth2 by lia. f_equal. lia.
  Qed.

  Lemma at_cons x (l : list T) i : 0 <= i ->
    (x :: l).[i] = if i =? 0 then x else l.[i - 1].
  Proof.
    intros Hi. unfold at_. destruct (Z.eqb_spec i 0) as [->|]; [reflexivity|].
    replace (Z.to_nat i) with (S (Z.to_nat (i - 1))) by lia. reflexivity.
  Qed.

  Lemma at_repeat n i : (repeat zero n).[i] = zero.
  Proof. unfold at_. apply nth_repeat. Qed.

  Lemma zlen_repeat (x : T) n : zlen (repeat x n) = Z.of_nat n.
  Proof. unfold zlen. now rewrite repeat_length. Qed.

  Lemma removelast_snoc (l : list T) : l <> [] -> exists l' x, l = l' ++ [x] /\ removelast l = l'.
  Proof.
    intros H. destruct (exists_last H) as (l' & x & ->). exists l', x. split; auto.
    apply removelast_last.
  Qed.

  Lemma at_firstn (l : list T) n i : 0 <= i < n -> (firstn (Z.to_nat n) l).[i] = l.[i].
  Proof. intros. unfold at_. apply nth_firstn_lt. lia. Qed.

  Lemma at_skipn (l : list T) n i : 0 <= n -> 0 <= i -> (skipn (Z.to_nat n) l).[i] = l.[n + i].
  Proof. intros. unfold at_. rewrite nth_skipn'. f_equal. lia. Qed.

  Lemma zlen_firstn (l : list T) n : 0 <= n <= zlen l -> zlen (firstn (Z.to_nat n) l) = n.
  Proof. unfold zlen. intros. rewrite firstn_length. lia. Qed.

  Lemma zlen_skipn (l : list T) n : 0 <= n <= zlen l -> zlen (skipn (Z.to_nat n) l) = zlen l - n.
  Proof. unfold zlen. intros. rewrite skipn_length. lia. Qed.
End AtMore.

Section Ring.
  Context {T : Type} (zero : T).
  Local Notation "d .[ i ]" := (at_ zero d i) (at level 2, format "d .[ i ]").

  (** Position in the queue of buffer slot [p]. *)
  Definition slot (r : ring T) (p : Z) : Z :=
    if p <? st r then p - st r + zlen (buf r) else p - st r.

  (** The ring represents the list [l]; slots without element hold zero. *)
  Definition Rep (r : ring T) (l : list T) : Prop :=
    zlen l = len r /\ len r <= zlen (buf r) /\ 0 <= st r /\
    (st r < zlen (buf r) \/ (st r = 0 /\ zlen (buf r) = 0)) /\
    forall p, 0 <= p < zlen (buf r) -> (buf r).[p] = l.[slot r p].

  Lemma rep_live r l p : Rep r l -> 0 <= p < zlen (buf r) -> slot r p < zlen l ->
    (buf r).[p] = l.[slot r p].
  Proof. intros (_ & _ & _ & _ & H) ? _. auto. Qed.

  Lemma zlen_make n : 0 <= n -> zlen (makeSlice zero n) = n.
  Proof. intros. unfold makeSlice. rewrite zlen_repeat. lia. Qed.

  Lemma rep_of_slice v : Rep (OfSlice v) v.
  Proof.
    pose proof (zlen_nonneg v). unfold Rep, OfSlice, slot; cbn [buf st len]. repeat split; try lia.
    intros p Hp. destruct (Z.ltb_spec p 0); [lia|]. f_equal. lia.
  Qed.

  Lemma rep_new : Rep New [].
  Proof.
    unfold Rep, New; cbn [buf st len]; change (zlen (@nil T)) with 0. repeat split; try lia.
  Qed.

  (** ** ToSlice *)
  Lemma sub_seg (l : list T) i j : sub l i j = seg i j l.
  Proof. reflexivity. Qed.

  Lemma goAppend_res (t : @target T) (xs : list T) : res (goAppend t xs) = res t ++ xs.
  Proof. unfold goAppend. cbv zeta. destruct (_ && _); reflexivity. Qed.

  Lemma toSliceInto_parts r (l : list T) (t : target) : Rep r l ->
    exists x y, x ++ y = l /\
      toSliceInto r t = (if st r + len r <=? zlen (buf r) then goAppend t x else goAppend (goAppend t x) y) /\
      (st r + len r <= zlen (buf r) -> y = []).
  Proof.
    intros (Hl & Hc & Hs & Hst & Hb). unfold toSliceInto. pose proof (zlen_nonneg l).
    destruct (Z.leb_spec (st r + len r) (zlen (buf r))).
    - exists (sub (buf r) (st r) (st r + len r)), []. split; [|auto].
      rewrite app_nil_r, sub_seg. apply (arr_ext zero).
      + rewrite zlen_seg; lia.
      + intros i Hi. rewrite zlen_seg in Hi by lia. rewrite at_seg by lia.
        rewrite Hb by lia. unfold slot. destruct (Z.ltb_spec (st r + i) (st r)); [lia|].
        f_equal. lia.
    - exists (sub (buf r) (st r) (zlen (buf r))), (sub (buf r) 0 (st r + len r - zlen (buf r))).
      split; [|split; [auto|lia]]. rewrite !sub_seg. apply (arr_ext zero).
      + rewrite zlen_app, !zlen_seg; lia.
      + intros i Hi. rewrite zlen_app, !zlen_seg in Hi by lia.
        rewrite at_app by lia. rewrite zlen_seg by lia.
        destruct (Z.ltb_spec i (zlen (buf r) - st r)).
        * rewrite at_seg by lia. rewrite Hb by lia. unfold slot.
          destruct (Z.ltb_spec (st r + i) (st r)); [lia|]. f_equal. lia.
        * rewrite at_seg by lia. rewrite Hb by lia. unfold slot.
          match goal with |- context [?a <? st r] => destruct (Z.ltb_spec a (st r)) end; [|lia].
          f_equal. lia.
  Qed.

  Lemma toSliceInto_res r l t : Rep r l -> res (toSliceInto r t) = res t ++ l.
  Proof.
    intros HR. destruct (toSliceInto_parts r l t HR) as (x & y & Hxy & -> & Hy).
    destruct (Z.leb_spec (st r + len r) (zlen (buf r))).
    - rewrite goAppend_res. rewrite Hy, app_nil_r in Hxy by lia. now subst.
    - rewrite !goAppend_res, <- app_assoc. now subst.
  Qed.

  (** Appending to a zeroed array that is long enough happens in place. *)
  Lemma goAppend_fits n p xs : zlen p + zlen xs <= n ->
    goAppend (mkTarget (p ++ repeat zero (Z.to_nat (n - zlen p))) true p) xs =
    mkTarget ((p ++ xs) ++ repeat zero (Z.to_nat (n - zlen (p ++ xs)))) true (p ++ xs).
  Proof.
    intros Hn. pose proof (zlen_nonneg p). pose proof (zlen_nonneg xs).
    unfold goAppend; cbn [inplace res arr andb]. cbv zeta.
    rewrite !zlen_app, zlen_repeat.
    destruct (Z.leb_spec (zlen p + zlen xs) (zlen p + Z.of_nat (Z.to_nat (n - zlen p)))); [|lia].
    f_equal. rewrite <- app_assoc. apply (arr_ext zero).
    - rewrite !zlen_app, zlen_repeat, zlen_firstn, zlen_skipn
        by (rewrite zlen_app, zlen_repeat; lia). rewrite zlen_app, zlen_repeat. lia.
    - intros i Hi. assert (0 <= i) by lia. clear Hi.
      rewrite (at_app zero (firstn _ _)), (at_app zero p (xs ++ _)) by lia.
      rewrite zlen_firstn by (rewrite zlen_app, zlen_repeat; lia).
      destruct (Z.ltb_spec i (zlen p)).
      + rewrite at_firstn by lia. rewrite at_app by lia.
        destruct (Z.ltb_spec i (zlen p)); [auto|lia].
      + rewrite !(at_app zero xs) by lia. destruct (Z.ltb_spec (i - zlen p) (zlen xs)); [auto|].
        rewrite at_skipn by lia. rewrite at_app by lia.
        destruct (Z.ltb_spec (zlen p + zlen xs + (i - zlen p - zlen xs)) (zlen p)); [lia|].
        now rewrite !at_repeat.
  Qed.

  Lemma refill_eq r l n : Rep r l -> len r <= n ->
    refill zero r n = l ++ repeat zero (Z.to_nat (n - zlen l)).
  Proof.
    intros HR Hn. unfold refill. assert (Hl := HR). destruct Hl as (Hl & _).
    pose proof (zlen_nonneg l).
    destruct (Z.eqb_spec (len r) 0) as [H0|H0].
    { rewrite (zlen_0_nil l) by lia. cbn [app]. unfold makeSlice. do 2 f_equal.
      change (zlen (@nil T)) with 0. lia. }
    destruct (toSliceInto_parts r l (mkTarget (makeSlice zero n) true []) HR) as (x & y & Hxy & -> & Hy).
    pose proof (zlen_nonneg x). pose proof (zlen_nonneg y).
    assert (Hlen : zlen x + zlen y = zlen l) by (rewrite <- Hxy; symmetry; apply zlen_app).
    replace (mkTarget (makeSlice zero n) true [])
      with (mkTarget ([] ++ repeat zero (Z.to_nat (n - zlen (@nil T)))) true [])
      by (unfold makeSlice; cbn [app]; do 3 f_equal; change (zlen (@nil T)) with 0; lia).
    rewrite goAppend_fits by (change (zlen (@nil T)) with 0; lia). rewrite app_nil_l.
    destruct (Z.leb_spec (st r + len r) (zlen (buf r))).
    - cbn [arr]. rewrite Hy, app_nil_r in Hxy by lia. now subst.
    - rewrite goAppend_fits by lia. cbn [arr]. now subst.
  Qed.

  Lemma rep_refill r l n m : Rep r l -> 0 < n -> len r <= n ->
    Rep (mkRing (refill zero r n) 0 (len r) m) l /\ zlen (refill zero r n) = n.
  Proof.
    intros HR Hn Hl. rewrite (refill_eq r l n HR Hl). destruct HR as (HL & _).
    pose proof (zlen_nonneg l).
    assert (Hlen : zlen (l ++ repeat zero (Z.to_nat (n - zlen l))) = n)
      by (rewrite zlen_app, zlen_repeat; lia).
    split; [|auto]. unfold Rep, slot; cbn [buf st len]. rewrite Hlen. repeat split; try lia.
    intros p Hp. destruct (Z.ltb_spec p 0); [lia|]. rewrite Z.sub_0_r, at_app by lia.
    destruct (Z.ltb_spec p (zlen l)); [auto|]. rewrite at_repeat, at_over; auto.
  Qed.

  Lemma grown_gt n : 0 <= n -> n < grownCap n.
  Proof.
    intros. unfold grownCap. destruct (Z.eqb_spec n 0); [lia|]. destruct (Z.ltb_spec n 1024); lia.
  Qed.

  Lemma growth_rep r l : Rep r l ->
    Rep (checkGrowth zero r) l /\ len (checkGrowth zero r) = len r /\
    len r < zlen (buf (checkGrowth zero r)).
  Proof.
    intros HR. assert (HR' := HR). destruct HR' as (HL & Hc & _). pose proof (zlen_nonneg l).
    unfold checkGrowth. cbv zeta. destruct (Z.eqb_spec (len r) (zlen (buf r))).
    - pose proof (grown_gt (zlen (buf r)) ltac:(lia)).
      destruct (rep_refill r l (grownCap (zlen (buf r))) (moved r + len r) HR ltac:(lia) ltac:(lia)).
      cbn [len buf]. split; [auto|split; lia].
    - split; [auto|split; lia].
  Qed.

  Lemma shrink_rep r l : Rep r l ->
    Rep (checkShrink zero r) l /\ len (checkShrink zero r) = len r.
  Proof.
    intros HR. assert (HR' := HR). destruct HR' as (HL & Hc & _). pose proof (zlen_nonneg l).
    unfold checkShrink. cbv zeta.
    destruct ((zlen (buf r) >? 1024) && (zlen (buf r) / 8 >? len r)) eqn:Hs.
    - apply andb_prop in Hs. destruct Hs as [H1 H2]. apply Z.gtb_lt in H1, H2.
      destruct (rep_refill r l (zlen (buf r) / 8) (moved r + len r) HR ltac:(lia) ltac:(lia)).
      split; auto.
    - split; auto.
  Qed.

  (** ** Single operations *)
  Ltac xrun := unfold xbind, xget, xput, xret, xpanic, setBuf, getBuf, setStLen, xbind, xget, xput, xret, xpanic.

  Lemma slot_inj r p q : 0 <= p < zlen (buf r) -> 0 <= q < zlen (buf r) ->
    slot r p = slot r q -> 0 <= st r < zlen (buf r) -> p = q.
  Proof. unfold slot. intros. destruct (Z.ltb_spec p (st r)), (Z.ltb_spec q (st r)); lia. Qed.

  Definition wrapAdd (r : ring T) (k : Z) : Z :=
    if st r + k >=? zlen (buf r) then st r + k - zlen (buf r) else st r + k.

  Lemma wrapAdd_range r k : 0 <= st r < zlen (buf r) -> 0 <= k < zlen (buf r) ->
    0 <= wrapAdd r k < zlen (buf r) /\ slot r (wrapAdd r k) = k.
  Proof.
    intros. unfold wrapAdd, slot. rewrite Z.geb_leb.
    destruct (Z.leb_spec (zlen (buf r)) (st r + k)).
    - destruct (Z.ltb_spec (st r + k - zlen (buf r)) (st r)); lia.
    - destruct (Z.ltb_spec (st r + k) (st r)); lia.
  Qed.

  (** Writing the element at position [k] of the queue. *)
  Lemma setBuf_slot (r : ring T) v p : 0 <= p < zlen (buf r) ->
    setBuf p v r = (Ok tt, mkRing (upd (buf r) (Z.to_nat p) v) (st r) (len r) (moved r)).
  Proof. intros Hp. xrun. rewrite zset_ok by lia. reflexivity. Qed.

  Lemma getBuf_slot r l k : Rep r l -> 0 <= k < len r ->
    getBuf (wrapAdd r k) r = (Ok l.[k], r).
  Proof.
    intros (HL & Hc & Hs & Hst & Hb) Hk.
    destruct (wrapAdd_range r k ltac:(lia) ltac:(lia)) as [Hp Hsl].
    xrun. rewrite (zget_at zero) by lia. rewrite Hb by lia. now rewrite Hsl.
  Qed.

  Lemma append_ok r l v : Rep r l ->
    exists r', Append zero v r = (Ok tt, r') /\ Rep r' (l ++ [v]).
  Proof.
    intros HR. destruct (growth_rep r l HR) as (HR1 & Hlen1 & Hcap1).
    set (r1 := checkGrowth zero r) in *.
    assert (HE : Append zero v r = (setBuf (wrapAdd r1 (len r1)) v ;;
      setStLen (st r1) (len r1 + 1))%exn r1) by reflexivity.
    rewrite HE. clear HE. clearbody r1. clear HR. rewrite <- Hlen1 in Hcap1. clear Hlen1 r.
    assert (HR := HR1). destruct HR as (HL & Hc & Hs & Hst & Hb). pose proof (zlen_nonneg l).
    destruct (wrapAdd_range r1 (len r1) ltac:(lia) ltac:(lia)) as [Hp Hsl].
    set (i := wrapAdd r1 (len r1)) in *. clearbody i.
    unfold xbind at 1. rewrite setBuf_slot by lia. eexists. split; [reflexivity|].
    unfold Rep; cbn [buf st len]. rewrite zlen_upd, zlen_app.
    change (zlen [v]) with 1. repeat split; try lia.
    intros p Hpp. rewrite at_upd by lia. unfold slot; cbn [buf st]. rewrite zlen_upd.
    fold (slot r1 p). rewrite at_app by (unfold slot; destruct (Z.ltb_spec p (st r1)); lia).
    destruct (Z.eqb_spec p i) as [->|Hne].
    - rewrite Hsl. destruct (Z.ltb_spec (len r1) (zlen l)); [lia|].
      replace (len r1 - zlen l) with 0 by lia. reflexivity.
    - assert (slot r1 p <> len r1)
        by (intros Hq; apply Hne, (slot_inj r1); try lia).
      rewrite Hb by lia. destruct (Z.ltb_spec (slot r1 p) (zlen l)); [auto|].
      rewrite (at_over zero l) by lia. rewrite at_over; auto. change (zlen [v]) with 1. lia.
  Qed.

  Lemma prepend_ok r l v : Rep r l ->
    exists r', Prepend zero v r = (Ok tt, r') /\ Rep r' (v :: l).
  Proof.
    intros HR. destruct (growth_rep r l HR) as (HR1 & Hlen1 & Hcap1).
    set (r1 := checkGrowth zero r) in *.
    set (i := if st r1 - 1 <? 0 then st r1 - 1 + zlen (buf r1) else st r1 - 1).
    assert (HE : Prepend zero v r = (setBuf i v ;; setStLen i (len r1 + 1))%exn r1) by reflexivity.
    rewrite HE. clear HE. clearbody r1. clear HR. rewrite <- Hlen1 in Hcap1. clear Hlen1 r.
    assert (HR := HR1). destruct HR as (HL & Hc & Hs & Hst & Hb). pose proof (zlen_nonneg l).
    assert (Hi : 0 <= i < zlen (buf r1)) by (unfold i; destruct (Z.ltb_spec (st r1 - 1) 0); lia).
    unfold xbind at 1. rewrite setBuf_slot by lia. exists (mkRing (upd (buf r1) (Z.to_nat i) v) i (len r1 + 1) (moved r1)). split; [reflexivity|].
    unfold Rep; cbn [buf st len]. rewrite zlen_upd, zlen_cons. repeat split; try lia.
    intros p Hpp. rewrite at_upd by lia.
    assert (Hs2 : slot (mkRing (upd (buf r1) (Z.to_nat i) v) i (len r1 + 1) (moved r1)) p
      = if p =? i then 0 else slot r1 p + 1).
    { unfold slot; cbn [buf st]. rewrite zlen_upd.
      assert (Hii : (st r1 = 0 /\ i = zlen (buf r1) - 1) \/ (0 < st r1 /\ i = st r1 - 1))
        by (unfold i; destruct (Z.ltb_spec (st r1 - 1) 0); lia).
      clearbody i. destruct (Z.eqb_spec p i), (Z.ltb_spec p i), (Z.ltb_spec p (st r1)); lia. }
    rewrite Hs2. destruct (Z.eqb_spec p i); [reflexivity|].
    rewrite Hb by lia. assert (0 <= slot r1 p) by (unfold slot; destruct (Z.ltb_spec p (st r1)); lia).
    rewrite at_cons by lia. destruct (Z.eqb_spec (slot r1 p + 1) 0); [lia|]. f_equal. lia.
  Qed.

  Lemma delete_last_ok r l : Rep r l -> l <> [] ->
    exists r', DeleteLast zero r = (Ok tt, r') /\ Rep r' (removelast l).
  Proof.
    intros HR Hne. destruct (shrink_rep r l HR) as (HR1 & Hlen1).
    destruct (removelast_snoc l Hne) as (l' & x & -> & ->).
    assert (Hl0 : zlen (l' ++ [x]) = zlen l' + 1) by (now rewrite zlen_app).
    pose proof (zlen_nonneg l').
    set (r1 := checkShrink zero r) in *.
    assert (HE : DeleteLast zero r = (setBuf (wrapAdd r1 (len r1 - 1)) zero ;;
      setStLen (st r1) (len r1 - 1))%exn r1).
    { unfold DeleteLast, xbind, xget. destruct (Z.eqb_spec (len r) 0) as [H0|H0].
      - destruct HR as (HL & _). lia.
      - unfold xput, wrapAdd. fold r1. now rewrite !Z.add_sub_assoc. }
    rewrite HE. clear HE. clearbody r1. clear HR Hlen1 r.
    assert (HR := HR1). destruct HR as (HL & Hc & Hs & Hst & Hb).
    destruct (wrapAdd_range r1 (len r1 - 1) ltac:(lia) ltac:(lia)) as [Hp Hsl].
    set (i := wrapAdd r1 (len r1 - 1)) in *. clearbody i.
    unfold xbind at 1. rewrite setBuf_slot by lia. eexists. split; [reflexivity|].
    unfold Rep; cbn [buf st len]. rewrite zlen_upd. repeat split; try lia.
    intros p Hpp. rewrite at_upd by lia. unfold slot; cbn [buf st]. rewrite zlen_upd.
    fold (slot r1 p). assert (0 <= slot r1 p) by (unfold slot; destruct (Z.ltb_spec p (st r1)); lia).
    destruct (Z.eqb_spec p i) as [->|Hni].
    - rewrite at_over; auto; lia.
    - assert (slot r1 p <> len r1 - 1)
        by (intros Hq; apply Hni, (slot_inj r1); try lia).
      rewrite Hb by lia. rewrite at_app by lia.
      destruct (Z.ltb_spec (slot r1 p) (zlen l')); [auto|].
      rewrite !at_over; auto; try lia. change (zlen [x]) with 1. lia.
  Qed.

  Lemma delete_first_ok r x l : Rep r (x :: l) ->
    exists r', DeleteFirst zero r = (Ok tt, r') /\ Rep r' l.
  Proof.
    intros HR. destruct (shrink_rep r _ HR) as (HR1 & Hlen1).
    assert (Hl0 : zlen (x :: l) = zlen l + 1) by apply zlen_cons.
    pose proof (zlen_nonneg l).
    set (r1 := checkShrink zero r) in *.
    set (s' := if st r1 + 1 =? zlen (buf r1) then 0 else st r1 + 1).
    assert (HE : DeleteFirst zero r = (setBuf (st r1) zero ;; setStLen s' (len r1 - 1))%exn r1).
    { unfold DeleteFirst, xbind, xget. destruct (Z.eqb_spec (len r) 0) as [H0|H0].
      - destruct HR as (HL & _). lia.
      - reflexivity. }
    rewrite HE. clear HE. clearbody r1. clear HR Hlen1 r.
    assert (HR := HR1). destruct HR as (HL & Hc & Hs & Hst & Hb).
    unfold xbind at 1. rewrite setBuf_slot by lia. exists (mkRing (upd (buf r1) (Z.to_nat (st r1)) zero) s' (len r1 - 1) (moved r1)). split; [reflexivity|].
    unfold Rep; cbn [buf st len]. rewrite zlen_upd.
    assert (Hs' : 0 <= s' < zlen (buf r1))
      by (unfold s'; destruct (Z.eqb_spec (st r1 + 1) (zlen (buf r1))); lia).
    repeat split; try lia.
    intros p Hpp. rewrite at_upd by lia.
    assert (Hs2 : slot (mkRing (upd (buf r1) (Z.to_nat (st r1)) zero) s' (len r1 - 1) (moved r1)) p
      = if p =? st r1 then zlen (buf r1) - 1 else slot r1 p - 1).
    { unfold slot; cbn [buf st]. rewrite zlen_upd. unfold s'.
      destruct (Z.eqb_spec (st r1 + 1) (zlen (buf r1))), (Z.eqb_spec p (st r1));
        (destruct (Z.ltb_spec p (st r1)); try lia).
      all: try (destruct (Z.ltb_spec p 0); lia).
      all: destruct (Z.ltb_spec p (st r1 + 1)); lia. }
    rewrite Hs2. destruct (Z.eqb_spec p (st r1)) as [->|Hni].
    - rewrite at_over; auto; lia.
    - rewrite Hb by lia.
      assert (1 <= slot r1 p) by (unfold slot; destruct (Z.ltb_spec p (st r1)); lia).
      rewrite at_cons by lia. destruct (Z.eqb_spec (slot r1 p) 0); [lia|]. auto.
  Qed.

  Lemma atref_ok r l i : Rep r l -> AtRef i r =
    (if (0 <=? i) && (i <? zlen l) then Ok (wrapAdd r i) else Panic "index out of bound", r).
  Proof.
    intros (HL & _). unfold AtRef, xbind, xget, xpanic, xret. rewrite <- HL.
    destruct (Z.ltb_spec i 0), (Z.leb_spec (zlen l) i), (Z.leb_spec 0 i), (Z.ltb_spec i (zlen l));
      cbn; try lia; try reflexivity.
    unfold wrapAdd. now rewrite (Z.add_comm i).
  Qed.

  Lemma rep_set r l i v : Rep r l -> 0 <= i < zlen l ->
    exists r', setBuf (wrapAdd r i) v r = (Ok tt, r') /\ Rep r' (upd l (Z.to_nat i) v).
  Proof.
    intros (HL & Hc & Hs & Hst & Hb) Hi.
    destruct (wrapAdd_range r i ltac:(lia) ltac:(lia)) as [Hp Hsl].
    set (q := wrapAdd r i) in *. clearbody q. rewrite setBuf_slot by lia.
    eexists. split; [reflexivity|]. unfold Rep; cbn [buf st len]. rewrite !zlen_upd.
    repeat split; try lia. intros p Hpp. rewrite at_upd by lia.
    unfold slot; cbn [buf st]. rewrite zlen_upd. fold (slot r p).
    rewrite at_upd by (try lia; unfold slot; destruct (Z.ltb_spec p (st r)); lia).
    destruct (Z.eqb_spec p q) as [->|Hn].
    - rewrite Hsl, Z.eqb_refl. reflexivity.
    - destruct (Z.eqb_spec (slot r p) i) as [He|]; [|apply Hb; lia].
      exfalso. apply Hn, (slot_inj r); try lia.
  Qed.

  Lemma rep_nil_iff r l : Rep r l -> (len r =? 0) = match l with [] => true | _ => false end.
  Proof.
    intros (HL & _). destruct l.
    - rewrite <- HL. reflexivity.
    - rewrite <- HL, zlen_cons. pose proof (zlen_nonneg l). destruct (Z.eqb_spec (zlen l + 1) 0); [lia|auto].
  Qed.

  Lemma first_ok r x l : Rep r (x :: l) -> First r = (Ok x, r).
  Proof.
    intros HR. unfold First, xbind, xget. rewrite (rep_nil_iff _ _ HR).
    pose proof (getBuf_slot r _ 0 HR) as Hg. destruct HR as (HL & Hc & Hs & Hst & _).
    rewrite zlen_cons in HL. pose proof (zlen_nonneg l).
    rewrite <- (Z.add_0_r (st r)).
    replace (st r + 0) with (wrapAdd r 0)
      by (unfold wrapAdd; rewrite Z.geb_leb; destruct (Z.leb_spec (zlen (buf r)) (st r + 0)); lia).
    rewrite Hg by lia. reflexivity.
  Qed.

  Lemma last_ok r l x : Rep r (l ++ [x]) -> Last r = (Ok x, r).
  Proof.
    intros HR. unfold Last, xbind, xget. rewrite (rep_nil_iff _ _ HR).
    pose proof (zlen_nonneg l). assert (Hl : zlen (l ++ [x]) = zlen l + 1) by now rewrite zlen_app.
    destruct (l ++ [x]) as [|y l'] eqn:He; [now destruct l|]. rewrite <- He in *.
    pose proof (getBuf_slot r _ (len r - 1) HR) as Hg. destruct HR as (HL & Hc & Hs & Hst & _).
    unfold wrapAdd in Hg. rewrite !Z.add_sub_assoc in Hg. rewrite Hg by lia.
    rewrite at_app by lia. destruct (Z.ltb_spec (len r - 1) (zlen l)); [lia|].
    replace (len r - 1 - zlen l) with 0 by lia. reflexivity.
  Qed.

  (** ** Refinement *)
  Ltac fin := eexists; split; [reflexivity|cbn [snd]; assumption].

  Lemma step_ok r l o : Rep r l ->
    exists r', ringStep zero o r = (fst (dequeStep o l), r') /\ Rep r' (snd (dequeStep o l)).
  Proof.
    intros HR. destruct o; cbn [ringStep dequeStep]; unfold retUnit, retVal, Push.
    - destruct (append_ok r l v HR) as (r' & He & HR'). unfold xbind at 1. rewrite He. fin.
    - destruct (append_ok r l v HR) as (r' & He & HR'). unfold xbind at 1. rewrite He. fin.
    - destruct (prepend_ok r l v HR) as (r' & He & HR'). unfold xbind at 1. rewrite He. fin.
    - destruct l as [|x l].
      + unfold Pop, xbind, xget, Empty. rewrite (rep_nil_iff _ _ HR). fin.
      + destruct (delete_first_ok r x l HR) as (r' & He & HR').
        unfold Pop, xbind, xget, Empty. rewrite (rep_nil_iff _ _ HR), (first_ok _ _ _ HR), He.
        fin.
    - destruct l as [|x l].
      + unfold DeleteFirst, xbind, xget. rewrite (rep_nil_iff _ _ HR). fin.
      + destruct (delete_first_ok r x l HR) as (r' & He & HR').
        unfold xbind at 1. rewrite He. fin.
    - destruct l as [|x l].
      + unfold DeleteLast, xbind, xget. rewrite (rep_nil_iff _ _ HR). fin.
      + destruct (delete_last_ok r (x :: l) HR ltac:(discriminate)) as (r' & He & HR').
        unfold xbind at 1. rewrite He. fin.
    - destruct l as [|x l].
      + unfold First, xbind, xget. rewrite (rep_nil_iff _ _ HR). fin.
      + unfold xbind at 1. rewrite (first_ok _ _ _ HR). fin.
    - destruct l as [|y l0].
      + unfold Last, xbind, xget. rewrite (rep_nil_iff _ _ HR). fin.
      + destruct (removelast_snoc (y :: l0) ltac:(discriminate)) as (l' & x & Hl & _).
        rewrite Hl in *. unfold xbind at 1. rewrite (last_ok _ _ _ HR).
        rewrite rev_app_distr. fin.
    - unfold At, xbind at 1, xbind at 1. rewrite (atref_ok r l i HR).
      destruct (Z.leb_spec 0 i), (Z.ltb_spec i (zlen l)); cbn [andb].
      2-4: assert (Hz : zget l i = None) by (apply zget_none; lia); rewrite Hz; fin.
      assert (HL : zlen l = len r) by apply HR.
      rewrite (getBuf_slot r l i HR) by lia. rewrite (zget_at zero) by lia. fin.
    - unfold Set_, xbind at 1, xbind at 1. rewrite (atref_ok r l i HR).
      destruct (Z.leb_spec 0 i), (Z.ltb_spec i (zlen l)); cbn [andb].
      2-4: assert (Hz : zset l i v = None) by (apply zset_none; lia); rewrite Hz; fin.
      destruct (rep_set r l i v HR ltac:(lia)) as (r' & He & HR').
      rewrite He, zset_ok by lia. fin.
    - exists r. split; [|auto]. unfold xbind, xget, xret, Len. cbn. do 3 f_equal. symmetry. apply HR.
    - exists r. split; [|auto]. unfold xbind, xget, xret, Empty. cbn. now rewrite (rep_nil_iff _ _ HR).
    - exists r. split; [|auto]. unfold xbind, xget, xret, ToSlice. cbn [fst snd].
      rewrite (rep_nil_iff _ _ HR). destruct l; [reflexivity|].
      now rewrite (toSliceInto_res r _ _ HR).
  Qed.

  Lemma runOps_ok ops : forall r l, Rep r l ->
    exists r', runOps (ringStep zero) ops r = (fst (runOps dequeStep ops l), r') /\
      Rep r' (snd (runOps dequeStep ops l)).
  Proof.
    induction ops as [|o ops IH]; intros r l HR; cbn [runOps]; [eauto|].
    destruct (step_ok r l o HR) as (r1 & He & HR1). rewrite He.
    destruct (dequeStep o l) as [v l1] eqn:Ed. cbn [fst snd] in *.
    destruct (IH r1 l1 HR1) as (r2 & He2 & HR2). rewrite He2.
    destruct (runOps dequeStep ops l1) as [vs l2]. cbn in *. eauto.
  Qed.

  (** A panicking operation does not change the ring (any representation). *)
  Lemma panic_same r l o msg r' : Rep r l -> ringStep zero o r = (Panic msg, r') -> r' = r.
  Proof.
    intros HR H. destruct o; cbn [ringStep] in H; unfold retUnit, retVal, Push in H.
    - destruct (append_ok r l v HR) as (r1 & He & _). unfold xbind at 1 in H. rewrite He in H. discriminate.
    - destruct (append_ok r l v HR) as (r1 & He & _). unfold xbind at 1 in H. rewrite He in H. discriminate.
    - destruct (prepend_ok r l v HR) as (r1 & He & _). unfold xbind at 1 in H. rewrite He in H. discriminate.
    - unfold Pop, xbind, xget, Empty in H. rewrite (rep_nil_iff _ _ HR) in H. destruct l as [|x l]; [cbn in H; congruence|].
      destruct (delete_first_ok r x l HR) as (r1 & He & _). rewrite (first_ok _ _ _ HR), He in H. discriminate.
    - destruct l as [|x l].
      + unfold DeleteFirst, xbind, xget in H. rewrite (rep_nil_iff _ _ HR) in H. cbn in H. congruence.
      + destruct (delete_first_ok r x l HR) as (r1 & He & _). unfold xbind at 1 in H. rewrite He in H. discriminate.
    - destruct l as [|x l].
      + unfold DeleteLast, xbind, xget in H. rewrite (rep_nil_iff _ _ HR) in H. cbn in H. congruence.
      + destruct (delete_last_ok r (x :: l) HR ltac:(discriminate)) as (r1 & He & _).
        unfold xbind at 1 in H. rewrite He in H. discriminate.
    - destruct l as [|x l].
      + unfold First, xbind, xget in H. rewrite (rep_nil_iff _ _ HR) in H. cbn in H. congruence.
      + unfold xbind at 1 in H. rewrite (first_ok _ _ _ HR) in H. discriminate.
    - destruct l as [|y l0].
      + unfold Last, xbind, xget in H. rewrite (rep_nil_iff _ _ HR) in H. cbn in H. congruence.
      + destruct (removelast_snoc (y :: l0) ltac:(discriminate)) as (l' & x & Hl & _).
        rewrite Hl in *. unfold xbind at 1 in H. rewrite (last_ok _ _ _ HR) in H. discriminate.
    - unfold At, xbind at 1, xbind at 1 in H. rewrite (atref_ok r l i HR) in H.
      destruct ((0 <=? i) && (i <? zlen l)) eqn:Hc; [|congruence].
      apply andb_prop in Hc. destruct Hc as [H1 H2]. apply Z.leb_le in H1. apply Z.ltb_lt in H2.
      assert (HL : zlen l = len r) by apply HR.
      rewrite (getBuf_slot r l i HR) in H by lia. discriminate.
    - unfold Set_, xbind at 1, xbind at 1 in H. rewrite (atref_ok r l i HR) in H.
      destruct ((0 <=? i) && (i <? zlen l)) eqn:Hc; [|congruence].
      apply andb_prop in Hc. destruct Hc as [H1 H2]. apply Z.leb_le in H1. apply Z.ltb_lt in H2.
      destruct (rep_set r l i v HR ltac:(lia)) as (r1 & He & _). rewrite He in H. discriminate.
    - discriminate H.
    - discriminate H.
    - discriminate H.
  Qed.

  (** ** Capacity and copying *)
  Definition capInv (r : ring T) : Prop := Cap r <= Z.max 1024 (8 * Len r + 15).

  (** Potential paying for reallocations. *)
  Definition phi (r : ring T) : Z :=
    Z.max 0 (5 * len r - 4 * zlen (buf r)) + Z.max 0 (zlen (buf r) - 2 * len r).

  Lemma growth_cost r l : Rep r l -> capInv r ->
    let r1 := checkGrowth zero r in
    zlen (buf r1) <= Z.max 1024 (8 * (len r + 1) + 15) /\
    moved r1 + phi r1 <= moved r + phi r + 4 /\
    (len r < zlen (buf r) -> r1 = r) /\ moved r <= moved r1.
  Proof.
    intros HR Hi r1. assert (HR' := HR). destruct HR' as (HL & Hc & _). pose proof (zlen_nonneg l).
    unfold capInv, Cap, Len in Hi. unfold r1, checkGrowth. cbv zeta.
    destruct (Z.eqb_spec (len r) (zlen (buf r))).
    - pose proof (grown_gt (zlen (buf r)) ltac:(lia)).
      destruct (rep_refill r l (grownCap (zlen (buf r))) (moved r + len r) HR ltac:(lia) ltac:(lia)) as [_ HB].
      unfold phi. cbn [len buf moved]. rewrite HB. unfold grownCap in *.
      destruct (Z.eqb_spec (zlen (buf r)) 0); [repeat split; lia|].
      destruct (Z.ltb_spec (zlen (buf r)) 1024); repeat split; lia.
    - repeat split; auto; lia.
  Qed.

  Lemma shrink_cost r l : Rep r l -> capInv r -> 0 < len r ->
    let r1 := checkShrink zero r in
    zlen (buf r1) <= Z.max 1024 (8 * (len r - 1) + 15) /\
    moved r1 + phi r1 <= moved r + phi r /\ moved r <= moved r1.
  Proof.
    intros HR Hi H0 r1. assert (HR' := HR). destruct HR' as (HL & Hc & _). pose proof (zlen_nonneg l).
    unfold capInv, Cap, Len in Hi. unfold r1, checkShrink. cbv zeta.
    destruct ((zlen (buf r) >? 1024) && (zlen (buf r) / 8 >? len r)) eqn:Hs.
    - apply andb_prop in Hs. destruct Hs as [H1 H2]. apply Z.gtb_lt in H1, H2.
      destruct (rep_refill r l (zlen (buf r) / 8) (moved r + len r) HR ltac:(lia) ltac:(lia)) as [_ HB].
      unfold phi. cbn [len buf moved]. rewrite HB. repeat split; lia.
    - apply andb_false_iff in Hs. rewrite !Z.gtb_ltb, !Z.ltb_ge in Hs. repeat split; lia.
  Qed.

  Definition isAdd (o : ringOp T) : bool :=
    match o with OAppend _ | OPush _ | OPrepend _ => true | _ => false end.
  Definition isDel (o : ringOp T) : bool :=
    match o with OPop | ODeleteFirst | ODeleteLast => true | _ => false end.

  Lemma step_frame r l o r' v : Rep r l -> ringStep zero o r = (v, r') ->
    len r' = (if isAdd o then len r + 1 else if isDel o && (0 <? len r) then len r - 1 else len r) /\
    moved r' = moved (if isAdd o then checkGrowth zero r else if isDel o && (0 <? len r) then checkShrink zero r else r) /\
    zlen (buf r') = zlen (buf (if isAdd o then checkGrowth zero r else if isDel o && (0 <? len r) then checkShrink zero r else r)).
  Proof.
    intros HR H. pose proof (growth_rep r l HR) as (HG & HGl & HGc).
    pose proof (shrink_rep r l HR) as (HS & HSl).
    assert (HL : zlen l = len r) by apply HR. pose proof (zlen_nonneg l).
    destruct o; cbn [ringStep isAdd isDel andb] in *; unfold retUnit, retVal, Push in H.
    1-3: revert H; unfold Append, Prepend, setBuf, setStLen; unfold xbind, xget, xput, xret, xpanic;
      match goal with |- context [zset ?b ?i ?v] => destruct (zset b i v) eqn:Hz end;
      [intros H; inversion H; subst; cbn [len moved buf]; repeat split;
        [lia|revert Hz; unfold zset; destruct (_ && _); [|discriminate];
        intros Hz; inversion Hz; now rewrite zlen_upd] |].
    1: { intros _. exfalso. apply zset_none in Hz. apply Hz.
         destruct HG as (_ & Hgc & Hgs & Hgst & _).
         destruct (wrapAdd_range (checkGrowth zero r) (len (checkGrowth zero r)) ltac:(lia) ltac:(lia)) as [Hw _].
         exact Hw. }
    1: { intros _. exfalso. apply zset_none in Hz. apply Hz.
         destruct HG as (_ & Hgc & Hgs & Hgst & _).
         destruct (wrapAdd_range (checkGrowth zero r) (len (checkGrowth zero r)) ltac:(lia) ltac:(lia)) as [Hw _].
         exact Hw. }
    1: { intros _. exfalso. apply zset_none in Hz. apply Hz.
         destruct HG as (_ & Hgc & Hgs & Hgst & _).
         destruct (Z.ltb_spec (st (checkGrowth zero r) - 1) 0); lia. }
    1-3: destruct (Z.ltb_spec 0 (len r)).
    - destruct l as [|x l]; [change (zlen (@nil T)) with 0 in *; lia|].
      revert H. unfold Pop, Empty. unfold xbind at 1 2, xget at 1.
      rewrite (rep_nil_iff _ _ HR). unfold xbind at 1. rewrite (first_ok _ _ _ HR).
      unfold DeleteFirst, xbind, xget. rewrite (rep_nil_iff _ _ HR).
      unfold setBuf, setStLen, xput, xret, xpanic, xbind, xget.
      match goal with |- context [zset ?b ?i ?v] => destruct (zset b i v) eqn:Hz end.
      + intros H. inversion H; subst; cbn [len moved buf]; repeat split;
        [lia|revert Hz; unfold zset; destruct (_ && _); [|discriminate];
        intros Hz; inversion Hz; now rewrite zlen_upd].
      + exfalso. apply zset_none in Hz. apply Hz. destruct HS as (_ & Hgc & Hgs & Hgst & _). lia.
    - revert H. unfold Pop, Empty, xbind, xget. destruct (Z.eqb_spec (len r) 0); [|lia].
      intros H; inversion H; subst; auto.
    - destruct l as [|x l]; [change (zlen (@nil T)) with 0 in *; lia|].
      revert H. unfold DeleteFirst, xbind, xget. rewrite (rep_nil_iff _ _ HR).
      unfold setBuf, setStLen, xput, xret, xpanic, xbind, xget.
      match goal with |- context [zset ?b ?i ?v] => destruct (zset b i v) eqn:Hz end.
      + intros H. inversion H; subst; cbn [len moved buf]; repeat split;
        [lia|revert Hz; unfold zset; destruct (_ && _); [|discriminate];
        intros Hz; inversion Hz; now rewrite zlen_upd].
      + exfalso. apply zset_none in Hz. apply Hz. destruct HS as (_ & Hgc & Hgs & Hgst & _). lia.
    - revert H. unfold DeleteFirst, xbind, xget. destruct (Z.eqb_spec (len r) 0); [|lia].
      intros H; inversion H; subst; auto.
    - destruct l as [|x l]; [change (zlen (@nil T)) with 0 in *; lia|].
      revert H. unfold DeleteLast, xbind, xget. rewrite (rep_nil_iff _ _ HR).
      unfold setBuf, setStLen, xput, xret, xpanic, xbind, xget.
      match goal with |- context [zset ?b ?i ?v] => destruct (zset b i v) eqn:Hz end.
      + intros H. inversion H; subst; cbn [len moved buf]; repeat split;
        [lia|revert Hz; unfold zset; destruct (_ && _); [|discriminate];
        intros Hz; inversion Hz; now rewrite zlen_upd].
      + exfalso. apply zset_none in Hz. apply Hz. destruct HS as (_ & Hgc & Hgs & Hgst & _).
        match goal with |- context [?a >=? ?b] => rewrite (Z.geb_leb a b); destruct (Z.leb_spec b a) end; lia.
    - revert H. unfold DeleteLast, xbind, xget. destruct (Z.eqb_spec (len r) 0); [|lia].
      intros H; inversion H; subst; auto.
    - revert H. unfold First, getBuf, xbind, xget, xpanic, xret. destruct (len r =? 0); [|destruct (zget _ _)];
        intros H; inversion H; subst; auto.
    - revert H. unfold Last, getBuf, xbind, xget, xpanic, xret. destruct (len r =? 0); [|destruct (zget _ _)];
        intros H; inversion H; subst; auto.
    - revert H. unfold At, AtRef, getBuf, xbind, xget, xpanic, xret. destruct (_ || _); [|destruct (zget _ _)];
        intros H; inversion H; subst; auto.
    - revert H. unfold Set_, AtRef, setBuf, xbind, xget, xput, xpanic, xret.
      destruct (_ || _); [|match goal with |- context [zset ?b ?i ?v] => destruct (zset b i v) eqn:Hz end];
        intros H; inversion H; subst; auto. cbn [len moved buf]. repeat split.
      revert Hz; unfold zset; destruct (_ && _); [|discriminate];
        intros Hz; inversion Hz; now rewrite zlen_upd.
    - inversion H; subst; auto.
    - inversion H; subst; auto.
    - inversion H; subst; auto.
  Qed.

  Lemma step_cap r l o v r' : Rep r l -> capInv r -> ringStep zero o r = (v, r') ->
    capInv r' /\ moved r' + phi r' <= moved r + phi r + 9 /\ moved r <= moved r' /\
    (isAdd o = true -> Len r < Cap r -> Cap r' = Cap r /\ moved r' = moved r).
  Proof.
    intros HR Hi H. destruct (step_frame r l o r' v HR H) as (H1 & H2 & H3).
    assert (HL : zlen l = len r) by apply HR. pose proof (zlen_nonneg l).
    unfold capInv, Cap, Len in *. destruct (isAdd o) eqn:Ha.
    - destruct (growth_cost r l HR Hi) as (G1 & G2 & G3 & G4).
      pose proof (growth_rep r l HR) as (_ & HGl & _).
      unfold phi in *. rewrite HGl in *.
      split; [lia|split; [lia|split; [lia|]]]. intros _ Hlt. specialize (G3 Hlt).
      rewrite H3, H2, G3. auto.
    - destruct (isDel o && (0 <? len r)) eqn:Hd.
      + apply andb_prop in Hd. destruct Hd as [_ Hd]. apply Z.ltb_lt in Hd.
        destruct (shrink_cost r l HR Hi Hd) as (G1 & G2 & G3).
        pose proof (shrink_rep r l HR) as (_ & HSl).
        unfold phi in *. rewrite HSl in *. repeat split; try lia; discriminate.
      + unfold phi. repeat split; try lia; discriminate.
  Qed.

  Lemma runOps_cap ops : forall r l, Rep r l -> capInv r ->
    let r' := snd (runOps (ringStep zero) ops r) in
    capInv r' /\ Len r' <= Cap r' /\
    moved r' + phi r' <= moved r + phi r + 9 * zlen ops.
  Proof.
    induction ops as [|o ops IH]; intros r l HR Hi; cbn [runOps].
    - cbn [snd]. change (zlen (@nil (ringOp T))) with 0. repeat split; auto; try lia. apply HR.
    - destruct (ringStep zero o r) as [v r1] eqn:He.
      destruct (step_cap r l o v r1 HR Hi He) as (Hi1 & Hm & _ & _).
      destruct (step_ok r l o HR) as (r2 & He2 & HR2). rewrite He in He2. inversion He2; subst.
      specialize (IH r2 _ HR2 Hi1). destruct (runOps (ringStep zero) ops r2) as [vs r3]. cbn [snd] in *.
      destruct IH as (I1 & I2 & I3). rewrite zlen_cons. repeat split; auto; lia.
  Qed.

  Lemma phi_nonneg r : 0 <= phi r.
  Proof. unfold phi. lia. Qed.
End Ring.
