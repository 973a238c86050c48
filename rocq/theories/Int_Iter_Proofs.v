(** Int_Iter_Model: facts about slice iterators with wrapping ints. *)
From Verif Require Import Base Arr Exn GoSlice GoSlice_Proofs Iter_Model Iter_Spec XSlice_Model XSlice_Spec
  XSlice_Proofs Int_Spec Int_Iter_Model.
Local Open Scope string_scope.
Local Open Scope list_scope.
Local Open Scope Z_scope.

Lemma maxInt_val : maxInt = 9223372036854775807.
Proof. reflexivity. Qed.
Lemma w_id x : isInt x -> w x = x.
Proof.
  unfold isInt. rewrite maxInt_val. intros H. unfold Stream_Model.wrapInt.
  change (2 ^ 63) with 9223372036854775808. change (2 ^ 64) with 18446744073709551616.
  rewrite Z.mod_small; lia.
Qed.
Lemma w_over x : maxInt < x <= 2 * maxInt -> w x = x - 18446744073709551616.
Proof.
  rewrite maxInt_val. intros H. unfold Stream_Model.wrapInt.
  change (2 ^ 63) with 9223372036854775808. change (2 ^ 64) with 18446744073709551616.
  replace (x + 9223372036854775808) with ((x - 9223372036854775808) + 1 * 18446744073709551616) by lia.
  rewrite Z_mod_plus_full, Z.mod_small; lia.
Qed.
Lemma w_minInt : w (- (- maxInt - 1)) = - maxInt - 1.
Proof. reflexivity. Qed.

Section SliceW.
  Context {T : Type} (h : heap T) (s : slice).
  Hypothesis Hmax : 0 <= len s <= maxInt.

  Lemma addW p d : 0 <= p <= len s -> isInt d ->
    Add sliceOpsW (mkIt p s) d h = (movedTo (len s) (fun i => mkIt i s) (p + d), h).
  Proof using Hmax.
    intros Hp Hd. unfold isInt in Hd. cbn. unfold movedTo. pose proof maxInt_val.
    destruct (Z_le_gt_dec (p + d) maxInt).
    - rewrite w_id by (unfold isInt; lia).
      destruct (Z.ltb_spec (p + d) 0), (Z.ltb_spec (len s) (p + d)), (Z.leb_spec 0 (p + d)),
        (Z.leb_spec (p + d) (len s)); try lia; reflexivity.
    - rewrite w_over by lia.
      replace (p + d - 18446744073709551616 <? 0) with true by lia.
      replace (p + d <=? len s) with false by lia.
      now rewrite andb_false_r.
  Qed.

  Lemma nextW p : 0 <= p <= len s -> Next sliceOpsW (mkIt p s) h = Next sliceOps (mkIt p s) h.
  Proof using Hmax.
    intros. cbn. rewrite Z.geb_leb. destruct (Z.leb_spec (len s) p); [reflexivity|].
    rewrite w_id; [reflexivity|]. unfold isInt. lia.
  Qed.
  Lemma prevW p : 0 <= p <= len s -> Prev sliceOpsW (mkIt p s) h = Prev sliceOps (mkIt p s) h.
  Proof using Hmax.
    intros. cbn. destruct (Z.leb_spec p 0); [reflexivity|].
    rewrite w_id; [reflexivity|]. unfold isInt. lia.
  Qed.

  Lemma radd_gen (RR : ops (heap T) (rev_it iterator) T) p d :
    (forall c k, Add RR c k = xbind (Add sliceOpsW (Base c) (w (- k))) (fun i => xret (Rev i))) ->
    0 <= p <= len s -> isInt d ->
    Add RR (Rev (mkIt p s)) d h = (movedTo (len s) (fun i => Rev (mkIt i s)) (p - d), h).
  Proof using Hmax.
    intros HA Hp Hd. rewrite HA. unfold xbind. cbn [Base].
    destruct (Z.eq_dec d (- maxInt - 1)) as [->|Hne].
    - rewrite w_minInt, addW by (unfold isInt; pose proof maxInt_val; lia).
      unfold movedTo. pose proof maxInt_val.
      replace (0 <=? p + (- maxInt - 1)) with false by lia.
      replace (p - (- maxInt - 1) <=? len s) with false by lia. now rewrite andb_false_r.
    - unfold isInt in Hd. rewrite w_id, addW by (unfold isInt; lia).
      replace (p + - d) with (p - d) by lia. unfold movedTo.
      destruct ((0 <=? p - d) && (p - d <=? len s)); reflexivity.
  Qed.
  Lemma raddW p d : 0 <= p <= len s -> isInt d ->
    Add (ReverseRandomW sliceOpsW) (Rev (mkIt p s)) d h = (movedTo (len s) (fun i => Rev (mkIt i s)) (p - d), h).
  Proof using Hmax. apply radd_gen. reflexivity. Qed.
  Lemma craddW p d : 0 <= p <= len s -> isInt d ->
    Add (ConstReverseRandomW sliceOpsW) (Rev (mkIt p s)) d h = (movedTo (len s) (fun i => Rev (mkIt i s)) (p - d), h).
  Proof using Hmax. apply radd_gen. reflexivity. Qed.

  Lemma distanceW p q : 0 <= p <= len s -> 0 <= q <= len s ->
    DistanceW sliceOpsW (mkIt p s) (mkIt q s) h = (Ok (q - p), h) /\
    RangeDistanceW sliceOpsW (mkIt p s, mkIt q s) h = (Ok (q - p), h) /\
    DistanceW (ReverseRandomW sliceOpsW) (Rev (mkIt p s)) (Rev (mkIt q s)) h = (Ok (p - q), h) /\
    RangeDistanceW (ReverseRandomW sliceOpsW) (Rev (mkIt p s), Rev (mkIt q s)) h = (Ok (p - q), h) /\
    DistanceW (ConstReverseRandomW sliceOpsW) (Rev (mkIt p s)) (Rev (mkIt q s)) h = (Ok (p - q), h) /\
    RangeDistanceW (ConstReverseRandomW sliceOpsW) (Rev (mkIt p s), Rev (mkIt q s)) h = (Ok (p - q), h).
  Proof using Hmax.
    intros Hp Hq. unfold DistanceW, RangeDistanceW, xbind. cbn. unfold ReferenceEqual. rewrite Nat.eqb_refl, Z.eqb_refl. cbn.
    unfold xret, xbind. cbn.
    rewrite (w_id (q - p)), (w_id (- p)), (w_id (- q)) by (unfold isInt; lia).
    replace (- q - - p) with (p - q) by lia. rewrite (w_id (p - q)) by (unfold isInt; lia).
    repeat split; reflexivity.
  Qed.
End SliceW.

Section LawfulW.
  Context {T : Type} (h : heap T) (s : slice).
  Hypothesis V : valid h s.
  Hypothesis Hmax : len s <= maxInt.

  Lemma lawfulW : lawful sliceOpsW (len s) (store h s) (fun i => mkIt i s).
  Proof using V Hmax.
    destruct (slice_lawful h s V) as [L0 L1 L2 L3]. split; [exact L0| |exact L2|exact L3].
    intros [] l i Hl Hi. rewrite nextW by lia. now apply L1.
  Qed.
  Lemma prevLawW : lawful_prev sliceOpsW (len s) (store h s) (fun i => mkIt i s).
  Proof using V Hmax.
    assert (0 <= len s) by apply (law_len _ _ _ _ (slice_lawful h s V)).
    intros [] l i Hl Hi. rewrite prevW by lia. now apply slice_prev.
  Qed.
  Lemma setLawW : lawful_set sliceOpsW (len s) (store h s) (fun i => mkIt i s).
  Proof using V. exact (slice_set h s V). Qed.
  Lemma randomLawW : lawful_random sliceOpsW (len s) (store h s) (fun i => mkIt i s).
  Proof using V Hmax.
    assert (0 <= len s) by apply (law_len _ _ _ _ (slice_lawful h s V)).
    split.
    - intros [] l i k Hl Hi Hk. rewrite addW by (unfold isInt; lia). unfold movedTo.
      replace ((0 <=? i + k) && (i + k <=? len s)) with true by lia. reflexivity.
    - exists 0. intros [] l i Hl Hi. reflexivity.
  Qed.

  Lemma randomRevLawW (RR : ops (heap T) (rev_it iterator) T) :
    (forall c k, Add RR c k = xbind (Add sliceOpsW (Base c) (w (- k))) (fun i => xret (Rev i))) ->
    (forall c, Pos RR c = xbind (Pos sliceOpsW (Base c)) (fun p => xret (w (- p)))) ->
    lawful_random RR (len s) (fun u l => store h s u (rev l)) (fun i => Rev (mkIt (len s - i) s)).
  Proof using V Hmax.
    assert (0 <= len s) by apply (law_len _ _ _ _ (slice_lawful h s V)).
    intros HA HP. split.
    - intros [] l i k Hl Hi Hk. rewrite (radd_gen (store h s tt (rev l)) s) by (try assumption; unfold isInt; lia).
      unfold movedTo. replace ((0 <=? len s - i - k) && (len s - i - k <=? len s)) with true by lia.
      do 4 f_equal. lia.
    - exists (- len s). intros [] l i Hl Hi. rewrite HP. unfold xbind. cbn.
      rewrite w_id by (unfold isInt; lia). unfold xret. do 2 f_equal. lia.
  Qed.
End LawfulW.
