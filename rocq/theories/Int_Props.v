(** Properties C97 and C98: positions, offsets and lengths are 64-bit ints. *)
From Verif Require Import Base Arr Exn GoSlice GoSlice_Proofs Iter_Model Iter_Spec XSlice_Model XSlice_Spec
  XSlice_Proofs Algo_Proofs XSlice_Facts Int_Spec Int_Iter_Model Int_Iter_Proofs.
From Verif Require XRing_Model XRing_Proofs Int_Ring_Model Int_Ring_Proofs.
From Verif Require Import XRing_Spec.
Local Open Scope string_scope.
Local Open Scope list_scope.
Local Open Scope Z_scope.

(** ** C97: iterators *)

(** Moving by any int, forwards and in reverse, goes to the exact position or
    panics; an overflow of position plus offset is never taken for a position. *)
Theorem C97_offsets :
  forall {T} (h : heap T) (s : slice) p d, 0 <= p <= len s -> len s <= maxInt -> isInt d ->
  Add sliceOpsW (mkIt p s) d h = (movedTo (len s) (fun i => mkIt i s) (p + d), h) /\
  Add (ReverseRandomW sliceOpsW) (Rev (mkIt p s)) d h = (movedTo (len s) (fun i => Rev (mkIt i s)) (p - d), h) /\
  Add (ConstReverseRandomW sliceOpsW) (Rev (mkIt p s)) d h = (movedTo (len s) (fun i => Rev (mkIt i s)) (p - d), h).
Proof.
  intros. split; [apply addW; lia || assumption|split; [apply raddW|apply craddW]]; lia || assumption.
Qed.

(** Distances are exact. *)
Theorem C97_distances :
  forall {T} (h : heap T) (s : slice) p q, 0 <= p <= len s -> 0 <= q <= len s -> len s <= maxInt ->
  DistanceW sliceOpsW (mkIt p s) (mkIt q s) h = (Ok (q - p), h) /\
  RangeDistanceW sliceOpsW (mkIt p s, mkIt q s) h = (Ok (q - p), h) /\
  DistanceW (ReverseRandomW sliceOpsW) (Rev (mkIt p s)) (Rev (mkIt q s)) h = (Ok (p - q), h) /\
  RangeDistanceW (ReverseRandomW sliceOpsW) (Rev (mkIt p s), Rev (mkIt q s)) h = (Ok (p - q), h) /\
  DistanceW (ConstReverseRandomW sliceOpsW) (Rev (mkIt p s)) (Rev (mkIt q s)) h = (Ok (p - q), h) /\
  RangeDistanceW (ConstReverseRandomW sliceOpsW) (Rev (mkIt p s), Rev (mkIt q s)) h = (Ok (p - q), h).
Proof. intros. apply distanceW; lia. Qed.

(** So these iterators are lawful random iterators over the slice and over its
    reverse, and whatever holds of all lawful iterators holds of them. *)
Theorem C97_lawful :
  forall {T} (h : heap T) (s : slice), valid h s -> len s <= maxInt ->
  let at_ := fun i => mkIt i s in
  let at' := fun i => Rev (mkIt (len s - i) s) in
  exists plug : unit -> list T -> heap T,
  let plug' := fun u l => plug u (rev l) in
  (forall l, zlen l = len s -> elems (plug tt l) s = l) /\ plug tt (elems h s) = h /\
  (lawful sliceOpsW (len s) plug at_ /\ lawful_prev sliceOpsW (len s) plug at_ /\
   lawful_set sliceOpsW (len s) plug at_ /\ lawful_random sliceOpsW (len s) plug at_) /\
  (lawful (ReverseRandomW sliceOpsW) (len s) plug' at' /\ lawful_prev (ReverseRandomW sliceOpsW) (len s) plug' at' /\
   lawful_set (ReverseRandomW sliceOpsW) (len s) plug' at' /\
   lawful_random (ReverseRandomW sliceOpsW) (len s) plug' at') /\
  (lawful (ConstReverseRandomW sliceOpsW) (len s) plug' at' /\
   lawful_prev (ConstReverseRandomW sliceOpsW) (len s) plug' at' /\
   lawful_random (ConstReverseRandomW sliceOpsW) (len s) plug' at').
Proof.
  intros T h s V Hm at_ at'. exists (store h s). intros plug'.
  split; [intros; now apply elems_store|]. split; [now apply store_elems|].
  pose proof (lawfulW h s V Hm) as L. pose proof (prevLawW h s V Hm) as LP.
  assert (R1 : is_reverse sliceOpsW (@ReverseRandomW (heap T) _ _ sliceOpsW)) by repeat split.
  assert (R2 : is_reverse sliceOpsW (@ConstReverseRandomW (heap T) _ _ sliceOpsW)) by repeat split.
  change plug' with (plugR (store h s)). change at' with (atR (len s) at_).
  split; [split; [exact L|split; [exact LP|split; [apply (setLawW h s V)|apply (randomLawW h s V Hm)]]]|].
  split.
  - split; [eapply rev_lawful; eassumption|]. split; [eapply rev_lawful_prev; eassumption|].
    split; [eapply rev_lawful_set; [eassumption..|apply (setLawW h s V)|reflexivity]|].
    apply (randomRevLawW h s V Hm); reflexivity.
  - split; [eapply rev_lawful; eassumption|]. split; [eapply rev_lawful_prev; eassumption|].
    apply (randomRevLawW h s V Hm); reflexivity.
Qed.

(** A slice of three at position 2: the largest offset and the smallest. *)
Example C97_case :
  let h := [[10; 20; 30]] in let s := mkSlice 0 0 3 3 in
  Add sliceOpsW (mkIt 2 s) (-1) h = (Ok (mkIt 1 s), h) /\
  Add sliceOpsW (mkIt 2 s) maxInt h = (Panic "offset out of bound", h) /\
  Add (ReverseRandomW sliceOpsW) (Rev (mkIt 2 s)) (- maxInt - 1) h = (Panic "offset out of bound", h) /\
  Add (ReverseRandomW sliceOpsW) (Rev (mkIt 2 s)) 2 h = (Ok (Rev (mkIt 0 s)), h).
Proof. repeat split. Qed.

(** ** C98: the ring *)

(** Elements that take memory: in every history on every ring, each call gives
    the answer of a deque, or is an addition refused by make for lack of
    address space, which leaves the queue as it was. *)
Theorem C98_ring :
  forall {T} (zero : T) esz A ops, 1 <= esz -> 0 <= A -> 5 * A <= maxInt ->
  answers esz A ops [] (fst (runOps (Int_Ring_Model.ringStepW zero esz A) ops XRing_Model.New)) /\
  (forall n r, Int_Ring_Model.NewLenW zero esz A n = Ok r ->
     answers esz A ops (repeat zero (Z.to_nat n)) (fst (runOps (Int_Ring_Model.ringStepW zero esz A) ops r))) /\
  (forall l, zlen l * esz <= A -> answers esz A ops l (fst (runOps (Int_Ring_Model.ringStepW zero esz A) ops (XRing_Model.OfSlice l)))).
Proof.
  intros T zero esz A ops He HA H5.
  assert (HO : forall l, zlen l * esz <= A -> answers esz A ops l (fst (runOps (Int_Ring_Model.ringStepW zero esz A) ops (XRing_Model.OfSlice l)))).
  { intros l Hl. apply Int_Ring_Proofs.run_answers; try assumption.
    - apply XRing_Proofs.rep_of_slice.
    - split; cbn [XRing_Model.buf XRing_Model.OfSlice]; [exact Hl|]. pose proof (zlen_nonneg l). nia. }
  split; [apply (HO []); change (zlen []) with 0; lia|]. split; [|exact HO].
  intros n r Hn. unfold Int_Ring_Model.NewLenW, Int_Ring_Model.makeW in Hn.
  destruct ((n <? 0) || (A <? n * esz)) eqn:E; [discriminate|]. apply orb_false_iff in E. injection Hn as <-.
  specialize (HO (repeat zero (Z.to_nat n))). unfold XRing_Model.OfSlice in HO. rewrite zlen_repeat in HO.
  replace (Z.of_nat (Z.to_nat n)) with n in HO by lia. apply HO. lia.
Qed.

(** Elements of size zero (struct{}): a ring may be given 2^62 of them.
    Appending one more panics, and elements that could be read are gone. *)
Theorem C98_zero_size_refuted :
  forall A, 0 <= A ->
  exists r, Int_Ring_Model.NewLenW tt 0 A (2 ^ 62) = Ok r /\
  let ops := [OAt (2 ^ 62 - 1); OAppend tt; OAt (2 ^ 62 - 1)] in
  fst (runOps (Int_Ring_Model.ringStepW tt 0 A) ops r) = [Ok (RVal tt); Panic idx_msg; Panic idx_msg] /\
  forall l : list unit, zlen l = 2 ^ 62 ->
    fst (runOps dequeStep ops l) = [Ok (RVal tt); Ok RUnit; Ok (RVal tt)].
Proof.
  assert (G : forall A big, 0 <= A -> big = 4611686018427387904 ->
    exists r, Int_Ring_Model.NewLenW tt 0 A big = Ok r /\
    let ops := [OAt (big - 1); OAppend tt; OAt (big - 1)] in
    fst (runOps (Int_Ring_Model.ringStepW tt 0 A) ops r) = [Ok (RVal tt); Panic idx_msg; Panic idx_msg] /\
    forall l : list unit, zlen l = big ->
      fst (runOps dequeStep ops l) = [Ok (RVal tt); Ok RUnit; Ok (RVal tt)]).
  { intros A big HA Hb.
    remember 1152921504606846976 as q eqn:Hq.
    exists (Int_Ring_Proofs.bigRing tt big).
    split; [now apply Int_Ring_Proofs.big_new|].
    cbv zeta. split.
    - cbn [runOps Int_Ring_Model.ringStepW]. unfold XRing_Model.retVal, XRing_Model.retUnit, xbind.
      rewrite Int_Ring_Proofs.big_at by lia. unfold xret.
      rewrite (Int_Ring_Proofs.big_append tt A big q HA Hb Hq).
      rewrite (Int_Ring_Proofs.lost_at tt big q Hb Hq) by lia. reflexivity.
    - intros l Hl. cbn [runOps dequeStep].
      rewrite (zget_at tt l) by lia. rewrite (zget_at tt (l ++ [tt])) by (rewrite zlen_app; change (zlen [tt]) with 1; lia).
      cbn [orPanic fst]. now destruct (at_ tt l (big - 1)), (at_ tt (l ++ [tt]) (big - 1)). }
  intros A HA. apply (G A (2 ^ 62) HA). reflexivity.
Qed.

(** While such a ring has at most maxInt/10 elements, it is a deque. *)
Theorem C98_zero_size_partial :
  forall {T} (zero : T) A ops n r, 0 <= A -> Int_Ring_Model.NewLenW zero 0 A n = Ok r ->
  10 * (n + zlen ops) <= maxInt ->
  fst (runOps (Int_Ring_Model.ringStepW zero 0 A) ops r) = fst (runOps dequeStep ops (repeat zero (Z.to_nat n))).
Proof.
  intros T zero A ops n r HA Hn Hm. unfold Int_Ring_Model.NewLenW, Int_Ring_Model.makeW in Hn.
  destruct ((n <? 0) || (A <? n * 0)) eqn:E; [discriminate|]. apply orb_false_iff in E. injection Hn as <-.
  assert (Hz : zlen (repeat zero (Z.to_nat n)) = n) by (rewrite zlen_repeat; lia).
  pose proof (zlen_nonneg ops).
  apply (Int_Ring_Proofs.run_zero zero A HA ops _ _ (n + zlen ops)).
  - rewrite <- Hz at 2. apply XRing_Proofs.rep_of_slice.
  - lia.
  - cbn [XRing_Model.buf]. unfold XRing_Model.makeSlice. lia.
  - exact Hm.
Qed.

(** 64 bytes of address space, elements of 8 bytes: the fifth element needs a
    buffer of 8 elements, which is exactly 64; the ninth is refused. *)
Example C98_case :
  let run := runOps (Int_Ring_Model.ringStepW 0 8 64) in
  let five := [OAppend 1; OAppend 2; OAppend 3; OAppend 4; OPrepend 0] in
  fst (run five XRing_Model.New) = repeat (Ok RUnit) 5 /\
  fst (run (five ++ [OAppend 5; OAppend 6; OAppend 7; OAppend 8; OLast; OLen]) XRing_Model.New) =
    repeat (Ok RUnit) 8 ++ [Panic "makeslice: len out of range"; Ok (RVal 7); Ok (RInt 8)].
Proof. split; vm_compute; reflexivity. Qed.

Print Assumptions C97_offsets.
Print Assumptions C97_distances.
Print Assumptions C97_lawful.
Print Assumptions C98_ring.
Print Assumptions C98_zero_size_refuted.
Print Assumptions C98_zero_size_partial.
