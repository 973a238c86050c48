(** Properties of xring (C26-C29, C72). *)
From Verif Require Import Base Arr Exn XRing_Spec XRing_Model XRing_Proofs.

(** How a ring comes into being, and the list it stands for. *)
Inductive constructed {T} (zero : T) : ring T -> list T -> Prop :=
| c_new : constructed zero New []
| c_newlen n r : NewLen zero n = Ok r -> constructed zero r (repeat zero (Z.to_nat n))
| c_newlencap n cap r : NewLenCap zero n cap = Ok r -> constructed zero r (repeat zero (Z.to_nat n))
| c_of vs : constructed zero (Of vs) vs
| c_ofslice vs : constructed zero (OfSlice vs) vs
| c_copy vs : constructed zero (Copy vs) vs.

Lemma constructed_rep {T} (zero : T) r l : constructed zero r l ->
  Rep zero r l /\ Cap r = Len r /\ moved r = 0.
Proof.
  assert (HN : forall n, (n <? 0) = false ->
    Rep zero (mkRing (makeSlice zero n) 0 n 0) (repeat zero (Z.to_nat n)) /\
    zlen (makeSlice zero n) = n).
  { intros n Hn. apply Z.ltb_ge in Hn.
    assert (Hl : zlen (makeSlice zero n) = n) by (apply zlen_make; auto). split; [|auto].
    pose proof (rep_of_slice zero (makeSlice zero n)) as HR. unfold OfSlice in HR.
    rewrite Hl in HR. exact HR. }
  intros [|n r' H|n cap r' H|vs|vs|vs].
  - split; [apply rep_new|auto].
  - unfold NewLen in H. destruct (n <? 0) eqn:Hn; [discriminate|]. inversion H; subst.
    destruct (HN n Hn). auto.
  - unfold NewLenCap in H. destruct (n <? 0) eqn:Hn; [discriminate|].
    destruct (cap <? n); [discriminate|]. inversion H; subst. destruct (HN n Hn). auto.
  - split; [apply rep_of_slice|auto].
  - split; [apply rep_of_slice|auto].
  - unfold Copy. destruct (Z.eqb_spec (zlen vs) 0) as [H0|H0].
    + rewrite (zlen_0_nil _ H0). split; [apply rep_new|auto].
    + split; [apply rep_of_slice|auto].
Qed.

(** C26.  Every history of calls, with panics recovered between calls, gives
    the results of the list deque, panic for panic. *)
Theorem C26_ring_is_deque :
  forall (T : Type) (zero : T) (r : ring T) (l : list T), constructed zero r l ->
  forall ops : list (ringOp T),
  fst (runOps (ringStep zero) ops r) = fst (runOps dequeStep ops l).
Proof.
  intros T zero r l Hc ops. destruct (constructed_rep zero r l Hc) as (HR & _).
  destruct (runOps_ok zero ops r l HR) as (r' & He & _). now rewrite He.
Qed.

(** C26, recovered panics: after any history, a panicking call leaves the ring
    exactly as it was. *)
Theorem C26_panic_leaves_unchanged :
  forall (T : Type) (zero : T) (r : ring T) (l : list T), constructed zero r l ->
  forall (ops : list (ringOp T)) (o : ringOp T) (msg : string) (r' : ring T),
  ringStep zero o (snd (runOps (ringStep zero) ops r)) = (Panic msg, r') ->
  r' = snd (runOps (ringStep zero) ops r).
Proof.
  intros T zero r l Hc ops o msg r' H. destruct (constructed_rep zero r l Hc) as (HR & _).
  destruct (runOps_ok zero ops r l HR) as (r1 & He & HR1). rewrite He in *.
  exact (panic_same zero _ _ _ _ _ HR1 H).
Qed.

(** C27. *)
Theorem C27_cap_proportional :
  forall (T : Type) (zero : T) (r : ring T) (l : list T), constructed zero r l ->
  forall ops : list (ringOp T),
  let r' := snd (runOps (ringStep zero) ops r) in
  Len r' <= Cap r' /\ Cap r' <= Z.max 1024 (8 * Len r' + 15).
Proof.
  intros T zero r l Hc ops r'. destruct (constructed_rep zero r l Hc) as (HR & HC & _).
  destruct (runOps_cap zero ops r l HR) as (H1 & H2 & _); [|auto].
  unfold capInv. pose proof (zlen_nonneg (buf r)). rewrite HC in *. unfold Cap in *. lia.
Qed.

(** C27, second half: an insertion reallocates only when the ring is full. *)
Theorem C27_grow_only_when_full :
  forall (T : Type) (zero : T) (r : ring T) (l : list T), constructed zero r l ->
  forall (ops : list (ringOp T)) (v : T) (o : ringOp T),
  o = OAppend v \/ o = OPush v \/ o = OPrepend v ->
  let r1 := snd (runOps (ringStep zero) ops r) in
  Len r1 < Cap r1 ->
  Cap (snd (ringStep zero o r1)) = Cap r1 /\ moved (snd (ringStep zero o r1)) = moved r1.
Proof.
  intros T zero r l Hc ops v o Ho r1 Hlt. destruct (constructed_rep zero r l Hc) as (HR & HC & _).
  destruct (runOps_cap zero ops r l HR) as (H1 & _).
  { unfold capInv. pose proof (zlen_nonneg (buf r)). rewrite HC in *. unfold Cap in *. lia. }
  destruct (runOps_ok zero ops r l HR) as (r2 & He & HR2).
  unfold r1 in *. rewrite He in *. cbn [snd] in *.
  destruct (ringStep zero o r2) as [x r3] eqn:Hs.
  destruct (step_cap zero r2 _ o x r3 HR2 H1 Hs) as (_ & _ & _ & H4).
  apply H4; [destruct Ho as [->|[->| ->]]; reflexivity|auto].
Qed.

(** C28.  The live slots are those at distance < Len from the start index,
    going round the buffer; every other slot holds the zero value. *)
Definition deadSlot {T} (r : ring T) (p : Z) : Prop :=
  0 <= p < Cap r /\ ~ exists k, 0 <= k < Len r /\ p = (st r + k) mod Cap r.

Theorem C28_dead_slots_zero :
  forall (T : Type) (zero : T) (r : ring T) (l : list T), constructed zero r l ->
  forall (ops : list (ringOp T)) (p : Z),
  let r' := snd (runOps (ringStep zero) ops r) in
  deadSlot r' p -> zget (buf r') p = Some zero.
Proof.
  intros T zero r l Hc ops p r' (Hp & Hd). destruct (constructed_rep zero r l Hc) as (HR & _).
  destruct (runOps_ok zero ops r l HR) as (r1 & He & HR1). unfold r' in *. rewrite He in *.
  cbn [snd] in *. clear He. destruct HR1 as (HL & Hcap & Hs & Hst & Hb).
  unfold Cap, Len in *. rewrite (zget_at zero) by lia. f_equal. rewrite Hb by lia.
  apply at_over. destruct (Z.lt_ge_cases (slot r1 p) (len r1)); [|lia]. exfalso. apply Hd.
  exists (slot r1 p). revert H. unfold slot. destruct (Z.ltb_spec p (st r1)); intros.
  - split; [lia|]. replace (st r1 + (p - st r1 + zlen (buf r1))) with (p + 1 * zlen (buf r1)) by lia.
    rewrite Z.mod_add by lia. rewrite Z.mod_small; lia.
  - split; [lia|]. replace (st r1 + (p - st r1)) with p by lia. rewrite Z.mod_small; lia.
Qed.

(** C29 is false of the code: NewLenCap ignores the capacity. *)
Theorem C29_newlencap_refuted :
  ~ forall (T : Type) (zero : T) (n cap : Z) (r : ring T),
    0 <= n <= cap -> NewLenCap zero n cap = Ok r -> cap <= Cap r.
Proof.
  intros H. specialize (H Z 0 0 10 _ ltac:(lia) eq_refl).
  vm_compute in H. contradiction H. reflexivity.
Qed.

(** What NewLenCap does instead, for all arguments. *)
Theorem C29_newlencap_partial :
  forall (T : Type) (zero : T) (n cap : Z), 0 <= n <= cap ->
  exists r, NewLenCap zero n cap = Ok r /\ Len r = n /\ Cap r = n.
Proof.
  intros T zero n cap H. unfold NewLenCap.
  destruct (Z.ltb_spec n 0); [lia|]. destruct (Z.ltb_spec cap n); [lia|].
  eexists. split; [reflexivity|]. unfold Cap, Len; cbn [buf len].
  split; [auto|]. apply zlen_make. lia.
Qed.

(** C72.  Amortised constant cost: however the history grows and shrinks the
    ring, reallocations have copied at most 9 elements per call (plus the
    initial length). *)
Theorem C72_amortised_copying :
  forall (T : Type) (zero : T) (r : ring T) (l : list T), constructed zero r l ->
  forall ops : list (ringOp T),
  moved (snd (runOps (ringStep zero) ops r)) <= zlen l + 9 * zlen ops.
Proof.
  intros T zero r l Hc ops. destruct (constructed_rep zero r l Hc) as (HR & HC & Hm).
  destruct (runOps_cap zero ops r l HR) as (_ & _ & H3).
  { unfold capInv. pose proof (zlen_nonneg (buf r)). rewrite HC in *. unfold Cap in *. lia. }
  pose proof (phi_nonneg (snd (runOps (ringStep zero) ops r))).
  assert (HL : zlen l = len r) by apply HR. unfold Cap, Len in HC. unfold phi in *.
  pose proof (zlen_nonneg l). lia.
Qed.

Print Assumptions C26_ring_is_deque.
Print Assumptions C26_panic_leaves_unchanged.
Print Assumptions C27_cap_proportional.
Print Assumptions C27_grow_only_when_full.
Print Assumptions C28_dead_slots_zero.
Print Assumptions C29_newlencap_refuted.
Print Assumptions C29_newlencap_partial.
Print Assumptions C72_amortised_copying.

(** ** Non-vacuity *)
Definition ops1 : list (ringOp Z) :=
  [OPop; OAppend 1; OPrepend 0; OPush 2; OPush 3; OPrepend (-1); OAt 0; OAt 4; OAt 5;
   OSet 2 7; ODeleteLast; OPop; OFirst; OLast; OLen; OToSlice None].

Example ex_ring :
  fst (runOps (ringStep 0) ops1 New) =
  [Panic "pop from empty queu"%string; Ok RUnit; Ok RUnit; Ok RUnit; Ok RUnit; Ok RUnit;
   Ok (RVal (-1)); Ok (RVal 3); Panic "index out of bound"%string; Ok RUnit; Ok RUnit;
   Ok (RVal (-1)); Ok (RVal 0); Ok (RVal 2); Ok (RInt 3); Ok (RSlice (Some [0; 7; 2]))].
Proof. vm_compute. reflexivity. Qed.

Definition grow (n : nat) : list (ringOp Z) := map (fun i => OAppend (Z.of_nat i)) (seq 1 n).
Definition drain (n : nat) : list (ringOp Z) := repeat OPop n.

(** Growing to 1100 elements and draining: capacity falls back. *)
Example ex_shrink :
  let r := snd (runOps (ringStep 0) (grow 1100 ++ drain 1000) New) in
  (Len r, Cap r) = (100, 160).
Proof. vm_compute. reflexivity. Qed.

Example ex_dead : deadSlot (snd (runOps (ringStep 0) ops1 New)) 5.
Proof.
  set (r := snd (runOps (ringStep 0) ops1 New)).
  assert (H : st r = 0 /\ Len r = 3 /\ Cap r = 8) by (vm_compute; auto).
  clearbody r. destruct H as (Hs & Hl & Hc). unfold deadSlot. rewrite Hs, Hl, Hc.
  split; [lia|]. intros (k & Hk & He). lia.
Qed.

Example ex_constructed : constructed 0 (Of [1;2;3]) [1;2;3].
Proof. constructor. Qed.
