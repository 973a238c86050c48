(** C89: exactly what ToSlice gives for a destination in the ring's own memory. *)
From Verif Require Import Base Arr Exn XRing_Spec XRing_Model XRing_Proofs.
From Verif Require Import GoSlice Algo_Proofs GoSlice_Proofs XSlice_Spec XSlice_Facts.
From Verif Require Import XRing_Heap_Spec XRing_Heap_Model XRing_Heap_Facts XRing_Heap_Proofs XRing_Heap_Props.
From Verif Require Import XRing_Dest_Spec XRing_Dest_Proofs.
Local Open Scope string_scope.
Local Open Scope list_scope.
Local Open Scope Z_scope.

(** *** C89, exactly: the elements wrap around the end of the buffer and the
    destination is any non-nil slice.  Each element returned, which cells of
    memory change, what they hold then, and where the result lies. *)
Theorem C89_toslice_exact_partial :
  forall (T : Type) (zero : T) (growth : Z -> Z -> Z) (h : heap T) w0 l0, goHeap h ->
  made zero growth h w0 l0 ->
  forall es w l, history zero growth w0 l0 es w l -> RCap (rg w) < rst (rg w) + RLen (rg w) ->
  forall s x w', valid (hp w) s -> isNil s = false -> ringEvent zero growth (EToSlice s) w = (x, w') ->
  let buf := rbuf (rg w) in
  let n1 := RCap (rg w) - rst (rg w) in
  let n := zlen l in
  exists s', x = Ok (ASlice s') /\ rg w' = rg w /\ valid (hp w') s' /\ GoSlice.len s' = n /\
    (forall i, 0 <= i < n -> zget (elems (hp w') s') i = shown buf s n1 l i) /\
    (forall a i, cell (hp w) a i <> None -> ~ (a = GoSlice.arr s /\ off s <= i < off s + written s n1 n) ->
       cell (hp w') a i = cell (hp w) a i) /\
    (forall i, 0 <= i < written s n1 n -> cell (hp w') (GoSlice.arr s) (off s + i) = shown buf s n1 l i) /\
    (if cap s <? n then (List.length (hp w) <= GoSlice.arr s')%nat
     else GoSlice.arr s' = GoSlice.arr s /\ off s' = off s /\ cap s' = cap s).
Proof.
  intros T zero growth h w0 l0 G M es w l H Hw s x w' V En E buf n1 n.
  destruct (made_ok zero growth h w0 l0 G M) as (Hg0 & _).
  destruct (history_ok zero growth w0 l0 es w l H Hg0) as (Hg & _).
  exact (toSlice_wrapped zero growth w l s x w' n1 Hg V En Hw eq_refl E).
Qed.

(** *** C89, when it is right: the slice returned shows the elements whenever the
    first run of elements does not fit into the destination, or the cells it is
    copied to are not among those the second run is read from. *)
Theorem C89_toslice_right_partial :
  forall (T : Type) (zero : T) (growth : Z -> Z -> Z) (h : heap T) w0 l0, goHeap h ->
  made zero growth h w0 l0 ->
  forall es w l, history zero growth w0 l0 es w l ->
  forall s x w', valid (hp w) s -> ringEvent zero growth (EToSlice s) w = (x, w') ->
  let buf := rbuf (rg w) in
  let n1 := RCap (rg w) - rst (rg w) in
  cap s < n1 \/ (forall a i, a = GoSlice.arr s -> off s <= i < off s + n1 ->
                   ~ (a = GoSlice.arr buf /\ off buf <= i < off buf + (zlen l - n1))) ->
  answered (EToSlice s) l (hp w') x.
Proof.
  intros T zero growth h w0 l0 G M es w l H s x w' V E buf n1 D.
  destruct (made_ok zero growth h w0 l0 G M) as (Hg0 & _).
  destruct (history_ok zero growth w0 l0 es w l H Hg0) as (Hg & _).
  destruct (Z_le_gt_dec (rst (rg w) + rlen (rg w)) (GoSlice.len (rbuf (rg w)))) as [Hc|Hw].
  { exact (toSlice_contiguous zero growth w l s x w' Hg Hc V E). }
  destruct (isNil s) eqn:En.
  { assert (Ha : allowed (hp w) (rbuf (rg w)) (EToSlice s)).
    { split; [assumption|]. destruct Hg as (G' & _). pose proof (goHeap_nil_cap _ _ G' V En). intros a i [_ H1]. lia. }
    now destruct (event_ok' zero growth w l _ x w' Hg Ha E). }
  destruct (toSlice_wrapped zero growth w l s x w' n1 Hg V En ltac:(lia) eq_refl E)
    as (s' & -> & _ & V' & L' & R & _).
  pose proof (good_len zero w l Hg) as HL.
  assert (HN : l <> []).
  { intros ->. destruct Hg as (_ & VB & HR). destruct HR as (_ & HC & HS & HST & _).
    cbn [abs buf XRing_Model.st XRing_Model.len XRing_Model.buf] in *. rewrite (elems_len _ _ VB) in *. change (zlen (@nil T)) with 0 in *. lia. }
  assert (El : elems (hp w') s' = l).
  { apply zget_ext; [rewrite elems_len; assumption|]. rewrite elems_len by assumption. rewrite L'. intros i Hi. rewrite R by lia.
    unfold shown. destruct (_ && _) eqn:B; [exfalso|reflexivity].
    rewrite !Bool.andb_true_iff in B. destruct B as ((((B1 & B2) & B3) & B4) & B5). apply Nat.eqb_eq in B3.
    destruct D as [D|D]; [lia|]. apply (D (GoSlice.arr s) (off (rbuf (rg w)) + (i - n1)) eq_refl); [lia|].
    fold buf. split; [exact B3|lia]. }
  destruct l as [|y l]; [congruence|]. cbn. split; [assumption|]. split; [|exact El].
  intros ->. rewrite <- El in HN. apply HN. reflexivity.
Qed.

(** Non-vacuity: 3 4 7 wraps in the memory 7 3 4 given to OfSlice.  With that
    memory as destination the result shows 3 4 3; with a part of it that is too
    short for 3 4, or one that starts at the second cell, it is right. *)
Definition ex89_w : world Z := snd (runAll [EDeleteFirst; EAppend 7] ex88_w0).
Example ex89_exact :
  history 0 (fun _ n => n) ex88_w0 [2; 3; 4] [EDeleteFirst; EAppend 7] ex89_w [3; 4; 7] /\
  RCap (rg ex89_w) < rst (rg ex89_w) + RLen (rg ex89_w) /\ valid (hp ex89_w) ex88_s /\ isNil ex88_s = false /\
  map (shown (rbuf (rg ex89_w)) ex88_s (RCap (rg ex89_w) - rst (rg ex89_w)) [3; 4; 7]) [0; 1; 2] = [Some 3; Some 4; Some 3] /\
  written ex88_s (RCap (rg ex89_w) - rst (rg ex89_w)) 3 = 3.
Proof.
  split. { do 2 (eapply h_cons; [exact I|vm_compute; reflexivity|]). apply h_nil. }
  split; [reflexivity|]. split; [|repeat split; reflexivity].
  split; [cbn; lia|]. split; [cbn; lia|]. eexists. split; [reflexivity|vm_compute; discriminate].
Qed.
Example ex89_right : let second := mkSlice 2 2 1 3 in
  valid (hp ex89_w) second /\
  (forall a i, a = GoSlice.arr second -> off second <= i < off second + (RCap (rg ex89_w) - rst (rg ex89_w)) ->
     ~ (a = GoSlice.arr (rbuf (rg ex89_w)) /\ off (rbuf (rg ex89_w)) <= i < off (rbuf (rg ex89_w)) + (zlen [3; 4; 7] - (RCap (rg ex89_w) - rst (rg ex89_w))))) /\
  exists s' w', ringEvent 0 (fun _ n => n) (EToSlice second) ex89_w = (Ok (ASlice s'), w') /\ elems (hp w') s' = [3; 4; 7].
Proof.
  cbv zeta. split. { split; [cbn; lia|]. split; [cbn; lia|]. eexists. split; [reflexivity|vm_compute; discriminate]. }
  split. { intros a i _ Hi [_ Hj]. vm_compute in Hi, Hj. destruct Hi as [Hi _], Hj as [_ Hj]. change (2 <= i) in Hi. change (i < 2) in Hj. lia. }
  eexists _, _. split; vm_compute; reflexivity.
Qed.

Print Assumptions C89_toslice_exact_partial.
Print Assumptions C89_toslice_right_partial.
