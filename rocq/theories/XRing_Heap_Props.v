(** Properties of rings in shared memory (C88-C90). *)
From Verif Require Import Base Arr Exn XRing_Spec XRing_Model XRing_Proofs.
From Verif Require Import GoSlice Algo_Proofs GoSlice_Proofs XSlice_Spec XSlice_Facts.
From Verif Require Import XRing_Heap_Spec XRing_Heap_Model XRing_Heap_Facts XRing_Heap_Proofs.
Local Open Scope list_scope.
Local Open Scope Z_scope.

(** C88.  The ring is a deque also when its buffer is a slice of somebody else's
    array: for every memory, every constructor, every history in which other
    code writes only outside the ring's memory, and every further call, the
    answer is the deque's; slices returned by ToSlice show the elements, and
    pointers returned by AtRef point to theirs. *)
Theorem C88_deque_in_memory :
  forall (T : Type) (zero : T) (growth : Z -> Z -> Z) (h : heap T) w0 l0, goHeap h ->
  made zero growth h w0 l0 ->
  forall es w l, history zero growth w0 l0 es w l ->
  forall e x w', allowed (hp w) (rbuf (rg w)) e -> ringEvent zero growth e w = (x, w') ->
  answered e l (hp w') x.
Proof.
  intros T zero growth h w0 l0 G M es w l H e x w' Ha E.
  destruct (made_ok zero growth h w0 l0 G M) as (Hg & _).
  destruct (history_ok zero growth w0 l0 es w l H Hg) as (Hg' & _).
  now destruct (event_ok' zero growth w l e x w' Hg' Ha E).
Qed.

(** C88, other memory: what existed before the ring was made, apart from the
    slice given to Of or OfSlice, changes only where other code writes it or
    ToSlice is told to write it. *)
Theorem C88_other_memory_unchanged :
  forall (T : Type) (zero : T) (growth : Z -> Z -> Z) (h : heap T) w0 l0, goHeap h ->
  made zero growth h w0 l0 ->
  forall es w l, history zero growth w0 l0 es w l ->
  forall (a : nat) (i : Z) (v : T), cell h a i = Some v ->
  ~ inLen (rbuf (rg w0)) a i -> (forall e, In e es -> ~ writes e a i) ->
  cell (hp w) a i = Some v.
Proof.
  intros T zero growth h w0 l0 G M es w l H a i v Hc Hn Hw.
  destruct (made_ok zero growth h w0 l0 G M) as (Hg & [_ F0] & _).
  destruct (history_ok zero growth w0 l0 es w l H Hg) as (_ & [_ F] & _).
  assert (C0 : cell (hp w0) a i = Some v) by (rewrite F0; [assumption|congruence|tauto]).
  rewrite F; [assumption|congruence|]. intros [|(e & Hin & Hwr)]; [contradiction|]. now apply (Hw e).
Qed.

(** C88, later memory: the same for memory that appears while the ring is in
    use, in particular for slices that ToSlice returned. *)
Theorem C88_results_independent :
  forall (T : Type) (zero : T) (growth : Z -> Z -> Z) (h : heap T) w0 l0, goHeap h ->
  made zero growth h w0 l0 ->
  forall es w l, history zero growth w0 l0 es w l ->
  forall s s' w1, allowed (hp w) (rbuf (rg w)) (EToSlice s) ->
  ringEvent zero growth (EToSlice s) w = (Ok (ASlice s'), w1) ->
  (forall a i, inCap s' a i -> ~ inLen (rbuf (rg w1)) a i) /\
  forall es' w2 l2, history zero growth w1 l es' w2 l2 ->
  (forall e a i, In e es' -> writes e a i -> ~ inLen s' a i) ->
  elems (hp w2) s' = elems (hp w1) s'.
Proof.
  intros T zero growth h w0 l0 G M es w l H s s' w1 Ha E.
  destruct (made_ok zero growth h w0 l0 G M) as (Hg0 & _).
  destruct (history_ok zero growth w0 l0 es w l H Hg0) as (Hg & _).
  destruct (toSlice_apart zero growth w l s s' w1 Hg Ha E) as (V & Hr & D).
  split; [exact D|]. intros es' w2 l2 H2 Hw.
  destruct (event_ok' zero growth w l _ _ w1 Hg Ha E) as (_ & Hg1 & _).
  destruct (history_ok zero growth w1 l es' w2 l2 H2 Hg1) as (_ & F & _).
  eapply frame_elems; [exact F|exact V|]. intros a i Hin [Hi|(e & He & Hwr)].
  - apply (D a i); [|assumption]. destruct Hin as [-> Hin]. split; [reflexivity|]. destruct V as (_ & V & _). lia.
  - now apply (Hw e a i).
Qed.

(** C88, whose memory: the ring never moves to memory that existed when it was
    made; only Of and OfSlice start in such memory, namely in the slice given. *)
Theorem C88_ring_memory :
  forall (T : Type) (zero : T) (growth : Z -> Z -> Z) (h : heap T) w0 l0, goHeap h ->
  made zero growth h w0 l0 ->
  forall es w l, history zero growth w0 l0 es w l ->
  forall (a : nat) (i : Z), inLen (rbuf (rg w)) a i -> cell h a i <> None ->
  (exists s, valid h s /\ (rg w0 = ROf s \/ rg w0 = ROfSlice s) /\ inLen s a i) /\ rbuf (rg w) = rbuf (rg w0).
Proof.
  intros T zero growth h w0 l0 G M es w l H a i Hin Hc.
  destruct (made_ok zero growth h w0 l0 G M) as (Hg & [Gr _] & A).
  destruct (history_ok zero growth w0 l0 es w l H Hg) as (_ & _ & K).
  apply cell_arr in Hc. apply grows_length in Gr. destruct K as [K|K]; [|exfalso; destruct Hin as [-> _]; lia].
  split; [|assumption]. rewrite K in Hin. assert (Hin' := Hin). destruct Hin' as [Ha Hi].
  destruct A as [A|[A|A]]; [lia|lia|].
  destruct M as [|n r h' Hm|n c r h' Hm|s V|s V|s r h' V Hm]; cbn [hp rg] in *.
  - cbn in Hi. lia.
  - subst h'. destruct (Z_lt_le_dec n 0) as [N|N].
    { unfold RNewLen, xbind, makeSlice in Hm. replace (n <? 0) with true in Hm by lia. discriminate. }
    destruct (make0_ok zero growth h n G N) as (s & h1 & E & V & El & F & L & _ & B). unfold RNewLen in Hm.
    erewrite xbind_ok in Hm by exact E. injection Hm as <- _. cbn in *. lia.
  - subst h'. unfold RNewLenCap, makeLenCap in Hm. destruct (n <? 0) eqn:N; [discriminate|].
    destruct (c <? n) eqn:N2; [discriminate|].
    destruct (make0_ok zero growth h c G ltac:(lia)) as (s & h1 & E & V & El & F & L & C & B).
    destruct (reslice_ok h1 s 0 n V ltac:(lia) ltac:(lia)) as (s' & E' & V' & Ha' & L' & _).
    assert (E2 : (s <- makeSlice zero c;; reslice s 0 n)%exn h = (Ok s', h1)).
    { erewrite xbind_ok by exact E. exact E'. }
    erewrite xbind_ok in Hm by exact E2. injection Hm as <- _. cbn in *. lia.
  - exists s. auto.
  - exists s. auto.
  - destruct (copy_ok zero growth h s G V) as (r1 & h1 & E & _ & _ & B). rewrite E in Hm. injection Hm as <- _. lia.
Qed.

(** Copy always succeeds, so the above says that it does not share memory. *)
Theorem C88_copy_returns :
  forall (T : Type) (zero : T) (growth : Z -> Z -> Z) (h : heap T) s, goHeap h -> valid h s ->
  exists r h', RCopy zero growth s h = (Ok r, h') /\ made zero growth h (mkWorld h' r) (elems h s).
Proof.
  intros T zero growth h s G V. destruct (copy_ok zero growth h s G V) as (r & h' & E & _).
  exists r, h'. split; [assumption|]. now apply m_copy.
Qed.

(** C88, pointers: while Cap() stays the same, a pointer returned by AtRef goes
    on pointing to its element, whose position changes as the deque says; once
    Cap() changes the pointer points outside the ring. *)
Theorem C88_pointers :
  forall (T : Type) (zero : T) (growth : Z -> Z -> Z) (h : heap T) w0 l0, goHeap h ->
  made zero growth h w0 l0 ->
  forall es w l, history zero growth w0 l0 es w l ->
  forall i a j, ringEvent zero growth (EAtRef i) w = (Ok (APtr a j), w) ->
  forall e x w', allowed (hp w) (rbuf (rg w)) e -> ringEvent zero growth e w = (x, w') ->
  (RCap (rg w') = RCap (rg w) ->
   forall i', positionAfter e l i = Some i' -> ringEvent zero growth (EAtRef i') w' = (Ok (APtr a j), w')) /\
  (RCap (rg w') <> RCap (rg w) -> ~ inLen (rbuf (rg w')) a j).
Proof.
  intros T zero growth h w0 l0 G M es w l H i a j Er e x w' Ha E.
  destruct (made_ok zero growth h w0 l0 G M) as (Hg0 & _).
  destruct (history_ok zero growth w0 l0 es w l H Hg0) as (Hg & _).
  destruct (event_ok' zero growth w l e x w' Hg Ha E) as (_ & Hg' & F & K).
  assert (P : 0 <= i < zlen l /\ a = GoSlice.arr (rbuf (rg w)) /\ j = off (rbuf (rg w)) + wrap (rg w) i).
  { unfold ringEvent in Er. erewrite xbind_ok in Er by reflexivity. unfold xbind, mem in Er.
    rewrite (atRef_ok zero growth w l i Hg) in Er. destruct (_ && _) eqn:Hi; [|discriminate].
    injection Er as <- <- _. split; [lia|auto]. }
  destruct P as (Hi & -> & ->). unfold RCap. split.
  - intros Hc i' Hp. destruct K as [[K1 K2]|[_ K]]; [|contradiction].
    destruct (wrap_after zero growth w l e w' i i' Hg Hg' K1 K2 Hi Hp) as [Hw Hi'].
    unfold ringEvent. erewrite xbind_ok by reflexivity. unfold xbind, mem.
    rewrite (atRef_ok zero growth w' _ i' Hg'). replace ((0 <=? i') && (i' <? zlen (listAfter e l))) with true by lia.
    rewrite Hw, K1. now destruct w'.
  - intros Hc [Hb _]. destruct K as [[K1 _]|[K _]]; [rewrite K1 in Hc; contradiction|].
    destruct Hg as (_ & VB & _). apply valid_arr in VB. lia.
Qed.

(** A concrete case for the theorems above: OfSlice of the middle of an array
    1 2 3 4 5 (elements 2 3 4), a deletion and an insertion that wraps, ToSlice
    into the rest of the same array, which is too short, then growth. *)
Definition ex88_heap : heap Z := [[]; []; [1; 2; 3; 4; 5]].
Definition ex88_s : slice := mkSlice 2 1 3 4.
Definition ex88_w0 : world Z := mkWorld ex88_heap (ROfSlice ex88_s).
Definition ex88_es : list (event Z) :=
  [EDeleteFirst; EAppend 7; EToSlice (mkSlice 2 4 0 1); EAppend 8; EPoke 2 0 99; EPrepend 6; EPop].
Definition runAll (es : list (event Z)) (w : world Z) := runOps (ringEvent 0 (fun _ n => n)) es w.

Example ex88_history : goHeap ex88_heap /\ made 0 (fun _ n => n) ex88_heap ex88_w0 [2; 3; 4] /\
  exists w, history 0 (fun _ n => n) ex88_w0 [2; 3; 4] ex88_es w [3; 4; 7; 8].
Proof.
  split; [split; reflexivity|]. split.
  { change [2; 3; 4] with (elems ex88_heap ex88_s). apply m_ofslice.
    split; [cbn; lia|]. split; [cbn; lia|]. exists [1; 2; 3; 4; 5]. split; [reflexivity|cbn; lia]. }
  eexists. unfold ex88_es.
  do 2 (eapply h_cons; [exact I|vm_compute; reflexivity|]).
  eapply h_cons; [|vm_compute; reflexivity|].
  { cbn. split.
    - split; [cbn; lia|]. split; [cbn; lia|]. eexists. split; [reflexivity|vm_compute; discriminate].
    - intros a i [_ H1] [_ H2]. cbn in *. lia. }
  eapply h_cons; [exact I|vm_compute; reflexivity|].
  eapply h_cons; [|vm_compute; reflexivity|]. { cbn. intros [H _]. cbn in H. lia. }
  do 2 (eapply h_cons; [exact I|vm_compute; reflexivity|]). apply h_nil.
Qed.
Example ex88_answers : fst (runAll ex88_es ex88_w0) =
  [Ok AUnit; Ok AUnit; Ok (ASlice (mkSlice 4 0 3 3)); Ok AUnit; Ok AUnit; Ok AUnit; Ok (AVal 6)] /\
  hp (snd (runAll ex88_es ex88_w0)) =
  [[]; []; [99; 7; 3; 4; 5]; [3; 4]; [3; 4; 7]; [3; 4; 7; 8; 0; 0]].
Proof. split; reflexivity. Qed.
Example ex88_pointer : let w := snd (runAll [EDeleteFirst] ex88_w0) in
  fst (ringEvent 0 (fun _ n => n) (EAtRef 1) w) = Ok (APtr 2 3) /\
  fst (ringEvent 0 (fun _ n => n) (EAtRef 2) (snd (runAll [EPrepend 9] w))) = Ok (APtr 2 3) /\
  fst (ringEvent 0 (fun _ n => n) (EAtRef 2) (snd (runAll [EPrepend 9; EPrepend 10] w))) = Ok (APtr 3 1).
Proof. repeat split; reflexivity. Qed.

(** ** C89: ToSlice with any destination *)

(** C89 as written is false: with the slice given to OfSlice as destination,
    ToSlice returns wrong elements (here 3 4 3 instead of 3 4 7). *)
Theorem C89_toslice_destination_refuted :
  ~ (forall (h : heap Z) s0, goHeap h -> valid h s0 ->
     forall es w l, history 0 (fun _ n => n) (mkWorld h (ROfSlice s0)) (elems h s0) es w l ->
     forall s x w', valid (hp w) s -> ringEvent 0 (fun _ n => n) (EToSlice s) w = (x, w') ->
     answered (EToSlice s) l (hp w') x).
Proof.
  intros H. specialize (H ex88_heap ex88_s).
  assert (V : valid ex88_heap ex88_s).
  { split; [cbn; lia|]. split; [cbn; lia|]. exists [1; 2; 3; 4; 5]. split; [reflexivity|cbn; lia]. }
  specialize (H ltac:(split; reflexivity) V [EDeleteFirst; EAppend 7]).
  specialize (H (snd (runAll [EDeleteFirst; EAppend 7] ex88_w0)) [3; 4; 7]).
  assert (Hh : history 0 (fun _ n => n) ex88_w0 [2; 3; 4] [EDeleteFirst; EAppend 7]
                 (snd (runAll [EDeleteFirst; EAppend 7] ex88_w0)) [3; 4; 7]).
  { do 2 (eapply h_cons; [exact I|vm_compute; reflexivity|]). apply h_nil. }
  specialize (H Hh ex88_s). cbn in H.
  specialize (H (Ok (ASlice (mkSlice 2 1 3 4))) (mkWorld [[]; []; [1; 3; 4; 3; 5]] (mkRingVar ex88_s 1 3))).
  destruct H as (_ & _ & H); [|reflexivity|discriminate H].
  split; [cbn; lia|]. split; [cbn; lia|]. eexists. split; [reflexivity|vm_compute; discriminate].
Qed.

(** ... and it can change the ring itself, also where the elements returned are
    the right ones: the ring 3 4 becomes 4 4. *)
Theorem C89_toslice_changes_ring_refuted :
  exists (h : heap Z) s0 es w l s x w', goHeap h /\ valid h s0 /\
    history 0 (fun _ n => n) (mkWorld h (ROfSlice s0)) (elems h s0) es w l /\ valid (hp w) s /\
    ringEvent 0 (fun _ n => n) (EToSlice s) w = (x, w') /\ answered (EToSlice s) l (hp w') x /\
    fst (ringEvent 0 (fun _ n => n) EFirst w) = Ok (AVal 3) /\
    fst (ringEvent 0 (fun _ n => n) EFirst w') = Ok (AVal 4).
Proof.
  assert (V : valid ex88_heap ex88_s).
  { split; [cbn; lia|]. split; [cbn; lia|]. exists [1; 2; 3; 4; 5]. split; [reflexivity|cbn; lia]. }
  exists ex88_heap, ex88_s, [EDeleteFirst], (snd (runAll [EDeleteFirst] ex88_w0)), [3; 4], ex88_s.
  exists (Ok (ASlice (mkSlice 2 1 2 4))), (mkWorld [[]; []; [1; 3; 4; 4; 5]] (mkRingVar ex88_s 1 2)).
  split; [split; reflexivity|]. split; [exact V|].
  split. { eapply h_cons; [exact I|vm_compute; reflexivity|apply h_nil]. }
  split. { split; [cbn; lia|]. split; [cbn; lia|]. eexists. split; [reflexivity|vm_compute; discriminate]. }
  split; [reflexivity|]. split; [|split; reflexivity].
  cbn. split; [|split; [discriminate|reflexivity]].
  split; [cbn; lia|]. split; [cbn; lia|]. eexists. split; [reflexivity|vm_compute; discriminate].
Qed.

(** What holds: a destination outside the ring's memory is fine, and so is any
    destination, for the slice returned, when the elements do not wrap. *)
Theorem C89_toslice_apart_partial :
  forall (T : Type) (zero : T) (growth : Z -> Z -> Z) (h : heap T) w0 l0, goHeap h ->
  made zero growth h w0 l0 ->
  forall es w l, history zero growth w0 l0 es w l ->
  forall s x w', valid (hp w) s -> (forall a i, inCap s a i -> ~ inLen (rbuf (rg w)) a i) ->
  ringEvent zero growth (EToSlice s) w = (x, w') ->
  answered (EToSlice s) l (hp w') x /\ rg w' = rg w /\ elems (hp w') (rbuf (rg w)) = elems (hp w) (rbuf (rg w)).
Proof.
  intros T zero growth h w0 l0 G M es w l H s x w' V D E.
  destruct (made_ok zero growth h w0 l0 G M) as (Hg0 & _).
  destruct (history_ok zero growth w0 l0 es w l H Hg0) as (Hg & _).
  assert (Ha : allowed (hp w) (rbuf (rg w)) (EToSlice s)) by (split; assumption).
  destruct (event_ok' zero growth w l _ x w' Hg Ha E) as (A & _). split; [exact A|].
  assert (VB : valid (hp w) (rbuf (rg w))) by apply Hg.
  destruct (toSlice_frame zero growth w l s x w' Hg V D E) as [Hr F]. split; [exact Hr|].
  eapply frame_elems; [exact F|exact VB|]. intros a i Hin Hc. now apply (D a i).
Qed.

Theorem C89_toslice_contiguous_partial :
  forall (T : Type) (zero : T) (growth : Z -> Z -> Z) (h : heap T) w0 l0, goHeap h ->
  made zero growth h w0 l0 ->
  forall es w l, history zero growth w0 l0 es w l -> rst (rg w) + RLen (rg w) <= RCap (rg w) ->
  forall s x w', valid (hp w) s -> ringEvent zero growth (EToSlice s) w = (x, w') ->
  answered (EToSlice s) l (hp w') x.
Proof.
  intros T zero growth h w0 l0 G M es w l H Hc s x w' V E.
  destruct (made_ok zero growth h w0 l0 G M) as (Hg0 & _).
  destruct (history_ok zero growth w0 l0 es w l H Hg0) as (Hg & _).
  exact (toSlice_contiguous zero growth w l s x w' Hg Hc V E).
Qed.

(** ** C90: rings assigned to another variable *)

(** C90 as written is false: after r2 := r, r.Pop() changes what r2 holds (its
    first element becomes the zero value). *)
Theorem C90_assigned_ring_refuted :
  ~ (forall (h : heap Z) s0, goHeap h -> valid h s0 ->
     forall es w l, history 0 (fun _ n => n) (mkWorld h (ROfSlice s0)) (elems h s0) es w l ->
     forall e x w', ringEvent 0 (fun _ n => n) e w = (x, w') -> dequeOp e <> None -> ~ (exists s, e = EToSlice s) ->
     fst (ringEvent 0 (fun _ n => n) EFirst (mkWorld (hp w') (rg w))) = fst (ringEvent 0 (fun _ n => n) EFirst w)).
Proof.
  intros H. specialize (H ex88_heap ex88_s).
  assert (V : valid ex88_heap ex88_s).
  { split; [cbn; lia|]. split; [cbn; lia|]. exists [1; 2; 3; 4; 5]. split; [reflexivity|cbn; lia]. }
  specialize (H ltac:(split; reflexivity) V [] ex88_w0 [2; 3; 4] (h_nil _ _ _ _) EPop _ _ eq_refl).
  cbn in H. specialize (H ltac:(discriminate) ltac:(intros [s Hs]; discriminate)). discriminate H.
Qed.

(** What holds: if r is full when it is assigned and the next call on it is an
    insertion, then from then on the two rings are independent: r2 holds the old
    elements whatever is done with r. *)
Theorem C90_full_ring_partial :
  forall (T : Type) (zero : T) (growth : Z -> Z -> Z) (h : heap T) w0 l0, goHeap h ->
  made zero growth h w0 l0 ->
  forall es w l, history zero growth w0 l0 es w l -> RLen (rg w) = RCap (rg w) ->
  forall v ins, ins = EAppend v \/ ins = EPush v \/ ins = EPrepend v ->
  forall es' w' l', history zero growth w l (ins :: es') w' l' ->
  (forall e a i, In e es' -> writes e a i -> ~ inLen (rbuf (rg w)) a i) ->
  let w2 := mkWorld (hp w') (rg w) in
  forall e x w3, allowed (hp w2) (rbuf (rg w2)) e -> ringEvent zero growth e w2 = (x, w3) ->
  answered e l (hp w3) x.
Proof.
  intros T zero growth h w0 l0 G M es w l H Hf v ins Hins es' w' l' H' Hw w2 e x w3 Ha E.
  destruct (made_ok zero growth h w0 l0 G M) as (Hg0 & _).
  destruct (history_ok zero growth w0 l0 es w l H Hg0) as (Hg & _).
  assert (Hg2 : good zero w2 l) by (eapply full_apart; eassumption).
  now destruct (event_ok' zero growth w2 l e x w3 Hg2 Ha E).
Qed.

(** ... and while neither inserts or deletes, both hold the same elements: what
    is set through one is read through the other. *)
Theorem C90_same_elements_partial :
  forall (T : Type) (zero : T) (growth : Z -> Z -> Z) (h : heap T) w0 l0, goHeap h ->
  made zero growth h w0 l0 ->
  forall es w l, history zero growth w0 l0 es w l ->
  forall e x w', allowed (hp w) (rbuf (rg w)) e -> ringEvent zero growth e w = (x, w') ->
  (forall v, e <> EAppend v /\ e <> EPush v /\ e <> EPrepend v) -> e <> EPop -> e <> EDeleteFirst -> e <> EDeleteLast ->
  let w2 := mkWorld (hp w') (rg w) in
  forall e2 x2 w3, allowed (hp w2) (rbuf (rg w2)) e2 -> ringEvent zero growth e2 w2 = (x2, w3) ->
  answered e2 (listAfter e l) (hp w3) x2.
Proof.
  intros T zero growth h w0 l0 G M es w l H e x w' Ha E N1 N2 N3 N4 w2 e2 x2 w3 Ha2 E2.
  destruct (made_ok zero growth h w0 l0 G M) as (Hg0 & _).
  destruct (history_ok zero growth w0 l0 es w l H Hg0) as (Hg & _).
  assert (Hf : fixedLen e) by (destruct e; cbn; try exact I; try congruence; now destruct (N1 v) as (? & ? & ?)).
  assert (Hw : w2 = w') by (unfold w2; rewrite <- (fixed_rg zero growth e w x w' Hf E); now destruct w').
  destruct (event_ok' zero growth w l e x w' Hg Ha E) as (_ & Hg' & _). rewrite Hw in *.
  now destruct (event_ok' zero growth w' _ e2 x2 w3 Hg' Ha2 E2).
Qed.

(** Concrete cases: a full ring, and one with room. *)
Example ex90_full : RLen (rg ex88_w0) = RCap (rg ex88_w0) /\
  history 0 (fun _ n => n) ex88_w0 [2; 3; 4] [EAppend 8; EPop; EPop]
    (snd (runAll [EAppend 8; EPop; EPop] ex88_w0)) [4; 8] /\
  map (fun e => fst (ringEvent 0 (fun _ n => n) e (mkWorld (hp (snd (runAll [EAppend 8; EPop; EPop] ex88_w0))) (rg ex88_w0))))
    [EFirst; ELast; ELen] = [Ok (AVal 2); Ok (AVal 4); Ok (AInt 3)].
Proof.
  split; [reflexivity|]. split; [|reflexivity].
  do 3 (eapply h_cons; [exact I|vm_compute; reflexivity|]). apply h_nil.
Qed.
Example ex89_contiguous : let w := snd (runAll [EDeleteFirst] ex88_w0) in
  rst (rg w) + RLen (rg w) <= RCap (rg w) /\
  fst (ringEvent 0 (fun _ n => n) (EToSlice ex88_s) w) = Ok (ASlice (mkSlice 2 1 2 4)).
Proof. split; [cbn; lia|reflexivity]. Qed.

Print Assumptions C88_deque_in_memory.
Print Assumptions C88_other_memory_unchanged.
Print Assumptions C88_results_independent.
Print Assumptions C88_ring_memory.
Print Assumptions C88_copy_returns.
Print Assumptions C88_pointers.
Print Assumptions C89_toslice_destination_refuted.
Print Assumptions C89_toslice_changes_ring_refuted.
Print Assumptions C89_toslice_apart_partial.
Print Assumptions C89_toslice_contiguous_partial.
Print Assumptions C90_assigned_ring_refuted.
Print Assumptions C90_full_ring_partial.
Print Assumptions C90_same_elements_partial.
