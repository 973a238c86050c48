(** C90 again: exactly what a copy r2 := r of a ring variable shows after calls on r. *)
From Verif Require Import Base Arr Exn XRing_Spec GoSlice Algo_Proofs GoSlice_Proofs XSlice_Spec XSlice_Facts.
From Verif Require Import XRing_Heap_Spec XRing_Heap_Model XRing_Heap_Facts XRing_Heap_Proofs XRing_Copy_Spec XRing_Copy_Proofs.
Local Open Scope list_scope.
Local Open Scope Z_scope.

(** C90, exactly: as long as r keeps its buffer, element i of r2 is the element
    of r, if there is one, at the index which is i less the number of elements
    that left r at the front (or plus those that came there), round the capacity;
    where r has no element, r2 shows the zero value. *)
Theorem C90_shared_partial :
  forall (T : Type) (zero : T) (growth : Z -> Z -> Z) (h : heap T) w0 l0, goHeap h ->
  made zero growth h w0 l0 ->
  forall es w l, history zero growth w0 l0 es w l ->
  forall es' w' l', history zero growth w l es' w' l' -> rbuf (rg w') = rbuf (rg w) ->
  let w2 := mkWorld (hp w') (rg w) in
  forall i, 0 <= i < zlen l ->
  ringEvent zero growth (EAt i) w2 =
    (Ok (AVal (nth (Z.to_nat ((i - frontShift es' l) mod RCap (rg w))) l' zero)), w2).
Proof.
  intros T zero growth h w0 l0 G M es w l H es' w' l' H' Eo w2 i Hi.
  destruct (made_ok zero growth h w0 l0 G M) as (Hg0 & _).
  destruct (history_ok zero growth w0 l0 es w l H Hg0) as (Hg & _).
  unfold ringEvent. erewrite xbind_ok by reflexivity. unfold xbind, mem. cbn [w2 hp rg].
  rewrite (shown zero growth w l es' w' l' i Hg H' Eo Hi). reflexivity.
Qed.

(** ... and the call with which r moves to another buffer, and all that is done
    with r after that, leave r2 as it is. *)
Theorem C90_parted_partial :
  forall (T : Type) (zero : T) (growth : Z -> Z -> Z) (h : heap T) w0 l0, goHeap h ->
  made zero growth h w0 l0 ->
  forall es w l, history zero growth w0 l0 es w l ->
  forall es' w' l', history zero growth w l es' w' l' -> rbuf (rg w') = rbuf (rg w) ->
  forall e x w1, allowed (hp w') (rbuf (rg w')) e -> ringEvent zero growth e w' = (x, w1) -> rbuf (rg w1) <> rbuf (rg w') ->
  forall es'' w'' l'', history zero growth w1 (listAfter e l') es'' w'' l'' ->
  (forall e' a i, In e' (e :: es'') -> writes e' a i -> ~ inLen (rbuf (rg w)) a i) ->
  forall i, 0 <= i < zlen l -> exists v,
    fst (ringEvent zero growth (EAt i) (mkWorld (hp w') (rg w))) = Ok (AVal v) /\
    fst (ringEvent zero growth (EAt i) (mkWorld (hp w'') (rg w))) = Ok (AVal v).
Proof.
  intros T zero growth h w0 l0 G M es w l H es' w' l' H' Eo e x w1 Ha E Hm es'' w'' l'' H'' Hw i Hi.
  destruct (made_ok zero growth h w0 l0 G M) as (Hg0 & _).
  destruct (history_ok zero growth w0 l0 es w l H Hg0) as (Hg & _).
  destruct (history_ok zero growth w l es' w' l' H' Hg) as (Hg' & _).
  destruct (event_ok' zero growth w' l' e x w1 Hg' Ha E) as (_ & Hg1 & F1 & _).
  destruct (history_ok zero growth w1 _ es'' w'' l'' H'' Hg1) as (_ & F2 & _).
  assert (V' : valid (hp w') (rbuf (rg w))) by (rewrite <- Eo; apply Hg').
  assert (V1 : valid (hp w1) (rbuf (rg w))) by (eapply grows_valid; [apply F1|exact V']).
  assert (V2 : valid (hp w'') (rbuf (rg w))) by (eapply grows_valid; [apply F2|exact V1]).
  destruct (move_frozen zero growth (rbuf (rg w)) w' l' e x w1 Hg' Ha E Hm V') as [E1 Hn].
  { intros a j Hwr. apply (Hw e a j); [now left|assumption]. }
  assert (E2 : elems (hp w'') (rbuf (rg w)) = elems (hp w1) (rbuf (rg w))).
  { eapply (frozen zero growth); [exact Hg1|exact H''|exact V1| |].
    - apply valid_arr in V'. lia.
    - intros e' a j Hin. apply Hw. now right. }
  destruct (at_cell zero growth w l i (hp w') Hg V' Hi) as [A1 _].
  destruct (at_cell zero growth w l i (hp w'') Hg V2 Hi) as [A2 _].
  rewrite E2, E1 in A2. eexists. unfold ringEvent, xbind, theRing, xbind, xget, xret, mem. cbn [hp rg].
  rewrite A1, A2. split; reflexivity.
Qed.

(** So additions to r, however many, with or without growth, never change what r2 holds. *)
Theorem C90_additions_partial :
  forall (T : Type) (zero : T) (growth : Z -> Z -> Z) (h : heap T) w0 l0, goHeap h ->
  made zero growth h w0 l0 ->
  forall es w l, history zero growth w0 l0 es w l ->
  forall es' w' l', history zero growth w l es' w' l' -> Forall onlyAdds es' ->
  (forall e a i, In e es' -> writes e a i -> ~ inLen (rbuf (rg w)) a i) ->
  forall p v q, l = p ++ v :: q ->
  fst (ringEvent zero growth (EAt (zlen p)) (mkWorld (hp w') (rg w))) = Ok (AVal v).
Proof.
  intros T zero growth h w0 l0 G M es w l H es' w' l' H' Hadd Hw p v q El.
  destruct (made_ok zero growth h w0 l0 G M) as (Hg0 & _).
  destruct (history_ok zero growth w0 l0 es w l H Hg0) as (Hg & _).
  assert (Hi : 0 <= zlen p < zlen l).
  { rewrite El, zlen_app, zlen_cons. pose proof (zlen_nonneg p). pose proof (zlen_nonneg q). lia. }
  assert (Ev : nth (Z.to_nat (zlen p)) l zero = v).
  { rewrite El. unfold zlen. rewrite Nat2Z.id, app_nth2, Nat.sub_diag by lia. reflexivity. }
  destruct (first_move zero growth w l es' w' l' Hg H') as [Eo|(es1 & e & es2 & w1 & l1 & x & w2 & -> & H1 & E1 & A1 & R1 & M1 & H2)].
  - unfold ringEvent, xbind, theRing, xbind, xget, xret, mem. cbn [hp rg].
    rewrite (adds_shown zero growth w l es' w' l' (zlen p) Hg H' Eo Hadd Hi), Ev. reflexivity.
  - assert (Hadd1 : Forall onlyAdds es1) by (apply Forall_app in Hadd; apply Hadd).
    destruct (C90_parted_partial T zero growth h w0 l0 G M es w l H es1 w1 l1 H1 E1 e x w2 A1 R1 M1 es2 w' l' H2) with (i := zlen p)
      as (v' & B1 & B2); [|assumption|].
    { intros e' a j Hin. apply Hw. apply in_or_app. now right. }
    rewrite B2. rewrite <- B1. unfold ringEvent, xbind, theRing, xbind, xget, xret, mem. cbn [hp rg].
    rewrite (adds_shown zero growth w l es1 w1 l1 (zlen p) Hg H1 E1 Hadd1 Hi), Ev. reflexivity.
Qed.

(** A concrete case: OfSlice of 1 2 3 4, one element deleted, then r2 := r.  Two
    more are deleted at the front of r and 7 8 appended, then 9 as well: 8 and 9
    show up in the places that 2 and 3 had in r2.  One more, and r moves away. *)
Definition ex90_heap : heap Z := [[]; []; [1; 2; 3; 4]].
Definition ex90_w0 : world Z := mkWorld ex90_heap (ROfSlice (mkSlice 2 0 4 4)).
Definition ex90_run (es : list (event Z)) (w : world Z) : world Z := snd (runOps (ringEvent 0 (fun _ n => n)) es w).
Definition ex90_w : world Z := ex90_run [EDeleteFirst] ex90_w0.
Definition ex90_es : list (event Z) := [EPop; EDeleteFirst; EAppend 7; EAppend 8; EAppend 9].
Definition ex90_shows (w : world Z) : list (outcome (answer Z)) :=
  map (fun i => fst (ringEvent 0 (fun _ n => n) (EAt i) (mkWorld (hp w) (rg ex90_w)))) [0; 1; 2].
Example ex90_exact :
  made 0 (fun _ n => n) ex90_heap ex90_w0 [1; 2; 3; 4] /\
  history 0 (fun _ n => n) ex90_w0 [1; 2; 3; 4] [EDeleteFirst] ex90_w [2; 3; 4] /\
  history 0 (fun _ n => n) ex90_w [2; 3; 4] ex90_es (ex90_run ex90_es ex90_w) [4; 7; 8; 9] /\
  rbuf (rg (ex90_run ex90_es ex90_w)) = rbuf (rg ex90_w) /\ frontShift ex90_es [2; 3; 4] = 2 /\
  ex90_shows (ex90_run [EPop] ex90_w) = [Ok (AVal 0); Ok (AVal 3); Ok (AVal 4)] /\
  ex90_shows (ex90_run ex90_es ex90_w) = [Ok (AVal 8); Ok (AVal 9); Ok (AVal 4)] /\
  rbuf (rg (ex90_run [EAppend 10] (ex90_run ex90_es ex90_w))) <> rbuf (rg (ex90_run ex90_es ex90_w)).
Proof.
  split. { change [1; 2; 3; 4] with (elems ex90_heap (mkSlice 2 0 4 4)). apply m_ofslice. split; [cbn; lia|]. split; [cbn; lia|]. exists [1; 2; 3; 4]. split; [reflexivity|cbn; lia]. }
  split. { eapply h_cons; [exact I|vm_compute; reflexivity|]. apply h_nil. }
  split. { do 5 (eapply h_cons; [exact I|vm_compute; reflexivity|]). apply h_nil. }
  split; [reflexivity|]. split; [reflexivity|]. split; [reflexivity|]. split; [reflexivity|]. vm_compute. congruence.
Qed.

(** Additions that make r grow: r2 keeps 2 3 4. *)
Example ex90_adds : let es := [EAppend 7; EPrepend 8; EAppend 9] in
  history 0 (fun _ n => n) ex90_w [2; 3; 4] es (ex90_run es ex90_w) [8; 2; 3; 4; 7; 9] /\ Forall onlyAdds es /\
  rbuf (rg (ex90_run es ex90_w)) <> rbuf (rg ex90_w) /\
  ex90_shows (ex90_run es ex90_w) = [Ok (AVal 2); Ok (AVal 3); Ok (AVal 4)].
Proof.
  split. { do 3 (eapply h_cons; [exact I|vm_compute; reflexivity|]). apply h_nil. }
  split; [repeat constructor|]. split; [vm_compute; congruence|reflexivity].
Qed.

Print Assumptions C90_shared_partial.
Print Assumptions C90_parted_partial.
Print Assumptions C90_additions_partial.
