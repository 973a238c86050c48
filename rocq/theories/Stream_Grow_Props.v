(** * C127: stages that a callback adds to its own stream
    are for the elements that follow, also when s.ops has to be reallocated. *)
From Coq Require Import Lia.
From Verif Require Import Base Arr Exn Stream_Model Stream_Spec Stream_Den Stream_Grow_Model Stream_Grow_Spec Stream_Grow_Proofs Stream_Grow_Uses.
Local Open Scope string_scope.
Local Open Scope list_scope.
Local Open Scope Z_scope.

(** Whatever the callbacks do and however append chooses its lengths, the calls
    of the stream give what the list of stages gives. *)
Theorem C127_added_stages {S W T} (src : source S W T) (grow : nat -> nat) (us : list (guse W T)) (z : S) (w : W) :
  let '(rs, s) := runOps (guse1 src grow) us (gnew z w) in
  let '(rs', l) := runOps (luse1 src) us (mkL true [] false z w) in
  rs = rs' /\ gsrc s = lsrc l /\ gworld s = lworld l.
Proof.
  destruct (uses_ok src grow us (gnew z w) (mkL true [] false z w)) as (r & h & l & -> & -> & [R1 R2 R3 R4 R5]); [|auto].
  split; try reflexivity. exists 8%nat. reflexivity.
Qed.
Print Assumptions C127_added_stages.

(** Without additions from callbacks this is the stream of Stream_Model. *)
Theorem C127_none_added {S W T} (src : source S W T) (grow : nat -> nat) (us : list (suse W T)) (z : S) (w : W) :
  Forall endsUse us ->
  let '(rs, s) := runOps (guse1 src grow) (map stillUse us) (gnew z w) in
  let '(rs', (_, (z', w'))) := runOps (suse1 src) us (New, (z, w)) in
  rs = rs' /\ gsrc s = z' /\ gworld s = w'.
Proof.
  intros F. pose proof (C127_added_stages src grow (map stillUse us) z w) as H.
  destruct (ssim_uses src us F (mkL true [] false z w) (New, (z, w))) as (r & l & [s [z' w']] & E & E' & [_ ->]).
  { split; [constructor|reflexivity]. }
  rewrite E in H. rewrite E'. destruct (runOps (guse1 src grow) _ _) as [rs s1]. cbn in H. tauto.
Qed.
Print Assumptions C127_none_added.

(** A filter that says s.Limit(0) at the first element with [stop] makes that
    element the last one. *)
Theorem C127_take_until {S W T V} (obs : W -> V) (src : source S W T) (D : S -> list T -> Z -> Prop)
  (grow : nat -> nat) (stop : T -> bool) (l : list T) (b : Z) (z : S) (w : W) (n fuel : nat) :
  delivers obs src D -> D z l b -> (0 < fuel)%nat ->
  fst (runOps (guse1 src grow) (UBuild (stopping stop) :: repeat (UNext fuel) n) (gnew z w)) =
  Ok None :: firstn n (map (fun v => Ok (Some v)) (upTo stop l) ++ repeat (Ok None) n).
Proof.
  intros L HD Hf. pose proof (C127_added_stages src grow (UBuild (stopping stop) :: repeat (UNext fuel) n) z w) as H.
  assert (Hf' : fuel <> O) by lia.
  pose proof (running src obs D L stop n fuel Hf' l true z w b HD) as R. unfold given in R.
  destruct (runOps (guse1 src grow) _ _) as [rs s1]. cbn [runOps luse1] in H. unfold xbind, stopping in H. cbn [lbuild] in H. cbn in H.
  unfold stopping in R. rewrite <- R. destruct (runOps (luse1 src) _ _) as [rs2 l2]. destruct H as (-> & _). reflexivity.
Qed.
Print Assumptions C127_take_until.

(** Eight stages fill the array of New; the Peek adds a ninth and a tenth while
    the third element is on its way, and the Limit, now in another array, goes on
    counting. *)
Example C127_reallocated :
  let add : gop Z Z := GPeek (fun v => if v =? 3 then GBuild (GMap (fun x => GDone (x * 10))) (GBuild (GSkip 1) (GDone tt)) else GDone tt) in
  let plus : gop Z Z := GMap (fun v => GDone v) in
  fst (runOps (guse1 (sliceSource [1; 2; 3; 4; 5; 6; 7; 8]) (fun c => (2 * c)%nat))
         (map UBuild [add; plus; plus; plus; plus; plus; plus; GLimit 6] ++ repeat (UNext 9) 7) (gnew 0 0)) =
  repeat (Ok None) 8 ++ [Ok (Some 1); Ok (Some 2); Ok (Some 3); Ok (Some 50); Ok (Some 60); Ok None; Ok None].
Proof. vm_compute. reflexivity. Qed.

Example C127_up_to_the_first_zero (w : unit) :
  fst (runOps (guse1 (sliceSource [5; 3; 0; 7; 0; 1]) (fun c => (2 * c)%nat)) (UBuild (stopping (fun v => v =? 0)) :: repeat (UNext 1) 5) (gnew 0 w)) =
  [Ok None; Ok (Some 5); Ok (Some 3); Ok (Some 0); Ok None; Ok None].
Proof. vm_compute. reflexivity. Qed.
