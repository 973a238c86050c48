(** Callbacks that only call Next, and callbacks that only add stages. *)
From Coq Require Import Lia.
From Verif Require Import Base Arr Exn Stream_Model Stream_Spec Stream_Reent_Model Stream_Reent_Spec Stream_Grow_Model Stream_Both_Model Stream_Both_Spec.
Local Open Scope exn_scope.
Local Open Scope list_scope.
Local Open Scope Z_scope.

Definition same {A B C} (R : B -> C -> Prop) (p : outcome A * B) (q : outcome A * C) : Prop := fst p = fst q /\ R (snd p) (snd q).
Lemma same_bind {st st' A B} (R : st -> st' -> Prop) (m : X st A) (m' : X st' A) (f : A -> X st B) (f' : A -> X st' B) s s' :
  same R (m s) (m' s') -> (forall a s1 s1', R s1 s1' -> same R (f a s1) (f' a s1')) -> same R (xbind m f s) (xbind m' f' s').
Proof.
  unfold same, xbind. destruct (m s) as [r s1], (m' s') as [r' s1']. cbn. intros [<- HR] Hf. destruct r; cbn; auto; apply Hf; exact HR.
Qed.

Lemma same_get {st st' B} (R : st -> st' -> Prop) (f : st -> X st B) (f' : st' -> X st' B) s s' :
  same R (f s s) (f' s' s') -> same R (xbind xget f s) (xbind xget f' s').
Proof. exact (fun H => H). Qed.
Lemma same_bind_eq {st st' A B} (R : st -> st' -> Prop) (m : X st A) (m' : X st' A) (f : A -> X st B) (f' : A -> X st' B) s s' :
  same R (m s) (m' s') -> (forall a s1 s1', m s = (Ok a, s1) -> R s1 s1' -> same R (f a s1) (f' a s1')) -> same R (xbind m f s) (xbind m' f' s').
Proof.
  unfold same, xbind. destruct (m s) as [r s1], (m' s') as [r' s1']. cbn. intros [<- HR] Hf. destruct r; cbn; auto; apply Hf; auto.
Qed.

Lemma xget_right {st B} (f : st -> X st B) s : xbind xget f s = f s s.
Proof. reflexivity. Qed.

Section Calls.
  Context {S W T : Type} (src : source S W T) (grow : nat -> nat) (a : nat).

  Definition callR (s : rstream S W T) (b : bstream S W T) : Prop :=
    bhas b = alive s /\ slice b = (if alive s then Some a else None) /\ bsrc b = origin s /\ bworld b = world s /\
    exists cap, nth_error (arrays b) a = Some (cap, map bcallOp (array s)).

  Lemma call_clear s b : callR s b -> same callR (rclear s) (bclear b).
  Proof. intros (H1 & H2 & H3 & H4 & H5). split; [reflexivity|]. repeat split; auto. Qed.
  Lemma call_source s b : callR s b -> same callR (pull src s) (bsource (sNext src) b).
  Proof.
    intros (H1 & H2 & H3 & H4 & H5). unfold pull, bsource. rewrite H3, H4. destruct (sNext src (origin s, world s)) as [r [z w]].
    split; [reflexivity|]. repeat split; auto.
  Qed.
  Lemma call_store s b i o : (i < List.length (array s))%nat -> callR s b -> same callR (store i o s) (bstore i (bcallOp o) b).
  Proof.
    intros Hi (H1 & H2 & H3 & H4 & cap & H5). unfold store, bstore. rewrite H2. destruct (alive s) eqn:Ea.
    - rewrite H5, map_length. rewrite (proj2 (Nat.ltb_lt _ _) Hi). split; [reflexivity|]. repeat split; cbn; auto. exists cap.
      assert (a < List.length (arrays b))%nat by (apply nth_error_Some; congruence).
      rewrite nth_error_upd, Nat.eqb_refl by assumption. do 2 f_equal.
      clear. revert i. induction (array s) as [|x l IH]; intros [|i]; cbn; congruence.
    - split; [reflexivity|]. unfold callR. cbn [snd]. rewrite Ea. repeat split; auto. now exists cap.
  Qed.

  Lemma call_same fuel :
    (forall A (c : code W T A) s b, callR s b -> same callR (run src A fuel c s) (brun src grow A fuel (bcall c) b)) /\
    (forall s b, callR s b -> same callR (rnext src fuel s) (bnext src grow fuel b)) /\
    (forall s b, callR s b -> same callR (rloop src fuel s) (bloop src grow fuel b)) /\
    (forall n i v s b, callR s b -> same callR (rstages src fuel (n + i) i v s) (bstages src grow fuel a n i v b)).
  Proof.
    induction fuel as [|fuel (R & N & L & G)]; [repeat split; auto; cbn; apply H|].
    split; [|split; [|split]].
    - intros A c s b HR. destruct c as [x|e|k|w k|k]; cbn [run brun bcall].
      + split; [reflexivity|exact HR].
      + split; [reflexivity|exact HR].
      + unfold xbind, xget. destruct HR as (H1 & H2 & H3 & H4 & H5). rewrite H4. apply R. repeat split; auto.
      + unfold xbind, change, bchange. apply R. destruct HR as (H1 & H2 & H3 & H4 & H5). repeat split; auto.
      + apply same_bind; [now apply N|]. intros v s1 b1 HR1. now apply R.
    - intros s b HR. cbn [rnext bnext]. apply same_get. pose proof HR as (H1 & _). rewrite H1. destruct (alive s); [now apply L|].
      apply same_bind; [now apply call_clear|]. intros _ s1 b1 HR1. split; [reflexivity|exact HR1].
    - intros s b HR. cbn [rloop bloop]. apply same_get. pose proof HR as (H1 & _). rewrite H1. destruct (alive s) eqn:Ea; cbn [negb]; [|split; [reflexivity|exact HR]].
      apply same_bind_eq; [now apply call_source|]. intros v s1 b1 E HR1.
      assert (HA : array s1 = array s /\ alive s1 = alive s) by (unfold pull in E; destruct (sNext src (origin s, world s)) as [? [? ?]]; injection E as _ <-; auto).
      destruct v as [v|]; [|apply (same_bind callR rclear bclear); [now apply call_clear|]; intros _ s2 b2 HR2; split; [reflexivity|exact HR2]].
      destruct HA as [HA1 HA2]. rewrite xget_right. apply same_bind.
      + pose proof HR1 as (_ & H2 & _ & _ & cap & H5). rewrite H2, HA2, Ea, H5, map_length, HA1.
        rewrite <- (Nat.add_0_r (List.length (array s))) at 1. now apply G.
      + intros d s2 b2 HR2. destruct d; [split; [reflexivity|exact HR2]|now apply L|].
        apply (same_bind callR rclear bclear); [now apply call_clear|]. intros _ s3 b3 HR3. split; [reflexivity|exact HR3].
    - intros n i v s b HR. cbn [rstages bstages]. destruct n as [|n].
      { unfold xbind at 1, xget. rewrite (proj2 (Nat.leb_le _ _)) by lia. split; [reflexivity|exact HR]. }
      apply same_get. rewrite (proj2 (Nat.leb_gt _ _)) by lia. pose proof HR as (_ & _ & _ & _ & cap & H5). rewrite H5.
      rewrite nth_error_map. destruct (nth_error (array s) i) as [o|] eqn:Eo; cbn [option_map]; [|split; [reflexivity|exact HR]].
      assert (Hi : (i < List.length (array s))%nat) by (apply nth_error_Some; congruence).
      replace (Datatypes.S n + i)%nat with (n + (i + 1))%nat by lia.
      destruct o as [p|k|k|f|c]; cbn [bcallOp].
      + apply same_bind; [now apply R|]. intros [] s1 b1 HR1; [now apply G|split; [reflexivity|exact HR1]].
      + destruct (k >? 0); [|now apply G]. apply same_bind; [now apply (call_store s b i (RSkip (k - 1)))|]. intros _ s1 b1 HR1. split; [reflexivity|exact HR1].
      + destruct (k >? 0); [|split; [reflexivity|exact HR]]. apply same_bind; [now apply (call_store s b i (RLimit (k - 1)))|]. intros _ s1 b1 HR1. now apply G.
      + apply same_bind; [now apply R|]. intros v' s1 b1 HR1. now apply G.
      + apply same_bind; [now apply R|]. intros v' s1 b1 HR1. now apply G.
  Qed.
End Calls.
