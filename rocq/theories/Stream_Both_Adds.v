(** Callbacks that only add stages. *)
From Coq Require Import Lia.
From Verif Require Import Base Arr Exn Stream_Model Stream_Spec Stream_Grow_Model Stream_Both_Model Stream_Both_Spec Stream_Both_Same.
Local Open Scope exn_scope.
Local Open Scope list_scope.
Local Open Scope Z_scope.

Section Adds.
  Context {S W T : Type} (src : source S W T) (grow : nat -> nat).
  Local Notation gst := (gstream S W T).
  Local Notation bst := (bstream S W T).

  Definition cells (c : nat * list (gop W T)) : nat * list (bop W T) := (fst c, map badd (snd c)).
  Definition up (s : gst) : bst :=
    mkB (hasSrc s) (map cells (Stream_Grow_Model.arrays s)) (Stream_Grow_Model.slice s) (hasP s) (gsrc s) (gworld s).
  Definition baddc := fix tr A (c : gcode (gop W T) W A) : bcode (bop W T) W T A :=
    match c with
    | GDone a => BDone a
    | GThrow e => BThrow e
    | GLook k => BLook (fun w => tr A (k w))
    | GChange w k => BChange w (tr A k)
    | GBuild o k => BBuild (badd o) (tr A k)
    end.
  (** [m] does what [m'] does, and does not touch src. *)
  Definition follows {A} (m : X gst A) (m' : X bst A) : Prop :=
    forall s, m' (up s) = (fst (m s), up (snd (m s))) /\ hasSrc (snd (m s)) = hasSrc s.

  Lemma map_upd {A B} (f : A -> B) l i x : map f (upd l i x) = upd (map f l) i (f x).
  Proof. revert i. induction l as [|y l IH]; intros [|i]; cbn; congruence. Qed.

  Lemma append_follows o p : follows (gappend grow o p) (bappend grow (badd o) p).
  Proof.
    intros s. unfold gappend, bappend. cbn [up Stream_Both_Model.slice Stream_Both_Model.arrays].
    destruct (Stream_Grow_Model.slice s) as [a|] eqn:Es.
    - rewrite nth_error_map. destruct (nth_error (Stream_Grow_Model.arrays s) a) as [[cap l]|] eqn:El; cbn [option_map cells fst snd].
      + rewrite map_length. destruct (List.length l <? cap)%nat; cbn [fst snd]; split; try reflexivity; unfold up; cbn.
        * rewrite map_upd. unfold cells at 3. cbn. rewrite map_app. reflexivity.
        * rewrite map_app, map_length. cbn. unfold cells at 3. cbn. rewrite map_app. reflexivity.
      + split; reflexivity.
    - split; [|reflexivity]. cbn [fst snd]. unfold up. cbn. rewrite map_app, map_length. reflexivity.
  Qed.
  Lemma store_follows i o : follows (gstore i o) (bstore i (badd o)).
  Proof.
    intros s. unfold gstore, bstore. cbn [up Stream_Both_Model.slice Stream_Both_Model.arrays].
    destruct (Stream_Grow_Model.slice s) as [a|] eqn:Es.
    - rewrite nth_error_map. destruct (nth_error (Stream_Grow_Model.arrays s) a) as [[cap l]|] eqn:El; cbn [option_map cells fst snd].
      + rewrite map_length. destruct (i <? List.length l)%nat; cbn [fst snd]; split; try reflexivity; unfold up; cbn.
        rewrite map_upd. unfold cells at 3. cbn. rewrite map_upd. reflexivity.
      + split; reflexivity.
    - split; reflexivity.
  Qed.
  Lemma source_follows A (m : X (S * W) A) : follows (gsource m) (bsource m).
  Proof.
    intros s. unfold gsource, bsource. cbn [up bsrc bworld]. destruct (m (gsrc s, gworld s)) as [r [z w]]. split; reflexivity.
  Qed.
  Lemma ret_follows A (x : A) : follows (xret x) (xret x).
  Proof. intros s. split; reflexivity. Qed.
  Lemma panic_follows A e : follows (A := A) (xpanic e) (xpanic e).
  Proof. intros s. split; reflexivity. Qed.
  Lemma bind_follows A B (m : X gst A) m' (f : A -> X gst B) f' : follows m m' -> (forall a, follows (f a) (f' a)) -> follows (xbind m f) (xbind m' f').
  Proof.
    intros Hm Hf s. unfold xbind. destruct (Hm s) as [E H]. rewrite E. destruct (m s) as [[a|e|] s1]; cbn [fst snd] in *; [|split; [reflexivity|exact H]|split; [reflexivity|exact H]].
    destruct (Hf a s1) as [E1 H1]. split; [exact E1|congruence].
  Qed.
  Lemma build_follows o : follows (gbuild src grow o) (bbuild src grow (badd o)).
  Proof.
    assert (HA := append_follows o). destruct o as [p|n|n|f|c]; cbn [gbuild bbuild badd]; try apply HA.
    - destruct (n <? 0); [apply panic_follows|]. destruct (n =? 0); [apply ret_follows|].
      intros s. rewrite !xget_right. cbn [up bpred bhas]. destruct (hasP s); cbn [negb]; [apply HA|].
      destruct (hasSrc s) eqn:Eh; [|split; [reflexivity|exact Eh]].
      rewrite <- Eh. refine (bind_follows _ _ _ _ _ _ (source_follows _ _) (fun _ => ret_follows _ _) s).
    - destruct (n <? 0); [apply panic_follows|apply HA].
  Qed.

  (** [m] is what [m'] does with enough fuel. *)
  Definition reaches {A} (m : X gst A) (m' : nat -> X bst A) : Prop :=
    forall s r s', m s = (r, s') -> r <> Diverge -> hasSrc s' = hasSrc s /\ exists N, forall fuel, (N <= fuel)%nat -> m' fuel (up s) = (r, up s').

  Lemma run_reaches A (c : gcode (gop W T) W A) : reaches (grun src grow c) (fun fuel => brun src grow A fuel (baddc A c)).
  Proof.
    induction c as [x|e|k IH|w k IH|o k IH]; intros s r s' E Hr; cbn [grun] in E.
    - injection E as <- <-. split; [reflexivity|]. exists 1%nat. intros [|fuel] Hf; [lia|reflexivity].
    - injection E as <- <-. split; [reflexivity|]. exists 1%nat. intros [|fuel] Hf; [lia|reflexivity].
    - rewrite xget_right in E. destruct (IH _ _ _ _ E Hr) as (H & N & HN). split; [exact H|]. exists (Datatypes.S N). intros [|fuel] Hf; [lia|].
      cbn [brun baddc]. rewrite xget_right. cbn [up bworld]. apply HN. lia.
    - destruct (IH _ _ _ E Hr) as (H & N & HN). split; [exact H|]. exists (Datatypes.S N). intros [|fuel] Hf; [lia|]. cbn [brun baddc]. unfold xbind, bchange. apply HN. lia.
    - unfold xbind in E. destruct (build_follows o s) as [E1 H1]. destruct (gbuild src grow o s) as [[[]|e|] s1] eqn:Eb; cbn [fst snd] in *.
      + destruct (IH _ _ _ E Hr) as (H & N & HN). split; [congruence|]. exists (Datatypes.S N). intros [|fuel] Hf; [lia|].
        cbn [brun baddc]. unfold xbind. rewrite E1. apply HN. lia.
      + injection E as <- <-. split; [exact H1|]. exists 1%nat. intros [|fuel] Hf; [lia|]. cbn [brun baddc]. unfold xbind. rewrite E1. reflexivity.
      + injection E as <- <-. contradiction.
  Qed.

  Lemma bind_reaches A B (c : gcode (gop W T) W A) (f : A -> X gst B) (f' : nat -> A -> X bst B) :
    (forall a, reaches (f a) (fun fuel => f' fuel a)) -> reaches (xbind (grun src grow c) f) (fun fuel => xbind (brun src grow A fuel (baddc A c)) (f' fuel)).
  Proof.
    intros Hf s r s' E Hr. unfold xbind in E. destruct (grun src grow c s) as [r1 s1] eqn:E1.
    assert (H1 : r1 <> Diverge) by (intros ->; injection E as <- _; contradiction).
    destruct (run_reaches A c _ _ _ E1 H1) as (H & N & HN). destruct r1 as [a|e|]; [| |contradiction].
    - destruct (Hf a _ _ _ E Hr) as (H' & N' & HN'). split; [congruence|]. exists (N + N')%nat. intros fuel Hl. unfold xbind. rewrite HN by lia. apply HN'. lia.
    - injection E as <- <-. split; [exact H|]. exists N. intros fuel Hl. unfold xbind. rewrite HN by lia. reflexivity.
  Qed.
  Lemma succ_reaches A (m : X gst A) m' s r s' : reaches m (fun fuel => m' (Datatypes.S fuel)) -> m s = (r, s') -> r <> Diverge ->
    hasSrc s' = hasSrc s /\ exists N, forall fuel, (N <= fuel)%nat -> m' fuel (up s) = (r, up s').
  Proof.
    intros HR E Hr. destruct (HR _ _ _ E Hr) as (H & N & HN). split; [exact H|]. exists (Datatypes.S N). intros [|fuel] Hf; [lia|]. apply HN. lia.
  Qed.
  Lemma ret_reaches A (x : A) : reaches (xret x) (fun _ => xret x).
  Proof. intros s r s' E _. injection E as <- <-. split; [reflexivity|]. exists 0%nat. reflexivity. Qed.
  Lemma panic_reaches A e : reaches (A := A) (xpanic e) (fun _ => xpanic e).
  Proof. intros s r s' E _. injection E as <- <-. split; [reflexivity|]. exists 0%nat. reflexivity. Qed.
  Lemma follows_reaches A B (m : X gst A) m' (f : A -> X gst B) (f' : nat -> A -> X bst B) : follows m m' ->
    (forall a, reaches (f a) (fun fuel => f' fuel a)) -> reaches (xbind m f) (fun fuel => xbind m' (f' fuel)).
  Proof.
    intros Hm Hf s r s' E Hr. unfold xbind in *. destruct (Hm s) as [E1 H1]. destruct (m s) as [[a|e|] s1]; cbn [fst snd] in *.
    - destruct (Hf a _ _ _ E Hr) as (H' & N' & HN'). split; [congruence|]. exists N'. intros fuel Hl. rewrite E1. apply HN'. lia.
    - injection E as <- <-. split; [exact H1|]. exists 0%nat. intros fuel _. rewrite E1. reflexivity.
    - injection E as <- <-. contradiction.
  Qed.

  Lemma stages_reaches a n : forall i v, reaches (gstages src grow a n i v) (fun fuel => bstages src grow fuel a n i v).
  Proof.
    induction n as [|n IH]; intros i v s r s' E Hr.
    { injection E as <- <-. split; [reflexivity|]. exists 1%nat. intros [|fuel] Hf; [lia|reflexivity]. }
    cbn [gstages] in E. rewrite xget_right in E.
    assert (HB : forall fuel, bstages src grow (Datatypes.S fuel) a (Datatypes.S n) i v (up s) =
      match nth_error (Stream_Grow_Model.arrays s) a with
      | None => xpanic "invalid memory address or nil pointer dereference"
      | Some (_, l) =>
          match nth_error l i with
          | None => xpanic "index out of range"
          | Some (GPred p) => xbind (brun src grow bool fuel (baddc bool (p v))) (fun b => if b : bool then bstages src grow fuel a n (i + 1) v else xret Reject)
          | Some (GSkip k) => if k >? 0 then xbind (bstore i (badd (GSkip (k - 1)))) (fun _ => xret Reject) else bstages src grow fuel a n (i + 1) v
          | Some (GLimit k) => if k >? 0 then xbind (bstore i (badd (GLimit (k - 1)))) (fun _ => bstages src grow fuel a n (i + 1) v) else xret Stop
          | Some (GMap f) => xbind (brun src grow T fuel (baddc T (f v))) (fun v' => bstages src grow fuel a n (i + 1) v')
          | Some (GPeek c) => xbind (brun src grow unit fuel (baddc unit (c v))) (fun _ => bstages src grow fuel a n (i + 1) v)
          end
      end (up s)).
    { intros fuel. cbn [bstages]. rewrite xget_right. cbn [up Stream_Both_Model.arrays]. rewrite nth_error_map.
      destruct (nth_error (Stream_Grow_Model.arrays s) a) as [[cap l]|]; cbn [option_map cells fst snd]; [|reflexivity].
      rewrite nth_error_map. destruct (nth_error l i) as [[p|k|k|f|c]|]; reflexivity. }
    enough (HE : hasSrc s' = hasSrc s /\ exists N, forall fuel, (N <= fuel)%nat -> bstages src grow (Datatypes.S fuel) a (Datatypes.S n) i v (up s) = (r, up s')).
    { destruct HE as (H & N & HN). split; [exact H|]. exists (Datatypes.S N). intros [|fuel] Hf; [lia|]. apply HN. lia. }
    enough (HE : hasSrc s' = hasSrc s /\ exists N, forall fuel, (N <= fuel)%nat -> match nth_error (Stream_Grow_Model.arrays s) a with
      | None => xpanic "invalid memory address or nil pointer dereference"
      | Some (_, l) =>
          match nth_error l i with
          | None => xpanic "index out of range"
          | Some (GPred p) => xbind (brun src grow bool fuel (baddc bool (p v))) (fun b => if b : bool then bstages src grow fuel a n (i + 1) v else xret Reject)
          | Some (GSkip k) => if k >? 0 then xbind (bstore i (badd (GSkip (k - 1)))) (fun _ => xret Reject) else bstages src grow fuel a n (i + 1) v
          | Some (GLimit k) => if k >? 0 then xbind (bstore i (badd (GLimit (k - 1)))) (fun _ => bstages src grow fuel a n (i + 1) v) else xret Stop
          | Some (GMap f) => xbind (brun src grow T fuel (baddc T (f v))) (fun v' => bstages src grow fuel a n (i + 1) v')
          | Some (GPeek c) => xbind (brun src grow unit fuel (baddc unit (c v))) (fun _ => bstages src grow fuel a n (i + 1) v)
          end
      end (up s) = (r, up s')).
    { destruct HE as (H & N & HN). split; [exact H|]. exists N. intros fuel Hf. rewrite HB. now apply HN. }
    clear HB. destruct (nth_error (Stream_Grow_Model.arrays s) a) as [[cap l]|]; [|exact (panic_reaches _ _ _ _ _ E Hr)].
    destruct (nth_error l i) as [[p|k|k|f|c]|]; [| | | | |exact (panic_reaches _ _ _ _ _ E Hr)].
    - refine (bind_reaches _ _ _ _ (fun fuel (b : bool) => if b then bstages src grow fuel a n (i + 1) v else xret Reject) _ _ _ _ E Hr). intros []; [apply IH|apply ret_reaches].
    - destruct (k >? 0); [|exact (IH _ _ _ _ _ E Hr)].
      refine (follows_reaches _ _ _ _ _ (fun _ _ => xret Reject) (store_follows _ _) _ _ _ _ E Hr). intros _. apply ret_reaches.
    - destruct (k >? 0); [|exact (ret_reaches _ _ _ _ _ E Hr)].
      refine (follows_reaches _ _ _ _ _ (fun fuel _ => bstages src grow fuel a n (i + 1) v) (store_follows _ _) _ _ _ _ E Hr). intros _. apply IH.
    - refine (bind_reaches _ _ _ _ (fun fuel v' => bstages src grow fuel a n (i + 1) v') _ _ _ _ E Hr). intros v'. apply IH.
    - refine (bind_reaches _ _ _ _ (fun fuel _ => bstages src grow fuel a n (i + 1) v) _ _ _ _ E Hr). intros v'. apply IH.
  Qed.

  Lemma loop_reaches fuel : forall s r s', hasSrc s = true -> gloop src grow fuel s = (r, s') -> r <> Diverge ->
    exists N, forall fuel', (N <= fuel')%nat -> bloop src grow fuel' (up s) = (r, up s').
  Proof.
    induction fuel as [|fuel IH]; intros s r s' Hs E Hr; [injection E as <- _; contradiction|].
    enough (HE : exists N, forall fuel', (N <= fuel')%nat -> bloop src grow (Datatypes.S fuel') (up s) = (r, up s')).
    { destruct HE as (N & HN). exists (Datatypes.S N). intros [|fuel'] Hf; [lia|]. apply HN. lia. }
    cbn [gloop bloop] in *. unfold xbind at 1 in E. destruct (source_follows _ (sNext src) s) as [E1 H1].
    assert (HB : forall (k : option T -> X bst (option T)), xbind xget (fun s => if negb (bhas s) then xpanic "invalid memory address or nil pointer dereference" else
        xbind (bsource (sNext src)) k) (up s) = xbind (bsource (sNext src)) k (up s)) by (intros k; rewrite xget_right; cbn [up bhas]; rewrite Hs; reflexivity).
    destruct (gsource (sNext src) s) as [[v|e|] s1]; cbn [fst snd] in *.
    - destruct v as [v|].
      + unfold grange in E. unfold xbind at 1 in E. rewrite xget_right in E.
        set (m := match Stream_Grow_Model.slice s1 with Some a => _ | None => _ end) in E. destruct (m s1) as [rd s2] eqn:Em.
        assert (Hd : rd <> Diverge) by (intros ->; injection E as <- _; contradiction).
        assert (HM : hasSrc s2 = hasSrc s1 /\ exists N, forall fuel', (N <= fuel')%nat -> match Stream_Both_Model.slice (up s1) with
                 | None => xret (Emit v)
                 | Some a =>
                     match nth_error (Stream_Both_Model.arrays (up s1)) a with
                     | None => xpanic "invalid memory address or nil pointer dereference"
                     | Some (_, l) => bstages src grow fuel' a (List.length l) 0 v
                     end
                 end (up s1) = (rd, up s2)).
        { subst m. cbn [up Stream_Both_Model.slice Stream_Both_Model.arrays]. destruct (Stream_Grow_Model.slice s1) as [a|]; [|exact (ret_reaches _ _ _ _ _ Em Hd)].
          rewrite nth_error_map. destruct (nth_error (Stream_Grow_Model.arrays s1) a) as [[cap l]|]; cbn [option_map cells fst snd]; [|exact (panic_reaches _ _ _ _ _ Em Hd)].
          rewrite map_length. exact (stages_reaches _ _ _ _ _ _ _ Em Hd). }
        destruct HM as (H2 & N & HN). destruct rd as [d|e|]; [| |contradiction].
        * assert (HL : exists N', forall fuel', (N' <= fuel')%nat -> match d with Emit v => xret (Some v) | Reject => bloop src grow fuel' | Stop => xbind bclear (fun _ => xret None) end (up s2) = (r, up s')).
          { destruct d as [v'| |]; [exists 0%nat; intros; injection E as <- <-; reflexivity| |exists 0%nat; intros; injection E as <- <-; reflexivity].
            apply (IH s2 r s'); [congruence|exact E|exact Hr]. }
          destruct HL as (N' & HN'). exists (N + N')%nat. intros fuel' Hf. rewrite HB. unfold xbind at 1. rewrite E1. rewrite xget_right.
          unfold xbind at 1. rewrite HN by lia. apply HN'. lia.
        * injection E as <- <-. exists N. intros fuel' Hf. rewrite HB. unfold xbind at 1. rewrite E1. rewrite xget_right. unfold xbind at 1. rewrite HN by lia. reflexivity.
      + injection E as <- <-. exists 0%nat. intros fuel' _. rewrite HB. unfold xbind at 1. rewrite E1. reflexivity.
    - injection E as <- <-. exists 0%nat. intros fuel' _. rewrite HB. unfold xbind at 1. rewrite E1. reflexivity.
    - injection E as <- _. contradiction.
  Qed.

  Lemma next_reaches fuel s r s' : gnext src grow fuel s = (r, s') -> r <> Diverge ->
    exists N, forall fuel', (N <= fuel')%nat -> bnext src grow fuel' (up s) = (r, up s').
  Proof.
    unfold gnext. rewrite xget_right. intros E Hr.
    destruct (hasSrc s) eqn:Es.
    - destruct (loop_reaches fuel s r s' Es E Hr) as (N & HN). exists (Datatypes.S N). intros [|fuel'] Hf; [lia|]. cbn [bnext]. rewrite xget_right. cbn [up bhas]. rewrite Es. apply HN. lia.
    - injection E as <- <-. exists 1%nat. intros [|fuel'] Hf; [lia|]. cbn [bnext]. rewrite xget_right. cbn [up bhas]. rewrite Es. reflexivity.
  Qed.

  Lemma uses_reach us : forall s rs s', runOps (guse1 src grow) us s = (rs, s') -> ~ In Diverge rs ->
    exists N, forall fuel, (N <= fuel)%nat -> runOps (buse1 src grow) (map (badds fuel) us) (up s) = (rs, up s').
  Proof.
    induction us as [|u us IH]; intros s rs s' E Hr; cbn [runOps] in E.
    { injection E as <- <-. exists 0%nat. reflexivity. }
    destruct (guse1 src grow u s) as [r s1] eqn:E1. destruct (runOps (guse1 src grow) us s1) as [rs1 s2] eqn:E2. injection E as <- <-.
    destruct (IH _ _ _ E2 (fun H => Hr (or_intror H))) as (N & HN).
    assert (Hd : r <> Diverge) by (intros ->; apply Hr; now left).
    assert (H1 : exists N1, forall fuel, (N1 <= fuel)%nat -> buse1 src grow (badds fuel u) (up s) = (r, up s1)).
    { destruct u as [f0|o]; cbn [guse1 badds buse1] in *; [exact (next_reaches _ _ _ _ E1 Hd)|].
      exists 0%nat. intros fuel _. destruct (bind_follows _ _ _ _ _ _ (build_follows o) (fun _ => ret_follows _ (@None T)) s) as [-> _]. rewrite E1. reflexivity. }
    destruct H1 as (N1 & HN1). exists (N + N1)%nat. intros fuel Hf. cbn [map runOps]. rewrite HN1 by lia. rewrite HN by lia. reflexivity.
  Qed.
End Adds.
