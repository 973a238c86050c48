From Coq Require Import Lia.
From Verif Require Import Base Arr Exn Stream_Model Stream_Grow_Model Stream_Grow_Spec.
Local Open Scope exn_scope.
Local Open Scope string_scope.
Local Open Scope list_scope.
Local Open Scope Z_scope.

Lemma upd_app_l {A} (l l' : list A) n x : (n < List.length l)%nat -> upd (l ++ l') n x = upd l n x ++ l'.
Proof. revert n. induction l as [|y l IH]; intros [|n] H; cbn in *; try lia; [reflexivity|]. f_equal. apply IH. lia. Qed.
Lemma skipn_upd {A} (l : list A) n k x : (n < k)%nat -> skipn k (upd l n x) = skipn k l.
Proof. revert n k. induction l as [|y l IH]; intros [|n] [|k] H; cbn in *; try lia; try reflexivity. apply IH. lia. Qed.
Lemma skipn_cons {A} (l : list A) i x r : skipn i l = x :: r -> nth_error l i = Some x /\ skipn (i + 1) l = r.
Proof.
  revert i. induction l as [|y l IH]; intros [|i] H; cbn in *; try discriminate.
  - injection H as -> ->. auto.
  - apply IH, H.
Qed.

Lemma xbind_eq {st A B} (m : X st A) (f : A -> X st B) s r s' : m s = (r, s') ->
  xbind m f s = match r with Ok a => f a s' | Panic e => (Panic e, s') | Diverge => (Diverge, s') end.
Proof. intros E. unfold xbind. rewrite E. destruct r; reflexivity. Qed.
Lemma xget_eq {st B} (f : st -> X st B) s : xbind xget f s = f s s.
Proof. reflexivity. Qed.

Section Sim.
  Context {S W T : Type} (src : source S W T) (grow : nat -> nat).
  Local Notation gst := (gstream S W T).
  Local Notation lst := (lstream S W T).

  Definition cells (h : gst) (a : nat) (l : list (gop W T)) : Prop := exists cap, nth_error (arrays h) a = Some (cap, l).
  Record rel (h : gst) (l : lst) : Prop := {
    r_alive : hasSrc h = lalive l;
    r_pred : hasP h = lpred l;
    r_src : gsrc h = lsrc l;
    r_world : gworld h = lworld l;
    r_ops : match slice h with None => lstages l = [] | Some a => cells h a (lstages l) end }.
  (** Arrays are only written behind what is there. *)
  Definition ext (h h' : gst) : Prop := forall a l, cells h a l -> exists more, cells h' a (l ++ more).
  Lemma ext_refl h : ext h h.
  Proof. intros a l H. exists []. now rewrite app_nil_r. Qed.
  Lemma ext_trans h1 h2 h3 : ext h1 h2 -> ext h2 h3 -> ext h1 h3.
  Proof.
    intros H1 H2 a l H. destruct (H1 a l H) as [m1 E1]. destruct (H2 a _ E1) as [m2 E2].
    exists (m1 ++ m2). now rewrite app_assoc.
  Qed.
  Lemma ext_same h h' : arrays h' = arrays h -> ext h h'.
  Proof. intros E a l [cap H]. exists []. rewrite app_nil_r. exists cap. now rewrite E. Qed.
  Hint Resolve ext_refl ext_same : core.

  Definition sim {A} (m : X gst A) (n : X lst A) : Prop := forall h l, rel h l ->
    exists r h' l', m h = (r, h') /\ n l = (r, l') /\ rel h' l' /\ ext h h' /\ (List.length (lstages l) <= List.length (lstages l'))%nat.

  Lemma sim_ret {A} (a : A) : sim (xret a) (xret a).
  Proof. intros h l R. exists (Ok a), h, l. auto 6. Qed.
  Lemma sim_panic {A} e : sim (@xpanic _ A e) (xpanic e).
  Proof. intros h l R. exists (Panic e), h, l. auto 6. Qed.
  Lemma sim_bind {A B} (m : X gst A) n (f : A -> X gst B) g : sim m n -> (forall a, sim (f a) (g a)) -> sim (xbind m f) (xbind n g).
  Proof.
    intros H1 H2 h l R. destruct (H1 h l R) as (r & h1 & l1 & E1 & E1' & R1 & X1 & L1).
    unfold xbind. rewrite E1, E1'. destruct r as [a|e|].
    - destruct (H2 a h1 l1 R1) as (r2 & h2 & l2 & E2 & E2' & R2 & X2 & L2).
      exists r2, h2, l2. split; [exact E2|split; [exact E2'|split; [exact R2|split]]].
      + exact (ext_trans _ _ _ X1 X2).
      + lia.
    - exists (Panic e), h1, l1. auto 6.
    - exists Diverge, h1, l1. auto 6.
  Qed.
  Lemma sim_get {A} (f : gst -> X gst A) (g : lst -> X lst A) :
    (forall h l, rel h l -> sim (f h) (g l)) -> sim (xbind xget f) (xbind xget g).
  Proof. intros H h l R. unfold xbind, xget. apply (H h l R h l R). Qed.

  Lemma sim_source {A} (m : X (S * W) A) : sim (gsource m) (lsource m).
  Proof.
    intros h l [R1 R2 R3 R4 R5]. unfold gsource, lsource. rewrite R3, R4.
    destruct (m (lsrc l, lworld l)) as [r [z w]]. eexists r, _, _.
    split; [reflexivity|split; [reflexivity|]]. split; [|split; [now apply ext_same|apply Nat.le_refl]].
    split; cbn; auto.
  Qed.
  Lemma sim_change w : sim (gchange w) (lchange w).
  Proof.
    intros h l [R1 R2 R3 R4 R5]. unfold gchange, lchange. eexists _, _, _.
    split; [reflexivity|split; [reflexivity|]]. split; [|split; [now apply ext_same|apply Nat.le_refl]].
    split; cbn; auto.
  Qed.
  Lemma sim_append o p : sim (gappend grow o p) (ladd o p).
  Proof.
    intros h l [R1 R2 R3 R4 R5]. unfold gappend, ladd.
    assert (F : forall cap, exists r h' l',
      (Ok tt, mkG (hasSrc h) (arrays h ++ [(grow cap, lstages l ++ [o])]) (Some (List.length (arrays h))) (hasP h || p) (gsrc h) (gworld h)) = (r, h') /\
      (Ok tt, mkL (lalive l) (lstages l ++ [o]) (lpred l || p) (lsrc l) (lworld l)) = (r, l') /\ rel h' l' /\ ext h h' /\
      (List.length (lstages l) <= List.length (lstages l'))%nat).
    { intros cap. eexists _, _, _. split; [reflexivity|split; [reflexivity|]]. split; [|split].
      - split; cbn; auto; [now rewrite R2|]. exists (grow cap). cbn. rewrite nth_error_app2, Nat.sub_diag by lia. reflexivity.
      - intros a x [c H]. exists []. rewrite app_nil_r. exists c. cbn. rewrite nth_error_app1; [exact H|]. apply nth_error_Some. congruence.
      - cbn. rewrite app_length. lia. }
    destruct (slice h) as [a|] eqn:Es.
    - destruct R5 as [cap R5]. rewrite R5. destruct (_ <? _)%nat; [|apply F].
      assert (Ha : (a < List.length (arrays h))%nat) by (apply nth_error_Some; congruence).
      eexists _, _, _. split; [reflexivity|split; [reflexivity|]]. split; [|split].
      + split; cbn; auto; [now rewrite R2|]. exists cap. cbn. rewrite nth_error_upd by exact Ha. now rewrite Nat.eqb_refl.
      + intros b x [c H]. unfold cells. cbn. rewrite nth_error_upd by exact Ha. destruct (Nat.eqb_spec b a) as [->|Nb].
        * rewrite R5 in H. injection H as <- <-. eauto.
        * exists [], c. now rewrite app_nil_r.
      + cbn. rewrite app_length. lia.
    - rewrite R5 in F. rewrite R5. apply F.
  Qed.
  Hint Resolve sim_ret sim_panic sim_append sim_source sim_change : core.

  Lemma sim_build o : sim (gbuild src grow o) (lbuild src o).
  Proof.
    destruct o as [p|n|n|f|c]; cbn [gbuild lbuild]; auto.
    - destruct (n <? 0); auto. destruct (n =? 0); auto. apply sim_get. intros h l R.
      rewrite (r_pred _ _ R), (r_alive _ _ R). destruct (negb (lpred l)); auto.
      destruct (lalive l); auto. apply sim_bind; auto.
    - destruct (n <? 0); auto.
  Qed.
  Lemma sim_run {A} (c : gcode (gop W T) W A) : sim (grun src grow c) (lrun src c).
  Proof.
    induction c as [a|e|k IH|w k IH|o k IH]; cbn [grun lrun]; auto.
    - apply sim_get. intros h l R. rewrite (r_world _ _ R). apply IH.
    - apply sim_bind; auto.
    - apply sim_bind; [apply sim_build|auto].
  Qed.

  (** The stages still to come, in the array that range reads. *)
  Lemma store_ok a i o h l hl : rel h l -> (i < List.length (lstages l))%nat -> cells h a hl -> (i < List.length hl)%nat ->
    exists h' hl', gstore i o h = (Ok tt, h') /\ rel h' (mkL (lalive l) (upd (lstages l) i o) (lpred l) (lsrc l) (lworld l)) /\
      cells h' a hl' /\ skipn (i + 1) hl' = skipn (i + 1) hl.
  Proof.
    intros [R1 R2 R3 R4 R5] Hi Ha Hl. unfold gstore.
    destruct (slice h) as [b|] eqn:Es; [|rewrite R5 in Hi; cbn in Hi; lia].
    destruct R5 as [cap R5]. rewrite R5. destruct (Nat.ltb_spec i (List.length (lstages l))); [|lia].
    assert (Hb : (b < List.length (arrays h))%nat) by (apply nth_error_Some; congruence).
    destruct Ha as [c Ha].
    assert (E : forall k, nth_error (upd (arrays h) b (cap, upd (lstages l) i o)) k =
      if (k =? b)%nat then Some (cap, upd (lstages l) i o) else nth_error (arrays h) k).
    { intros k. now rewrite nth_error_upd by exact Hb. }
    eexists. destruct (Nat.eqb_spec a b) as [->|Nab].
    - exists (upd (lstages l) i o). split; [reflexivity|]. rewrite R5 in Ha. injection Ha as <- <-. split; [|split].
      + split; cbn; auto. exists cap. cbn. rewrite E, Nat.eqb_refl. reflexivity.
      + exists cap. cbn. rewrite E, Nat.eqb_refl. reflexivity.
      + apply skipn_upd. lia.
    - exists hl. split; [reflexivity|]. split; [|split; [|reflexivity]].
      + split; cbn; auto. exists cap. cbn. rewrite E, Nat.eqb_refl. reflexivity.
      + exists c. cbn. rewrite E. destruct (Nat.eqb_spec a b); [congruence|exact Ha].
  Qed.

  Lemma stages_ok todo : forall i v a h l hl more, rel h l -> cells h a hl -> skipn i hl = todo ++ more ->
    (i + List.length todo <= List.length (lstages l))%nat ->
    exists r h' l', gstages src grow a (List.length todo) i v h = (r, h') /\ lthrough src todo i v l = (r, l') /\ rel h' l'.
  Proof.
    induction todo as [|o todo IH]; intros i v a h l hl more R Hc Hs Hl.
    { exists (Ok (Emit v)), h, l. auto. }
    cbn [List.length] in Hl. cbn [List.length gstages lthrough app] in *.
    apply skipn_cons in Hs. destruct Hs as [Hn Hs].
    assert (Hi : (i < List.length hl)%nat) by (apply nth_error_Some; congruence).
    unfold xbind at 1, xget at 1. destruct Hc as [cap Hc]. rewrite Hc, Hn.
    assert (Hc' : cells h a hl) by (exists cap; exact Hc).
    assert (K : forall B (c : gcode (gop W T) W B) (f : B -> X gst (verdict T)) (g : B -> X lst (verdict T)),
      (forall b h' l' hl' more', rel h' l' -> cells h' a hl' -> skipn (i + 1) hl' = todo ++ more' ->
         (i + 1 + List.length todo <= List.length (lstages l'))%nat ->
         exists r h2 l2, f b h' = (r, h2) /\ g b l' = (r, l2) /\ rel h2 l2) ->
      exists r h2 l2, xbind (grun src grow c) f h = (r, h2) /\ xbind (lrun src c) g l = (r, l2) /\ rel h2 l2).
    { intros B c f g Hf. destruct (sim_run c h l R) as (r & h1 & l1 & E1 & E1' & R1 & X1 & L1).
      unfold xbind. rewrite E1, E1'. destruct r as [b|e|].
      - destruct (X1 a hl Hc') as [m Hm]. apply (Hf b h1 l1 (hl ++ m) (more ++ m)); auto.
        + rewrite skipn_app, Hs. replace (i + 1 - List.length hl)%nat with 0%nat by lia. cbn [skipn]. now rewrite app_assoc.
        + lia.
      - exists (Panic e), h1, l1. auto.
      - exists Diverge, h1, l1. auto. }
    destruct o as [p|k|k|f|c].
    - apply K. intros [] h' l' hl' more' R' C' S' L'; [apply (IH (i + 1)%nat v a h' l' hl' more'); auto|]. exists (Ok Reject), h', l'. auto.
    - destruct (k >? 0); [|apply (IH (i + 1)%nat v a h l hl more); auto; lia].
      destruct (store_ok a i (GSkip (k - 1)) h l hl R) as (h' & hl' & E & R' & C' & S'); auto; [lia|].
      unfold xbind. rewrite E. cbn. eexists _, h', _. split; [reflexivity|split; [reflexivity|exact R']].
    - destruct (k >? 0); [|exists (Ok Stop), h, l; auto].
      destruct (store_ok a i (GLimit (k - 1)) h l hl R) as (h' & hl' & E & R' & C' & S'); auto; [lia|].
      unfold xbind. rewrite E. cbn [lset]. unfold lset.
      apply (IH (i + 1)%nat v a h' _ hl' more); auto; [congruence|]. cbn. rewrite length_upd. lia.
    - apply K. intros v' h' l' hl' more' R' C' S' L'. apply (IH (i + 1)%nat v' a h' l' hl' more'); auto.
    - apply K. intros [] h' l' hl' more' R' C' S' L'. apply (IH (i + 1)%nat v a h' l' hl' more'); auto.
  Qed.

  Lemma clear_ok h l : rel h l -> rel (snd (gclear h)) (snd (lend l)).
  Proof. intros [R1 R2 R3 R4 R5]. split; cbn; auto. Qed.

  Lemma loop_ok fuel : forall h l, rel h l ->
    exists r h' l', gloop src grow fuel h = (r, h') /\ lloop src fuel l = (r, l') /\ rel h' l'.
  Proof.
    induction fuel as [|fuel IH]; intros h l R; cbn [gloop lloop]; [exists Diverge, h, l; auto|].
    destruct (sim_source (sNext src) h l R) as (r & h1 & l1 & E1 & E1' & R1 & _ & _).
    rewrite (xbind_eq _ _ _ _ _ E1), (xbind_eq _ _ _ _ _ E1'). destruct r as [[v|]|e|].
    2:{ eexists _, _, _. split; [reflexivity|split; [reflexivity|]]. apply (clear_ok _ _ R1). }
    2,3: eexists _, _, _; split; [reflexivity|split; [reflexivity|exact R1]].
    assert (G : exists r h2 l2, grange src grow v h1 = (r, h2) /\ lthrough src (lstages l1) 0 v l1 = (r, l2) /\ rel h2 l2).
    { unfold grange. unfold xbind at 1, xget at 1. pose proof (r_ops _ _ R1) as Q. destruct (slice h1) as [a|].
      - assert (Q' := Q). destruct Q' as [cap Q']. rewrite Q'.
        apply (stages_ok (lstages l1) 0 v a h1 l1 (lstages l1) []); auto. now rewrite app_nil_r.
      - rewrite Q. exists (Ok (Emit v)), h1, l1. auto. }
    destruct G as (r & h2 & l2 & E2 & E2' & R2).
    rewrite (xbind_eq _ _ _ _ _ E2), xget_eq, (xbind_eq _ _ _ _ _ E2'). destruct r as [[v'| |]|e|].
    - eexists _, _, _. split; [reflexivity|split; [reflexivity|exact R2]].
    - apply IH, R2.
    - eexists _, _, _. split; [reflexivity|split; [reflexivity|apply (clear_ok _ _ R2)]].
    - eexists _, _, _. split; [reflexivity|split; [reflexivity|exact R2]].
    - eexists _, _, _. split; [reflexivity|split; [reflexivity|exact R2]].
  Qed.

  Lemma use_ok u h l : rel h l -> exists r h' l', guse1 src grow u h = (r, h') /\ luse1 src u l = (r, l') /\ rel h' l'.
  Proof.
    intros R. destruct u as [fuel|o]; cbn [guse1 luse1].
    - unfold gnext, lnext. rewrite !xget_eq, (r_alive _ _ R). destruct (lalive l); [apply loop_ok, R|].
      eexists _, _, _. split; [reflexivity|split; [reflexivity|apply (clear_ok _ _ R)]].
    - destruct (sim_bind _ _ (fun _ => xret (@None T)) (fun _ => xret None) (sim_build o) (fun _ => sim_ret None) h l R) as (r & h1 & l1 & E1 & E1' & R1 & _ & _).
      eauto 6.
  Qed.
  Lemma uses_ok us : forall h l, rel h l ->
    exists r h' l', runOps (guse1 src grow) us h = (r, h') /\ runOps (luse1 src) us l = (r, l') /\ rel h' l'.
  Proof.
    induction us as [|u us IH]; intros h l R; [exists [], h, l; auto|]. cbn [runOps].
    destruct (use_ok u h l R) as (r & h1 & l1 & -> & -> & R1).
    destruct (IH h1 l1 R1) as (rs & h2 & l2 & -> & -> & R2). eauto 6.
  Qed.
End Sim.
