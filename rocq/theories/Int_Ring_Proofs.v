(** Int_Ring_Model: with wrapping ints the ring does what it does with unbounded
    ones, while five times its capacity is an int. *)
From Verif Require Import Base Arr Exn XRing_Spec XRing_Model XRing_Proofs Int_Spec Int_Ring_Model.
From Verif Require Int_Iter_Proofs.
Local Open Scope string_scope.
Local Open Scope list_scope.
Local Open Scope Z_scope.

Notation w_id := Int_Iter_Proofs.w_id.
Notation maxInt_val := Int_Iter_Proofs.maxInt_val.

Section IntRing.
  Context {T : Type} (zero : T) (esz A : Z).
  Notation Rep := (Rep zero).

  Definition memPanic : string := "makeslice: len out of range".

  Lemma makeW_ok n : 0 <= n -> n * esz <= A -> makeW zero esz A n = Ok (makeSlice zero n).
  Proof.
    intros. unfold makeW. replace (n <? 0) with false by lia. replace (A <? n * esz) with false by lia.
    reflexivity.
  Qed.
  Lemma makeW_no n : 0 <= n -> A < n * esz -> makeW zero esz A n = Panic memPanic.
  Proof.
    intros. unfold makeW. replace (A <? n * esz) with true by lia. now rewrite orb_true_r.
  Qed.

  Lemma subW_ok (l : list T) i j : 0 <= i <= j -> j <= zlen l -> subW l i j = Ok (sub l i j).
  Proof.
    intros. unfold subW. replace ((0 <=? i) && (i <=? j) && (j <=? zlen l)) with true by lia. reflexivity.
  Qed.

  Lemma toSliceIntoW_eq r l t : Rep r l -> 2 * zlen (buf r) <= maxInt ->
    toSliceIntoW r t = Ok (toSliceInto r t).
  Proof.
    intros (HL & Hc & Hs & Hst & _) Hm. pose proof (zlen_nonneg l). pose proof maxInt_val.
    unfold toSliceIntoW, toSliceInto. rewrite (w_id (st r + len r)) by (unfold isInt; lia).
    destruct (Z.leb_spec (st r + len r) (zlen (buf r))).
    - now rewrite subW_ok by lia.
    - rewrite w_id by (unfold isInt; lia). now rewrite !subW_ok by lia.
  Qed.

  Lemma refillW_eq r l n : Rep r l -> 2 * zlen (buf r) <= maxInt -> 0 <= n ->
    refillW zero esz A r n = if A <? n * esz then Panic memPanic else Ok (refill zero r n).
  Proof.
    intros HR Hm Hn. unfold refillW, refill. destruct (Z.ltb_spec A (n * esz)).
    - now rewrite makeW_no by lia.
    - rewrite makeW_ok by lia. destruct (len r =? 0); [reflexivity|].
      now rewrite (toSliceIntoW_eq r l) by assumption.
  Qed.

  (** What is known of a ring at any time. *)
  Definition fits (r : ring T) : Prop := zlen (buf r) * esz <= A /\ 5 * zlen (buf r) <= maxInt.

  Lemma grownW n : 0 <= n -> 5 * n <= maxInt -> grownCapW n = grownCap n.
  Proof.
    intros. pose proof maxInt_val. unfold grownCapW, grownCap.
    destruct (Z.eqb_spec n 0); [reflexivity|]. destruct (Z.ltb_spec n 1024).
    - apply w_id. unfold isInt. lia.
    - rewrite w_id by (unfold isInt; lia). rewrite Z.quot_div_nonneg by lia. reflexivity.
  Qed.
  Lemma grown_le n : 0 <= n -> grownCap n <= Z.max 4 (2 * n).
  Proof. intros. unfold grownCap. destruct (Z.eqb_spec n 0); [lia|]. destruct (Z.ltb_spec n 1024); lia. Qed.

  (** The two ways out of checkGrowth. *)
  Lemma growthW r l : Rep r l -> fits r ->
    (checkGrowthW zero esz A r = (Ok tt, checkGrowth zero r) /\
     zlen (buf (checkGrowth zero r)) * esz <= A /\ 2 * zlen (buf (checkGrowth zero r)) <= maxInt) \/
    (len r = zlen (buf r) /\ A < grownCap (zlen (buf r)) * esz /\
     checkGrowthW zero esz A r = (Panic memPanic, r)).
  Proof.
    intros HR [HA Hm]. assert (HR' := HR). destruct HR' as (HL & Hc & _).
    pose proof (zlen_nonneg l). pose proof maxInt_val.
    unfold checkGrowthW, checkGrowth, xbind, xget. cbv zeta.
    destruct (Z.eqb_spec (len r) (zlen (buf r))) as [E|E].
    - pose proof (grown_gt (zlen (buf r)) ltac:(lia)). pose proof (grown_le (zlen (buf r)) ltac:(lia)).
      unfold moveW. rewrite grownW by lia. rewrite (refillW_eq r l) by (try assumption; lia).
      destruct (Z.ltb_spec A (grownCap (zlen (buf r)) * esz)).
      + right. auto.
      + left. split; [reflexivity|]. cbn [buf].
        destruct (rep_refill zero r l (grownCap (zlen (buf r))) (moved r + len r) HR ltac:(lia) ltac:(lia)) as [_ Hz].
        cbn [buf] in Hz. rewrite Hz. split; lia.
    - left. split; [reflexivity|]. lia.
  Qed.

  Lemma shrinkW r l : Rep r l -> fits r -> 0 <= esz ->
    checkShrinkW zero esz A r = (Ok tt, checkShrink zero r) /\
    zlen (buf (checkShrink zero r)) <= zlen (buf r).
  Proof.
    intros HR [HA Hm] He. assert (HR' := HR). destruct HR' as (HL & Hc & _).
    pose proof (zlen_nonneg l). pose proof maxInt_val.
    unfold checkShrinkW, checkShrink, xbind, xget. cbv zeta.
    rewrite Z.quot_div_nonneg by lia.
    destruct ((zlen (buf r) >? 1024) && (zlen (buf r) / 8 >? len r)) eqn:Hs; [|split; [reflexivity|lia]].
    apply andb_prop in Hs. destruct Hs as [H1 H2]. apply Z.gtb_lt in H1, H2.
    unfold moveW. rewrite (refillW_eq r l) by (try assumption; lia).
    destruct (Z.ltb_spec A (zlen (buf r) / 8 * esz)); [nia|].
    split; [reflexivity|]. cbn [buf].
    destruct (rep_refill zero r l (zlen (buf r) / 8) (moved r + len r) HR ltac:(lia) ltac:(lia)) as [_ Hz].
    cbn [buf] in Hz. rewrite Hz. lia.
  Qed.

  Definition refused (r : ring T) (o : ringOp T) : Prop :=
    match o with
    | OAppend _ | OPush _ | OPrepend _ =>
        len r = zlen (buf r) /\ A < grownCap (zlen (buf r)) * esz /\
        ringStepW zero esz A o r = (Panic memPanic, r)
    | _ => False
    end.

  Ltac wi := rewrite w_id by (unfold isInt; lia).

  Lemma appendW r l v : Rep r l -> fits r ->
    AppendW zero esz A v r = Append zero v r \/
    (len r = zlen (buf r) /\ A < grownCap (zlen (buf r)) * esz /\
     AppendW zero esz A v r = (Panic memPanic, r)).
  Proof.
    intros HR HF. destruct (growthW r l HR HF) as [(He & _ & Hm)|(E & HA & He)].
    - left. destruct (growth_rep zero r l HR) as ((HL & Hc & Hs & Hst & _) & Hlen & Hcap).
      pose proof (zlen_nonneg l). pose proof maxInt_val.
      unfold AppendW, Append. unfold xbind at 1. rewrite He.
      unfold xbind at 1. unfold xget at 1. unfold xbind at 2. unfold xget at 1.
      unfold xbind at 2. unfold xput. unfold xbind at 2. unfold xget at 1. cbv zeta.
      set (r1 := checkGrowth zero r) in *.
      rewrite (w_id (st r1 + len r1)) by (unfold isInt; lia).
      rewrite (w_id (st r1 + len r1 - zlen (buf r1))) by (unfold isInt; lia).
      rewrite (w_id (len r1 + 1)) by (unfold isInt; lia). reflexivity.
    - right. split; [exact E|]. split; [exact HA|]. unfold AppendW, xbind at 1. rewrite He. reflexivity.
  Qed.
  Lemma prependW r l v : Rep r l -> fits r ->
    PrependW zero esz A v r = Prepend zero v r \/
    (len r = zlen (buf r) /\ A < grownCap (zlen (buf r)) * esz /\
     PrependW zero esz A v r = (Panic memPanic, r)).
  Proof.
    intros HR HF. destruct (growthW r l HR HF) as [(He & _ & Hm)|(E & HA & He)].
    - left. destruct (growth_rep zero r l HR) as ((HL & Hc & Hs & Hst & _) & Hlen & Hcap).
      pose proof (zlen_nonneg l). pose proof maxInt_val.
      unfold PrependW, Prepend. unfold xbind at 1. rewrite He.
      unfold xbind at 1. unfold xget at 1. unfold xbind at 2. unfold xget at 1.
      unfold xbind at 2. unfold xput. unfold xbind at 2. unfold xget at 1. cbv zeta.
      set (r1 := checkGrowth zero r) in *.
      rewrite (w_id (st r1 - 1)) by (unfold isInt; lia).
      rewrite (w_id (st r1 - 1 + zlen (buf r1))) by (unfold isInt; lia).
      rewrite (w_id (len r1 + 1)) by (unfold isInt; lia). reflexivity.
    - right. split; [exact E|]. split; [exact HA|]. unfold PrependW, xbind at 1. rewrite He. reflexivity.
  Qed.

  Lemma deleteLastW r l : Rep r l -> fits r -> 0 <= esz -> DeleteLastW zero esz A r = DeleteLast zero r.
  Proof.
    intros HR HF He. destruct (shrinkW r l HR HF He) as [Hs1 Hle]. destruct HF as [HA Hm].
    destruct (shrink_rep zero r l HR) as ((HL & Hc & Hs & Hst & _) & Hlen).
    pose proof (zlen_nonneg l). pose proof maxInt_val.
    unfold DeleteLastW, DeleteLast. unfold xbind, xget, xput.
    destruct (len r =? 0); [reflexivity|]. rewrite Hs1. cbv zeta.
    set (r1 := checkShrink zero r) in *.
    rewrite (w_id (st r1 + len r1)) by (unfold isInt; lia).
    rewrite (w_id (st r1 + len r1 - 1)) by (unfold isInt; lia).
    rewrite (w_id (st r1 + len r1 - 1 - zlen (buf r1))) by (unfold isInt; lia).
    rewrite (w_id (len r1 - 1)) by (unfold isInt; lia). reflexivity.
  Qed.
  Lemma deleteFirstW r l : Rep r l -> fits r -> 0 <= esz -> DeleteFirstW zero esz A r = DeleteFirst zero r.
  Proof.
    intros HR HF He. destruct (shrinkW r l HR HF He) as [Hs1 Hle]. destruct HF as [HA Hm].
    destruct (shrink_rep zero r l HR) as ((HL & Hc & Hs & Hst & _) & Hlen).
    pose proof (zlen_nonneg l). pose proof maxInt_val.
    unfold DeleteFirstW, DeleteFirst. unfold xbind, xget, xput.
    destruct (len r =? 0); [reflexivity|]. rewrite Hs1. cbv zeta.
    set (r1 := checkShrink zero r) in *.
    rewrite (w_id (st r1 + 1)) by (unfold isInt; lia).
    rewrite (w_id (len r1 - 1)) by (unfold isInt; lia). reflexivity.
  Qed.

  Lemma atRefW r l i : Rep r l -> fits r -> AtRefW i r = AtRef i r.
  Proof.
    intros (HL & Hc & Hs & Hst & _) [_ Hm]. pose proof (zlen_nonneg l). pose proof maxInt_val.
    unfold AtRefW, AtRef, xbind, xget.
    destruct ((i <? 0) || (len r <=? i)) eqn:E; [reflexivity|].
    apply orb_false_iff in E. cbv zeta.
    rewrite (w_id (i + st r)) by (unfold isInt; lia).
    rewrite (w_id (i + st r - zlen (buf r))) by (unfold isInt; lia). reflexivity.
  Qed.
  Lemma lastW r l : Rep r l -> fits r -> LastW r = Last r.
  Proof.
    intros (HL & Hc & Hs & Hst & _) [_ Hm]. pose proof (zlen_nonneg l). pose proof maxInt_val.
    unfold LastW, Last, xbind, xget. destruct (len r =? 0); [reflexivity|]. cbv zeta.
    rewrite (w_id (st r + len r)) by (unfold isInt; lia).
    rewrite (w_id (st r + len r - 1)) by (unfold isInt; lia).
    rewrite (w_id (st r + len r - 1 - zlen (buf r))) by (unfold isInt; lia). reflexivity.
  Qed.

  Lemma stepW r l o : Rep r l -> fits r -> 0 <= esz ->
    ringStepW zero esz A o r = ringStep zero o r \/ refused r o.
  Proof.
    intros HR HF He. destruct o; cbn [ringStepW ringStep refused]; unfold retUnit, retVal, Push.
    - destruct (appendW r l v HR HF) as [E|(E1 & E2 & E)];
        [left; unfold xbind; now rewrite E|right; repeat split; try assumption; unfold xbind; now rewrite E].
    - destruct (appendW r l v HR HF) as [E|(E1 & E2 & E)];
        [left; unfold xbind; now rewrite E|right; repeat split; try assumption; unfold xbind; now rewrite E].
    - destruct (prependW r l v HR HF) as [E|(E1 & E2 & E)];
        [left; unfold xbind; now rewrite E|right; repeat split; try assumption; unfold xbind; now rewrite E].
    - left. assert (EP : PopW zero esz A r = Pop zero r); [|unfold xbind; now rewrite EP].
      unfold PopW, Pop, xbind, xget. destruct (Empty r) eqn:Ee; [reflexivity|].
      assert (Hl : exists x l', l = x :: l').
      { unfold Empty in Ee. rewrite (rep_nil_iff zero r l HR) in Ee. destruct l; [discriminate|eauto]. }
      destruct Hl as (x & l' & ->). rewrite (first_ok zero _ _ _ HR).
      rewrite (deleteFirstW r _ HR HF He). reflexivity.
    - left. unfold xbind. now rewrite (deleteFirstW r l HR HF He).
    - left. unfold xbind. now rewrite (deleteLastW r l HR HF He).
    - left. reflexivity.
    - left. unfold xbind. now rewrite (lastW r l HR HF).
    - left. unfold AtW, At, xbind. now rewrite (atRefW r l i HR HF).
    - left. unfold SetW, Set_, xbind. now rewrite (atRefW r l i HR HF).
    - left. reflexivity.
    - left. reflexivity.
    - left. unfold ToSliceW, ToSlice, xbind, xget, xret. assert (HR' := HR). destruct HR' as (HL & Hc & _). destruct HF as [HA Hm].
      pose proof (zlen_nonneg l). pose proof maxInt_val.
      destruct (Z.eqb_spec (len r) 0); [reflexivity|]. destruct s as [a|].
      + now rewrite (toSliceIntoW_eq r l) by (try assumption; lia).
      + rewrite makeW_ok by nia. now rewrite (toSliceIntoW_eq r l) by (try assumption; lia).
  Qed.

  Lemma refused_deque r l o : Rep r l -> refused r o -> 0 <= esz ->
    A < Z.max 4 (2 * zlen l) * esz /\ ringStepW zero esz A o r = (Panic memPanic, r) /\
    (exists v, o = OAppend v \/ o = OPush v \/ o = OPrepend v).
  Proof.
    intros (HL & Hc & _) HF He. pose proof (zlen_nonneg l).
    pose proof (grown_le (zlen (buf r)) (zlen_nonneg _)).
    destruct o; cbn [refused] in HF; try contradiction; destruct HF as (E & HA & HS);
      (split; [rewrite HL, E; nia|split; [exact HS|eauto]]).
  Qed.

  (** The buffer after a step is as long as before, or as after checkShrink or
      checkGrowth. *)
  Definition isAdd (o : ringOp T) : bool :=
    match o with OAppend _ | OPush _ | OPrepend _ => true | _ => false end.
  Lemma setBuf_len (i : Z) (v : T) (r : ring T) : zlen (buf (snd (setBuf i v r))) = zlen (buf r).
  Proof.
    unfold setBuf, xbind, xget, xput, xpanic. destruct (zset (buf r) i v) eqn:E; [|reflexivity].
    cbn. unfold zset in E. destruct ((0 <=? i) && (i <? zlen (buf r))); [|discriminate].
    injection E as <-. apply zlen_upd.
  Qed.
  Lemma step_cap r o :
    let c := zlen (buf (snd (ringStep zero o r))) in
    c = zlen (buf r) \/ c = zlen (buf (checkShrink zero r)) \/
    (isAdd o = true /\ c = zlen (buf (checkGrowth zero r))).
  Proof.
    cbv zeta.
    destruct o; cbn [ringStep isAdd]; unfold retUnit, retVal, Push, Append, Prepend, Pop, First, Last, DeleteFirst,
      DeleteLast, At, Set_, AtRef, getBuf, setStLen, xbind, xget, xput, xret, xpanic, Empty; cbv zeta;
      repeat match goal with
      | |- context[setBuf ?i ?v ?x] =>
          let E := fresh "E" in pose proof (setBuf_len i v x) as E; destruct (setBuf i v x) as [[] ?]
      | |- context[len r =? 0] => destruct (len r =? 0); cbv iota beta
      | |- context[if (?a <? 0) || ?b then _ else _] => destruct ((a <? 0) || b); cbv iota beta
      | |- context[match zget ?b ?i with _ => _ end] => destruct (zget b i)
      end; cbn [snd buf] in *; auto.
  Qed.

  Lemma add_refused r l o : Rep r l -> fits r -> isAdd o = true -> refused r o \/
    zlen (buf (checkGrowth zero r)) * esz <= A.
  Proof.
    intros HR HF Ho. destruct (growthW r l HR HF) as [(_ & Hg & _)|(E1 & E2 & E3)]; [auto|left].
    destruct o; try discriminate; cbn [refused]; (split; [assumption|split; [assumption|]]);
      cbn [ringStepW]; unfold retUnit, AppendW, PrependW, xbind; rewrite E3; reflexivity.
  Qed.

  (** Memory bounds the capacity. *)
  Lemma step_fits r l o : Rep r l -> fits r -> 1 <= esz -> 5 * A <= maxInt ->
    refused r o \/ fits (snd (ringStep zero o r)).
  Proof.
    intros HR HF He HA5. assert (HfA := HF). destruct HfA as [HcA _].
    assert (HN : forall x, 0 <= x -> x * esz <= A -> 5 * x <= maxInt) by (intros; nia).
    assert (HG : refused r o \/ zlen (buf (snd (ringStep zero o r))) * esz <= A).
    { destruct (step_cap r o) as [E|[E|[Ho E]]]; rewrite E.
      - auto.
      - right. destruct (shrinkW r l HR HF ltac:(lia)) as [_ Hle]. nia.
      - apply (add_refused r l); assumption. }
    destruct HG as [HG|HG]; [left; exact HG|right; split; [exact HG|]].
    apply HN; [apply zlen_nonneg|exact HG].
  Qed.

  Lemma growth_cap r : zlen (buf (checkGrowth zero r)) = zlen (buf r) \/
    (len r = zlen (buf r) /\ forall l, Rep r l -> zlen (buf (checkGrowth zero r)) <= Z.max 4 (2 * zlen l)).
  Proof.
    unfold checkGrowth. cbv zeta. destruct (Z.eqb_spec (len r) (zlen (buf r))) as [E|E]; [|auto].
    right. split; [exact E|]. intros l HR. cbn [buf]. pose proof (zlen_nonneg (buf r)).
    pose proof (grown_gt (zlen (buf r)) ltac:(lia)). pose proof (grown_le (zlen (buf r)) ltac:(lia)).
    destruct (rep_refill zero r l (grownCap (zlen (buf r))) (moved r + len r) HR ltac:(lia) ltac:(lia)) as [_ Hz].
    rewrite Hz. destruct HR as (HL & _). lia.
  Qed.

  (** Histories of rings with elements that take memory. *)
  Lemma run_answers ops : forall r l, 1 <= esz -> 5 * A <= maxInt -> Rep r l -> fits r ->
    answers esz A ops l (fst (runOps (ringStepW zero esz A) ops r)).
  Proof.
    induction ops as [|o ops IH]; intros r l He HA5 HR HF; cbn [runOps]; [constructor|].
    destruct (stepW r l o HR HF ltac:(lia)) as [E|HRef].
    - destruct (step_fits r l o HR HF He HA5) as [HRef|HF'].
      + destruct (refused_deque r l o HR HRef ltac:(lia)) as (Hlt & E2 & v & Ho). rewrite E2.
        specialize (IH r l He HA5 HR HF). destruct (runOps (ringStepW zero esz A) ops r) as [rs ?].
        cbn [fst] in *. eapply ans_refused; eauto.
      + rewrite E. destruct (step_ok zero r l o HR) as (r' & E3 & HR'). rewrite E3 in HF' |- *. cbn [snd] in HF'.
        specialize (IH r' _ He HA5 HR' HF'). destruct (runOps (ringStepW zero esz A) ops r') as [rs ?].
        cbn [fst] in *. now apply ans_call.
    - destruct (refused_deque r l o HR HRef ltac:(lia)) as (Hlt & E2 & v & Ho). rewrite E2.
      specialize (IH r l He HA5 HR HF). destruct (runOps (ringStepW zero esz A) ops r) as [rs ?].
      cbn [fst] in *. eapply ans_refused; eauto.
  Qed.

  Lemma deque_len o (l : list T) : zlen (snd (dequeStep o l)) <= zlen l + 1.
  Proof.
    pose proof (zlen_nonneg l).
    destruct o; cbn [dequeStep snd]; try lia.
    - rewrite zlen_app. change (zlen [v]) with 1. lia.
    - rewrite zlen_app. change (zlen [v]) with 1. lia.
    - rewrite zlen_cons. lia.
    - destruct l; cbn [snd]; [lia|]. rewrite zlen_cons in *. lia.
    - destruct l; cbn [snd]; [lia|]. rewrite zlen_cons in *. lia.
    - destruct l; cbn [snd]; [lia|]. unfold zlen. rewrite removelast_firstn_len, firstn_length. lia.
    - destruct (zset l i v) eqn:E; cbn [snd]; [|lia]. unfold zset in E.
      destruct ((0 <=? i) && (i <? zlen l)); [|discriminate]. injection E as <-. rewrite zlen_upd. lia.
  Qed.
End IntRing.

(** Histories of rings of zero-size elements: nothing is refused. *)
Section Zero.
  Context {T : Type} (zero : T) (A : Z).
  Hypothesis HA : 0 <= A.
  Lemma run_zero ops : forall r l m, Rep zero r l ->
    zlen l + zlen ops <= m -> zlen (buf r) <= Z.max 4 (2 * m) -> 10 * m <= maxInt ->
    fst (runOps (ringStepW zero 0 A) ops r) = fst (runOps dequeStep ops l).
  Proof using HA.
    pose proof maxInt_val.
    induction ops as [|o ops IH]; intros r l m HR Hm Hc H10; cbn [runOps]; [reflexivity|].
    rewrite zlen_cons in Hm. pose proof (zlen_nonneg ops). pose proof (zlen_nonneg l).
    assert (HF : fits 0 A r) by (split; lia).
    destruct (stepW zero 0 A r l o HR HF ltac:(lia)) as [E|HRef].
    2:{ destruct (refused_deque zero 0 A r l o HR HRef ltac:(lia)) as (Hlt & _). lia. }
    rewrite E. destruct (step_ok zero r l o HR) as (r' & E3 & HR'). rewrite E3.
    assert (Hc' : zlen (buf r') <= Z.max 4 (2 * m)).
    { replace r' with (snd (ringStep zero o r)) by (now rewrite E3).
      destruct (step_cap zero r o) as [E4|[E4|[Ho E4]]]; rewrite E4.
      - exact Hc.
      - destruct (shrinkW zero 0 A r l HR HF ltac:(lia)) as [_ Hle]. lia.
      - destruct (growth_cap zero r) as [E5|[_ E5]]; [lia|]. specialize (E5 l HR). lia. }
    pose proof (deque_len o l) as Hd.
    specialize (IH r' _ m HR' ltac:(lia) Hc' H10).
    destruct (dequeStep o l) as [v l1]. cbn [fst snd] in *.
    destruct (runOps (ringStepW zero 0 A) ops r') as [rs ?], (runOps dequeStep ops l1) as [rs' ?].
    cbn [fst] in *. now rewrite IH.
  Qed.
End Zero.

(** The buffer that does not grow: a ring of 2^62 zero-size elements. *)
Section Lost.
  Context {T : Type} (zero : T) (A big quarter : Z).
  Hypothesis HA : 0 <= A.
  Hypothesis Hb : big = 4611686018427387904.
  Hypothesis Hq : quarter = 1152921504606846976.
  Definition bigRing : ring T := mkRing (makeSlice zero big) 0 big 0.
  Definition lostRing : ring T := mkRing (makeSlice zero quarter) 0 big big.

  Lemma big_len : zlen (makeSlice zero big) = big.
  Proof using Hb. apply zlen_make. lia. Qed.
  Lemma lost_len : zlen (makeSlice zero quarter) = quarter.
  Proof using Hq. apply zlen_make. lia. Qed.

  Lemma big_new : NewLenW zero 0 A big = Ok bigRing.
  Proof using HA Hb. unfold NewLenW. rewrite makeW_ok by lia. reflexivity. Qed.

  Lemma big_grows : checkGrowthW zero 0 A bigRing = (Ok tt, lostRing).
  Proof using HA Hb Hq.
    unfold checkGrowthW, xbind, xget. unfold bigRing at 1 2 3. cbn [len buf]. rewrite big_len, Z.eqb_refl.
    assert (Hg : grownCapW big = quarter) by (rewrite Hb, Hq; reflexivity). rewrite Hg.
    unfold moveW, refillW. rewrite makeW_ok by lia. cbn [len bigRing].
    replace (big =? 0) with false by lia. cbv iota beta.
    unfold toSliceIntoW. cbn [st len buf bigRing]. rewrite big_len.
    rewrite w_id by (unfold isInt; rewrite maxInt_val; lia).
    replace (0 + big <=? big) with true by lia. cbv iota.
    rewrite subW_ok by (rewrite ?big_len; lia).
    unfold goAppend. cbn [res inplace XRing_Model.arr]. change (zlen []) with 0.
    assert (Hsub : zlen (sub (makeSlice zero big) 0 (0 + big)) = big).
    { unfold sub, zlen. rewrite firstn_length, skipn_length. pose proof big_len as H.
      unfold zlen in H. rewrite Z.sub_0_r, Z.add_0_l. change (Z.to_nat 0) with 0%nat. lia. }
    rewrite Hsub, lost_len. replace (0 + big <=? quarter) with false by lia. reflexivity.
  Qed.

  Lemma big_append v : AppendW zero 0 A v bigRing = (Panic idx_msg, lostRing).
  Proof using HA Hb Hq.
    unfold AppendW, xbind at 1. rewrite big_grows. unfold xbind at 1, xget at 1. cbv zeta.
    cbn [st len buf lostRing]. rewrite lost_len.
    rewrite (w_id (0 + big)) by (unfold isInt; rewrite maxInt_val; lia).
    replace (0 + big >=? quarter) with true by lia.
    rewrite (w_id (0 + big - quarter)) by (unfold isInt; rewrite maxInt_val; lia).
    unfold setBuf, xbind, xget. cbn [buf lostRing].
    assert (Hz : zset (makeSlice zero quarter) (0 + big - quarter) v = None)
      by (apply zset_none; rewrite lost_len; lia).
    rewrite Hz. reflexivity.
  Qed.

  Lemma lost_at i : quarter + quarter <= i < big -> AtW i lostRing = (Panic idx_msg, lostRing).
  Proof using Hb Hq.
    intros Hi. unfold AtW, AtRefW, getBuf, xbind, xget, xret. cbn [st len buf lostRing].
    replace ((i <? 0) || (big <=? i)) with false by lia. rewrite lost_len.
    rewrite (w_id (i + 0)) by (unfold isInt; rewrite maxInt_val; lia).
    rewrite w_id by (unfold isInt; rewrite maxInt_val; lia).
    replace (i + 0 >=? quarter) with true by lia.
    assert (Hz : zget (makeSlice zero quarter) (i + 0 - quarter) = None)
      by (apply zget_none; rewrite lost_len; lia).
    cbv zeta. cbn [buf lostRing]. rewrite Hz. reflexivity.
  Qed.
  Lemma big_at i : 0 <= i < big -> AtW i bigRing = (Ok zero, bigRing).
  Proof using Hb.
    intros Hi. unfold AtW, AtRefW, getBuf, xbind, xget, xret. cbn [st len buf bigRing].
    replace ((i <? 0) || (big <=? i)) with false by lia. rewrite big_len.
    rewrite (w_id (i + 0)) by (unfold isInt; rewrite maxInt_val; lia).
    replace (i + 0 >=? big) with false by lia.
    assert (Hz : zget (makeSlice zero big) (i + 0) = Some zero).
    { rewrite (zget_at zero) by (rewrite big_len; lia). f_equal. unfold at_, makeSlice. apply nth_repeat. }
    cbv zeta. cbn [buf bigRing]. rewrite Hz. reflexivity.
  Qed.
End Lost.
