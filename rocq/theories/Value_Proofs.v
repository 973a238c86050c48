(** Proofs about atomic.Value. *)
From Verif Require Import Base Lin Lin_Proofs Value_Model Value_Spec.
Local Open Scope list_scope.

Section Proofs.
  Context {T : Type} (zero : T) (eqb : T -> T -> bool).

  Notation cell m l := (nth_error (heap m) l).

  (** The value a pointer stands for. *)
  Definition pointsTo (m : memory T) (p : option nat) (v : T) : Prop :=
    match p with None => v = zero | Some l => cell m l = Some v end.
  Definition Inv (m : memory T) (v : T) : Prop := pointsTo m (ptr m) v.

  (** Program points and phases of a goroutine. *)
  Inductive Thr (m : memory T) (s : T) (t : nat) : tstate (op T) (prog T) -> phase (op T) (res T) -> Prop :=
  | T_idle : Thr m s t Idle PIdle
  | T_start o : Thr m s t (Run o (code zero eqb o)) (PPending o)
  | T_done o r : Thr m s t (Run o (Ret r)) (PDone o r)
  | T_deref o l v : cell m l = Some v -> Thr m s t (Run o (Deref l (fun v => Ret (RVal v)))) (PDone o (RVal v))
  | T_store x l : cell m l = Some x -> Thr m s t (Run (Store x) (StorePointer l (Ret RUnit))) (PPending (Store x))
  | T_swap x l : cell m l = Some x -> Thr m s t (Run (Swap x) (SwapPointer l (fun p =>
      match p with None => Ret (RVal zero) | Some l' => Deref l' (fun v => Ret (RVal v)) end))) (PPending (Swap x))
  | T_casd_no old new l v : cell m l = Some v -> eqb v old = false ->
      Thr m s t (Run (CompareAndSwap old new) (Deref l (fun v => if negb (eqb v old) then Ret (RBool false) else replace eqb old new (Some l))))
        (PPending (CompareAndSwap old new))
  | T_casd_same old new l v : cell m l = Some v -> eqb v old = true -> eqb new old = true ->
      Thr m s t (Run (CompareAndSwap old new) (Deref l (fun v => if negb (eqb v old) then Ret (RBool false) else replace eqb old new (Some l))))
        (PDone (CompareAndSwap old new) (RBool true))
  | T_casd old new l v : cell m l = Some v -> eqb v old = true -> eqb new old = false ->
      Thr m s t (Run (CompareAndSwap old new) (Deref l (fun v => if negb (eqb v old) then Ret (RBool false) else replace eqb old new (Some l))))
        (PPending (CompareAndSwap old new))
  | T_cnew old new p v : pointsTo m p v -> eqb v old = true -> eqb new old = false ->
      Thr m s t (Run (CompareAndSwap old new) (New new (fun l => CompareAndSwapPointer p l (fun b => Ret (RBool b)))))
        (PPending (CompareAndSwap old new))
  | T_cas old new p v l : pointsTo m p v -> eqb v old = true -> eqb new old = false -> cell m l = Some new ->
      Thr m s t (Run (CompareAndSwap old new) (CompareAndSwapPointer p l (fun b => Ret (RBool b))))
        (PPending (CompareAndSwap old new)).

  Lemma cell_grow (m : memory T) x l v : cell m l = Some v -> nth_error (heap m ++ [x]) l = Some v.
  Proof. intros H. rewrite nth_error_app1; [exact H|]. apply nth_error_Some. congruence. Qed.

  Lemma Thr_mono m m' s s' t ts p : (forall l v, cell m l = Some v -> cell m' l = Some v) -> Thr m s t ts p -> Thr m' s' t ts p.
  Proof.
    intros HM H. assert (HP : forall q v, pointsTo m q v -> pointsTo m' q v) by (intros [l|] v; cbn; auto).
    destruct H; try (econstructor; eauto; fail).
  Qed.

  Ltac eqs := repeat match goal with H : eqb _ _ = _ |- _ => rewrite H end; cbn [negb].

  Lemma thr_step m s t o k p k' m' : Inv m s -> Thr m s t (Run o k) p -> instr t k m k' m' ->
    exists s' p', Inv m' s' /\ Thr m' s' t (Run o k') p' /\
      ((s' = s /\ p' = p) \/ (exists r, p = PPending o /\ register eqb s o r s' /\ p' = PDone o r)) /\
      (forall u ts pu, u <> t -> Thr m s u ts pu -> Thr m' s' u ts pu).
  Proof.
    intros HI HT HS.
    assert (HM : forall l v, cell m l = Some v -> cell m' l = Some v).
    { intros l v H. inversion HS; subst; cbn [heap]; auto. now apply cell_grow. }
    assert (HO : forall s' u ts pu, u <> t -> Thr m s u ts pu -> Thr m' s' u ts pu) by (intros; eapply Thr_mono; eauto).
    cut (exists s' p', Inv m' s' /\ Thr m' s' t (Run o k') p' /\
      ((s' = s /\ p' = p) \/ (exists r, p = PPending o /\ register eqb s o r s' /\ p' = PDone o r))).
    { intros (s' & p' & H1 & H2 & H3). exists s', p'. auto. }
    clear HO. inversion HT; subst; clear HT.
    - (* start *)
      destruct o as [|x|x|old new]; cbn [code] in HS; inversion HS; subst; clear HS.
      + unfold Inv in HI. destruct (ptr m') as [l|] eqn:EP; cbn in HI.
        * exists s, (PDone Load (RVal s)). unfold Inv. rewrite EP. split; [exact HI|]. split; [now apply T_deref|].
          right. exists (RVal s). repeat split. constructor.
        * subst s. exists zero, (PDone Load (RVal zero)). unfold Inv. rewrite EP. split; [reflexivity|]. split; [apply T_done|].
          right. exists (RVal zero). repeat split. constructor.
      + exists s, (PPending (Store x)). split; [|split; [|now left]].
        * unfold Inv, pointsTo in *. cbn [ptr]. destruct (ptr m); auto.
        * apply T_store. cbn [heap]. rewrite nth_error_app2, Nat.sub_diag by lia. reflexivity.
      + exists s, (PPending (Swap x)). split; [|split; [|now left]].
        * unfold Inv, pointsTo in *. cbn [ptr]. destruct (ptr m); auto.
        * apply T_swap. cbn [heap]. rewrite nth_error_app2, Nat.sub_diag by lia. reflexivity.
      + pose proof HI as HI2. unfold Inv in HI2. destruct (ptr m') as [l|] eqn:EP; cbn in HI2.
        * destruct (eqb s old) eqn:E1; [destruct (eqb new old) eqn:E2|].
          -- exists s, (PDone (CompareAndSwap old new) (RBool true)). split; [exact HI|]. split; [now apply T_casd_same with s|].
             right. eexists. repeat split. now apply r_cas_same.
          -- exists s, (PPending (CompareAndSwap old new)). split; [exact HI|]. split; [now apply T_casd with s|now left].
          -- exists s, (PPending (CompareAndSwap old new)). split; [exact HI|]. split; [now apply T_casd_no with s|now left].
        * subst s. unfold replace. destruct (eqb zero old) eqn:E1; cbn [negb]; [destruct (eqb new old) eqn:E2|].
          -- exists zero, (PDone (CompareAndSwap old new) (RBool true)). split; [exact HI|]. split; [apply T_done|].
             right. eexists. repeat split. now apply r_cas_same.
          -- exists zero, (PPending (CompareAndSwap old new)). split; [exact HI|]. split; [now apply T_cnew with zero|now left].
          -- exists zero, (PDone (CompareAndSwap old new) (RBool false)). split; [exact HI|]. split; [apply T_done|].
             right. eexists. repeat split. now apply r_cas_fail.
    - inversion HS.
    - (* Deref of Load, Swap *) inversion HS; subst. exists s, (PDone o (RVal v)). split; [exact HI|]. split; [|now left].
      assert (v0 = v) by congruence. subst. apply T_done.
    - (* Store *) inversion HS; subst. exists x, (PDone (Store x) RUnit). split; [assumption|]. split; [apply T_done|].
      right. eexists. repeat split. constructor.
    - (* Swap *) inversion HS; subst. exists x, (PDone (Swap x) (RVal s)). split; [assumption|]. split.
      + unfold Inv in HI. destruct (ptr m) as [l'|]; cbn in HI.
        * now apply T_deref.
        * subst s. apply T_done.
      + right. eexists. repeat split. constructor.
    - inversion HS; subst. assert (v0 = v) by congruence. subst. eqs.
      exists s, (PDone (CompareAndSwap old new) (RBool false)). split; [exact HI|]. split; [apply T_done|].
      right. eexists. repeat split. apply r_cas_fail.
    - inversion HS; subst. assert (v0 = v) by congruence. subst. unfold replace. eqs.
      exists s, (PDone (CompareAndSwap old new) (RBool true)). split; [exact HI|]. split; [apply T_done|now left].
    - inversion HS; subst. assert (v0 = v) by congruence. subst. unfold replace. eqs.
      exists s, (PPending (CompareAndSwap old new)). split; [exact HI|]. split; [|now left]. now apply T_cnew with v.
    - inversion HS; subst. exists s, (PPending (CompareAndSwap old new)). split; [|split; [|now left]].
      * unfold Inv, pointsTo in *. cbn [ptr]. destruct (ptr m); auto.
      * apply T_cas with v; [|assumption|assumption|].
        -- unfold pointsTo in *. destruct p0; auto.
        -- cbn [heap]. rewrite nth_error_app2, Nat.sub_diag by lia. reflexivity.
    - inversion HS; subst.
      + exists new, (PDone (CompareAndSwap old new) (RBool true)). split; [assumption|]. split; [apply T_done|].
        assert (s = v). { unfold Inv, pointsTo in *. destruct (ptr m); congruence. } subst s.
        right. eexists. repeat split. now apply r_cas_new.
      + exists s, (PDone (CompareAndSwap old new) (RBool false)). split; [exact HI|]. split; [apply T_done|].
        right. eexists. repeat split. apply r_cas_fail.
  Qed.

  Lemma thr_ret m s t o k p r : Inv m s -> Thr m s t (Run o k) p -> over k = Some r -> p = PDone o r /\ Thr m s t Idle PIdle.
  Proof.
    intros _ HT HO. split; [|constructor]. inversion HT; subst; try discriminate.
    - destruct o; discriminate.
    - cbn in HO. congruence.
  Qed.

  Lemma value_simulation m v tr c : Inv m v -> execution zero eqb m tr c ->
    exists h p s, linearized tr h p /\ sequential (register eqb) v h s /\ Inv (shared c) s /\ forall t, Thr (shared c) s t (thread c t) (p t).
  Proof.
    intros HI. apply (simulation (code zero eqb) over instr (register eqb) m v Inv Thr).
    - exact HI.
    - intros. constructor.
    - intros m' s t p H. now inversion H.
    - intros. constructor.
    - intros. eapply thr_ret; eauto.
    - intros. eapply thr_step; eauto.
  Qed.

  Lemma register_exact v o r v' : identity eqb -> register eqb v o r v' -> exactRegister v o r v'.
  Proof.
    intros HE H. inversion H; subst; try constructor.
    - apply HE in H0. subst. constructor.
    - apply HE in H0, H1. subst. constructor.
  Qed.
  Lemma sequential_exact h v s : identity eqb -> sequential (register eqb) v h s -> sequential exactRegister v h s.
  Proof. intros HE. induction 1; econstructor; eauto. now apply register_exact. Qed.

  (** ** Failing CompareAndSwap *)
  Definition reachable (m : memory T) (c : state T) : Prop := exists tr, execution zero eqb m tr c.

  Lemma value_inv (c : state T) s : Inv (shared c) s -> value zero c = Some s.
  Proof. unfold Inv, value, pointsTo. destruct (ptr (shared c)); congruence. Qed.

  (** Where a CompareAndSwap call is while the pointer is still the one it read. *)
  Inductive onTrack (old new : T) (p : option nat) : prog T -> Prop :=
  | ot_start : onTrack old new p (compareAndSwap zero eqb old new)
  | ot_deref l : p = Some l -> onTrack old new p (Deref l (fun v => if negb (eqb v old) then Ret (RBool false) else replace eqb old new (Some l)))
  | ot_new : onTrack old new p (New new (fun l => CompareAndSwapPointer p l (fun b => Ret (RBool b))))
  | ot_cas l : onTrack old new p (CompareAndSwapPointer p l (fun b => Ret (RBool b)))
  | ot_true : onTrack old new p (Ret (RBool true)).

  Definition quiet (old : T) (c : state T) : Prop :=
    value zero c = Some old /\ forall u, ~ within c u (Store old) /\ ~ within c u (Swap old).


  Lemma ptr_quiet m v old (c c' : state T) ev : identity eqb -> Inv m v -> reachable m c -> quiet old c ->
    step (code zero eqb) over instr c ev c' -> quiet old c' -> ptr (shared c') = ptr (shared c).
  Proof.
    intros HE HI (tr & HR) [HV HQ] HS [HV' _].
    destruct (value_simulation m v tr c HI HR) as (h & p & s & _ & _ & HIc & HT).
    assert (s = old) by (apply value_inv in HIc; congruence). subst s.
    inversion HS as [c1 t o E|c1 t o k k' sh' E E2|c1 t o k r E E2]; subst; cbn [shared]; try reflexivity.
    specialize (HT t). rewrite E in HT. inversion HT; subst; inversion E2; subst; cbn [ptr]; try reflexivity;
      try (destruct o; discriminate).
    - exfalso. unfold value in HV'. cbn [shared ptr heap] in HV'. replace x with old in E by congruence. apply (proj1 (HQ t)). eexists; eauto.
    - exfalso. unfold value in HV'. cbn [shared ptr heap] in HV'. replace x with old in E by congruence. apply (proj2 (HQ t)). eexists; eauto.
    - exfalso. unfold value in HV'. cbn [shared ptr heap] in HV'.
      assert (v0 = old). { unfold Inv, pointsTo in *. destruct (ptr (shared c)); congruence. }
      assert (v0 = old0) by now apply HE. assert (En : new = old0) by congruence. apply HE in En. congruence.
  Qed.

  (** Over a quiet stretch, a CompareAndSwap of the value held does not fail. *)
  Lemma on_track m v old new t c1 c2 : identity eqb -> Inv m v -> reachable m c1 ->
    called zero eqb c1 t (CompareAndSwap old new) -> stretch zero eqb (quiet old) c1 c2 ->
    quiet old c2 /\ reachable m c2 /\
    forall k, thread c2 t = Run (CompareAndSwap old new) k -> onTrack old new (ptr (shared c2)) k.
  Proof.
    intros HE HI HR HC. induction 1 as [HQ|c ev c' HSP IH HS HQ'].
    - split; [exact HQ|]. split; [exact HR|]. intros k E. unfold called in HC. rewrite HC in E. injection E as <-. constructor.
    - destruct IH as (HQ & HRc & IH). split; [exact HQ'|]. pose proof HRc as (tr & HRt). split; [exists (tr ++ ev); econstructor; eauto|].
      rewrite (ptr_quiet m v old c c' ev) by assumption. intros k Ek.
      assert (HVo : Inv (shared c) old).
      { destruct (value_simulation m v tr c HI HRt) as (h & p & s & _ & _ & HIc & _). destruct HQ as [HV _].
        rewrite (value_inv _ _ HIc) in HV. congruence. }
      pose proof (proj2 (HE old old) eq_refl) as Eo.
      inversion HS as [c0 u o E|c0 u o k0 k' sh' E E2|c0 u o k0 r E E2]; subst; cbn [thread] in Ek;
        (destruct (Nat.eq_dec u t) as [->|N]; [rewrite put_same in Ek|rewrite put_other in Ek by exact N; now apply IH]).
      + injection Ek as -> <-. constructor.
      + injection Ek as -> <-. specialize (IH _ E). inversion IH; subst; inversion E2; subst.
        * unfold Inv in HVo. destruct (ptr (shared c)) as [l|]; cbn in HVo.
          -- now constructor.
          -- subst old. rewrite Eo. cbn [negb]. unfold replace. destruct (eqb new zero); constructor.
        * unfold Inv in HVo. rewrite H in HVo. cbn in HVo. assert (v0 = old) by congruence. subst v0. rewrite Eo. cbn [negb].
          unfold replace. rewrite H. destruct (eqb new old); constructor.
        * constructor.
        * constructor.
        * congruence.
      + discriminate.
  Qed.

  Lemma ptr_change m v old (c c' : state T) ev : identity eqb -> Inv m v -> reachable m c ->
    value zero c = Some old -> step (code zero eqb) over instr c ev c' -> value zero c' = Some old ->
    ptr (shared c') = ptr (shared c) \/ exists u, writes zero eqb c c' u old.
  Proof.
    intros HE HI (tr & HR) HV HS HV'.
    assert (D : ptr (shared c') = ptr (shared c) \/ ptr (shared c') <> ptr (shared c))
      by (destruct (ptr (shared c')) as [a|], (ptr (shared c)) as [b|]; [destruct (Nat.eq_dec a b); [left|right]; congruence|now right|now right|now left]).
    destruct D as [D|D]; [now left|right].
    destruct (value_simulation m v tr c HI HR) as (h & p & s & _ & _ & HIc & HT).
    assert (s = old) by (apply value_inv in HIc; congruence). subst s.
    pose proof HS as HS0.
    inversion HS as [c1 t o E|c1 t o k k' sh' E E2|c1 t o k r E E2]; subst; cbn [shared] in D; try congruence.
    exists t. unfold writes.
    assert (HN : forall k0, k0 <> k -> put (thread c) t (Run o k0) t <> thread c t) by (intros k0 H; rewrite put_same, E; congruence).
    specialize (HT t). rewrite E in HT. inversion HT; subst; inversion E2; subst; cbn [ptr] in D; try congruence;
      try (destruct o; discriminate).
    - unfold value in HV'. cbn [shared ptr heap] in HV'. assert (x = old) by congruence. subst x.
      split; [left; eexists; eauto|]. split; [exact HS0|]. split; [apply HN; discriminate|exact D].
    - unfold value in HV'. cbn [shared ptr heap] in HV'. assert (x = old) by congruence. subst x.
      split; [right; eexists; eauto|]. split; [exact HS0|]. split; [apply HN; destruct (ptr (shared c)); discriminate|exact D].
    - exfalso. unfold value in HV'. cbn [shared ptr heap] in HV'.
      assert (v0 = old). { unfold Inv, pointsTo in *. destruct (ptr (shared c)); congruence. }
      assert (v0 = old0) by now apply HE. assert (En : new = old0) by congruence. apply HE in En. congruence.
  Qed.

  (** A CompareAndSwap of the value held is on track until somebody writes that value again. *)
  Lemma on_track_or_written m v old new t c1 c2 : identity eqb -> Inv m v -> reachable m c1 ->
    called zero eqb c1 t (CompareAndSwap old new) ->
    let P := fun c => value zero c = Some old /\ within c t (CompareAndSwap old new) in
    stretch zero eqb P c1 c2 ->
    P c2 /\ reachable m c2 /\
    ((forall k, thread c2 t = Run (CompareAndSwap old new) k -> onTrack old new (ptr (shared c2)) k) \/
     exists ca cb u, stretch zero eqb P c1 ca /\ writes zero eqb ca cb u old /\ stretch zero eqb P cb c2).
  Proof.
    intros HE HI HR HC P. induction 1 as [HP|c ev c' HSP IH HS HP'].
    - split; [exact HP|]. split; [exact HR|]. left. intros k E. unfold called in HC. rewrite HC in E. injection E as <-. constructor.
    - destruct IH as (HP & HRc & IH). split; [exact HP'|]. pose proof HRc as (tr & HRt). split; [exists (tr ++ ev); econstructor; eauto|].
      destruct IH as [IH|(ca & cb & u & H1 & H2 & H3)];
        [|right; exists ca, cb, u; split; [exact H1|]; split; [exact H2|]; econstructor; eauto].
      destruct (ptr_change m v old c c' ev HE HI HRc (proj1 HP) HS (proj1 HP')) as [EQ|(u & HW)];
        [|right; exists c, c', u; split; [exact HSP|]; split; [exact HW|]; constructor; exact HP'].
      left. rewrite EQ. intros k Ek.
      assert (HVo : Inv (shared c) old).
      { destruct (value_simulation m v tr c HI HRt) as (h & p & s & _ & _ & HIc & _). destruct HP as [HV _].
        rewrite (value_inv _ _ HIc) in HV. congruence. }
      pose proof (proj2 (HE old old) eq_refl) as Eo.
      inversion HS as [c0 u o E|c0 u o k0 k' sh' E E2|c0 u o k0 r E E2]; subst; cbn [thread] in Ek;
        (destruct (Nat.eq_dec u t) as [->|N]; [rewrite put_same in Ek|rewrite put_other in Ek by exact N; now apply IH]).
      + injection Ek as -> <-. constructor.
      + injection Ek as -> <-. specialize (IH _ E). inversion IH; subst; inversion E2; subst.
        * unfold Inv in HVo. destruct (ptr (shared c)) as [l|]; cbn in HVo.
          -- now constructor.
          -- subst old. rewrite Eo. cbn [negb]. unfold replace. destruct (eqb new zero); constructor.
        * unfold Inv in HVo. rewrite H in HVo. cbn in HVo. assert (v0 = old) by congruence. subst v0. rewrite Eo. cbn [negb].
          unfold replace. rewrite H. destruct (eqb new old); constructor.
        * constructor.
        * constructor.
        * congruence.
      + discriminate.
  Qed.

  Lemma never_stuck m v tr c t o k : Inv m v -> execution zero eqb m tr c -> thread c t = Run o k -> over k = None ->
    exists k' m', instr t k (shared c) k' m'.
  Proof.
    intros HI HR E HO. destruct (value_simulation m v tr c HI HR) as (h & p & s & _ & _ & HIc & HT).
    specialize (HT t). rewrite E in HT. inversion HT; subst; try discriminate HO.
    - destruct o; eexists; eexists; constructor.
    - eexists; eexists; econstructor; eassumption.
    - eexists; eexists; constructor.
    - eexists; eexists; constructor.
    - eexists; eexists; econstructor; eassumption.
    - eexists; eexists; econstructor; eassumption.
    - eexists; eexists; econstructor; eassumption.
    - eexists; eexists; constructor.
    - assert (D : ptr (shared c) = p0 \/ ptr (shared c) <> p0) by (destruct (ptr (shared c)) as [a|], p0 as [b|]; [destruct (Nat.eq_dec a b); [left|right]; congruence|now right|now right|now left]).
      destruct D; eexists; eexists; econstructor; eassumption.
  Qed.

  Lemma over_within t o : overWithin 4 t (code zero eqb o).
  Proof.
    destruct o as [|x|x|old new]; right; intros m k1 m1 H1; inversion H1; subst; clear H1.
    - destruct (ptr m1); [|left; cbn; eauto]. right. intros m k2 m2 H2. inversion H2; subst. left. cbn. eauto.
    - right. intros m2 k2 m3 H2. inversion H2; subst. left. cbn. eauto.
    - right. intros m2 k2 m3 H2. inversion H2; subst. destruct (ptr m2); [|left; cbn; eauto].
      right. intros m3 k3 m4 H3. inversion H3; subst. left. cbn. eauto.
    - destruct (ptr m1).
      + right. intros m2 k2 m3 H2. inversion H2; subst. destruct (negb _); [left; cbn; eauto|].
        unfold replace. destruct (eqb new old); [left; cbn; eauto|].
        right. intros m4 k4 m5 H4. inversion H4; subst. right. intros m6 k6 m7 H6. inversion H6; subst; left; cbn; eauto.
      + destruct (negb _); [left; cbn; eauto|].
        unfold replace. destruct (eqb new old); [left; cbn; eauto|].
        right. intros m4 k4 m5 H4. inversion H4; subst. right. intros m6 k6 m7 H6. inversion H6; subst; left; cbn; eauto.
  Qed.
End Proofs.
