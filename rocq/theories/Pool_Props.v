(** C70, C71, C74: pools of generators, xsync.Pool, and the master generator. *)
From Coq Require Import Permutation.
From Verif Require Import Base Lin Lin_Proofs Exn Secrand_Model Secrand_Spec Secrand_Proofs Sync_Model Sync_Spec Sync_Proofs Pool_Model Pool_Spec Pool_Proofs.
Local Open Scope list_scope.

(** *** C70: at every instant of every execution, a generator is held by at most
    one goroutine, by at most one of its nested calls, and then is not in the
    pool; and a call that stops holding a generator, be it by a panic, has put
    it back. *)
Theorem C70_never_shared : forall tr c, pooling tr c ->
  (forall t u g, In g (held c t) -> In g (held c u) -> t = u) /\
  (forall t, NoDup (held c t)) /\
  (forall t g, In g (held c t) -> ~ In g (contents (shared c))).
Proof.
  intros tr c H. destruct (pooling_inv tr c H) as [H1 H2 H3 H4 H5]. split; [exact H5|]. split; [exact H3|].
  intros t g Hg. now apply (H4 t g).
Qed.
Theorem C70_put_back : forall c ev c' t g, step enter left poolStep c ev c' ->
  In g (held c t) -> ~ In g (held c' t) -> In g (contents (shared c')).
Proof. exact put_back. Qed.
Print Assumptions C70_never_shared. Print Assumptions C70_put_back.

Local Ltac run t tac before := eapply runs_snoc; [before|eapply (st_run _ _ _ _ t); [reflexivity|tac]].
Local Ltac return_ t before := eapply runs_snoc; [before|eapply (st_ret _ _ _ _ t); reflexivity].
Local Ltac call t o before := eapply runs_snoc; [before|eapply (st_inv _ _ _ _ t o); reflexivity].
(** Non-vacuity: goroutine 0 shuffles and its callback has called Int63;
    goroutine 1 got the generator that an earlier call of goroutine 1 put back. *)
Example C70_example : exists tr c, pooling tr c /\ held c 0 = [2; 1]%nat /\ held c 1 = [0]%nat.
Proof.
  eexists _, _. split.
  - run 1%nat ltac:(eapply (p_get _ _ _ _ 0%nat [] []); apply Permutation_refl) ltac:(
    call 1%nat [Draw] ltac:(
    return_ 1%nat ltac:(
    run 1%nat ltac:(apply p_put) ltac:(
    run 1%nat ltac:(apply p_draw) ltac:(
    run 0%nat ltac:(apply (p_new _ _ _ _ [] []); apply Permutation_refl) ltac:(
    run 0%nat ltac:(apply p_call) ltac:(
    run 0%nat ltac:(apply p_draw) ltac:(
    run 0%nat ltac:(apply (p_new _ _ _ _ [] []); apply Permutation_refl) ltac:(
    run 1%nat ltac:(apply (p_new _ _ _ _ [] []); apply Permutation_refl) ltac:(
    call 1%nat [Draw] ltac:(
    call 0%nat [Draw; Call [Draw]; Draw] ltac:(
    apply runs_nil)))))))))))).
  - split; reflexivity.
Qed.

(** *** C71, what holds: in every history, what Get returns was put more often
    than it was handed out since, or New made it and it never occurred before.
    With a New, Get never panics. *)
Theorem C71_provenance_partial : forall hasNew l s p, history hasNew (l ++ [HGet (Ok p)]) s ->
  (0 < available p l)%nat \/ (hasNew = true /\ ~ occurs p l).
Proof.
  intros hasNew l s p H. inversion H as [E|l0 s0 e s1 HH HS E1 E2].
  - destruct l; discriminate.
  - apply app_inj_tail in E1 as [-> ->]. destruct (history_inv hasNew l s0 HH) as [I1 I2].
    inversion HS as [|s2 x s3 HG]; subst. inversion HG as [q kept dr HP|kept dr Hn HP|kept dr Hn HP]; subst; cbn [asserted] in *.
    + left. match goal with H : Ok _ = Ok _ |- _ => injection H as H; subst q end.
      pose proof (count_perm_le _ (p :: kept) dr p HP) as HC. cbn [count_occ] in HC. destruct (Nat.eq_dec p p); [|contradiction].
      specialize (I1 p). lia.
    + right. match goal with H : Ok _ = Ok _ |- _ => injection H as H; subst p end.
      split; [reflexivity|]. intros Ho. specialize (I2 _ Ho). lia.
    + discriminate.
Qed.
Theorem C71_new_never_panics : forall l s e, history true l s -> ~ In (HGet (Panic e)) l.
Proof.
  intros l s e H. induction H as [|l s0 ev s1 HH IH HS]; [intros []|].
  intros Hin. apply in_app_or in Hin as [Hin|[->|[]]]; [auto|].
  inversion HS as [|s2 x s3 HG]; subst. inversion HG; subst; cbn in *; discriminate.
Qed.
(** *** C71 is refuted for the empty pool without New: Get panics there, and
    returns nothing. *)
Theorem C71_empty_refuted :
  (exists s e, history false [HGet (Panic e)] s) /\
  (forall r s, history false [HGet r] s -> exists e, r = Panic e).
Proof.
  split.
  - eexists _, _. apply (h_snoc false [] _ _ _ (h_nil false)). apply (ss_get false _ None). apply (sg_nil false _ [] []); [reflexivity|apply Permutation_refl].
  - intros r s H. inversion H as [|l0 s0 e s1 HH HS E1 E2]. destruct l0 as [|x [|y l0]]; [|discriminate|discriminate]. cbn in E1. injection E1 as ->.
    inversion HH as [Es|l1 s2 e1 s3 HH1 HS1 E3]; [|destruct l1; discriminate]. subst s0.
    inversion HS as [|s2 x s3 HG]; subst. inversion HG as [q kept dr HP|kept dr Hn HP|kept dr Hn HP]; subst.
    + cbn [inside_] in HP. apply Permutation_nil in HP. discriminate.
    + discriminate.
    + eexists. reflexivity.
Qed.
Print Assumptions C71_provenance_partial. Print Assumptions C71_new_never_panics. Print Assumptions C71_empty_refuted.
(** Non-vacuity: put 5, get 5, get a new one. *)
Example C71_example : exists s, history true [HPut 5; HGet (Ok 5); HGet (Ok 6)]%nat s.
Proof.
  eexists. eapply (h_snoc true [HPut 5; HGet (Ok 5)]%nat _ (HGet (Ok 6%nat))).
  - eapply (h_snoc true [HPut 5]%nat _ (HGet (Ok 5%nat))).
    + eapply (h_snoc true [] _ _ _ (h_nil true)). apply ss_put.
    + apply (ss_get true _ (Some 5%nat)). apply (sg_old true _ _ [] []). apply Permutation_refl.
  - apply (ss_get true _ (Some 6%nat)). cbn. apply (sg_new true {| inside_ := []; above := 6 |} [] []); [reflexivity|apply Permutation_refl].
Qed.

(** *** C74: whatever the schedule, the calls of NewRNG that took effect did so
    one after the other, each between its call and its return, and number [i] of
    them was seeded with piece number [i] of 32 bytes of the master's stream.
    Those that returned are among them, each once. *)
Theorem C74_secrand : forall ks nonce seed master tr c, cipher ks -> zlen nonce = 8 -> zlen seed = 32 ->
  NewRNGFromSeed ks nonce seed = Ok master ->
  execution master tr c -> (forall t o, In (EInv t o) tr -> o = newRNG ks nonce) ->
  exists order p late, linearized tr order p /\
    map snd order = map (fun i => NewRNGFromSeed ks nonce (piece ks nonce seed i)) (seq 0 (List.length order)) /\
    Permutation order (returned tr ++ late).
Proof.
  intros ks nonce seed master tr c Hks Hn Hs EN HR HO.
  destruct (sync_simulation master tr c HR) as (h & p & v & HL & HS & _).
  destruct (linearized_returned tr h p HL) as (d & _ & _ & HP).
  exists h, p, (map snd d). split; [exact HL|]. split; [|exact HP].
  destruct (seeds_sequential ks nonce seed Hks Hn Hs master h v EN HS) as (l & _ & E); [|exact E].
  intros o r Hin. destruct (proj1 (linearized_ops tr h p HL) o r Hin) as (t & Ht). now apply (HO t).
Qed.
(** ... and each of these seeds is 32 bytes, so every call succeeds. *)
Theorem C74_succeeds : forall ks nonce seed i, zlen nonce = 8 ->
  exists r, NewRNGFromSeed ks nonce (piece ks nonce seed i) = Ok r.
Proof.
  intros ks nonce seed i Hn. eexists. unfold NewRNGFromSeed, DefaultBufSize, DefaultRounds.
  apply (new_ok ks 12 nonce (Z.to_nat 1024)); [auto|exact Hn|lia|].
  unfold piece, zlen. rewrite map_length, seq_length. reflexivity.
Qed.
(** The same for the generators of xrand, for any source of numbers. *)
Theorem C74_xrand : forall M D G (int63 : M -> D * M) (make : D -> G) master tr c,
  execution master tr c -> (forall t o, In (EInv t o) tr -> o = newRng int63 make) ->
  exists order p late, linearized tr order p /\
    map snd order = map (fun i => make (drawn int63 master i)) (seq 0 (List.length order)) /\
    Permutation order (returned tr ++ late).
Proof.
  intros M D G int63 make master tr c HR HO.
  destruct (sync_simulation master tr c HR) as (h & p & v & HL & HS & _).
  destruct (linearized_returned tr h p HL) as (d & _ & _ & HP).
  exists h, p, (map snd d). split; [exact HL|]. split; [|exact HP].
  destruct (draws_sequential int63 make master h v HS) as [_ E]; [|exact E].
  intros o r Hin. destruct (proj1 (linearized_ops tr h p HL) o r Hin) as (t & Ht). now apply (HO t).
Qed.
Print Assumptions C74_secrand. Print Assumptions C74_succeeds. Print Assumptions C74_xrand.
(** Non-vacuity: two calls on a source that counts; the second to be called is the first to draw. *)
Definition counter (m : Z) : Z * Z := (m, m + 1).
Example C74_example : exists tr c, execution 10 tr c /\ (forall t o, In (EInv t o) tr -> o = newRng counter (fun d => d)) /\
  map snd (returned tr) = [10; 11].
Proof.
  eexists _, _. split; [|split].
  - return_ 0%nat ltac:(
    run 0%nat ltac:(eapply i_unlock; reflexivity) ltac:(
    run 0%nat ltac:(apply i_write) ltac:(
    run 0%nat ltac:(cbn; apply i_read) ltac:(
    run 0%nat ltac:(apply i_lockwait; reflexivity) ltac:(
    run 0%nat ltac:(cbn; apply i_lock; reflexivity) ltac:(
    return_ 1%nat ltac:(
    run 1%nat ltac:(eapply i_unlock; reflexivity) ltac:(
    run 1%nat ltac:(apply i_write) ltac:(
    run 1%nat ltac:(cbn; apply i_read) ltac:(
    run 1%nat ltac:(apply i_lockwait; reflexivity) ltac:(
    run 1%nat ltac:(cbn; apply i_lock; reflexivity) ltac:(
    call 1%nat (newRng counter (fun d => d)) ltac:(
    call 0%nat (newRng counter (fun d => d)) ltac:(
    apply runs_nil)))))))))))))).
  - intros t o Hin. cbn [app In] in Hin. repeat destruct Hin as [Hin|Hin]; congruence || destruct Hin.
  - reflexivity.
Qed.
