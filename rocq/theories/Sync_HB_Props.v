(** * C129, second part: the value of a Synchronized or RWSynchronized *)
From Coq Require Import Lia.
From Verif Require Import Base Lin HB HB_Proofs HB_Locks Sync_Model Sync_Spec Sync_Proofs Sync_HB_Model.
Local Open Scope list_scope.
Local Open Scope nat_scope.

Theorem C129_sync_same_executions {T R} (v : T) :
  (forall tr (c : state T R), detailed v tr c -> execution v (events tr) c) /\
  (forall ev (c : state T R), execution v ev c -> exists tr, events tr = ev /\ detailed v tr c).
Proof.
  split.
  - induction 1 as [|tr c t o D IH H|tr c t o k k' m' D IH H I|tr c t o k r D IH H O]; [constructor| | |];
      rewrite events_app; eapply runs_snoc; eauto; [now apply st_inv| |eapply st_ret; eauto].
    replace (events [(t, access k)]) with (@nil (event (op T R) R)) by (now destruct k).
    eapply st_run; eauto.
  - induction 1 as [|ev c e c' D (tr & <- & IH) S]; [exists []; split; [reflexivity|constructor]|].
    destruct S as [c t o H|c t o k k' sh' H I|c t o k r H O].
    + exists (tr ++ [(t, ACall o)]). split; [now rewrite events_app|now constructor].
    + exists (tr ++ [(t, access k)]). split; [|econstructor; eauto]. rewrite events_app. f_equal. now destruct k.
    + exists (tr ++ [(t, AReturn o r)]). split; [now rewrite events_app|econstructor; eauto].
Qed.
Print Assumptions C129_sync_same_executions.

Definition inOf {T} (s : object T) : HB_Locks.inside :=
  {| wr := fun l => match l with 0 => match writer (mutex s) with Some (t, true) => Some t | _ => None end | _ => None end;
     rd := fun l => match l with 0 => readers (mutex s) | _ => [] end |}.

Lemma instr_acts {T R} t (k : prog T R) s k' s' o v p : instr t k s k' s' -> Inv s v -> Thr s v t (Run o k) p ->
  acts (Op := op T R) (R := R) t (access k) (inOf s) (inOf s').
Proof.
  intros I [N E] H. destruct I as [k s W|k s W Rd|k s u W|k s W|k s W|k s|w k s]; cbn.
  - intros [|]; [rewrite W|]; auto.
  - rewrite W, Rd. split; [reflexivity|split; [reflexivity|split; [reflexivity|split; [reflexivity|]]]].
    intros [|] Hn; [contradiction|auto].
  - rewrite W in E |- *. assert (u = t) as ->.
    { inversion H as [|? ? HC| | ? b' HN HW EA EC|? l' ? ? ? EC|]; subst.
      - destruct o; discriminate.
      - rewrite W in HW. congruence.
      - destruct l'; discriminate. }
    split; [reflexivity|split; [reflexivity|split; [exact E|]]]. intros [|] Hn; [contradiction|auto].
  - rewrite W. split; [reflexivity|split; [reflexivity|split; [reflexivity|]]]. intros [|] Hn; [contradiction|auto].
  - assert (Q : match writer (mutex s) with Some (t, true) => Some t | _ => None end = None).
    { destruct (writer (mutex s)) as [[w []]|]; [|reflexivity..]. rewrite E in W. destruct W. }
    rewrite Q. split; [reflexivity|split; [reflexivity|]]. split; [|split; [|intros [|] Hn; [contradiction|auto]]].
    + intros u Hu. destruct (Nat.eq_dec u t) as [->|Hn]; [|now apply In_leave in Hu].
      exact W.
    + intros u Hn Hu. now apply In_leave.
  - split; [|auto]. inversion H as [|? ? HC| | ? b' HN HW EA EC|? l' Hin HW EA EC|]; subst.
    + destruct o; discriminate.
    + left. now rewrite HW.
    + now right.
  - split; [|intros [|]; auto]. inversion H as [|? ? HC| | ? b' HN HW EA EC|? l' Hin HW EA EC|]; subst.
    + destruct o; discriminate.
    + now rewrite HW.
    + destruct l'; discriminate.
Qed.

Lemma sync_disciplined {T R} (v : T) tr (c : state T R) : detailed v tr c -> disciplined tr (inOf (shared c)).
Proof.
  induction 1 as [|tr c t o D IH H|tr c t o k k' m' D IH H I|tr c t o k r D IH H O].
  - constructor. intros [|]; auto.
  - econstructor; [exact IH|]. cbn. auto.
  - econstructor; [exact IH|].
    destruct (sync_simulation v _ c (proj1 (C129_sync_same_executions v) _ _ D)) as (h & p & w & _ & _ & HI & HT).
    specialize (HT t). rewrite H in HT. exact (instr_acts _ _ _ _ _ _ _ _ I HI HT).
  - econstructor; [exact IH|]. cbn. auto.
Qed.

(** Any two accesses of the value through the pointers of Lock and RLock, one of
    them a write, are ordered by happens-before. *)
Theorem C129_sync_race_free {T R} (v : T) tr (c : state T R) : detailed v tr c -> raceFree tr.
Proof. intros D. apply ordered_raceFree. eapply disciplined_inv, sync_disciplined, D. Qed.
Print Assumptions C129_sync_race_free.

(** Goroutine 1 writes 7 and goroutine 2 reads it. *)
Definition writeRead : doings (op Z Z) Z :=
  let w := Exclusive (WriteValue 7%Z (Finish 0%Z)) in let r := Shared (LookAt Seen) in
  [(1, ACall w); (1, AElse); (1, ALock true 0); (2, ACall r); (1, APlain true 0); (1, AUnlock true 0);
   (2, ALock false 0); (2, APlain false 0); (2, AUnlock false 0); (2, AReturn r 7%Z)].
Example C129_sync_execution : exists c, detailed 0%Z writeRead c.
Proof.
  pose proof (d_nil (R := Z) 0%Z) as D.
  eapply (d_call _ _ _ 1 (Exclusive (WriteValue 7%Z (Finish 0%Z)))) in D; [|reflexivity].
  eapply (d_instr _ _ _ 1) in D; [|reflexivity|apply i_lock; reflexivity].
  eapply (d_instr _ _ _ 1) in D; [|reflexivity|apply i_lockwait; reflexivity].
  eapply (d_call _ _ _ 2 (Shared (LookAt Seen))) in D; [|reflexivity].
  eapply (d_instr _ _ _ 1) in D; [|reflexivity|apply i_write].
  eapply (d_instr _ _ _ 1) in D; [|reflexivity|eapply i_unlock; reflexivity].
  eapply (d_instr _ _ _ 2) in D; [|reflexivity|apply i_rlock; reflexivity].
  eapply (d_instr _ _ _ 2) in D; [|reflexivity|apply i_read].
  eapply (d_instr _ _ _ 2) in D; [|reflexivity|apply i_runlock; cbn; auto].
  eapply (d_return _ _ _ 2) in D; [|reflexivity|reflexivity].
  eexists. exact D.
Qed.
