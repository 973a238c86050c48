(** C132: words drawn from pooled generators. *)
From Coq Require Import Permutation.
From Verif Require Import Base Arr Lin Lin_Proofs Lin_Live Pool_Gen_Model Pool_Gen_Spec Pool_Gen_Proofs Pool_Gen_Live.
Local Open Scope list_scope.

(** *** However the goroutines are scheduled, what has been drawn from generator
    [g], by whomever, is the beginning of its stream: no word is delivered twice
    and none is skipped, although nothing locks a generator; and generator [g] is
    made from number [g] of the master. *)
Theorem C132_streams : forall M D G W (int63 : M -> D * M) (make : D -> G) (next : G -> W * G) m0 tr c,
  generating int63 make next m0 tr c -> (forall t b, In (EInv t b) tr -> Forall polite b) ->
  forall g, exists n, wordsOf g (drawnLog (shared c)) = map (stream int63 make next m0 g) (seq 0 n).
Proof.
  intros M D G W int63 make next m0 tr c HR HP g. pose proof (gen_inv int63 make next m0 tr c HR HP) as HI.
  destruct (Nat.lt_ge_cases g (List.length (gstates (shared c)))) as [L|L].
  - exists (List.length (wordsOf g (drawnLog (shared c)))). exact (proj2 (gi_gen _ _ _ _ _ HI g L)).
  - exists 0%nat. apply wordsOf_none. intros t w Hin. apply (gi_log _ _ _ _ _ HI) in Hin. lia.
Qed.
Print Assumptions C132_streams.

(** *** While a call has generator [g], no step of others changes [g] or draws from
    it, so the words one call draws follow each other in the stream. *)
Theorem C132_undisturbed : forall M D G W (int63 : M -> D * M) (make : D -> G) (next : G -> W * G) m0 tr c ev c' t g,
  generating int63 make next m0 tr c -> (forall t b, In (EInv t b) tr -> Forall polite b) ->
  step genter gleft (gstep int63 make next) c ev c' ->
  In g (holdings (thread c t)) -> thread c' t = thread c t ->
  nth_error (gstates (shared c')) g = nth_error (gstates (shared c)) g /\
  wordsOf g (drawnLog (shared c')) = wordsOf g (drawnLog (shared c)) /\ ~ In g (gcontents (shared c')).
Proof.
  intros M D G W int63 make next m0 tr c ev c' t g HR HP HS Hg HE. pose proof (gen_inv int63 make next m0 tr c HR HP) as HI.
  destruct (gi_owned _ _ _ _ _ HI t g Hg) as [Hlt Hout].
  destruct HS as [c u b E|c u o fs fs' p' E HS|c u o fs r E HEr]; [now auto| |now auto]. cbn [shared thread] in *.
  assert (N : t <> u).
  { intros <-. rewrite put_same, E in HE. injection HE as ->. pose proof (step_cheaper int63 make next m0 _ _ _ _ _ HS) as HC. unfold cheaper in HC. lia. }
  assert (HU : forall x, In x (holdings (thread c u)) -> x <> g) by (intros x Hx ->; exact (N (gi_one _ _ _ _ _ HI t u g Hg Hx))).
  rewrite E in HU. pose proof HS as HS'.
  inversion HS as [b fs1 p1 g1 kept dropped HPm|b fs1 p1 kept dropped HPm|b fs1 p1 HL1|b fs1 p1|m b fs1 p1|d b fs1 p1|g1 b fs1 p1 s Hs|g1 s b fs1 p1|g1 b' b fs1 p1|g1 b fs1 p1|g1 a b fs1 p1|g1 fs1 p1];
    subst; cbn [gstates drawnLog gcontents]; auto.
  - split; [reflexivity|]. split; [reflexivity|]. intros Hin. apply Hout. apply Permutation_sym in HPm. apply (Permutation_in _ HPm). right. apply in_app_iff. now left.
  - split; [reflexivity|]. split; [reflexivity|]. intros Hin. apply Hout. apply Permutation_sym in HPm. apply (Permutation_in _ HPm). apply in_app_iff. now left.
  - rewrite nth_error_app1 by exact Hlt. auto.
  - assert (Hne : g1 <> g) by (apply HU; now left).
    assert (Hl1 : (g1 < List.length (gstates (shared c)))%nat) by (apply (gi_owned _ _ _ _ _ HI u g1); rewrite E; now left).
    rewrite nth_error_upd by exact Hl1. destruct (Nat.eqb_spec g g1); [congruence|]. rewrite wordsOf_app. unfold wordsOf at 2. cbn.
    destruct (Nat.eqb_spec g1 g); [congruence|]. cbn. rewrite app_nil_r. auto.
  - split; [reflexivity|]. split; [reflexivity|]. intros [->|Hin]; [|contradiction]. apply (HU g); [now left|reflexivity].
  - split; [reflexivity|]. split; [reflexivity|]. intros [->|Hin]; [|contradiction]. apply (HU g); [now left|reflexivity].
Qed.
Print Assumptions C132_undisturbed.

(** *** All calls return, also those of callbacks, whether they behave or not. *)
Theorem C132_all_return : forall M D G W (int63 : M -> D * M) (make : D -> G) (next : G -> W * G) m0 tr c,
  generating int63 make next m0 tr c -> inevitably genter gleft (gstep int63 make next) allOutside c.
Proof. intros M D G W int63 make next m0 tr c. apply gen_all_end. Qed.
Print Assumptions C132_all_return.

(** To build executions. *)
Definition count (n : nat) : nat * nat := (n, S n).
Definition tens (d : nat) : nat := (10 * d)%nat.
Local Notation started := (generating count tens count 3%nat).
Local Ltac go := cbn; first [apply gs_lock; reflexivity|apply gs_read|apply gs_write|apply gs_unlock|apply gs_draw; reflexivity|apply gs_drawn|apply gs_call|apply gs_early|apply gs_put].
Local Ltac run t H := eapply runs_snoc in H; [|eapply (st_run _ _ _ _ t); [reflexivity|go]].
Local Ltac hit t H := eapply runs_snoc in H; [|eapply (st_run _ _ _ _ t); [reflexivity|eapply (gs_get _ _ _ _ _ _ _ _ [] []); apply Permutation_refl]].
Local Ltac miss t H := eapply runs_snoc in H; [|eapply (st_run _ _ _ _ t); [reflexivity|eapply (gs_miss _ _ _ _ _ _ _ [] []); apply Permutation_refl]].
Local Ltac invoke t o H := eapply runs_snoc in H; [|eapply (st_inv _ _ _ _ t o); reflexivity].
Local Ltac return_ t H := eapply runs_snoc in H; [|eapply (st_ret _ _ _ _ t); reflexivity].

(** Non-vacuity: goroutine 0 draws, then its callback draws from a generator of its
    own; meanwhile goroutine 1 waits for the master's lock and draws from a third. *)
Example C132_streams_case : exists tr c, started tr c /\ (forall t b, In (EInv t b) tr -> Forall polite b) /\
  drawnLog (shared c) = [(0, 0, 30); (1, 1, 40); (0, 2, 50); (0, 0, 31)]%nat /\ allOutside c.
Proof.
  assert (X : started [] (start (gstart 3%nat))) by apply runs_nil. unfold generating in X.
  invoke 0%nat [GDraw; GCall [GDraw]; GDraw] X. invoke 1%nat [GDraw] X. miss 0%nat X. miss 1%nat X.
  do 2 run 0%nat X. do 2 run 0%nat X. run 1%nat X. do 2 run 0%nat X. do 3 run 1%nat X. do 2 run 1%nat X. run 0%nat X. miss 0%nat X. do 4 run 0%nat X.
  do 2 run 0%nat X. run 0%nat X. do 2 run 0%nat X. run 0%nat X. run 1%nat X. return_ 0%nat X. return_ 1%nat X.
  eexists _, _. split; [exact X|]. split; [|split; [reflexivity|]].
  - cbn. intros t b [[= <- <-]|[[= <- <-]|[H|[H|[]]]]]; try discriminate; repeat (constructor; try constructor).
  - intros t. cbn [thread]. unfold put. destruct (Nat.eqb 1 t), (Nat.eqb 0 t); reflexivity.
Qed.

(** *** A generator must not be put back before the last draw: two goroutines get
    the same word, and the generator is in the pool twice. *)
Theorem C132_early_put : exists tr c, started tr c /\ allOutside c /\
  drawnLog (shared c) = [(0, 0, 30); (1, 0, 30)]%nat /\ gcontents (shared c) = [0; 0]%nat /\
  ~ (forall g, exists n, wordsOf g (drawnLog (shared c)) = map (stream count tens count 3%nat g) (seq 0 n)).
Proof.
  assert (X : started [] (start (gstart 3%nat))) by apply runs_nil. unfold generating in X.
  invoke 0%nat [GPut; GDraw] X. invoke 1%nat [GDraw] X. miss 0%nat X. do 4 run 0%nat X. run 0%nat X. hit 1%nat X.
  run 0%nat X. run 1%nat X. run 0%nat X. run 1%nat X. run 0%nat X. run 1%nat X. return_ 0%nat X. return_ 1%nat X.
  eexists _, _. split; [exact X|]. split; [|split; [reflexivity|split; [reflexivity|]]].
  - intros t. cbn [thread]. unfold put. destruct (Nat.eqb 1 t), (Nat.eqb 0 t); reflexivity.
  - intros H. destruct (H 0%nat) as (n & E). cbn in E. destruct n as [|[|n]]; cbn in E; discriminate.
Qed.
Print Assumptions C132_early_put.
