(** Executions that keep to a locking discipline have no data race in the sense of
    happens-before. *)
From Coq Require Import Lia.
From Verif Require Import Base Lin HB HB_Proofs.
Local Open Scope list_scope.
Local Open Scope nat_scope.

Section Locks.
  Context {Op R : Type}.
  Notation doings := (doings Op R).

  (** Who is in for writing and who is in for reading. *)
  Record inside : Type := { wr : nat -> option nat; rd : nat -> list nat }.

  (** What one act needs and does; [In]-equality of readers suffices. *)
  Definition acts (t : nat) (a : act Op R) (L L' : inside) : Prop :=
    match a with
    | ALock true s => wr L s = None /\ rd L s = [] /\ wr L' s = Some t /\ rd L' s = [] /\
        forall s', s' <> s -> wr L' s' = wr L s' /\ rd L' s' = rd L s'
    | AUnlock true s => wr L s = Some t /\ wr L' s = None /\ rd L' s = [] /\
        forall s', s' <> s -> wr L' s' = wr L s' /\ rd L' s' = rd L s'
    | ALock false s => wr L s = None /\ wr L' s = None /\ rd L' s = t :: rd L s /\
        forall s', s' <> s -> wr L' s' = wr L s' /\ rd L' s' = rd L s'
    | AUnlock false s => wr L s = None /\ wr L' s = None /\
        (forall u, In u (rd L' s) -> In u (rd L s)) /\ (forall u, u <> t -> In u (rd L s) -> In u (rd L' s)) /\
        forall s', s' <> s -> wr L' s' = wr L s' /\ rd L' s' = rd L s'
    | APlain true s => wr L s = Some t /\ forall s', wr L' s' = wr L s' /\ rd L' s' = rd L s'
    | APlain false s => (wr L s = Some t \/ In t (rd L s)) /\ forall s', wr L' s' = wr L s' /\ rd L' s' = rd L s'
    | _ => forall s', wr L' s' = wr L s' /\ rd L' s' = rd L s'
    end.

  Inductive disciplined : doings -> inside -> Prop :=
  | disc_nil L : (forall s, wr L s = None /\ rd L s = []) -> disciplined [] L
  | disc_act tr L t a L' : disciplined tr L -> acts t a L L' -> disciplined (tr ++ [(t, a)]) L'.

  Definition relAny (tr : doings) (s i : nat) : Prop := exists j v x, does tr j v (AUnlock x s) /\ hb tr i j.
  Definition relExcl (tr : doings) (s i : nat) : Prop := exists j v, does tr j v (AUnlock true s) /\ hb tr i j.
  Lemma relAny_app tr e s i : relAny tr s i -> relAny (tr ++ [e]) s i.
  Proof. intros (j & v & x & H1 & H2). exists j, v, x. auto using does_app, hb_app. Qed.
  Lemma relExcl_app tr e s i : relExcl tr s i -> relExcl (tr ++ [e]) s i.
  Proof. intros (j & v & H1 & H2). exists j, v. auto using does_app, hb_app. Qed.
  Lemma relExcl_any tr s i : relExcl tr s i -> relAny tr s i.
  Proof. intros (j & v & H). exists j, v, true. exact H. Qed.

  Lemma acquire (tr : doings) t y s j v x i : does tr j v (AUnlock x s) -> hb tr i j -> x = true \/ y = true ->
    sees (tr ++ [(t, ALock y s)]) t i.
  Proof.
    intros D H C. exists (List.length tr), (ALock y s). split; [apply does_last|]. right.
    apply hb_trans with j; [apply hb_app, H|]. apply hb_sync; [eapply does_lt, D|right].
    exists s, x, y, v, t. split; [apply does_app, D|]. split; [apply does_last|exact C].
  Qed.

  (** What is known of one earlier access [i] of [s] by [t]. *)
  Record known (tr : doings) (L : inside) (i t : nat) (b : bool) (s : nat) : Prop := {
    k_writer : forall u, wr L s = Some u -> sees tr u i;
    k_left : wr L s = None -> In t (rd L s) \/ relAny tr s i;
    k_excl : b = true -> wr L s = None -> relExcl tr s i;
    k_reader : forall r, b = true -> In r (rd L s) -> sees tr r i }.

  Lemma known_same (tr : doings) L L' e i t b s : known tr L i t b s -> wr L' s = wr L s -> rd L' s = rd L s ->
    known (tr ++ [e]) L' i t b s.
  Proof.
    intros [A B C D] E1 E2. split; rewrite ?E1, ?E2.
    - intros u H. apply sees_app, A, H.
    - intros H. destruct (B H); [auto|right; now apply relAny_app].
    - intros H1 H2. apply relExcl_app; auto.
    - intros r H1 H2. apply sees_app; auto.
  Qed.

  Lemma known_act (tr : doings) L L' u a i t b s : acts u a L L' -> does tr i t (APlain b s) ->
    (forall s, wr L s <> None -> rd L s = []) ->
    known tr L i t b s -> known (tr ++ [(u, a)]) L' i t b s.
  Proof.
    intros A D X Kn. destruct a as [o|o r|w l|r w|[] l|[] l|]; cbn in A.
    - eapply known_same; [exact Kn|apply A..].
    - eapply known_same; [exact Kn|apply A..].
    - assert (A' : forall s', wr L' s' = wr L s' /\ rd L' s' = rd L s') by (destruct w; apply A).
      eapply known_same; [exact Kn|apply A'..].
    - eapply known_same; [exact Kn|apply A..].
    - destruct A as (W & N & W' & N' & A). destruct (Nat.eq_dec s l) as [->|Hn]; [|apply A in Hn; eapply known_same; [exact Kn|apply Hn..]].
      split; rewrite ?W', ?N'; try discriminate; [|intros r _ []].
      intros v [= <-]. destruct (k_left _ _ _ _ _ _ Kn W) as [Hin|(j & v & x & D1 & H1)]; [rewrite N in Hin; destruct Hin|].
      eapply acquire; eauto.
    - destruct A as (W & W' & N' & A). destruct (Nat.eq_dec s l) as [->|Hn]; [|apply A in Hn; eapply known_same; [exact Kn|apply Hn..]].
      split; rewrite ?W', ?N'; try discriminate.
      + intros _. destruct (k_left _ _ _ _ _ _ Kn W) as [Hin|H]; [left; right; exact Hin|right; now apply relAny_app].
      + intros Hb _. apply relExcl_app. exact (k_excl _ _ _ _ _ _ Kn Hb W).
      + intros r Hb [<-|Hin]; [|apply sees_app; exact (k_reader _ _ _ _ _ _ Kn r Hb Hin)].
        destruct (k_excl _ _ _ _ _ _ Kn Hb W) as (j & v & D1 & H1). eapply acquire; eauto.
    - destruct A as (W & W' & N' & A). destruct (Nat.eq_dec s l) as [->|Hn]; [|apply A in Hn; eapply known_same; [exact Kn|apply Hn..]].
      assert (E : relExcl (tr ++ [(u, AUnlock true l)]) l i).
      { exists (List.length tr), u. split; [apply does_last|]. apply sees_hb. exact (k_writer _ _ _ _ _ _ Kn _ W). }
      split; rewrite ?W', ?N'; try discriminate; auto using relExcl_any. intros r _ [].
    - destruct A as (W & W' & N1 & N2 & A). destruct (Nat.eq_dec s l) as [->|Hn]; [|apply A in Hn; eapply known_same; [exact Kn|apply Hn..]].
      split; rewrite ?W'; try discriminate.
      + intros _. destruct (k_left _ _ _ _ _ _ Kn W) as [Hin|H]; [|right; now apply relAny_app].
        destruct (Nat.eq_dec t u) as [->|Ht]; [right|left; now apply N2].
        exists (List.length tr), u, false. split; [apply does_last|]. apply sees_hb, (sees_own _ _ _ _ D).
      + intros Hb _. apply relExcl_app. exact (k_excl _ _ _ _ _ _ Kn Hb W).
      + intros r Hb Hin. apply sees_app. exact (k_reader _ _ _ _ _ _ Kn r Hb (N1 _ Hin)).
    - eapply known_same; [exact Kn|apply A..].
  Qed.

  Lemma excl_act u (a : act Op R) L L' : acts u a L L' -> (forall s, wr L s <> None -> rd L s = []) ->
    forall s, wr L' s <> None -> rd L' s = [].
  Proof.
    intros A X s. destruct a as [o|o r|w l|r w|[] l|[] l|]; cbn in A.
    - destruct (A s) as [-> ->]. apply X.
    - destruct (A s) as [-> ->]. apply X.
    - assert (A' : forall s', wr L' s' = wr L s' /\ rd L' s' = rd L s') by (destruct w; apply A).
      destruct (A' s) as [-> ->]. apply X.
    - destruct (A s) as [-> ->]. apply X.
    - destruct A as (W & N & W' & N' & A). destruct (Nat.eq_dec s l) as [->|Hn]; [auto|]. destruct (A s Hn) as [-> ->]. apply X.
    - destruct A as (W & W' & N' & A). destruct (Nat.eq_dec s l) as [->|Hn]; [tauto|]. destruct (A s Hn) as [-> ->]. apply X.
    - destruct A as (W & W' & N' & A). destruct (Nat.eq_dec s l) as [->|Hn]; [tauto|]. destruct (A s Hn) as [-> ->]. apply X.
    - destruct A as (W & W' & N1 & N2 & A). destruct (Nat.eq_dec s l) as [->|Hn]; [tauto|]. destruct (A s Hn) as [-> ->]. apply X.
    - destruct (A s) as [-> ->]. apply X.
  Qed.

  Lemma known_own (tr : doings) L t b s : wr L s = Some t \/ (b = false /\ In t (rd L s)) -> (forall s, wr L s <> None -> rd L s = []) ->
    known (tr ++ [(t, APlain b s)]) L (List.length tr) t b s.
  Proof.
    intros W X. assert (S : sees (tr ++ [(t, APlain b s)]) t (List.length tr)) by eapply sees_own, does_last.
    destruct W as [W|[-> W]].
    - assert (N : rd L s = []) by (apply X; congruence). split; rewrite ?W, ?N; try discriminate; [congruence|intros r _ []].
    - split; try discriminate; [|auto]. intros u E. rewrite (X s) in W by congruence. destruct W.
  Qed.

  (** Every access happens after the earlier ones that it conflicts with. *)
  Definition ordered (tr : doings) : Prop := forall i j, conflict tr i j -> i < j -> hb tr i j.

  Lemma disciplined_inv tr L : disciplined tr L ->
    (forall s, wr L s <> None -> rd L s = []) /\
    (forall i t b s, does tr i t (APlain b s) -> known tr L i t b s) /\ ordered tr.
  Proof.
    induction 1 as [L E|tr L u a L' H (X & Kn & O) A].
    - split; [intros s _; apply E|]. split; [intros [|] ? ? ?; discriminate|].
      intros i j (t & ? & ? & ? & ? & D & _). destruct i; discriminate.
    - assert (X' := excl_act _ _ _ _ A X). split; [exact X'|]. split.
      + intros i t b s D. apply does_app_inv in D. destruct D as [D|[-> E]].
        * eapply known_act; eauto.
        * injection E as <- ->. apply known_own; [|exact X'].
          destruct b; cbn in A; destruct A as [A A']; destruct (A' s) as [-> ->]; tauto.
      + intros i j (t & v & b & b' & s & D1 & D2 & C) Lt.
        apply does_app_inv in D2. destruct D2 as [D2|[-> E]].
        * apply hb_app, O; [|exact Lt]. exists t, v, b, b', s. split; [|auto].
          apply does_app_inv in D1. destruct D1 as [D1|[-> _]]; [exact D1|]. apply does_lt in D2. lia.
        * injection E as <- ->. apply does_app_inv in D1. destruct D1 as [D1|[-> _]]; [|lia].
          apply sees_hb. specialize (Kn _ _ _ _ D1). destruct b'; cbn in A.
          -- eapply k_writer, A. exact Kn.
          -- destruct A as [[W|Hin] _]; [eapply k_writer, W; exact Kn|].
             destruct C as [->|C]; [|discriminate]. eapply k_reader; eauto.
  Qed.

  Lemma ordered_raceFree tr : ordered tr -> raceFree tr.
  Proof.
    intros O i j C N. destruct (Nat.lt_gt_cases i j) as [[L|L] _]; [exact N|left; auto|right; auto].
    apply O; [|exact L]. destruct C as (t & u & b & b' & s & D1 & D2 & C). exists u, t, b', b, s. tauto.
  Qed.
End Locks.
