(** Running a chosen schedule of the Sharded model, to exhibit executions. *)
From Coq Require Import Permutation.
From Verif Require Import Base GoMap Sharded_Model Sharded_Locks Sharded_Len.

Section Exec.
  Context {K V : Type} (eqb : K -> K -> bool) (zero : V) (nsh : nat) (hash : K -> Z).
  Notation prog := (prog K V).
  Notation shared := (shared K V).
  Notation config := (config K V).
  Notation op := (op K V).
  Notation event := (event K V).
  Notation progOf := (progOf eqb zero nsh hash).
  Notation cstep := (cstep eqb zero nsh hash).
  Notation reach := (reach eqb zero nsh hash).

  (** One instruction of [t], if enabled; ranges go in list order. *)
  Definition tstepf (t : nat) (p : prog) (sh : shared) : option (prog * shared) :=
    match p with
    | RLock s k =>
        match writer (mu sh s) with
        | None => Some (k, setMu sh s {| writer := None; readers := t :: readers (mu sh s) |})
        | _ => None
        end
    | RUnlock s k =>
        if in_dec Nat.eq_dec t (readers (mu sh s)) then
          Some (k, setMu sh s {| writer := writer (mu sh s); readers := removeOne t (readers (mu sh s)) |})
        else None
    | Lock s k =>
        match writer (mu sh s) with
        | None => Some (LockWait s k, setMu sh s {| writer := Some (t, false); readers := readers (mu sh s) |})
        | _ => None
        end
    | LockWait s k =>
        match writer (mu sh s), readers (mu sh s) with
        | Some (t', false), [] =>
            if Nat.eq_dec t' t then Some (k, setMu sh s {| writer := Some (t, true); readers := [] |}) else None
        | _, _ => None
        end
    | Unlock s k =>
        match writer (mu sh s) with
        | Some (t', true) =>
            if Nat.eq_dec t' t then Some (k, setMu sh s {| writer := None; readers := readers (mu sh s) |}) else None
        | _ => None
        end
    | Read s k => Some (k (items sh s), sh)
    | Range s k => Some (k (items sh s), sh)
    | Write s f k => Some (k, setItems sh s (f (items sh s)))
    | _ => None
    end.

  Lemma tstepf_sound t p sh p' sh' : tstepf t p sh = Some (p', sh') -> tstep t p sh p' sh'.
  Proof.
    destruct p; cbn; try discriminate.
    - destruct (writer (mu sh s)) eqn:W; [discriminate|]. intros [= <- <-]. now constructor.
    - destruct (in_dec Nat.eq_dec t (readers (mu sh s))); [|discriminate]. intros [= <- <-]. now constructor.
    - destruct (writer (mu sh s)) eqn:W; [discriminate|]. intros [= <- <-]. now constructor.
    - destruct (writer (mu sh s)) as [[t' []]|] eqn:W; try discriminate.
      destruct (readers (mu sh s)) eqn:R; [|discriminate]. destruct (Nat.eq_dec t' t) as [->|]; [|discriminate].
      intros [= <- <-]. now constructor.
    - destruct (writer (mu sh s)) as [[t' []]|] eqn:W; try discriminate.
      destruct (Nat.eq_dec t' t) as [->|]; [|discriminate]. intros [= <- <-]. now constructor.
    - intros [= <- <-]. constructor.
    - intros [= <- <-]. constructor. reflexivity.
    - intros [= <- <-]. constructor.
  Qed.

  (** [Inv t o]: t calls o; [Go t]: t takes its next step. *)
  Inductive action : Type := Inv (t : nat) (o : op) | Go (t : nat).

  Definition actf (a : action) (c : config) : option (list event * config) :=
    match a with
    | Inv t o =>
        match thr c t with
        | Idle => Some ([EInv t o], {| shm := shm c; thr := fupd (thr c) t (Running o (progOf o)) |})
        | _ => None
        end
    | Go t =>
        match thr c t with
        | Idle => None
        | Running o (Ret r) => Some ([ERet t o r], {| shm := shm c; thr := fupd (thr c) t Idle |})
        | Running o (Call p) => Some ([ECall t o], {| shm := shm c; thr := fupd (thr c) t (Running o p) |})
        | Running o p =>
            match tstepf t p (shm c) with
            | Some (p', sh') => Some ([], {| shm := sh'; thr := fupd (thr c) t (Running o p') |})
            | None => None
            end
        end
    end.

  Lemma actf_sound (allow : nat -> op -> Prop) a c ev c' : (forall t o, a = Inv t o -> allow t o) ->
    actf a c = Some (ev, c') -> cstep allow c ev c'.
  Proof.
    intros A. destruct c as [sh th], a as [t o|t]; cbn.
    - destruct (th t) eqn:E; [|discriminate]. intros [= <- <-]. constructor; auto.
    - destruct (th t) as [|o p] eqn:E; [discriminate|].
      destruct p; try (intros [= <- <-]; econstructor; exact E);
        (match goal with |- context [tstepf ?a ?b ?c] => destruct (tstepf a b c) as [[p' sh']|] eqn:T end;
         [intros [= <- <-]; eapply c_tau; [exact E|now apply tstepf_sound]|discriminate]).
  Qed.

  (** All the configurations passed through, and the events. *)
  Fixpoint execf (sched : list action) (c : config) : option (list event * list config * config) :=
    match sched with
    | [] => Some ([], [c], c)
    | a :: sched' =>
        match actf a c with
        | None => None
        | Some (ev, c1) =>
            match execf sched' c1 with
            | None => None
            | Some (evs, cs, c') => Some (ev ++ evs, c :: cs, c')
            end
        end
    end.

  Lemma execf_reach (allow : nat -> op -> Prop) sched : forall c tr evs cs c', reach allow tr c ->
    (forall t o, In (Inv t o) sched -> allow t o) ->
    execf sched c = Some (evs, cs, c') -> reach allow (tr ++ evs) c'.
  Proof.
    induction sched as [|a sched IH]; intros c tr evs cs c' R A; cbn.
    - intros [= <- _ <-]. now rewrite app_nil_r.
    - destruct (actf a c) as [[ev c1]|] eqn:E; [|discriminate].
      destruct (execf sched c1) as [[[evs1 cs1] c1']|] eqn:E2; [|discriminate]. intros [= <- _ <-].
      rewrite app_assoc. eapply IH; [| |exact E2].
      + eapply reach_step; [exact R|]. eapply actf_sound; [|exact E]. intros t o ->. apply A. now left.
      + intros t o Hi. apply A. now right.
  Qed.

  Lemma execf_during (allow : nat -> op -> Prop) sched : forall c evs cs c',
    (forall t o, In (Inv t o) sched -> allow t o) ->
    execf sched c = Some (evs, cs, c') -> during eqb zero nsh hash allow c evs cs c'.
  Proof.
    induction sched as [|a sched IH]; intros c evs cs c' A; cbn.
    - intros [= <- <- <-]. constructor.
    - destruct (actf a c) as [[ev c1]|] eqn:E; [|discriminate].
      destruct (execf sched c1) as [[[evs1 cs1] c1']|] eqn:E2; [|discriminate]. intros [= <- <- <-].
      econstructor; [|eapply IH; [|exact E2]].
      + eapply actf_sound; [|exact E]. intros t o ->. apply A. now left.
      + intros t o Hi. apply A. now right.
  Qed.

  (** The events and the final state of a schedule run from a new map. *)
  Definition events (sched : list action) : list event :=
    match execf sched initial with Some (evs, _, _) => evs | None => [] end.
  Definition final (sched : list action) : config :=
    match execf sched initial with Some (_, _, c) => c | None => initial end.

  Lemma run_reach (allow : nat -> op -> Prop) sched : (forall t o, In (Inv t o) sched -> allow t o) ->
    reach allow (events sched) (final sched).
  Proof.
    intros A. unfold events, final. destruct (execf sched initial) as [[[evs cs] c]|] eqn:E; [|constructor].
    apply (execf_reach allow sched initial [] evs cs c); [constructor|assumption|assumption].
  Qed.
End Exec.
Arguments action : clear implicits.
