(** Properties C87 and C39 of xmap.Sharded: looking at the whole map while other
    goroutines change it. *)
From Verif Require Import Base Arr GoMap XMap_Spec Sharded_Model Sharded_Spec Sharded_Exec Sharded_Len Sharded_Weak Sharded_Props.

(** ** C87: Len, Empty, Keys, Values, Entries, ToMap, Iterate and
    IterateShardsReadOnly are weakly consistent *)

(** The call is made in state c0, runs until c1 and returns r.  [h0] are the
    single-key calls that had taken effect, in the order they did, when it
    started, [new ++ h0] those when it returned. *)
Theorem C87_weakly_consistent {K V} (eqb : K -> K -> bool) (zero : V) (nsh : nat) (hash : K -> Z)
  (allow : nat -> op K V -> Prop) t o r tr c0 c evs cs c1 c' :
  decides eqb -> (0 < nsh)%nat ->
  (forall t o, allow t o -> o <> OClear /\ forall fn, o <> OIterateShards fn) ->
  reach eqb zero nsh hash allow tr c0 -> cstep eqb zero nsh hash allow c0 [EInv t o] c -> looks o ->
  during eqb zero nsh hash allow c evs cs c1 -> (forall o' r', ~ In (ERet t o' r') evs) ->
  cstep eqb zero nsh hash allow c1 [ERet t o r] c' ->
  exists h0 p0 new p1,
    linearized eqb zero (tr ++ [EInv t o]) h0 p0 /\
    linearizedFrom eqb zero (tr ++ [EInv t o]) h0 p0 ((tr ++ [EInv t o]) ++ evs) (new ++ h0) p1 /\
    tells (weakEntries eqb h0 new) o r.
Proof.
  intros D Hn HA R0 S0 Lo Du Nr S1. eapply weak_tells; try eassumption.
  intros t1 o1 A. destruct (HA t1 o1 A) as [H1 H2]. destruct o1; cbn; auto. now apply (H2 fn).
Qed.

(** What that means: an entry that was there all the time is told, a key that
    was there at no moment is not, and no key is told twice. *)
Theorem C87_meaning {K V} (eqb : K -> K -> bool) (h0 new : list (op K V)) (l : list (K * V)) :
  weakEntries eqb h0 new l ->
  (forall k v, (forall h, happened h0 new h -> value eqb h k = Some v) -> In (k, v) l) /\
  (forall k, (forall h, happened h0 new h -> value eqb h k = None) -> ~ In k (map fst l)) /\
  (forall k v v', In (k, v) l -> In (k, v') l -> v = v').
Proof.
  intros (N & H1 & H2). split; [|split].
  - intros k v H. assert (Hk : In k (map fst l)) by (apply H2; intros h Hh; rewrite (H h Hh); discriminate).
    apply in_map_iff in Hk as ([k' v'] & E & Hk). cbn in E. subst k'.
    destruct (H1 _ _ Hk) as (h & Hh & Ev). rewrite (H h Hh) in Ev. now injection Ev as ->.
  - intros k H Hk. apply in_map_iff in Hk as ([k' v'] & E & Hk). cbn in E. subst k'.
    destruct (H1 _ _ Hk) as (h & Hh & Ev). rewrite (H h Hh) in Ev. discriminate.
  - clear H1 H2. intros k v v' I1 I2. induction l as [|[k1 v1] l IH]; [contradiction|].
    cbn in N. inversion N as [|x y Hx Hy]; subst. cbn in I1, I2.
    destruct I1 as [I1|I1], I2 as [I2|I2].
    + congruence.
    + injection I1 as -> ->. exfalso. apply Hx. apply in_map_iff. exists (k, v'). auto.
    + injection I2 as -> ->. exfalso. apply Hx. apply in_map_iff. exists (k, v). auto.
    + now apply IH.
Qed.

(** While nothing takes effect during the call, what is told is the map. *)
Theorem C87_quiet {K V} (eqb : K -> K -> bool) (h0 : list (op K V)) (l : list (K * V)) :
  weakEntries eqb h0 [] l -> allEntries eqb h0 l.
Proof.
  intros W. destruct (C87_meaning eqb h0 [] l W) as (M1 & M2 & M3). destruct W as (N & H1 & H2).
  assert (Hh : forall h, happened h0 [] h <-> h = h0).
  { intros h. split; [|intros ->; now exists [], []]. intros (a & b & E & ->). symmetry in E.
    apply app_eq_nil in E as [-> ->]. reflexivity. }
  split; [assumption|]. intros k v. split.
  - intros Hi. destruct (H1 k v Hi) as (h & Eh & Ev). apply Hh in Eh as ->. assumption.
  - intros Ev. apply M1. intros h Eh. apply Hh in Eh as ->. assumption.
Qed.

(** Entries of [ex39a] and [ex39b]'s map: goroutine 1 deletes key 0 after shard 0
    was read, then sets key 1.  Entries tells of both, which never were in the
    map together: it is not a snapshot. *)
Definition ex87a : list (action Z Z) := Inv 1 (OSet 0 7) :: go 1 5 ++ Inv 1 (OSet 3 9) :: go 1 5.
Definition ex87b : list (action Z Z) :=
  go 0 3 ++ Inv 1 (ODelete 0) :: go 1 5 ++ Inv 1 (OSet 1 8) :: go 1 5 ++ go 0 3.
Example C87_case :
  match execf Z.eqb 0 2 (fun k => k) ex87b (ex_final (ex87a ++ [Inv 0 OEntries])) with
  | Some (evs, cs, c1) =>
      thr c1 0%nat = Running OEntries (Ret (REntries [(0, 7); (3, 9); (1, 8)])) /\
      forallb (fun e => match e with ERet 0%nat _ _ => false | _ => true end) evs = true /\
      forallb (fun c2 => negb (has Z.eqb (items (shm c2) 0%nat) 0 && has Z.eqb (items (shm c2) 1%nat) 1)) cs = true
  | None => False
  end.
Proof. cbv. auto. Qed.
Example C87_reached : ex_reach (fun _ o => match o with OClear | OIterateShards _ => False | _ => True end)
  (ex_events (ex87a ++ [Inv 0 OEntries])) (ex_final (ex87a ++ [Inv 0 OEntries])).
Proof. apply run_reach. allowed. Qed.
(** The specification rejects what is not so. *)
Example C87_spec_case :
  let h0 := [OSet 3 9; OSet 0 7] in let new := [OSet 1 8; ODelete 0] in
  weakEntries Z.eqb h0 new [(0, 7); (3, 9); (1, 8)] /\ weakEntries Z.eqb h0 new [(3, 9)] /\
  ~ weakEntries Z.eqb h0 new [(0, 7)] /\ ~ weakEntries Z.eqb h0 new [(3, 9); (1, 7)].
Proof.
  intros h0 new.
  assert (Hh : forall h, happened h0 new h <-> h = h0 \/ h = ODelete 0 :: h0 \/ h = new ++ h0).
  { intros h. split.
    - intros (a & b & E & ->). destruct a as [|x [|y [|z a]]]; cbn in E.
      + subst b. auto.
      + injection E as <- <-. auto.
      + injection E as <- <- <-. auto.
      + discriminate.
    - intros [->|[->| ->]]; [exists new, []|exists [OSet 1 8], [ODelete 0]|exists [], new]; auto. }
  assert (P3 : forall h, happened h0 new h -> value Z.eqb h 3 = Some 9) by (intros h H; apply Hh in H as [->|[->| ->]]; reflexivity).
  assert (Only : forall k, (forall h, happened h0 new h -> value Z.eqb h k <> None) -> k = 3).
  { intros k H. pose proof (H h0 (proj2 (Hh _) (or_introl eq_refl))) as A1.
    pose proof (H (new ++ h0) (proj2 (Hh _) (or_intror (or_intror eq_refl)))) as A2. subst h0 new; cbn [value app] in A1, A2.
    destruct (Z.eqb_spec 3 k); [congruence|]. destruct (Z.eqb_spec 0 k); [subst|congruence]. cbn in A2. congruence. }
  split; [|split; [|split]].
  - split; [repeat constructor; cbn; intuition lia|]. split.
    + cbn. intros k v [E|[E|[E|[]]]]; injection E as <- <-.
      * exists h0. split; [apply Hh; auto|reflexivity].
      * exists h0. split; [apply Hh; auto|reflexivity].
      * exists (new ++ h0). split; [apply Hh; auto|reflexivity].
    + intros k Hk. rewrite (Only k Hk). cbn. auto.
  - split; [repeat constructor; cbn; intuition lia|]. split.
    + cbn. intros k v [E|[]]; injection E as <- <-. exists h0. split; [apply Hh; auto|reflexivity].
    + intros k Hk. rewrite (Only k Hk). cbn. auto.
  - intros (_ & _ & H). specialize (H 3). cbn in H. destruct H as [H|[]]; [|discriminate].
    intros h Eh. rewrite (P3 h Eh). discriminate.
  - intros (_ & H & _). destruct (H 1 7) as (h & Eh & Ev); [cbn; auto|].
    apply Hh in Eh as [->|[->| ->]]; cbn in Ev; discriminate.
Qed.

(** ** C39: what Len returns whatever else runs *)

(** Len counts each key that was there all the time, and no more keys than were
    there at some moment of the call. *)
Theorem C39_len_between_partial {K V} (eqb : K -> K -> bool) (zero : V) (nsh : nat) (hash : K -> Z)
  (allow : nat -> op K V -> Prop) t n tr c0 c evs cs c1 c' :
  decides eqb -> (0 < nsh)%nat ->
  (forall t o, allow t o -> o <> OClear /\ forall fn, o <> OIterateShards fn) ->
  reach eqb zero nsh hash allow tr c0 -> cstep eqb zero nsh hash allow c0 [EInv t OLen] c ->
  during eqb zero nsh hash allow c evs cs c1 -> (forall o' r', ~ In (ERet t o' r') evs) ->
  cstep eqb zero nsh hash allow c1 [ERet t OLen (RInt n)] c' ->
  exists h0 p0 new p1,
    linearized eqb zero (tr ++ [EInv t OLen]) h0 p0 /\
    linearizedFrom eqb zero (tr ++ [EInv t OLen]) h0 p0 ((tr ++ [EInv t OLen]) ++ evs) (new ++ h0) p1 /\
    (forall ks, NoDup ks -> (forall k h, In k ks -> happened h0 new h -> present eqb h k = true) -> zlen ks <= n) /\
    (forall ks, (forall k h, happened h0 new h -> present eqb h k = true -> In k ks) -> n <= zlen ks).
Proof.
  intros D Hn HA R0 S0 Du Nr S1.
  destruct (C87_weakly_consistent eqb zero nsh hash allow t OLen (RInt n) tr c0 c evs cs c1 c') as
    (h0 & p0 & new & p1 & L0 & L1 & l & (N & H1 & H2) & E); auto; [exact I|].
  injection E as ->. exists h0, p0, new, p1. split; [assumption|]. split; [assumption|].
  assert (El : zlen l = zlen (map fst l)) by (unfold zlen; now rewrite map_length).
  rewrite El. unfold zlen. split.
  - intros ks Nk Hk. apply inj_le. apply NoDup_incl_length; [assumption|]. intros k Hi. apply H2.
    intros h Hh. specialize (Hk k h Hi Hh). unfold present in Hk. destruct (value eqb h k); congruence.
  - intros ks Hk. apply inj_le. apply NoDup_incl_length; [assumption|]. intros k Hi.
    apply in_map_iff in Hi as ([k' v] & <- & Hi). destruct (H1 _ _ Hi) as (h & Hh & Ev).
    apply (Hk _ h Hh). unfold present. cbn. now rewrite Ev.
Qed.

Print Assumptions C87_weakly_consistent.
Print Assumptions C87_meaning.
Print Assumptions C87_quiet.
Print Assumptions C39_len_between_partial.
