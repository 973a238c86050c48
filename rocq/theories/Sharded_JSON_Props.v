(** C126: MarshalJSON of a Sharded map is that of one Go map, and it holds no
    lock while it encodes. *)
From Coq Require Import Permutation.
From Verif Require Import Base GoMap XMap_Spec Sharded_Model Sharded_Spec Sharded_Exec Sharded_Keys_Spec Sharded_Keys_Proofs Sharded_Keys_Props
  Sharded_Len Sharded_Weak Sharded_Props2 Sharded_Reent_Model Sharded_Reent_Spec Sharded_Reent_Proofs Sharded_Reent_Props Sharded_JSON_Model.
Local Open Scope list_scope.
Local Open Scope Z_scope.

(** json.Marshal sorts the keys: the order of iteration does not show. *)
Definition sortsKeys {K V R} (marshal : gomap K V -> R) : Prop :=
  forall m m', Permutation m m' -> marshal m = marshal m'.

Lemma hist_at {Op R} (answer : list Op -> Op -> R -> Prop) : forall before h o r after,
  hist answer h (map fst (before ++ (o, r) :: after)) (map snd (before ++ (o, r) :: after)) ->
  answer (rev (map fst before) ++ h) o r.
Proof.
  induction before as [|[o' r'] before IH]; intros h o r after H; cbn in H; inversion H; subst.
  - assumption.
  - cbn [map fst rev]. rewrite <- app_assoc. cbn. eapply IH. eassumption.
Qed.

(** One goroutine: the bytes are those of one Go map after the same calls,
    whatever the number of shards and the hash. *)
Theorem C126_one_map {K V R} (eqb : K -> K -> bool) (zero : V) (nsh : nat) (hash : K -> Z) (marshal : gomap K V -> R) tr c before r after :
  partial_equiv eqb -> hashRespects eqb hash -> (0 < nsh)%nat -> sortsKeys marshal ->
  reach eqb zero nsh hash (fun t o => t = 0%nat /\ ordinary o) tr c ->
  returns tr = before ++ (OToMap, r) :: after ->
  marshalled marshal r = Some (marshal (oneMap eqb (rev (map fst before)))).
Proof.
  intros PE HR Hn HM Re E.
  pose proof (C108_one_map eqb zero nsh hash tr c PE HR Hn Re) as H. rewrite E in H.
  apply hist_at in H. rewrite app_nil_r in H. cbn in H. destruct H as (l & P & ->).
  cbn. now rewrite (HM _ _ P).
Qed.

(** While other goroutines use the map by key: the bytes are those of a map with
    no entry that was not there at some moment of the call and with every key
    that was there all the time. *)
Theorem C126_concurrent {K V R} (eqb : K -> K -> bool) (zero : V) (nsh : nat) (hash : K -> Z) (marshal : gomap K V -> R)
  (allow : nat -> op K V -> Prop) t r tr c0 c evs cs c1 c' :
  decides eqb -> (0 < nsh)%nat ->
  (forall t o, allow t o -> o <> OClear /\ forall fn, o <> OIterateShards fn) ->
  reach eqb zero nsh hash allow tr c0 -> cstep eqb zero nsh hash allow c0 [EInv t OToMap] c ->
  during eqb zero nsh hash allow c evs cs c1 -> (forall o' r', ~ In (ERet t o' r') evs) ->
  cstep eqb zero nsh hash allow c1 [ERet t OToMap r] c' ->
  exists h0 p0 new p1 l,
    linearized eqb zero (tr ++ [EInv t OToMap]) h0 p0 /\
    linearizedFrom eqb zero (tr ++ [EInv t OToMap]) h0 p0 ((tr ++ [EInv t OToMap]) ++ evs) (new ++ h0) p1 /\
    weakEntries eqb h0 new l /\ marshalled marshal r = Some (marshal l).
Proof.
  intros D Hn HA R0 S0 Du Nr S1.
  destruct (C87_weakly_consistent eqb zero nsh hash allow t OToMap r tr c0 c evs cs c1 c' D Hn HA R0 S0 I Du Nr S1)
    as (h0 & p0 & new & p1 & H1 & H2 & l & H3 & ->).
  exists h0, p0, new, p1, l. split; [exact H1|]. split; [exact H2|]. split; [exact H3|reflexivity].
Qed.

(** Encoders whose methods call the map, with callbacks that do not. *)
Definition flatEncoder {K V R} (encode : gomap K V -> (R -> code K V) -> code K V) : Prop :=
  forall m k, (forall b, flat (k b)) -> flat (encode m k).

(** Methods of keys and values may use the map: with any schedule, all the
    goroutines that marshal the map finish. *)
Theorem C126_no_deadlock {K V R} (eqb : K -> K -> bool) (zero : V) (nsh : nat) (hash : K -> Z)
  n (before : nat -> op K V) (encode : nat -> gomap K V -> (R -> code K V) -> code K V) (after : nat -> option R -> code K V) :
  (0 < nsh)%nat -> (forall t, flatEncoder (encode t)) -> (forall t b, flat (after t b)) ->
  (forall t fn, before t <> OIterateShards fn) ->
  inevitably allReturned (start eqb zero nsh (fun key => Some (hash key)) (fun _ => true)
    (fun t => if (t <? n)%nat then Do (before t) (fun _ => marshalJSON (encode t) (after t)) else Done None)).
Proof.
  intros Hn HE HA HB. apply (C38_all_return eqb zero nsh hash n); [exact Hn| |].
  - intros t. destruct (Nat.ltb_spec t n); cbn; [|exact I]. split; [exact (HB t)|]. intros _.
    split; [discriminate|]. intros [| | | | | | | | | | |]; try apply HA; apply HE; intros b; apply HA.
  - intros t L. exists None. destruct (Nat.ltb_spec t n); [lia|reflexivity].
Qed.
Print Assumptions C126_one_map. Print Assumptions C126_concurrent. Print Assumptions C126_no_deadlock.

(** Non-vacuity: a marshaller that tells the sum of the values, next to one map. *)
Definition sumValues (m : gomap Z Z) : Z := fold_right Z.add 0 (map snd m).
Lemma sumValues_sorts : sortsKeys sumValues.
Proof.
  intros m m' P. unfold sumValues. induction P as [|x m m' P IH|x y m|m m' m'' P1 IH1 P2 IH2]; cbn; lia.
Qed.
Definition ex126 : list (action Z Z) :=
  let go (n : nat) := repeat (Go 0) n in
  Inv 0 (OSet 1 7) :: go 5%nat ++ Inv 0 (OSet 2 8) :: go 5%nat ++ Inv 0 (OSet 1 9) :: go 5%nat ++ Inv 0 OToMap :: go 7%nat.
Example C126_case :
  let tr := events Z.eqb 0 2 (fun k => k) ex126 in
  reach Z.eqb 0 2 (fun k => k) (fun t o => t = 0%nat /\ ordinary o) tr (final Z.eqb 0 2 (fun k => k) ex126) /\
  returns tr = [(OSet 1 7, RUnit); (OSet 2 8, RUnit); (OSet 1 9, RUnit)] ++ (OToMap, RMap [(2, 8); (1, 9)]) :: [] /\
  marshalled sumValues (RMap [(2, 8); (1, 9)]) = Some 17.
Proof.
  cbv zeta. split; [|split; vm_compute; reflexivity]. apply run_reach.
  intros t o Hi. unfold ex126 in Hi. cbn in Hi.
  repeat (destruct Hi as [Hi|Hi]; [try discriminate Hi; injection Hi; intros; subst; cbn; eauto|]). contradiction.
Qed.
(** Values whose MarshalJSON sets their key again, one after the other. *)
Fixpoint touching (m : gomap Z Z) (k : unit -> code Z Z) : code Z Z :=
  match m with
  | [] => k tt
  | (key, v) :: m' => Do (OSet key (v + 1)) (fun _ => touching m' k)
  end.
Example C126_encoder : flatEncoder touching.
Proof.
  intros m k Hk. induction m as [|[key v] m IH]; [apply Hk|]. cbn. split; [discriminate|]. intros _. exact IH.
Qed.
(** In a callback of Iterate the same would be a deadlock (C84). *)
Example C126_not_iterate : forall c,
  steps (start Z.eqb 0 2 Some (fun _ => true)
    (only (Do (OSet 1 7) (fun _ => DoIterate (fun _ _ => Do (OSet 1 8) (fun _ => Done None)) (fun _ => Done None))))) c ->
  forall r, ~ returned c 0 r.
Proof.
  now apply (C84_iterate_set_refuted Z.eqb 0 2 Some (fun _ => true) 1 7 1 8 1 (fun _ => Done None) (fun _ => Done None)); [lia| | |].
Qed.
