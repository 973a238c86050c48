(** C118: what a panic on an unhashable key leaves of an ArrayMap. *)
From Coq Require Import Permutation Lia.
From Verif Require Import Base Arr Exn GoMap Algo_Proofs XMap_Model XMap_Spec XMap_Props ArrayMap_Hash_Model.
Local Open Scope exn_scope.
Local Open Scope list_scope.
Local Open Scope Z_scope.

(** The key a call is given. *)
Definition amKey {K V} (o : amOp K V) : option K :=
  match o with ASet k _ | ADelete k | AHas k | ATryGet k | AGet k => Some k | _ => None end.

(** As [amRun]; panics are recovered. *)
Inductive hRun {K V} (eqb : K -> K -> bool) hashable (zero : V)
  : amap K V -> list (amOp K V) -> list (outcome (amRes K V)) -> amap K V -> Prop :=
| hRun_nil s : hRun eqb hashable zero s [] [] s
| hRun_cons s o order r s1 ops rs s2 :
    Permutation order (pos s) -> hStep eqb hashable zero o order s = (r, s1) ->
    hRun eqb hashable zero s1 ops rs s2 -> hRun eqb hashable zero s (o :: ops) (r :: rs) s2.

Section Same.
  Context {K V : Type} (eqb : K -> K -> bool) (hashable : K -> bool) (zero : V).

  Definition fine (s : amap K V) : Prop := Forall (fun e => hashable (fst e) = true) (kv s).

  Lemma zget_In {A} (l : list A) i x : zget l i = Some x -> In x l.
  Proof. unfold zget. destruct (i <? 0); [discriminate|]. apply nth_error_In. Qed.

  Lemma firstn_In {A} n (l : list A) x : In x (firstn n l) -> In x l.
  Proof. intros H. rewrite <- (firstn_skipn n l). apply in_or_app. now left. Qed.

  Lemma same_step o order s : fine s -> (forall k, amKey o = Some k -> hashable k = true) ->
    hStep eqb hashable zero o order s = amStep eqb zero o order s.
  Proof.
    intros Hs Hk. destruct o as [k v|k| |k|k|k| | |i|i|i]; try reflexivity; specialize (Hk k eq_refl);
      cbn [hStep amStep]; unfold xbind, hSet, hDelete, hHas, hGet, hTryGet, amGet, hash, amSet, amDelete, amHas, amTryGet, xbind, xget, xput, xret; rewrite ?Hk; try reflexivity.
    - destruct (gget eqb (pos s) k) as [i|]; [|reflexivity]. destruct (i =? zlen (kv s) - 1); [reflexivity|].
      unfold kvAt. destruct (zget (kv s) (zlen (kv s) - 1)) as [e|] eqn:E; cbn [of_opt]; [|reflexivity].
      destruct (zset (kv s) i e); [|reflexivity].
      assert (He : hashable (fst e) = true) by (unfold fine in Hs; rewrite Forall_forall in Hs; apply Hs; now apply zget_In in E).
      now rewrite He.
    - destruct (gget eqb (pos s) k) as [i|]; [|reflexivity]. reflexivity.
    - destruct (gget eqb (pos s) k) as [i|]; [|reflexivity]. reflexivity.
  Qed.

  Lemma fine_step o order s r s' : fine s -> (forall k, amKey o = Some k -> hashable k = true) ->
    amStep eqb zero o order s = (r, s') -> fine s'.
  Proof.
    unfold fine. intros Hs Hk E. destruct o as [k v|k| |k|k|k| | |i|i|i]; cbn [amStep] in E;
      unfold xbind, amHas, amGet, amTryGet, kvAt, xget, xret in E.
    - injection E as <- <-. apply Forall_app. split; [exact Hs|]. constructor; [|constructor]. now apply Hk.
    - unfold amDelete, xbind, xget, xput, xret in E. destruct (gget eqb (pos s) k) as [i|]; [|now injection E as <- <-].
      assert (F : forall n, Forall (fun e : K * V => hashable (fst e) = true) (firstn n (kv s))).
      { intros n. rewrite Forall_forall in *. intros e He. apply Hs. now apply firstn_In in He. }
      destruct (i =? zlen (kv s) - 1); [injection E as <- <-; apply F|].
      unfold kvAt in E. destruct (zget (kv s) (zlen (kv s) - 1)) as [e|] eqn:Ee; cbn [of_opt] in E; [|now injection E as <- <-].
      unfold zset in E. destruct ((0 <=? i) && (i <? zlen (kv s))); [|now injection E as <- <-]. injection E as <- <-.
      unfold fine. cbn [kv]. rewrite Forall_forall in *. intros x Hx. apply firstn_In in Hx. apply In_nth_error in Hx as [j Hj].
      apply zget_In in Ee.
      destruct (Nat.eq_dec j (Z.to_nat i)) as [->|Hne].
      + assert (In x (e :: kv s)) as [<-|H]; [|now apply Hs|now apply Hs].
        clear -Hj. revert Hj. generalize (Z.to_nat i). induction (kv s) as [|a l IH]; intros [|n]; cbn; try discriminate.
        * intros [= <-]. now left.
        * intros H. destruct (IH n H); auto.
      + apply Hs. clear -Hj Hne. revert j Hj Hne. generalize (Z.to_nat i). induction (kv s) as [|a l IH]; intros [|n] [|j]; cbn; try discriminate; try lia; eauto.
        all: try (intros [= <-]; auto); try (intros H _; right; now apply nth_error_In in H).
        intros H Hne. right. eapply IH; eauto.
    - injection E as <- <-. constructor.
    - now injection E as <- <-.
    - destruct (gget eqb (pos s) k) as [i|]; cbn in E; [destruct (zget (kv s) i); cbn in E|]; now inversion E; subst.
    - unfold xbind in E. destruct (gget eqb (pos s) k) as [i|]; [destruct (zget (kv s) i)|]; cbn in E; now inversion E; subst.
    - now injection E as <- <-.
    - now injection E as <- <-.
    - cbn in E. destruct (zget (kv s) i); cbn in E; now inversion E; subst.
    - cbn in E. destruct (zget (kv s) i); cbn in E; now inversion E; subst.
    - cbn in E. destruct (zget (kv s) i); cbn in E; now inversion E; subst.
  Qed.
End Same.

(** While all keys are hashable, everything said about ArrayMap with keys that
    always are (C32) holds. *)
Theorem C118_hashable_partial {K V} (eqb : K -> K -> bool) hashable (zero : V) ops rs s :
  Forall (fun o => forall k, amKey o = Some k -> hashable k = true) ops ->
  hRun eqb hashable zero amNew ops rs s <-> amRun eqb zero amNew ops rs s.
Proof.
  intros H. assert (Hf : fine hashable (@amNew K V)) by constructor. revert Hf. generalize (@amNew K V). revert rs.
  induction ops as [|o ops IH]; intros rs s0 Hf; [split; intros E; inversion E; subst; constructor|].
  inversion H as [|? ? H1 H2]; subst.
  split; intros E; inversion E as [|? ? order r s1 ? rs' ? P Es Er]; subst; econstructor; try eassumption.
  - rewrite <- (same_step eqb hashable zero o order s0 Hf H1). exact Es.
  - apply IH; try assumption. rewrite (same_step eqb hashable zero o order s0 Hf H1) in Es. exact (fine_step eqb hashable zero o order s0 r s1 Hf H1 Es).
  - rewrite (same_step eqb hashable zero o order s0 Hf H1). exact Es.
  - apply IH; try assumption. exact (fine_step eqb hashable zero o order s0 r s1 Hf H1 Es).
Qed.
Print Assumptions C118_hashable_partial.

(** Given an unhashable key, the calls other than Set panic without effect. *)
Theorem C118_lookups_partial {K V} (eqb : K -> K -> bool) hashable (zero : V) o k order (s : amap K V) :
  amKey o = Some k -> hashable k = false -> (forall v, o <> ASet k v) ->
  exists e, hStep eqb hashable zero o order s = (Panic e, s).
Proof.
  intros E Hk Hn. destruct o; try discriminate; injection E as <-; try (exfalso; eapply Hn; reflexivity);
    eexists; cbn [hStep]; unfold hDelete, hHas, hGet, hTryGet, hash, xbind; rewrite Hk; reflexivity.
Qed.
Print Assumptions C118_lookups_partial.

(** Set of an unhashable key panics too, but leaves an entry behind, in every
    state: Len counts it, At shows it, and no key leads to it. *)
Theorem C118_set_refuted {K V} (eqb : K -> K -> bool) hashable (zero : V) u w order n (s : amap K V) :
  hashable u = false -> fst (hStep eqb hashable zero ALen order s) = Ok (AInt n) ->
  exists e s', hStep eqb hashable zero (ASet u w) order s = (Panic e, s') /\
    fst (hStep eqb hashable zero ALen order s') = Ok (AInt (n + 1)) /\
    fst (hStep eqb hashable zero (AAt n) order s') = Ok (AEntry (u, w)) /\
    forall k v, fst (hStep eqb hashable zero (ATryGet k) order s) = Ok (AOpt v true) ->
      fst (hStep eqb hashable zero (ATryGet k) order s') = Ok (AOpt v true).
Proof.
  intros Hu En. cbn in En. injection En as <-. eexists _, {| pos := pos s; kv := kv s ++ [(u, w)] |}.
  split; [|split; [|split]].
  - cbn [hStep]. unfold hSet, hash, xbind, xget, xput. rewrite Hu. reflexivity.
  - cbn. now rewrite zlen_app.
  - cbn. unfold xbind, kvAt. cbn [kv]. rewrite zget_app_r, Z.sub_diag by lia. reflexivity.
  - intros k v. cbn [hStep]. unfold hTryGet, hash, xbind, xget, xret. destruct (hashable k); [|intros [=]].
    cbn [pos]. destruct (gget eqb (pos s) k) as [i|]; [|intros [=]]. unfold kvAt. cbn [kv].
    destruct (zget (kv s) i) as [e|] eqn:E; cbn [of_opt]; [|intros [=]].
    assert (0 <= i < zlen (kv s)) by (apply zget_range in E; lia).
    rewrite zget_app_l, E by lia. auto.
Qed.
Print Assumptions C118_set_refuted.

(** And then the map is broken: Delete of any key that is there panics, and
    afterwards that key has the value of the Set that failed. *)
Theorem C118_delete_refuted {K V} (eqb : K -> K -> bool) hashable (zero : V) u w k v order (s : amap K V) :
  hashable u = false -> fst (hStep eqb hashable zero (ATryGet k) order s) = Ok (AOpt v true) ->
  let s1 := snd (hStep eqb hashable zero (ASet u w) order s) in
  exists e s2, hStep eqb hashable zero (ADelete k) order s1 = (Panic e, s2) /\
    fst (hStep eqb hashable zero (ATryGet k) order s2) = Ok (AOpt w true).
Proof.
  intros Hu Ek s1. cbn [hStep] in Ek. unfold hTryGet, hash, xbind, xget, xret in Ek.
  destruct (hashable k) eqn:Hk; [|discriminate].
  destruct (gget eqb (pos s) k) as [i|] eqn:Ei; [|discriminate]. unfold kvAt in Ek.
  destruct (zget (kv s) i) as [[k0 v0]|] eqn:E0; [|discriminate].
  assert (Hi : 0 <= i < zlen (kv s)) by (apply zget_range in E0; lia).
  assert (Es1 : s1 = {| pos := pos s; kv := kv s ++ [(u, w)] |}).
  { unfold s1. cbn [hStep]. unfold hSet, hash, xbind, xget, xput. now rewrite Hu. }
  rewrite Es1. clear s1 Es1.
  exists "hash of unhashable type"%string, {| pos := pos s; kv := upd (kv s ++ [(u, w)]) (Z.to_nat i) (u, w) |}. split.
  - cbn [hStep]. unfold hDelete, hash, xbind, xget, xput. rewrite Hk. cbn [pos kv xret]. unfold xret at 1.
    rewrite Ei, zlen_app. change (zlen [(u, w)]) with 1. replace (i =? zlen (kv s) + 1 - 1) with false by lia.
    unfold kvAt. cbn [kv]. rewrite zget_app_r by lia. replace (zlen (kv s) + 1 - 1 - zlen (kv s)) with 0 by lia.
    change (zget [(u, w)] 0) with (Some (u, w)). cbn [of_opt fst]. unfold zset. rewrite zlen_app. change (zlen [(u, w)]) with 1.
    replace ((0 <=? i) && (i <? zlen (kv s) + 1)) with true by lia. rewrite Hu. reflexivity.
  - cbn [hStep]. unfold hTryGet, hash, xbind, xget, xret. rewrite Hk. cbn [pos kv]. rewrite Ei. unfold kvAt. cbn [kv].
    unfold zget. replace (i <? 0) with false by lia. rewrite nth_error_upd, Nat.eqb_refl; [reflexivity|].
    rewrite app_length. unfold zlen in Hi. lia.
Qed.
Print Assumptions C118_delete_refuted.

(** Keys 1 and 2, the unhashable key 9, and Delete of the key 1. *)
Example C118_case : exists s, hRun Z.eqb (fun k => negb (k =? 9)) 0 amNew
  [ASet 1 10; ASet 2 20; AHas 9; ASet 9 90; ALen; ATryGet 1; ADelete 1; ATryGet 1; ALen]
  [Ok AUnit; Ok AUnit; Panic "hash of unhashable type"; Panic "hash of unhashable type"; Ok (AInt 3); Ok (AOpt 10 true);
   Panic "hash of unhashable type"; Ok (AOpt 90 true); Ok (AInt 3)] s.
Proof.
  eexists. repeat (eapply hRun_cons; [apply Permutation_refl|vm_compute; reflexivity|]). constructor.
Qed.
