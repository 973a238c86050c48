(** Properties C30-C33 of ds/xmap (Map, Set, ArrayMap, Custom). *)
From Coq Require Import Permutation.
From Verif Require Import Base Arr Exn GoMap XMap_Model XMap_Spec XMap_Proofs.

(** C30.  Keys, Values and Entries return every entry once, for every map (NaN
    keys included) and every iteration order. *)
Theorem C30_enumeration {K V} (m order : list (K * V)) : Permutation order m ->
  Permutation (Entries order []) m /\
  Permutation (Keys order []) (map fst m) /\
  Permutation (Values order []) (map snd m).
Proof.
  intros P. rewrite Entries_app, Keys_app, Values_app. cbn.
  split; [assumption|]. split; now apply Permutation_map.
Qed.

(** Delete takes away the entries of that key and no others; a key that is not equal
    to itself (NaN) can not be deleted. *)
Theorem C30_delete {K V} (eqb : K -> K -> bool) (m : list (K * V)) k : partial_equiv eqb ->
  (forall k', gget eqb (Delete eqb m k) k' = if eqb k k' then None else gget eqb m k') /\
  (forall e, In e (Delete eqb m k) <-> In e m /\ eqb (fst e) k = false).
Proof.
  intros PE. split; [intros k'; now apply gget_gdel|]. unfold Delete. intros e.
  induction m as [|[k0 v0] m IH]; cbn; [tauto|].
  destruct (eqb k0 k) eqn:E; cbn; rewrite IH; split.
  - tauto.
  - intros [[<-|H] F]; [cbn in F; congruence|tauto].
  - intros [<-|[H F]]; auto.
  - tauto.
Qed.
Print Assumptions C30_delete.
Example C30_delete_case : Delete Z.eqb [(1, 10); (2, 20); (3, 30)] 2 = [(1, 10); (3, 30)].
Proof. reflexivity. Qed.

(** Set runs: each call may iterate in any order. *)
Inductive setRun {K} (eqb : K -> K -> bool)
  : gomap K unit -> list (setOp K) -> list (setRes K) -> Prop :=
| setRun_nil s : setRun eqb s [] []
| setRun_cons s o order r s' ops rs :
    Permutation order s -> setStep eqb o order s = (r, s') ->
    setRun eqb s' ops rs -> setRun eqb s (o :: ops) (r :: rs).

(** C30.  A Set answers every sequence of calls as a mathematical set does. *)
Theorem C30_set {K} (eqb : K -> K -> bool) ops rs : decides eqb ->
  setRun eqb [] ops rs -> hist setAnswer [] ops rs.
Proof.
  intros D. cut (forall s, setRun eqb s ops rs -> forall h, srep eqb h s -> hist setAnswer h ops rs).
  - intros H Hr. apply (H [] Hr). split; [exact I|]. intros x. cbn. split; [congruence|tauto].
  - induction 1 as [s|s o order r s' ops rs P E Hr IH]; intros h R; [constructor|].
    destruct (set_step eqb D h s o order r s' R P E). constructor; auto.
Qed.

Example C30_set_case : setRun Z.eqb [] [SAdd 1; STryAdd 2; STryAdd 1; SValues; SLen; STryDelete 1; SHas 1]
  [SUnit; SBool true; SBool false; SList [2; 1]; SInt 2; SBool true; SBool false].
Proof.
  do 3 (eapply setRun_cons; [reflexivity|reflexivity|]).
  apply setRun_cons with (order := [(2, tt); (1, tt)]) (s' := [(1, tt); (2, tt)]);
    [apply perm_swap|reflexivity|].
  do 3 (eapply setRun_cons; [reflexivity|reflexivity|]). constructor.
Qed.

(** C31.  Clear keeps exactly the entries whose key is not equal to itself. *)
Theorem C31_clear_exact {K V} (eqb : K -> K -> bool) (m order : list (K * V)) :
  partial_equiv eqb -> Permutation order m ->
  Clear eqb order m = filter (fun e => negb (eqb (fst e) (fst e))) m.
Proof. intros PE P. now apply Clear_exact. Qed.

(** C31, for key types whose values equal themselves. *)
Theorem C31_clear_partial {K V} (eqb : K -> K -> bool) (m order : list (K * V)) :
  equiv eqb -> Permutation order m -> Clear eqb order m = [].
Proof.
  intros E P. rewrite (Clear_exact eqb (eq_pe _ E)) by assumption.
  clear P. induction m as [|[k v] m IH]; cbn; [reflexivity|]. now rewrite (eq_refl_ _ E).
Qed.

Example C31_case : Clear Z.eqb [(2, tt); (1, tt)] [(1, tt); (2, tt)] = [].
Proof. reflexivity. Qed.

(** C31 fails for NaN: a map holding a NaN key is not emptied. [None] is NaN. *)
Definition nanEqb (x y : option Z) : bool :=
  match x, y with Some a, Some b => a =? b | _, _ => false end.

Theorem C31_clear_refuted : exists m : gomap (option Z) Z,
  partial_equiv nanEqb /\ m = gset nanEqb [] None 1 /\
  forall order, Permutation order m -> glen (Clear nanEqb order m) = 1.
Proof.
  exists [(None, 1)]. split; [|split; [reflexivity|]].
  - split; intros [x|] [y|]; try discriminate; cbn; [lia|].
    intros [z|]; cbn; [lia|discriminate].
  - intros order P. apply Permutation_sym, Permutation_length_1_inv in P. subst. reflexivity.
Qed.

(** ArrayMap runs. *)
Inductive amRun {K V} (eqb : K -> K -> bool) (zero : V)
  : amap K V -> list (amOp K V) -> list (outcome (amRes K V)) -> amap K V -> Prop :=
| amRun_nil s : amRun eqb zero s [] [] s
| amRun_cons s o order r s1 ops rs s2 :
    Permutation order (pos s) -> amStep eqb zero o order s = (r, s1) ->
    amRun eqb zero s1 ops rs s2 -> amRun eqb zero s (o :: ops) (r :: rs) s2.

Lemma amRun_rep {K V} (eqb : K -> K -> bool) (D : decides eqb) (zero : V) s ops rs s' :
  amRun eqb zero s ops rs s' -> forall h, arep eqb h s -> stackDeletes eqb (rev ops ++ h) ->
  hist (amLookup eqb zero) h ops rs /\ arep eqb (rev ops ++ h) s'.
Proof.
  induction 1 as [s|s o order r s1 ops rs s2 P E Hr IH]; intros h R HD; [split; [constructor|assumption]|].
  cbn in HD |- *. rewrite <- app_assoc in *. cbn in HD |- *.
  assert (HD' : stackDeletes eqb (o :: h)).
  { clear - HD. revert HD. generalize (rev ops). intros l. induction l as [|o' l IHl]; cbn; [auto|].
    destruct o'; try tauto. }
  pose proof (am_step eqb D zero h o order s R P HD') as Hs. rewrite E in Hs. destruct Hs as [Hs1 Hs2].
  destruct (IH _ Hs2 HD). split; [constructor|]; assumption.
Qed.

Lemma arep_new {K V} (eqb : K -> K -> bool) : arep eqb (@nil (amOp K V)) amNew.
Proof. split; [reflexivity|]. intros k. reflexivity. Qed.

(** C32 fails: setting a key twice gives Len 2, and after deleting a key
    another one cannot be read (index out of range). *)
Theorem C32_arraymap_refuted :
  (exists rs s, amRun Z.eqb 0 amNew [ASet 1 10; ASet 1 20; ALen] rs s /\
     forall r, nth_error rs 2 = Some r -> r = Ok (AInt 2)) /\
  (exists rs s, amRun Z.eqb 0 amNew [ASet 1 10; ASet 2 20; ADelete 1; ATryGet 2] rs s /\
     alive Z.eqb (rev [ASet 1 10; ASet 2 20; ADelete 1]) 2 = Some 20 /\
     forall r, nth_error rs 3 = Some r -> r = Panic idx_msg).
Proof.
  split.
  - do 2 eexists. split.
    + repeat (eapply amRun_cons; [reflexivity|reflexivity|]). constructor.
    + cbn. intros r [= <-]. reflexivity.
  - do 2 eexists. split; [|split].
    + repeat (eapply amRun_cons; [reflexivity|reflexivity|]). constructor.
    + reflexivity.
    + cbn. intros r [= <-]. reflexivity.
Qed.

(** C32, lookups: Has, TryGet, Get and the answers of Delete are right in every
    history in which each Delete is of an absent key or of the latest pushed
    key - in particular in every history without Delete.  Keys may be set again. *)
Theorem C32_lookups_partial {K V} (eqb : K -> K -> bool) (zero : V) ops rs s :
  decides eqb -> amRun eqb zero amNew ops rs s -> stackDeletes eqb (rev ops) ->
  hist (amLookup eqb zero) [] ops rs.
Proof.
  intros D Hr HD. eapply (amRun_rep eqb D zero _ _ _ _ Hr []); [apply arep_new|].
  now rewrite app_nil_r.
Qed.

(** C32, everything: if moreover no key is set while present, the next call is
    answered as the specification says, with one enumeration [l] of the live
    entries serving Len, Empty, At, KeyAt and ValueAt. *)
Theorem C32_arraymap_partial {K V} (eqb : K -> K -> bool) (zero : V) ops rs s :
  decides eqb -> amRun eqb zero amNew ops rs s ->
  stackDeletes eqb (rev ops) -> freshSets eqb (rev ops) ->
  exists l, liveEntries eqb (rev ops) l /\
    forall o order r s', Permutation order (pos s) -> stackDeletes eqb (o :: rev ops) ->
      amStep eqb zero o order s = (r, s') -> amAnswer eqb zero l (rev ops) o r.
Proof.
  intros D Hr HD HF.
  destruct (amRun_rep eqb D zero _ _ _ _ Hr []) as [_ R]; [apply arep_new|now rewrite app_nil_r|].
  rewrite app_nil_r in R. exists (kv s). split; [now apply kv_live|].
  intros o order r s' P HD' E. split.
  - pose proof (am_step eqb D zero _ o order s R P HD') as H. rewrite E in H. apply H.
  - pose proof (am_full eqb zero _ o order s R) as H. rewrite E in H. apply H.
Qed.

(** C32, how Delete fails: deleting any other key than the one pushed last - m -
    leaves m present but unreadable, and after the next Set of any other key, m
    reads as that key's value. *)
Theorem C32_delete_breaks {K V} (eqb : K -> K -> bool) (zero : V) ops rs s k v m l order :
  decides eqb -> amRun eqb zero amNew ops rs s -> stackDeletes eqb (rev ops) ->
  alive eqb (rev ops) k = Some v -> pushed eqb (rev ops) = m :: l -> m <> k ->
  exists s', amStep eqb zero (ADelete k) order s = (Ok (ABool true), s') /\
  forall order',
    fst (amStep eqb zero (AHas m) order' s') = Ok (ABool true) /\
    fst (amStep eqb zero (ATryGet m) order' s') = Panic idx_msg /\
    fst (amStep eqb zero (AGet m) order' s') = Panic idx_msg /\
    forall n w, n <> m ->
      fst (amStep eqb zero (ATryGet m) order' (snd (amStep eqb zero (ASet n w) order' s'))) = Ok (AOpt w true).
Proof.
  intros D Hr HD Ha Hl Hne.
  destruct (amRun_rep eqb D zero _ _ _ _ Hr []) as [_ R]; [apply arep_new|now rewrite app_nil_r|].
  rewrite app_nil_r in R.
  destruct (am_moved eqb D zero _ s k v m l order R Ha Hl Hne) as (s' & E & Hg).
  exists s'. split; [exact E|]. now apply (am_moved_after eqb D zero).
Qed.

(** C32, in every history whatever the Sets and Deletes: Len counts the calls of
    Set less the Deletes that answered true, At, KeyAt and ValueAt work exactly
    below Len, and a call that panics changes nothing. *)
Theorem C32_len {K V} (eqb : K -> K -> bool) (zero : V) ops rs s :
  amRun eqb zero amNew ops rs s ->
  let n := setsLessDeletes 0 ops rs in
  0 <= n /\
  forall order, amStep eqb zero ALen order s = (Ok (AInt n), s) /\
    amStep eqb zero AEmpty order s = (Ok (ABool (n =? 0)), s) /\
    (forall i, (exists e, amStep eqb zero (AAt i) order s = (Ok (AEntry e), s) /\
                          amStep eqb zero (AKeyAt i) order s = (Ok (AKey (fst e)), s) /\
                          amStep eqb zero (AValueAt i) order s = (Ok (AVal (snd e)), s)) <-> 0 <= i < n) /\
    (forall o e s', amStep eqb zero o order s = (Panic e, s') -> s' = s).
Proof.
  intros H n.
  assert (Hn : zlen (kv s) = n /\ nonneg (pos s)).
  { subst n. change 0 with (zlen (kv (@amNew K V))).
    assert (H1 : nonneg (pos (@amNew K V))) by constructor. revert H1 H. generalize (@amNew K V) as s0.
    intros s0 H1 H. revert H1. induction H as [s|s o order r s1 ops rs s2 P E Hr IH]; intros H1; [split; [reflexivity|assumption]|].
    pose proof (am_any eqb zero o order s H1) as L. rewrite E in L. destruct L as (L1 & _ & L2 & L3).
    destruct (IH L1) as [IH1 IH2]. split; [|assumption]. rewrite IH1, L3.
    destruct o; cbn [setsLessDeletes]; try reflexivity.
    destruct r as [[]| |]; try reflexivity. now destruct b. }
  destruct Hn as [Hn H1].
  pose proof (zlen_nonneg (kv s)) as H0. split; [lia|]. intros order.
  split; [cbn; now rewrite Hn|]. split; [cbn; now rewrite Hn|]. split.
  - intros i. cbn. unfold xbind, kvAt, xret. split.
    + intros (e & E & _). destruct (zget (kv s) i) eqn:G; [|discriminate]. apply zget_range in G. lia.
    + intros Hi. destruct (zget_some (kv s) i) as [e G]; [lia|]. exists e. rewrite G. auto.
  - intros o e s' E. pose proof (am_any eqb zero o order s H1) as L. rewrite E in L. now apply (proj1 (proj2 L) e).
Qed.

(** C32, how Set fails: setting a key that is present makes Len one more than
    the number of keys. *)
Theorem C32_set_breaks {K V} (eqb : K -> K -> bool) (zero : V) ops rs s k v w l order :
  decides eqb -> amRun eqb zero amNew ops rs s -> stackDeletes eqb (rev ops) -> freshSets eqb (rev ops) ->
  alive eqb (rev ops) k = Some v -> liveEntries eqb (ASet k w :: rev ops) l ->
  exists s', amStep eqb zero (ASet k w) order s = (Ok AUnit, s') /\
    fst (amStep eqb zero ALen order s') = Ok (AInt (zlen l + 1)).
Proof.
  intros D Hr HD HF Ha [HN HL].
  destruct (amRun_rep eqb D zero _ _ _ _ Hr []) as [_ R]; [apply arep_new|now rewrite app_nil_r|].
  rewrite app_nil_r in R. destruct (kv_live eqb D _ s R HD HF) as [HN' HL'].
  eexists. split; [reflexivity|]. cbn. rewrite zlen_app. change (zlen [(k, w)]) with 1. do 3 f_equal.
  rewrite <- (zlen_map fst (kv s)), <- (zlen_map fst l). unfold zlen. f_equal.
  apply Permutation_length, NoDup_Permutation; [assumption..|].
  intros x. rewrite !in_map_iff. split.
  - intros ([x' u] & <- & Hx). apply HL' in Hx. destruct (eqb k x') eqn:E.
    + apply D in E. subst x'. exists (k, w). split; [reflexivity|]. apply HL. cbn. now rewrite (proj2 (D k k) eq_refl).
    + exists (x', u). split; [reflexivity|]. apply HL. cbn. now rewrite E.
  - intros ([x' u] & <- & Hx). apply HL in Hx. cbn in Hx. destruct (eqb k x') eqn:E.
    + apply D in E. subst x'. exists (k, v). split; [reflexivity|]. now apply HL'.
    + exists (x', u). split; [reflexivity|]. now apply HL'.
Qed.

(** C32, the two together: a key that was set twice and deleted comes back when
    another key is deleted. *)
Theorem C32_comes_back_refuted : exists rs s,
  amRun Z.eqb 0 amNew [ASet 5 50; ASet 1 10; ASet 1 11; ADelete 1; AHas 1; ADelete 5; AHas 1] rs s /\
  alive Z.eqb (rev [ASet 5 50; ASet 1 10; ASet 1 11; ADelete 1; AHas 1; ADelete 5]) 1 = None /\
  rs = [Ok AUnit; Ok AUnit; Ok AUnit; Ok (ABool true); Ok (ABool false); Ok (ABool true); Ok (ABool true)].
Proof.
  do 2 eexists. split; [|split].
  - repeat (eapply amRun_cons; [reflexivity|reflexivity|]). constructor.
  - reflexivity.
  - reflexivity.
Qed.

Example C32_set_breaks_case : exists rs s,
  amRun Z.eqb 0 amNew [ASet 1 10; ASet 2 20] rs s /\ stackDeletes Z.eqb (rev [ASet 1 10; ASet 2 20]) /\
  freshSets Z.eqb (rev [ASet 1 10; ASet 2 20]) /\ alive Z.eqb (rev [ASet 1 10; ASet 2 20]) 1 = Some 10 /\
  liveEntries Z.eqb (ASet 1 11 :: rev [ASet 1 10; ASet 2 20]) [(1, 11); (2, 20)].
Proof.
  do 2 eexists. split; [|split; [|split; [|split]]].
  - repeat (eapply amRun_cons; [reflexivity|reflexivity|]). constructor.
  - cbn. auto.
  - cbn. auto.
  - reflexivity.
  - split; [repeat constructor; cbn; intuition discriminate|]. intros k v. cbn -[Z.eqb].
    destruct (Z.eqb_spec 1 k) as [<-|]; [intuition congruence|]. destruct (Z.eqb_spec 2 k) as [<-|]; intuition congruence.
Qed.
Example C32_delete_breaks_case : exists rs s,
  amRun Z.eqb 0 amNew [ASet 1 10; ASet 2 20] rs s /\ stackDeletes Z.eqb (rev [ASet 1 10; ASet 2 20]) /\
  alive Z.eqb (rev [ASet 1 10; ASet 2 20]) 1 = Some 10 /\ pushed Z.eqb (rev [ASet 1 10; ASet 2 20]) = [2; 1].
Proof.
  do 2 eexists. split; [|split; [|split]].
  - repeat (eapply amRun_cons; [reflexivity|reflexivity|]). constructor.
  - cbn. auto.
  - reflexivity.
  - reflexivity.
Qed.
Example C32_case : exists rs s,
  amRun Z.eqb 0 amNew [ASet 1 10; ASet 2 20; ADelete 2; ASet 3 30; ADelete 7] rs s /\
  stackDeletes Z.eqb (rev [ASet 1 10; ASet 2 20; ADelete 2; ASet 3 30; ADelete 7]) /\
  freshSets Z.eqb (rev [ASet 1 10; ASet 2 20; ADelete 2; ASet 3 30; ADelete 7]).
Proof.
  do 2 eexists. split; [|split].
  - repeat (eapply amRun_cons; [reflexivity|reflexivity|]). constructor.
  - cbn. split; [auto|]. split; eauto.
  - cbn. auto.
Qed.

(** C33 fails: with a constant hash, the second key is reported added but lost. *)
Theorem C33_custom_refuted :
  compatible (fun _ : Z => 0) Z.eqb /\
  fst (cRun (fun _ => 0) Z.eqb 0 [CSet 1 10; CSet 2 20; CGet 2] NewCustom)
    = [CBool true; CBool true; CVal 10 false] /\
  ~ hist (cAnswer Z.eqb) [] [CSet 1 10; CSet 2 20; CGet 2] [CBool true; CBool true; CVal 10 false].
Proof.
  split; [intros x y _; reflexivity|]. split; [reflexivity|].
  intros H. do 3 match goal with H : hist _ _ (_ :: _) _ |- _ => inversion H; clear H; subst end.
  match goal with H : cAnswer _ _ (CGet _) _ |- _ => cbn in H; discriminate end.
Qed.

(** C33, how it fails: in every reachable state, Set of a key colliding with a
    different stored key answers true and changes nothing; Get still misses. *)
Theorem C33_collision_lost {K V} (hash : K -> Z) equal (zero : V) ops k v mk mv :
  let m := snd (cRun hash equal zero ops NewCustom) in
  gget zeqb (main m) (hash k) = Some (mk, mv) -> equal mk k = false ->
  cSet hash equal k v m = (true, m) /\ cGet hash equal zero k m = (mv, false).
Proof. intros m. apply collision_lost. now apply ovf_nil_run. Qed.

(** C33, exactly what the code does in every history, for every hash and
    equality whatever: one place per hash; while a key holds it, Sets of other
    keys with that hash are ignored (and answer true). *)
Theorem C33_custom_exact {K V} (hash : K -> Z) equal (zero : V) ops :
  hist (cActual hash equal zero) [] ops (fst (cRun hash equal zero ops NewCustom)).
Proof. apply exact_run, erep_new. Qed.

(** C33 in every history in which no Set is of a key whose hash is at that time
    the hash of another key present. *)
Theorem C33_custom_partial {K V} (hash : K -> Z) equal (zero : V) ops :
  compatible hash equal ->
  (forall x, equal x x = true) -> (forall x y, equal x y = true -> equal y x = true) ->
  (forall x y z, equal x y = true -> equal y z = true -> equal x z = true) ->
  noClash hash equal (rev ops) ->
  hist (cAnswer equal) [] ops (fst (cRun hash equal zero ops NewCustom)).
Proof.
  intros HC H1 H2 H3 HN. apply (noClash_hist hash equal zero HC H1 H2 H3).
  - now rewrite app_nil_r.
  - apply exact_run, erep_new.
Qed.

(** In particular when, among the keys used, only equal ones share a hash (here
    equality need not even be an equivalence). *)
Theorem C33_no_collision_partial {K V} (hash : K -> Z) equal (zero : V) ops :
  compatible hash equal -> noCollision hash equal ops ->
  hist (cAnswer equal) [] ops (fst (cRun hash equal zero ops NewCustom)).
Proof.
  intros HC NC. apply (c_run hash equal zero HC (fun k => exists o, In o ops /\ keyOf o = k)).
  - intros x y (o & Ho & <-) (o' & Ho' & <-) Hh. now apply NC.
  - apply crep_new.
  - eauto.
Qed.

(** Keys 1, 11 and 21 share a hash; each is set when the others are gone. *)
Example C33_case : compatible (fun k => k mod 10) Z.eqb /\
  noClash (fun k => k mod 10) Z.eqb
    (rev [CSet 1 10; CSet 12 20; CDelete 1; CSet 11 5; CGet 1; CDelete 21; CGet 11; CSet 11 6; CDelete 11; CSet 21 7]) /\
  noCollision (fun k => k mod 10) Z.eqb [CSet 1 10; CSet 12 20; CDelete 1; CGet 12].
Proof.
  split; [|split].
  - intros x y H. apply Z.eqb_eq in H. now subst.
  - cbn [rev app noClash latest]. repeat split; intros x v H E;
      repeat match goal with
      | H : (if ?a =? ?b then _ else _) = _ |- _ => destruct (Z.eqb_spec a b) in H; subst
      end; try discriminate; auto.
  - intros o o' Ho Ho'. cbn in Ho, Ho'.
    repeat destruct Ho as [<-|Ho]; try contradiction; repeat destruct Ho' as [<-|Ho']; try contradiction;
      cbn; try reflexivity; discriminate.
Qed.

Print Assumptions C30_enumeration.
Print Assumptions C30_set.
Print Assumptions C31_clear_exact.
Print Assumptions C31_clear_partial.
Print Assumptions C31_clear_refuted.
Print Assumptions C32_arraymap_refuted.
Print Assumptions C32_lookups_partial.
Print Assumptions C32_arraymap_partial.
Print Assumptions C32_delete_breaks.
Print Assumptions C32_len.
Print Assumptions C32_set_breaks.
Print Assumptions C32_comes_back_refuted.
Print Assumptions C33_custom_refuted.
Print Assumptions C33_collision_lost.
Print Assumptions C33_custom_exact.
Print Assumptions C33_custom_partial.
Print Assumptions C33_no_collision_partial.
