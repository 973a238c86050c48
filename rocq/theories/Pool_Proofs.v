(** Proofs about pools and master generators. *)
From Coq Require Import Permutation.
From Verif Require Import Base Arr Exn Lin Lin_Proofs Secrand_Model Secrand_Spec Secrand_Proofs Sync_Model Sync_Spec Sync_Proofs Pool_Model Pool_Spec.
Local Open Scope list_scope.

(** ** Generators in the pool and in use *)
Lemma nodup_left {A} (a b : list A) : NoDup (a ++ b) -> NoDup a.
Proof.
  induction a as [|x a IH]; cbn; [constructor|]. inversion 1 as [|? ? H1 H2]; subst. constructor; [|now apply IH].
  intros Hx. apply H1, in_or_app. now left.
Qed.
Lemma step_cases t fs p fs' p' : poolStep t fs p fs' p' ->
  (heldIn fs' = heldIn fs /\ p' = p) \/
  (exists g kept dropped, heldIn fs' = g :: heldIn fs /\ Permutation (contents p) (g :: kept ++ dropped) /\ contents p' = kept /\ made p' = made p) \/
  (exists kept dropped, heldIn fs' = made p :: heldIn fs /\ Permutation (contents p) (kept ++ dropped) /\ contents p' = kept /\ made p' = S (made p)) \/
  (exists g, heldIn fs = g :: heldIn fs' /\ contents p' = g :: contents p /\ made p' = made p).
Proof.
  intros H. inversion H; subst; cbn [heldIn contents made].
  - right. left. eexists _, _, _. eauto.
  - right. right. left. eexists _, _. eauto.
  - now left.
  - now left.
  - now left.
  - right. right. right. eauto.
Qed.

Record poolInv (p : pool) (h : nat -> list nat) : Prop := {
  pi_nodup : NoDup (contents p);
  pi_bound : forall g, In g (contents p) -> (g < made p)%nat;
  pi_held : forall t, NoDup (h t);
  pi_out : forall t g, In g (h t) -> (g < made p)%nat /\ ~ In g (contents p);
  pi_one : forall t u g, In g (h t) -> In g (h u) -> t = u }.

Lemma poolInv_ext p h h' : (forall t, h' t = h t) -> poolInv p h -> poolInv p h'.
Proof.
  intros E [H1 H2 H3 H4 H5]. constructor; auto.
  - intros t. now rewrite E.
  - intros t g. rewrite E. apply H4.
  - intros t u g. rewrite !E. apply H5.
Qed.

Lemma poolInv_step t fs p fs' p' h : poolInv p h -> h t = heldIn fs -> poolStep t fs p fs' p' -> poolInv p' (put h t (heldIn fs')).
Proof.
  intros HI Et HS. destruct (step_cases _ _ _ _ _ HS) as [[E ->]|[(g & kept & dr & E & HP & Ec & Em)|[(kept & dr & E & HP & Ec & Em)|(g & E & Ec & Em)]]].
  - apply (poolInv_ext _ h); [|exact HI]. intros u. destruct (Nat.eq_dec t u) as [<-|N]; [rewrite put_same; congruence|now rewrite put_other].
  - destruct HI as [H1 H2 H3 H4 H5]. pose proof (Permutation_NoDup HP H1) as HN. inversion HN as [|? ? Hg HN']; subst.
    assert (Hsub : forall x, In x (contents p') -> In x (contents p) /\ x <> g).
    { intros x Hx. split; [apply (Permutation_in x (Permutation_sym HP)); right; apply in_or_app; now left|].
      intros ->. apply Hg, in_or_app. now left. }
    assert (Hgin : In g (contents p)) by (apply (Permutation_in g (Permutation_sym HP)); now left).
    assert (Hold : forall u x, In x (put h t (heldIn fs') u) -> (u = t /\ x = g) \/ In x (h u)).
    { intros u x Hx. destruct (Nat.eq_dec t u) as [<-|N]; [|rewrite put_other in Hx by exact N; now right].
      rewrite put_same, E in Hx. rewrite Et. destruct Hx as [<-|Hx]; auto. }
    constructor.
    + now apply nodup_left in HN'.
    + intros x Hx. rewrite Em. apply H2. now apply Hsub.
    + intros u. destruct (Nat.eq_dec t u) as [<-|N]; [rewrite put_same, E|rewrite put_other by exact N; apply H3].
      rewrite <- Et. constructor; [|apply H3]. intros Hx. now apply (H4 t g Hx).
    + intros u x Hx. rewrite Em. destruct (Hold u x Hx) as [[_ ->]|Hh].
      * split; [now apply H2|]. intros Hx2. now apply (Hsub g Hx2).
      * split; [now apply (H4 u)|]. intros Hx2. apply (proj2 (H4 u x Hh)). now apply Hsub.
    + intros u w x Hu Hw. destruct (Hold u x Hu) as [[Eu Ex]|Hu'], (Hold w x Hw) as [[Ew E2]|Hw']; [congruence| | |].
      * exfalso. rewrite Ex in Hw'. now apply (H4 w g Hw').
      * exfalso. rewrite E2 in Hu'. now apply (H4 u g Hu').
      * now apply (H5 u w x).
  - destruct HI as [H1 H2 H3 H4 H5]. pose proof (Permutation_NoDup HP H1) as HN.
    assert (Hsub : forall x, In x (contents p') -> In x (contents p)).
    { intros x Hx. apply (Permutation_in x (Permutation_sym HP)), in_or_app. left. congruence. }
    assert (Hold : forall u x, In x (put h t (heldIn fs') u) -> (u = t /\ x = made p) \/ In x (h u)).
    { intros u x Hx. destruct (Nat.eq_dec t u) as [<-|N]; [|rewrite put_other in Hx by exact N; now right].
      rewrite put_same, E in Hx. rewrite Et. destruct Hx as [<-|Hx]; auto. }
    constructor.
    + rewrite Ec. now apply nodup_left in HN.
    + intros x Hx. rewrite Em. specialize (H2 x (Hsub x Hx)). lia.
    + intros u. destruct (Nat.eq_dec t u) as [<-|N]; [rewrite put_same, E|rewrite put_other by exact N; apply H3].
      rewrite <- Et. constructor; [|apply H3]. intros Hx. pose proof (proj1 (H4 t _ Hx)). lia.
    + intros u x Hx. rewrite Em. destruct (Hold u x Hx) as [[_ ->]|Hh].
      * split; [lia|]. intros Hx2. specialize (H2 _ (Hsub _ Hx2)). lia.
      * destruct (H4 u x Hh) as [B1 B2]. split; [lia|]. intros Hx2. now apply B2, Hsub.
    + intros u w x Hu Hw. destruct (Hold u x Hu) as [[Eu Ex]|Hu'], (Hold w x Hw) as [[Ew E2]|Hw']; [congruence| | |].
      * exfalso. pose proof (proj1 (H4 w _ Hw')). lia.
      * exfalso. pose proof (proj1 (H4 u _ Hu')). lia.
      * now apply (H5 u w x).
  - destruct HI as [H1 H2 H3 H4 H5]. rewrite <- Et in E.
    assert (Hg : In g (h t)) by (rewrite E; now left).
    assert (HN : NoDup (g :: heldIn fs')) by (rewrite <- E; apply H3). inversion HN as [|? ? Hg' HN']; subst.
    assert (Hold : forall u x, In x (put h t (heldIn fs') u) -> In x (h u) /\ x <> g).
    { intros u x Hx. destruct (Nat.eq_dec t u) as [<-|N].
      - rewrite put_same in Hx. rewrite E. split; [now right|]. intros ->. contradiction.
      - rewrite put_other in Hx by exact N. split; [exact Hx|]. intros ->. apply N. now apply (H5 t u g). }
    constructor.
    + rewrite Ec. constructor; [now apply (H4 t)|exact H1].
    + intros x Hx. rewrite Em. rewrite Ec in Hx. destruct Hx as [<-|Hx]; [now apply (H4 t)|now apply H2].
    + intros u. destruct (Nat.eq_dec t u) as [<-|N]; [rewrite put_same; exact HN'|rewrite put_other by exact N; apply H3].
    + intros u x Hx. rewrite Em, Ec. destruct (Hold u x Hx) as [Hh N]. split; [now apply (H4 u)|].
      intros [Eg|Hc]; [congruence|]. now apply (proj2 (H4 u x Hh)).
    + intros u w x Hu Hw. apply (H5 u w x); [now apply Hold|now apply Hold].
Qed.

Lemma pooling_inv tr c : pooling tr c -> poolInv (shared c) (held c).
Proof.
  induction 1 as [|tr c ev c' HR IH HS].
  { constructor; cbn; try (intros; contradiction); constructor. }
  inversion HS as [c0 t o E|c0 t o k k' sh' E E2|c0 t o k r E E2]; subst; cbn [shared].
  - apply (poolInv_ext _ (held c)); [|exact IH]. intros u. unfold held. cbn [thread].
    destruct (Nat.eq_dec t u) as [<-|N]; [rewrite put_same, E; reflexivity|now rewrite put_other].
  - apply (poolInv_ext _ (put (held c) t (heldIn k'))).
    + intros u. unfold held. cbn [thread]. destruct (Nat.eq_dec t u) as [<-|N]; [now rewrite !put_same|now rewrite !put_other].
    + apply (poolInv_step t k (shared c)); [exact IH|unfold held; now rewrite E|exact E2].
  - apply (poolInv_ext _ (held c)); [|exact IH]. intros u. unfold held. cbn [thread].
    destruct (Nat.eq_dec t u) as [<-|N]; [rewrite put_same, E; destruct k; [reflexivity|discriminate]|now rewrite put_other].
Qed.

Lemma put_back c ev c' t g : step enter left poolStep c ev c' -> In g (held c t) -> ~ In g (held c' t) -> In g (contents (shared c')).
Proof.
  intros HS Hin Hout. inversion HS as [c0 u o E|c0 u o k k' sh' E E2|c0 u o k r E E2]; subst; unfold held in *; cbn [thread shared] in *;
    (destruct (Nat.eq_dec u t) as [->|N]; [rewrite put_same in Hout; rewrite E in Hin|rewrite put_other in Hout by exact N; contradiction]).
  - destruct Hin.
  - destruct (step_cases _ _ _ _ _ E2) as [[E3 _]|[(g' & kept & dr & E3 & _)|[(kept & dr & E3 & _)|(g' & E3 & Ec & _)]]].
    + rewrite E3 in Hout. contradiction.
    + rewrite E3 in Hout. exfalso. apply Hout. now right.
    + rewrite E3 in Hout. exfalso. apply Hout. now right.
    + rewrite E3 in Hin. rewrite Ec. destruct Hin as [->|Hin]; [now left|contradiction].
  - destruct k; [destruct Hin|discriminate].
Qed.

(** ** xsync.Pool *)
Lemma available_snoc p l e : available p (l ++ [e]) = account p (available p l) e.
Proof. unfold available. now rewrite fold_left_app. Qed.

Lemma occurs_snoc p l e : occurs p (l ++ [e]) <-> occurs p l \/ e = HPut p \/ e = HGet (Ok p).
Proof. unfold occurs. rewrite !in_app_iff. cbn. intuition. Qed.

Lemma count_perm_le (l a b : list nat) p : Permutation l (a ++ b) -> (count_occ Nat.eq_dec a p <= count_occ Nat.eq_dec l p)%nat.
Proof.
  intros H. rewrite (proj1 (Permutation_count_occ Nat.eq_dec l (a ++ b)) H p), count_occ_app. lia.
Qed.

Lemma history_inv hasNew l s : history hasNew l s ->
  (forall p, (count_occ Nat.eq_dec (inside_ s) p <= available p l)%nat) /\
  (forall p, occurs p l -> (p < above s)%nat).
Proof.
  induction 1 as [|l s e s' HH [IH1 IH2] HS].
  { split; [intros; cbn; lia|]. intros p [[]|[]]. }
  inversion HS as [s1 p|s1 x s2 HG]; subst; cbn [inside_ above].
  - split.
    + intros q. rewrite available_snoc. cbn [account count_occ]. specialize (IH1 q).
      destruct (Nat.eq_dec p q) as [->|N]; [rewrite Nat.eqb_refl; lia|]. now rewrite (proj2 (Nat.eqb_neq q p)) by congruence.
    + intros q Hq. apply occurs_snoc in Hq as [Hq|[[= ->]|Hq]]; [specialize (IH2 q Hq); lia|lia|discriminate].
  - inversion HG as [p kept dr HP|kept dr Hn HP|kept dr Hn HP]; subst; cbn [asserted inside_ above].
    + split.
      * intros q. rewrite available_snoc. cbn [account]. specialize (IH1 q).
        pose proof (count_perm_le _ (p :: kept) dr q HP) as HC. cbn [count_occ] in HC.
        destruct (Nat.eq_dec p q) as [->|N]; [rewrite Nat.eqb_refl; lia|]. rewrite (proj2 (Nat.eqb_neq q p)) by congruence. lia.
      * intros q Hq. apply occurs_snoc in Hq as [Hq|[Hq|[= ->]]]; [now apply IH2|discriminate|].
        apply IH2. left. assert (HC : (1 <= available q l)%nat).
        { pose proof (count_perm_le _ (q :: kept) dr q HP) as HC. cbn [count_occ] in HC. destruct (Nat.eq_dec q q); [|contradiction]. specialize (IH1 q). lia. }
        clear - HC. induction l as [|e l IH] using rev_ind; [cbn in HC; lia|]. rewrite available_snoc in HC. apply in_or_app.
        destruct e as [p|[p| |]]; cbn [account] in HC; try (left; apply IH; exact HC).
        -- destruct (Nat.eqb_spec q p) as [E|N]; [subst p; right; now left|left; apply IH; exact HC].
        -- left. apply IH. destruct (Nat.eqb q p); lia.
    + assert (Hfresh : available (above s) l = 0%nat).
      { assert (Hno : ~ occurs (above s) l) by (intros Ho; specialize (IH2 _ Ho); lia). clear - Hno. revert Hno. generalize (above s). intros q.
        induction l as [|e l IH] using rev_ind; [reflexivity|]. intros Hno. rewrite available_snoc.
        rewrite IH by (intros Ho; apply Hno, occurs_snoc; now left).
        destruct e as [p|[p| |]]; cbn [account]; try reflexivity.
        - destruct (Nat.eqb_spec q p) as [->|N]; [|reflexivity]. exfalso. apply Hno, occurs_snoc. auto.
        - now destruct (Nat.eqb q p). }
      split.
      * intros q. rewrite available_snoc. cbn [account]. pose proof (count_perm_le _ kept dr q HP) as HC. specialize (IH1 q).
        destruct (Nat.eqb_spec q (above s)) as [->|N]; lia.
      * intros q Hq. apply occurs_snoc in Hq as [Hq|[Hq|[= ->]]]; [specialize (IH2 q Hq); lia|discriminate|lia].
    + split.
      * intros q. rewrite available_snoc. cbn [account]. pose proof (count_perm_le _ kept dr q HP) as HC. specialize (IH1 q). lia.
      * intros q Hq. apply occurs_snoc in Hq as [Hq|[Hq|Hq]]; [now apply IH2|discriminate|discriminate].
Qed.

(** ** The master generators *)
Section Master.
  Context {T R : Type}.
  Lemma linearized_ops tr (h : list (op T R * R)) p : linearized tr h p ->
    (forall o r, In (o, r) h -> exists t, In (EInv t o) tr) /\
    (forall t o, p t = PPending o \/ (exists r, p t = PDone o r) -> exists t, In (EInv t o) tr).
  Proof.
    induction 1 as [|tr h p t o HL [IH1 IH2] Hp|tr h p t o r HL [IH1 IH2] Hp|tr h p t o r HL [IH1 IH2] Hp].
    - split; [intros ? ? []|intros t o [H|[r H]]; discriminate].
    - assert (W : forall (e : event (op T R) R) o', (exists t', In (EInv t' o') tr) -> exists t', In (EInv t' o') (tr ++ [e]))
        by (intros e o' (t' & H); exists t'; apply in_or_app; now left).
      split; [intros o' r' H; apply W; eauto|]. intros u o' H. destruct (Nat.eq_dec t u) as [<-|N].
      + rewrite put_same in H. destruct H as [[= ->]|[r' H]]; [|discriminate]. exists t. apply in_or_app. right. now left.
      + rewrite put_other in H by exact N. apply W. eauto.
    - split.
      + intros o' r' H. apply in_app_or in H as [H|[[= <- <-]|[]]]; [eauto|]. eapply IH2. left. exact Hp.
      + intros u o' H. destruct (Nat.eq_dec t u) as [<-|N]; [|rewrite put_other in H by exact N; eauto].
        rewrite put_same in H. destruct H as [H|[r' [= -> ->]]]; [discriminate|]. eapply IH2. left. exact Hp.
    - assert (W : forall (e : event (op T R) R) o', (exists t', In (EInv t' o') tr) -> exists t', In (EInv t' o') (tr ++ [e]))
        by (intros e o' (t' & H); exists t'; apply in_or_app; now left).
      split; [intros o' r' H; apply W; eauto|]. intros u o' H. destruct (Nat.eq_dec t u) as [<-|N].
      + rewrite put_same in H. destruct H as [H|[r' H]]; discriminate.
      + rewrite put_other in H by exact N. apply W. eauto.
  Qed.
End Master.

Section Draws.
  Context {M D G : Type} (int63 : M -> D * M) (make : D -> G).
  Lemma drawn_S m i : drawn int63 m (S i) = drawn int63 (snd (int63 m)) i.
  Proof. reflexivity. Qed.
  Fixpoint after (m : M) (i : nat) : M := match i with O => m | S i' => after (snd (int63 m)) i' end.
  Lemma after_S m i : after m (S i) = snd (int63 (after m i)).
  Proof. revert m. induction i as [|i IH]; intros m; [reflexivity|]. cbn [after]. rewrite <- IH. reflexivity. Qed.
  Lemma drawn_after m i : drawn int63 m i = fst (int63 (after m i)).
  Proof. revert m. induction i as [|i IH]; intros m; [reflexivity|]. cbn [after drawn]. apply IH. Qed.
  Lemma draws_sequential m0 h m : sequential oneAtATime m0 h m -> (forall o r, In (o, r) h -> o = newRng int63 make) ->
    m = after m0 (List.length h) /\ map snd h = map (fun i => make (drawn int63 m0 i)) (seq 0 (List.length h)).
  Proof.
    induction 1 as [|h s o r s' HS IH HO]; intros HF; [split; reflexivity|].
    destruct IH as [-> E]; [intros o' r' H; apply (HF o' r'), in_or_app; now left|].
    assert (o = newRng int63 make) by (apply (HF o r), in_or_app; right; now left). subst o.
    inversion HO as [v1 b r1 v2 HA|]; subst. cbn [atomically] in HA. injection HA as <- <-.
    rewrite app_length. cbn [List.length]. rewrite Nat.add_1_r. split; [symmetry; apply after_S|].
    rewrite map_app, seq_S, map_app, E. cbn [map snd]. rewrite Nat.add_0_l. now rewrite drawn_after.
  Qed.
End Draws.

Lemma exclusive_alone {T R} (b : body T R) v r v' : oneAtATime v (Exclusive b) r v' -> atomically b v = (r, v').
Proof. now inversion 1. Qed.

Section Seeds.
  Context (ks : Z -> list Z -> list Z -> nat -> Z) (nonce seed : list Z).
  Hypothesis Hks : cipher ks.
  Hypothesis Hn : zlen nonce = 8%Z.
  Hypothesis Hs : zlen seed = 32%Z.

  Lemma aligned_32 k : forall i, aligned (Z.to_nat 1024) (32 * i) (repeat 32%nat k).
  Proof.
    induction k as [|k IH]; intros i; cbn [repeat aligned]; [exact I|]. split.
    - assert (E : Z.to_nat 1024 = (32 * 32)%nat) by lia. rewrite E, Nat.mul_mod_distr_l by lia.
      pose proof (Nat.mod_upper_bound i 32). lia.
    - replace (32 * i + 32)%nat with (32 * S i)%nat by lia. apply IH.
  Qed.

  Lemma performs_snoc cs c r l r1 : performs ks cs r = (Ok l, r1) ->
    performs ks (cs ++ [c]) r = match perform ks c r1 with (Ok a, r2) => (Ok (l ++ [a]), r2) | (Panic e, r2) => (Panic e, r2) | (Diverge, r2) => (Diverge, r2) end.
  Proof.
    revert r l. induction cs as [|c' cs IH]; intros r l H; cbn [performs app] in *.
    - injection H as <- <-. unfold xbind, xret. destruct (perform ks c r) as [[a|e|] r2]; reflexivity.
    - unfold xbind in *. destruct (perform ks c' r) as [[a|e|] r2]; try discriminate.
      destruct (performs ks cs r2) as [[l'|e|] r3] eqn:E; try discriminate. unfold xret in *. injection H as <- <-.
      rewrite (IH _ _ E). destruct (perform ks c r3) as [[a'|e'|] r4]; reflexivity.
  Qed.

  (** The seeds that were read one after the other. *)
  Lemma seeds_sequential m0 h m : NewRNGFromSeed ks nonce seed = Ok m0 ->
    sequential oneAtATime m0 h m -> (forall o r, In (o, r) h -> o = newRNG ks nonce) ->
    exists l, performs ks (map CRead (repeat (zeros 32) (List.length h))) m0 = (Ok l, m) /\
      map snd h = map (fun i => NewRNGFromSeed ks nonce (piece ks nonce seed i)) (seq 0 (List.length h)).
  Proof.
    intros EN. assert (H64 : (64 <= Z.to_nat 1024)%nat) by lia. assert (Hr : (12 = 8 \/ 12 = 12 \/ 12 = 20)%Z) by auto.
    assert (EN2 : NewRNGCustom ks seed nonce (Z.of_nat (Z.to_nat 1024)) 12 = Ok m0) by exact EN.
    pose proof (new_good ks 12 nonce (Z.to_nat 1024) Hks Hr Hn H64 seed m0 Hs EN2) as Hg.
    pose proof (new_ok ks 12 nonce (Z.to_nat 1024) Hr Hn H64 seed Hs) as EN3. rewrite EN2 in EN3. injection EN3 as EM.
    induction 1 as [|h s o r s' HS IH HO]; intros HF; [exists []; split; reflexivity|].
    destruct IH as (l & EP & ER); [intros o' r' H; apply (HF o' r'), in_or_app; now left|].
    assert (o = newRNG ks nonce) by (apply (HF o r), in_or_app; right; now left). subst o.
    set (k := List.length h) in *.
    destruct (performs_good ks 12 nonce (Z.to_nat 1024) Hks Hr Hn H64 (map CRead (repeat (zeros 32) k)) m0 Hg) as (l' & r' & EP' & HF2 & Hg').
    rewrite EP in EP'. injection EP' as <- <-.
    destruct (read_good ks 12 nonce (Z.to_nat 1024) Hks Hr Hn H64 0 (zeros 32) s Hg') as (b' & s2 & ERd & HLb & _ & _).
    apply exclusive_alone in HO as HA. cbn [atomically] in HA. unfold KeySize in HA. rewrite ERd in HA.
    cbn [atomically snd] in HA. injection HA as <- <-.
    rewrite app_length. cbn [List.length]. rewrite Nat.add_1_r. fold k.
    assert (EPS : performs ks (map CRead (repeat (zeros 32) (S k))) m0 = (Ok (l ++ [ARead 32 b']), s2)).
    { rewrite <- Nat.add_1_r, repeat_app, map_app. cbn [repeat map]. rewrite (performs_snoc _ _ _ _ _ EP).
      cbn [perform]. unfold xbind. rewrite ERd. reflexivity. }
    exists (l ++ [ARead 32 b']). split; [exact EPS|].
    rewrite map_app, seq_S, map_app, ER. cbn [map snd]. rewrite Nat.add_0_l. do 2 f_equal.
    (* the bytes of the last read *)
    assert (OUT : forall j lj rj, performs ks (map CRead (repeat (zeros 32) j)) m0 = (Ok lj, rj) ->
      output lj = map (streamByte ks 12 nonce seed (Z.to_nat 1024)) (seq 0 (32 * j))).
    { intros j lj rj Ej.
      destruct (aligned_reads ks 12 nonce (Z.to_nat 1024) Hr Hn H64 seed (repeat (zeros 32) j) 0 0) as (l2 & r2 & E2 & O2); [lia| |].
      - rewrite Nat.mul_0_l, Nat.add_0_l. replace (map (@List.length Z) (repeat (zeros 32) j)) with (repeat 32%nat j).
        + apply (aligned_32 j 0).
        + clear. induction j; cbn [repeat map]; [reflexivity|]. f_equal. exact IHj.
      - assert (E2' : performs ks (map CRead (repeat (zeros 32) j)) m0 = (Ok l2, r2)) by (rewrite EM; exact E2).
        rewrite Ej in E2'. injection E2' as <- _. rewrite O2. rewrite Nat.mul_0_l, Nat.add_0_l. f_equal. f_equal.
        clear. induction j; [reflexivity|]. cbn [repeat map list_sum fold_right]. change (List.length (zeros 32)) with 32%nat.
        unfold list_sum in IHj. rewrite IHj. lia. }
    pose proof (OUT (S k) _ _ EPS) as O1.
    assert (OA : forall a b, output (a ++ b) = output a ++ output b).
    { clear. induction a as [|[k' x|v] a IH]; intros b; cbn [output app]; [reflexivity| |apply IH]. rewrite IH. apply app_assoc. }
    rewrite OA, (OUT k _ _ EP) in O1. cbn [output] in O1. rewrite app_nil_r in O1.
    replace (32 * S k)%nat with (32 * k + 32)%nat in O1 by lia. rewrite seq_app, map_app, Nat.add_0_l in O1.
    apply app_inv_head in O1. f_equal. exact O1.
  Qed.
End Seeds.
