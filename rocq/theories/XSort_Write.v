(** Proofs about xsort: comparators that write to the slice being sorted.

    A run on a slice that holds [map c l], where [l] lists distinct labels, is
    matched by a run on the labels with a comparator that keeps the contents
    [c] of the labels in its own state and does not touch its slice. *)
From Coq Require Import Permutation.
From Verif Require Import Base Arr XSort_Model XSort_Spec XSort_Rel XSort_Panic XSort_Proofs XSort_Pdq XSort_Stab XSort_StableCost XSort_SortCost.
Local Open Scope cb_scope.

(** ** Contents of labels *)
Section Labels.
  Context {E : Type}.

  (** The contents after the slice with labels [l] was made to hold [a]. *)
  Fixpoint back (c : nat -> E) (l : list nat) (a : list E) : nat -> E :=
    match l, a with
    | x :: l', v :: a' => fun n => if Nat.eqb n x then v else back c l' a' n
    | _, _ => c
    end.

  Lemma map_back c : forall l a, NoDup l -> List.length a = List.length l -> map (back c l a) l = a.
  Proof.
    induction l as [|x l IH]; intros [|v a] Hn HL; cbn in HL; try discriminate; [reflexivity|].
    inversion Hn as [|? ? Hx Hn']; subst. cbn. rewrite Nat.eqb_refl. f_equal.
    etransitivity; [|exact (IH a Hn' ltac:(lia))]. apply map_ext_in. intros n Hin.
    destruct (Nat.eqb_spec n x) as [->|]; [contradiction|reflexivity].
  Qed.
End Labels.

Lemma zget_map {A B} (f : A -> B) l i : zget (map f l) i = option_map f (zget l i).
Proof. unfold zget. destruct (i <? 0); [reflexivity|]. apply nth_error_map. Qed.
Lemma map_upd {A B} (f : A -> B) l n x : map f (upd l n x) = upd (map f l) n (f x).
Proof. revert n. induction l as [|y l IH]; intros [|n]; cbn; try reflexivity. now rewrite IH. Qed.

Lemma map_nth_seq {A} (x : A) d : map (fun n => nth n d x) (seq 0 (List.length d)) = d.
Proof.
  induction d as [|y d IH]; [reflexivity|]. cbn [List.length seq map nth]. f_equal.
  rewrite <- seq_shift, map_map. exact IH.
Qed.

(** ** The matching run *)
Section Sim.
  Context {E S : Type}.

  Definition shadow (less : comparatorW E S) : comparatorP nat ((nat -> E) * S) :=
    fun l x y cs =>
      (fst (less (map (fst cs) l) (fst cs x) (fst cs y) (snd cs)),
       (back (fst cs) l (fst (snd (less (map (fst cs) l) (fst cs x) (fst cs y) (snd cs)))),
        snd (snd (less (map (fst cs) l) (fst cs x) (fst cs y) (snd cs))))).

  Variable lt ge : comparatorW E S.
  Hypothesis Klt : keeps_length lt.
  Hypothesis Kge : keeps_length ge.

  Definition sim A (m1 : CM (@st E S) A) (m2 : CM (@st nat ((nat -> E) * S)) A) : Prop :=
    forall l c s, NoDup l -> exists r l' c' s',
      m1 (map c l, s) = (r, (map c' l', s')) /\ m2 (l, (c, s)) = (r, (l', (c', s'))) /\ NoDup l'.

  Lemma sim_ret A (a : A) : sim A (cret a) (cret a).
  Proof. intros l c s Hn. exists (CRet a), l, c, s. auto. Qed.
  Lemma sim_diverge A : sim A cdiverge cdiverge.
  Proof. intros l c s Hn. exists CDiverge, l, c, s. auto. Qed.
  Lemma sim_bind A B m1 m2 (f1 : A -> CM _ B) f2 :
    sim A m1 m2 -> (forall a, sim B (f1 a) (f2 a)) -> sim B (cbind m1 f1) (cbind m2 f2).
  Proof.
    intros Hm Hf l c s Hn. unfold cbind. destruct (Hm l c s Hn) as (r & l' & c' & s' & -> & -> & Hn').
    destruct r; [apply Hf; auto| | |]; repeat eexists; auto.
  Qed.
  Lemma sim_swap i j : sim unit (swap i j) (swap i j).
  Proof.
    intros l c s Hn. unfold swap, cbind, rd, wr. rewrite !zget_map.
    destruct (zget l j) as [x|] eqn:Hj; cbn [option_map]; [|repeat eexists; auto].
    destruct (zget l i) as [y|] eqn:Hi'; cbn [option_map]; [|repeat eexists; auto].
    assert (Hir : 0 <= i < zlen l).
    { unfold zget in Hi'. destruct (Z.ltb_spec i 0); [discriminate|].
      assert (Z.to_nat i < List.length l)%nat by (apply nth_error_Some; congruence). unfold zlen. lia. }
    assert (Hjr : 0 <= j < zlen l).
    { unfold zget in Hj. destruct (Z.ltb_spec j 0); [discriminate|].
      assert (Z.to_nat j < List.length l)%nat by (apply nth_error_Some; congruence). unfold zlen. lia. }
    assert (HL : zlen (map c l) = zlen l) by (unfold zlen; now rewrite map_length).
    rewrite !zset_ok by (rewrite ?zlen_upd, ?HL; lia).
    exists (CRet tt), (upd (upd l (Z.to_nat i) x) (Z.to_nat j) y), c, s.
    rewrite !map_upd. split; [reflexivity|]. split; [reflexivity|].
    rewrite (zget_at y) in Hj, Hi' by lia. injection Hj as Hx. injection Hi' as Hy.
    pose proof (perm_swp y l i j Hir Hjr) as HP. unfold swp in HP. rewrite Hx, Hy in HP.
    eapply Permutation_NoDup; eauto.
  Qed.
  Lemma sim_ltAt i j : sim bool (ltAt lt i j) (ltAt (shadow lt) i j).
  Proof.
    intros l c s Hn. unfold ltAt, cbind, rd. rewrite !zget_map.
    destruct (zget l i) as [x|] eqn:Hi; cbn [option_map]; [|repeat eexists; auto].
    destruct (zget l j) as [y|] eqn:Hj; cbn [option_map]; [|repeat eexists; auto].
    unfold askLt, reads, shadow. cbn [fst snd].
    destruct (lt (map c l) (c x) (c y) s) as [r [d' s']] eqn:Hl. cbn [fst snd].
    apply Klt in Hl. rewrite map_length in Hl.
    exists (match r with inl b => CRet b | inr e => CUser e end), l, (back c l d'), s'.
    rewrite (map_back c l d' Hn Hl). destruct r; auto.
  Qed.
  Lemma sim_geAt i j : sim bool (geAt ge i j) (geAt (shadow ge) i j).
  Proof.
    intros l c s Hn. unfold geAt, cbind, rd. rewrite !zget_map.
    destruct (zget l i) as [x|] eqn:Hi; cbn [option_map]; [|repeat eexists; auto].
    destruct (zget l j) as [y|] eqn:Hj; cbn [option_map]; [|repeat eexists; auto].
    unfold askGe, reads, shadow. cbn [fst snd].
    destruct (ge (map c l) (c x) (c y) s) as [r [d' s']] eqn:Hl. cbn [fst snd].
    apply Kge in Hl. rewrite map_length in Hl.
    exists (match r with inl b => CRet b | inr e => CUser e end), l, (back c l d'), s'.
    rewrite (map_back c l d' Hn Hl). destruct r; auto.
  Qed.

  Lemma sim_pdqsort stack a b l : sim unit (pdqsort lt ge stack a b l) (pdqsort (shadow lt) (shadow ge) stack a b l).
  Proof.
    apply rel_pdqsort; [exact sim_ret|exact sim_diverge|exact sim_bind|exact sim_swap|exact sim_ltAt|exact sim_geAt].
  Qed.
  Lemma sim_stable stack n : sim unit (stable lt ge stack n) (stable (shadow lt) (shadow ge) stack n).
  Proof.
    apply rel_stable; [exact sim_ret|exact sim_diverge|exact sim_bind|exact sim_swap|exact sim_ltAt|exact sim_geAt].
  Qed.
End Sim.

Lemma keeps_length_notLess {E S} (less : comparatorW E S) : keeps_length less -> keeps_length (notLessW less).
Proof.
  intros H d x y s r d' s' Hn. unfold notLessW in Hn. destruct (less d x y s) as [r0 [d1 s1]] eqn:Hl.
  cbn in Hn. injection Hn as _ <- _. now apply H in Hl.
Qed.

(** ** What every comparison keeps, and what is a matter of the elements alone *)
Section Keeps.
  Context {E S : Type}.
  Variable lt ge : comparatorW E S.
  Variable I : list E -> S -> Prop.
  Hypothesis Iperm : forall d d' s, Permutation d d' -> I d s -> I d' s.
  Hypothesis Ilt : forall d x y s r d' s', In x d -> In y d -> I d s -> lt d x y s = (r, (d', s')) -> I d' s'.
  Hypothesis Ige : forall d x y s r d' s', In x d -> In y d -> I d s -> ge d x y s = (r, (d', s')) -> I d' s'.

  Definition brokeW (e : string) (d' : list E) (s' : S) : Prop :=
    exists d x y s, In x d /\ In y d /\ I d s /\
      (lt d x y s = (inr e, (d', s')) \/ ge d x y s = (inr e, (d', s'))).

  Definition keeps A (m _ : CM (@st E S) A) : Prop :=
    forall d s r d' s', I d s -> m (d, s) = (r, (d', s')) -> I d' s' /\ (forall e, r = CUser e -> brokeW e d' s').

  Lemma keeps_ret A (a : A) : keeps A (cret a) (cret a).
  Proof. intros d s r d' s' Hi H. injection H as <- <- <-. split; [auto|discriminate]. Qed.
  Lemma keeps_diverge A : keeps A cdiverge cdiverge.
  Proof. intros d s r d' s' Hi H. injection H as <- <- <-. split; [auto|discriminate]. Qed.
  Lemma keeps_bind A B m m2 (f : A -> CM _ B) f2 :
    keeps A m m2 -> (forall a, keeps B (f a) (f2 a)) -> keeps B (cbind m f) (cbind m2 f2).
  Proof.
    intros Hm Hf d s r d' s' Hi H. unfold cbind in H. destruct (m (d, s)) as [r1 [d1 s1]] eqn:Hx.
    destruct (Hm _ _ _ _ _ Hi Hx) as (Hi1 & Hu1).
    destruct r1; [apply (Hf a d1 s1); auto| | |]; injection H as <- <- <-; (split; [auto|]); try discriminate.
    intros e0 He. injection He as <-. now apply Hu1.
  Qed.
  Lemma keeps_swap i j : keeps unit (swap i j) (swap i j).
  Proof.
    intros d s r d' s' Hi H.
    destruct (good_swap (fun _ _ _ s => (inl true, s)) (fun _ _ _ s => (inl true, s)) d (fun _ => True) ltac:(auto) ltac:(auto) i j
      d s r d' s' (Permutation_refl _) Logic.I H) as (Hp & _ & Hb).
    assert (s' = s).
    { unfold swap, cbind, rd, wr in H. repeat (destruct (zget _ _); [|congruence]).
      repeat (destruct (zset _ _ _); [|congruence]). congruence. }
    subst s'. split; [eapply Iperm; eauto|].
    intros e ->. destruct (Hb e eq_refl) as (? & ? & ? & _ & _ & _ & [Hc|Hc]); discriminate.
  Qed.
  Lemma keeps_ltAt i j : keeps bool (ltAt lt i j) (ltAt lt i j).
  Proof.
    intros d s r d' s' Hi H. unfold ltAt, cbind, rd, askLt in H.
    destruct (zget d i) as [x|] eqn:Hx; [|injection H as <- <- <-; split; [auto|discriminate]].
    destruct (zget d j) as [y|] eqn:Hy; [|injection H as <- <- <-; split; [auto|discriminate]].
    apply zget_In in Hx, Hy. destruct (lt d x y s) as [[b|e] [d1 s1]] eqn:Hl; injection H as <- <- <-;
      (split; [eapply Ilt; [exact Hx|exact Hy|exact Hi|exact Hl]|]); [discriminate|].
    intros e0 He. injection He as <-. exists d, x, y, s. auto.
  Qed.
  Lemma keeps_geAt i j : keeps bool (geAt ge i j) (geAt ge i j).
  Proof.
    intros d s r d' s' Hi H. unfold geAt, cbind, rd, askGe in H.
    destruct (zget d i) as [x|] eqn:Hx; [|injection H as <- <- <-; split; [auto|discriminate]].
    destruct (zget d j) as [y|] eqn:Hy; [|injection H as <- <- <-; split; [auto|discriminate]].
    apply zget_In in Hx, Hy. destruct (ge d x y s) as [[b|e] [d1 s1]] eqn:Hl; injection H as <- <- <-;
      (split; [eapply Ige; [exact Hx|exact Hy|exact Hi|exact Hl]|]); [discriminate|].
    intros e0 He. injection He as <-. exists d, x, y, s. auto.
  Qed.

  Lemma keeps_pdqsort stack a b l : keeps unit (pdqsort lt ge stack a b l) (pdqsort lt ge stack a b l).
  Proof.
    apply rel_pdqsort; [exact keeps_ret|exact keeps_diverge|exact keeps_bind|exact keeps_swap|exact keeps_ltAt|exact keeps_geAt].
  Qed.
  Lemma keeps_stable stack n : keeps unit (stable lt ge stack n) (stable lt ge stack n).
  Proof.
    apply rel_stable; [exact keeps_ret|exact keeps_diverge|exact keeps_bind|exact keeps_swap|exact keeps_ltAt|exact keeps_geAt].
  Qed.
End Keeps.

(** ** Keeping a list of the calls changes nothing else *)
Section Passive.
  Context {E S : Type}.
  Variable less : comparatorW E S.

  Definition passive A (m1 : CM (@st E S) A) (m2 : CM (@st E (S * list (list E * E * E * list E))) A) : Prop :=
    forall d s k, exists r d' s' k', m1 (d, s) = (r, (d', s')) /\ m2 (d, (s, k)) = (r, (d', (s', k'))).

  Lemma passive_ret A (a : A) : passive A (cret a) (cret a).
  Proof. intros d s k. repeat eexists. Qed.
  Lemma passive_diverge A : passive A cdiverge cdiverge.
  Proof. intros d s k. repeat eexists. Qed.
  Lemma passive_bind A B m1 m2 (f1 : A -> CM _ B) f2 :
    passive A m1 m2 -> (forall a, passive B (f1 a) (f2 a)) -> passive B (cbind m1 f1) (cbind m2 f2).
  Proof.
    intros Hm Hf d s k. unfold cbind. destruct (Hm d s k) as (r & d' & s' & k' & -> & ->).
    destruct r; [apply Hf| | |]; repeat eexists.
  Qed.
  Lemma passive_swap i j : passive unit (swap i j) (swap i j).
  Proof.
    intros d s k. unfold swap, cbind, rd, wr.
    repeat (destruct (zget _ _); [|repeat eexists]). repeat (destruct (zset _ _ _); [|repeat eexists]). repeat eexists.
  Qed.
  Lemma passive_ltAt i j : passive bool (ltAt less i j) (ltAt (recordingW less) i j).
  Proof.
    intros d s k. unfold ltAt, cbind, rd, askLt, recordingW. cbn [fst snd].
    destruct (zget d i) as [x|]; [|repeat eexists]. destruct (zget d j) as [y|]; [|repeat eexists].
    destruct (less d x y s) as [[b|e] [d' s']]; repeat eexists.
  Qed.
  Lemma passive_geAt i j : passive bool (geAt (notLessW less) i j) (geAt (notLessW (recordingW less)) i j).
  Proof.
    intros d s k. unfold geAt, cbind, rd, askGe, notLessW, recordingW. cbn [fst snd].
    destruct (zget d i) as [x|]; [|repeat eexists]. destruct (zget d j) as [y|]; [|repeat eexists].
    destruct (less d x y s) as [[b|e] [d' s']]; cbn; repeat eexists.
  Qed.

  Lemma passive_pdqsort stack a b l :
    passive unit (pdqsort less (notLessW less) stack a b l) (pdqsort (recordingW less) (notLessW (recordingW less)) stack a b l).
  Proof.
    apply rel_pdqsort; [exact passive_ret|exact passive_diverge|exact passive_bind|exact passive_swap|exact passive_ltAt|exact passive_geAt].
  Qed.
  Lemma passive_stable stack n :
    passive unit (stable less (notLessW less) stack n) (stable (recordingW less) (notLessW (recordingW less)) stack n).
  Proof.
    apply rel_stable; [exact passive_ret|exact passive_diverge|exact passive_bind|exact passive_swap|exact passive_ltAt|exact passive_geAt].
  Qed.
End Passive.

(** ** A panic only cuts the run short *)
Definition calm {E S} (less : comparatorP E S) : comparatorP E S :=
  fun d x y s => (inl (match fst (less d x y s) with inl b => b | inr _ => true end), snd (less d x y s)).

Section Short.
  Context {E S : Type}.
  Variable lt ge : comparatorP E S.
  Variable cnt : S -> Z.
  Hypothesis Hlt : forall d x y s, cnt (snd (lt d x y s)) = cnt s + 1.
  Hypothesis Hge : forall d x y s, cnt (snd (ge d x y s)) = cnt s + 1.

  Definition short A (m1 m2 : CM (@st E S) A) : Prop :=
    forall d s, cnt s <= cnt (snd (snd (m2 (d, s)))) /\
      match m1 (d, s) with
      | (CUser e, (_, s1)) => cnt s1 <= cnt (snd (snd (m2 (d, s))))
      | x => m2 (d, s) = x
      end.

  Lemma short_ret A (a : A) : short A (cret a) (cret a).
  Proof. intros d s. cbn. split; [lia|reflexivity]. Qed.
  Lemma short_diverge A : short A cdiverge cdiverge.
  Proof. intros d s. cbn. split; [lia|reflexivity]. Qed.
  Lemma short_bind A B m1 m2 (f1 : A -> CM _ B) f2 :
    short A m1 m2 -> (forall a, short B (f1 a) (f2 a)) -> short B (cbind m1 f1) (cbind m2 f2).
  Proof.
    intros Hm Hf d s. unfold cbind. destruct (Hm d s) as [H1 H2].
    assert (H3 : cnt (snd (snd (m2 (d, s)))) <= cnt (snd (snd (cbind m2 f2 (d, s))))).
    { unfold cbind. destruct (m2 (d, s)) as [[a| | |] [d' s']]; cbn [fst snd]; try lia. apply Hf. }
    unfold cbind in H3. split; [lia|].
    destruct (m1 (d, s)) as [[a|e| |e] [d1 s1]].
    - rewrite H2. rewrite H2 in H1. apply Hf.
    - now rewrite H2.
    - now rewrite H2.
    - lia.
  Qed.
  Lemma short_swap i j : short unit (swap i j) (swap i j).
  Proof.
    intros d s. unfold swap, cbind, rd, wr.
    repeat (destruct (zget _ _); [|cbn; split; [lia|reflexivity]]).
    repeat (destruct (zset _ _ _); [|cbn; split; [lia|reflexivity]]). cbn. split; [lia|reflexivity].
  Qed.
  Lemma short_ltAt i j : short bool (ltAt lt i j) (ltAt (calm lt) i j).
  Proof.
    intros d s. unfold ltAt, cbind, rd, askLt, reads, calm.
    destruct (zget d i) as [x|]; [|cbn; split; [lia|reflexivity]]. destruct (zget d j) as [y|]; [|cbn; split; [lia|reflexivity]].
    cbn [fst snd]. pose proof (Hlt d x y s) as H. destruct (lt d x y s) as [[b|e] s']; cbn [fst snd] in *; split; try lia; reflexivity.
  Qed.
  Lemma short_geAt i j : short bool (geAt ge i j) (geAt (calm ge) i j).
  Proof.
    intros d s. unfold geAt, cbind, rd, askGe, reads, calm.
    destruct (zget d i) as [x|]; [|cbn; split; [lia|reflexivity]]. destruct (zget d j) as [y|]; [|cbn; split; [lia|reflexivity]].
    cbn [fst snd]. pose proof (Hge d x y s) as H. destruct (ge d x y s) as [[b|e] s']; cbn [fst snd] in *; split; try lia; reflexivity.
  Qed.
  Lemma short_pdqsort stack a b l : short unit (pdqsort lt ge stack a b l) (pdqsort (calm lt) (calm ge) stack a b l).
  Proof.
    apply rel_pdqsort; [exact short_ret|exact short_diverge|exact short_bind|exact short_swap|exact short_ltAt|exact short_geAt].
  Qed.
  Lemma short_stable stack n : short unit (stable lt ge stack n) (stable (calm lt) (calm ge) stack n).
  Proof.
    apply rel_stable; [exact short_ret|exact short_diverge|exact short_bind|exact short_swap|exact short_ltAt|exact short_geAt].
  Qed.
End Short.

(** ** Runs *)
Definition stops {E S} (less : comparatorW E S) (r : cres unit) (data' : list E) (s' : S)
  (calls : list (list E * E * E * list E)) : Prop :=
  r = CRet tt \/
  exists e earlier d x y s0, r = CUser e /\ calls = earlier ++ [(d, x, y, data')] /\ less d x y s0 = (inr e, (data', s')).

Section Runs.
  Context {E S : Type}.
  Variable less : comparatorW E S.
  Hypothesis Kless : keeps_length less.
  Local Notation calls := (list (list E * E * E * list E)).
  Let rec := recordingW less.
  Let count (cs : (nat -> E) * (S * calls)) : Z := zlen (snd (snd cs)).

  Lemma keeps_length_rec : keeps_length rec.
  Proof.
    intros d x y sc r d' sc' H. unfold rec, recordingW in H. destruct (less d x y (fst sc)) as [r0 [d0 s0]] eqn:Hl.
    injection H as _ <- _. now apply Kless in Hl.
  Qed.
  Lemma count_lt l x y cs : count (snd (shadow rec l x y cs)) = count cs + 1.
  Proof.
    unfold count, shadow, rec, recordingW. cbn [fst snd]. destruct (less _ _ _ _) as [r0 [d0 s0]]. cbn [fst snd].
    unfold zlen. rewrite app_length. cbn [List.length]. lia.
  Qed.
  Lemma count_ge l x y cs : count (snd (shadow (notLessW rec) l x y cs)) = count cs + 1.
  Proof. exact (count_lt l x y cs). Qed.

  (** The chain of calls. *)
  Lemma only_rearranged_perm (k : calls) : forall d d1 d2,
    only_rearranged d k d1 -> Permutation d1 d2 -> only_rearranged d k d2.
  Proof.
    induction k as [|[[[d0 x] y] d'] k IH]; cbn; intros d d1 d2.
    - intros H1 H2. now transitivity d1.
    - intros (H1 & Hx & Hy & H2) H3. eauto.
  Qed.
  Lemma only_rearranged_snoc (k : calls) : forall d d1 x y d2,
    only_rearranged d k d1 -> In x d1 -> In y d1 -> only_rearranged d (k ++ [(d1, x, y, d2)]) d2.
  Proof.
    induction k as [|[[[d0 x0] y0] d'] k IH]; cbn; intros d d1 x y d2.
    - intros H Hx Hy. auto.
    - intros (H1 & Hx & Hy & H2) H3 H4. auto.
  Qed.

  Lemma chain_lt (d0 : list E) d x y sc r d' sc' : In x d -> In y d -> only_rearranged d0 (snd sc) d ->
    rec d x y sc = (r, (d', sc')) -> only_rearranged d0 (snd sc') d'.
  Proof.
    intros Hx Hy Hi H. unfold rec, recordingW in H. destruct (less d x y (fst sc)) as [r0 [d1 s1]].
    injection H as _ <- <-. cbn. now apply only_rearranged_snoc.
  Qed.
  Lemma chain_ge (d0 : list E) d x y sc r d' sc' : In x d -> In y d -> only_rearranged d0 (snd sc) d ->
    notLessW rec d x y sc = (r, (d', sc')) -> only_rearranged d0 (snd sc') d'.
  Proof.
    intros Hx Hy Hi H. unfold notLessW in H. destruct (rec d x y sc) as [r1 [d1 s1]] eqn:Hr.
    injection H as _ <- <-. eapply chain_lt; [exact Hx|exact Hy|exact Hi|exact Hr].
  Qed.

  (** What is known of a run of either sort, put together. *)
  Lemma run_all (m : CM (@st E S) unit) (mr : CM (@st E (S * calls)) unit) (ms : CM (@st nat ((nat -> E) * (S * calls))) unit)
    (bound : Z) (d : list E) (s : S) :
    passive unit m mr ->
    sim unit mr ms ->
    keeps rec (notLessW rec) (fun d1 sc => only_rearranged d (snd sc) d1) unit mr mr ->
    (forall x, d <> [] -> let l := seq 0 (List.length d) in let c n := nth n d x in
      exists r l' cs', ms (l, (c, (s, []))) = (r, (l', cs')) /\ ((exists e, r = CUser e) \/ r = CRet tt) /\ count cs' <= bound) ->
    d <> [] ->
    exists r d' s' k, m (d, s) = (r, (d', s')) /\ mr (d, (s, [])) = (r, (d', (s', k))) /\
      only_rearranged d k d' /\ stops less r d' s' k /\ zlen k <= bound.
  Proof.
    intros HP HS HK HR Hd. destruct d as [|x d0]; [congruence|]. clear Hd. set (d := x :: d0) in *.
    destruct (HR x ltac:(discriminate)) as (r & l' & cs' & Hr & Hstop & Hbound). cbv zeta in Hr.
    destruct (HS (seq 0 (List.length d)) (fun n => nth n d x) (s, []) (seq_NoDup _ _)) as (r1 & l1 & c1 & sc1 & Hm & Hs & Hn).
    rewrite map_nth_seq in Hm. rewrite Hs in Hr. injection Hr as -> -> <-. destruct sc1 as [s1 k].
    destruct (HP d s []) as (r2 & d2 & s2 & k2 & Hm0 & Hm2). rewrite Hm in Hm2. injection Hm2 as <- <- <- <-.
    destruct (HK d (s, []) r (map c1 l') (s1, k) ltac:(cbn; apply Permutation_refl) Hm) as [Hch Hu].
    exists r, (map c1 l'), s1, k. split; [exact Hm0|]. split; [exact Hm|]. split; [exact Hch|]. split; [|exact Hbound].
    destruct Hstop as [[e ->]| ->]; [right|left; reflexivity].
    destruct (Hu e eq_refl) as (db & xb & yb & [sb kb] & _ & _ & _ & Hb). exists e, kb, db, xb, yb, sb.
    assert (Hb' : rec db xb yb (sb, kb) = (inr e, (map c1 l', (s1, k)))).
    { destruct Hb as [Hb|Hb]; [exact Hb|]. unfold notLessW in Hb.
      destruct (rec db xb yb (sb, kb)) as [[b0|e0] z]; cbn in Hb; [discriminate|]. injection Hb as <- ->. reflexivity. }
    unfold rec, recordingW in Hb'. cbn [fst snd] in Hb'. destruct (less db xb yb sb) as [r0 [d1 s0]] eqn:Hl.
    injection Hb' as -> -> -> <-. auto.
  Qed.

  Lemma SortWWithin_run stack (d : list E) (s : S) : (0 < stack)%nat -> zlen d < 2 ^ Z.of_nat stack ->
    exists r d' s' k, SortWWithin stack d less s = (r, (d', s')) /\ SortWWithin stack d rec (s, []) = (r, (d', (s', k))) /\
      only_rearranged d k d' /\ stops less r d' s' k /\ zlen k <= 19 * zlen d * zlen d.
  Proof.
    intros Hst Hen. destruct d as [|x0 d0] eqn:Hd.
    { destruct stack; [lia|]. exists (CRet tt), [], s, [].
      split; [reflexivity|]. split; [reflexivity|]. split; [constructor|]. split; [left; reflexivity|]. cbn. lia. }
    rewrite <- Hd in *. unfold SortWWithin. eapply run_all.
    - apply passive_pdqsort.
    - apply (sim_pdqsort rec (notLessW rec)); [apply keeps_length_rec|apply keeps_length_notLess, keeps_length_rec].
    - apply keeps_pdqsort.
      + intros d1 d2 sc HP HI. eapply only_rearranged_perm; eauto.
      + intros d1 x y sc r d' sc'. apply chain_lt.
      + intros d1 x y sc r d' sc'. apply chain_ge.
    - intros x _. cbv zeta. set (l := seq 0 (List.length d)). set (c := fun n => nth n d x).
      assert (HL : zlen l = zlen d) by (unfold zlen, l; now rewrite seq_length).
      rewrite <- HL in *.
      destruct (pdqsort_run 0%nat (shadow rec) (shadow (notLessW rec)) (fun _ _ => true) stack l (c, (s, [])) (bitsLen (zlen l)) Hst Hen)
        as (r & l' & cs' & Hr & Hc).
      exists r, l', cs'. split; [exact Hr|]. split; [tauto|].
      pose proof (pdqsort_k 0%nat (calm (shadow rec)) (calm (shadow (notLessW rec))) count count_lt count_ge (zlen l) stack 0 (zlen l)
        (bitsLen (zlen l)) Hst ltac:(lia) ltac:(pose proof (zlen_nonneg l); lia) ltac:(lia) l (c, (s, [])) eq_refl) as Hk.
      destruct (short_pdqsort (shadow rec) (shadow (notLessW rec)) count count_lt count_ge stack 0 (zlen l) (bitsLen (zlen l)) l (c, (s, [])))
        as [_ H2]. rewrite Hr in H2. unfold wpd in Hk.
      destruct (pdqsort (calm _) (calm _) _ _ _ _ _) as [[u|e0| |e0] [l2 cs2]] eqn:Hq; try contradiction.
      2: { exfalso. revert Hq. apply no_user with (lt := calm (shadow rec)) (ge := calm (shadow (notLessW rec))).
           - intros; eexists; reflexivity.
           - intros; eexists; reflexivity.
           - now apply good_pdqsort. }
      destruct Hk as [_ Hk]. unfold count at 2 in Hk. cbn [snd] in Hk, H2. change (zlen []) with 0 in Hk.
      destruct Hc as [[e ->]|[-> _]]; cbn in H2; [lia|]. injection H2 as _ _ ->. lia.
    - rewrite Hd. discriminate.
  Qed.
  Lemma StableWWithin_run stack (d : list E) (s : S) : (0 < stack)%nat -> zlen d < 2 ^ Z.of_nat stack ->
    exists r d' s' k, StableWWithin stack d less s = (r, (d', s')) /\ StableWWithin stack d rec (s, []) = (r, (d', (s', k))) /\
      only_rearranged d k d' /\ stops less r d' s' k /\ zlen k <= 3 * zlen d * bitsLen (zlen d) + 19 * zlen d.
  Proof.
    intros Hst Hen. destruct d as [|x0 d0] eqn:Hd.
    { destruct stack; [lia|]. exists (CRet tt), [], s, [].
      split; [reflexivity|]. split; [reflexivity|]. split; [constructor|]. split; [left; reflexivity|]. cbn. lia. }
    rewrite <- Hd in *. unfold StableWWithin. eapply run_all.
    - apply passive_stable.
    - apply (sim_stable rec (notLessW rec)); [apply keeps_length_rec|apply keeps_length_notLess, keeps_length_rec].
    - apply keeps_stable.
      + intros d1 d2 sc HP HI. eapply only_rearranged_perm; eauto.
      + intros d1 x y sc r d' sc'. apply chain_lt.
      + intros d1 x y sc r d' sc'. apply chain_ge.
    - intros x _. cbv zeta. set (l := seq 0 (List.length d)). set (c := fun n => nth n d x).
      assert (HL : zlen l = zlen d) by (unfold zlen, l; now rewrite seq_length).
      rewrite <- HL in *.
      destruct (stable_run 0%nat (shadow rec) (shadow (notLessW rec)) (fun _ _ => true) stack l (c, (s, [])) Hst Hen)
        as (r & l' & cs' & Hr & Hc).
      exists r, l', cs'. split; [exact Hr|]. split; [tauto|].
      pose proof (stable_n 0%nat (calm (shadow rec)) (calm (shadow (notLessW rec))) count count_lt count_ge stack l (c, (s, [])) Hen) as Hk.
      destruct (short_stable (shadow rec) (shadow (notLessW rec)) count count_lt count_ge stack (zlen l) l (c, (s, [])))
        as [_ H2]. rewrite Hr in H2. unfold wpd in Hk.
      destruct (stable (calm _) (calm _) _ _ _) as [[u|e0| |e0] [l2 cs2]] eqn:Hq; try contradiction.
      2: { exfalso. revert Hq. apply no_user with (lt := calm (shadow rec)) (ge := calm (shadow (notLessW rec))).
           - intros; eexists; reflexivity.
           - intros; eexists; reflexivity.
           - now apply good_stable. }
      unfold count at 2 in Hk. cbn [snd] in Hk, H2. change (zlen []) with 0 in Hk.
      destruct Hc as [[e ->]|[-> _]]; cbn in H2; [lia|]. injection H2 as _ _ ->. lia.
    - rewrite Hd. discriminate.
  Qed.
End Runs.

Lemma stable_bound n : 0 <= n -> 3 * n * bitsLen n + 19 * n <= 3 * n * (Z.log2 n + 1) + 19 * n.
Proof. intros H. unfold bitsLen. destruct (Z.leb_spec n 0); pose proof (Z.log2_nonneg n); nia. Qed.

Lemma SortW_run {E S} (less : comparatorW E S) (d : list E) (s : S) : keeps_length less ->
  exists r d' s' k, SortW d less s = (r, (d', s')) /\ SortW d (recordingW less) (s, []) = (r, (d', (s', k))) /\
    only_rearranged d k d' /\ stops less r d' s' k /\ zlen k <= 19 * zlen d * zlen d.
Proof. intros HK. apply SortWWithin_run; [exact HK|lia|apply pow2_S_gt]. Qed.
Lemma StableW_run {E S} (less : comparatorW E S) (d : list E) (s : S) : keeps_length less ->
  exists r d' s' k, StableW d less s = (r, (d', s')) /\ StableW d (recordingW less) (s, []) = (r, (d', (s', k))) /\
    only_rearranged d k d' /\ stops less r d' s' k /\ zlen k <= 3 * zlen d * (Z.log2 (zlen d) + 1) + 19 * zlen d.
Proof.
  intros HK. destruct (StableWWithin_run less HK (Datatypes.S (List.length d)) d s ltac:(lia) (pow2_S_gt _))
    as (r & d' & s' & k & H1 & H2 & H3 & H4 & H5).
  exists r, d', s', k. split; [exact H1|]. split; [exact H2|]. split; [exact H3|]. split; [exact H4|].
  pose proof (stable_bound (zlen d) (zlen_nonneg d)). lia.
Qed.

(** What the comparator keeps, whatever the order of the elements. *)
Lemma SortW_inv {E S} (less : comparatorW E S) (I : list E -> S -> Prop) (d : list E) (s : S) r d' s' :
  (forall d1 d2 s1, Permutation d1 d2 -> I d1 s1 -> I d2 s1) ->
  (forall d1 x y s1 r1 d2 s2, I d1 s1 -> In x d1 -> In y d1 -> less d1 x y s1 = (r1, (d2, s2)) -> I d2 s2) ->
  I d s -> SortW d less s = (r, (d', s')) -> I d' s'.
Proof.
  intros HP HL H0 H. eapply (keeps_pdqsort less (notLessW less) I); [exact HP| | |exact H0|exact H].
  - intros d1 x y s1 r1 d2 s2 Hx Hy Hi Hl. exact (HL d1 x y s1 r1 d2 s2 Hi Hx Hy Hl).
  - intros d1 x y s1 r1 d2 s2 Hx Hy Hi Hn. unfold notLessW in Hn.
    destruct (less d1 x y s1) as [r0 [d3 s3]] eqn:Hl. injection Hn as _ <- <-. exact (HL d1 x y s1 r0 d3 s3 Hi Hx Hy Hl).
Qed.
Lemma StableW_inv {E S} (less : comparatorW E S) (I : list E -> S -> Prop) (d : list E) (s : S) r d' s' :
  (forall d1 d2 s1, Permutation d1 d2 -> I d1 s1 -> I d2 s1) ->
  (forall d1 x y s1 r1 d2 s2, I d1 s1 -> In x d1 -> In y d1 -> less d1 x y s1 = (r1, (d2, s2)) -> I d2 s2) ->
  I d s -> StableW d less s = (r, (d', s')) -> I d' s'.
Proof.
  intros HP HL H0 H. eapply (keeps_stable less (notLessW less) I); [exact HP| | |exact H0|exact H].
  - intros d1 x y s1 r1 d2 s2 Hx Hy Hi Hl. exact (HL d1 x y s1 r1 d2 s2 Hi Hx Hy Hl).
  - intros d1 x y s1 r1 d2 s2 Hx Hy Hi Hn. unfold notLessW in Hn.
    destruct (less d1 x y s1) as [r0 [d3 s3]] eqn:Hl. injection Hn as _ <- <-. exact (HL d1 x y s1 r0 d3 s3 Hi Hx Hy Hl).
Qed.

Lemma SortW_length {E S} (less : comparatorW E S) (d : list E) (s : S) r d' s' :
  keeps_length less -> SortW d less s = (r, (d', s')) -> List.length d' = List.length d.
Proof.
  intros HK. apply (SortW_inv less (fun d1 _ => List.length d1 = List.length d)); [| |reflexivity].
  - intros d1 d2 _ HP <-. symmetry. now apply Permutation_length.
  - intros d1 x y s1 r1 d2 s2 <- _ _ Hl. now apply HK in Hl.
Qed.
Lemma StableW_length {E S} (less : comparatorW E S) (d : list E) (s : S) r d' s' :
  keeps_length less -> StableW d less s = (r, (d', s')) -> List.length d' = List.length d.
Proof.
  intros HK. apply (StableW_inv less (fun d1 _ => List.length d1 = List.length d)); [| |reflexivity].
  - intros d1 d2 _ HP <-. symmetry. now apply Permutation_length.
  - intros d1 x y s1 r1 d2 s2 <- _ _ Hl. now apply HK in Hl.
Qed.

(** Depth. *)
Lemma stops_ret {E S} (less : comparatorW E S) r d s k : stops less r d s k -> r <> CDiverge.
Proof. intros [->|(e & k0 & d0 & x & y & s0 & -> & _)]; discriminate. Qed.
Lemma SortWWithin_log2 {E S} (less : comparatorW E S) (d : list E) (s : S) stack : keeps_length less ->
  Z.log2 (zlen d) + 1 <= Z.of_nat stack -> SortWWithin stack d less s = SortW d less s.
Proof.
  intros HK Hs. destruct (log2_frames (zlen d) stack (zlen_nonneg d) Hs) as [H0 Hlt].
  destruct (SortWWithin_run less HK stack d s H0 Hlt) as (r1 & d1 & s1 & k1 & H1 & _ & _ & S1 & _).
  destruct (SortW_run less d s HK) as (r2 & d2 & s2 & k2 & H2 & _ & _ & S2 & _).
  apply stops_ret in S1, S2. unfold SortW in *. rewrite H1, H2. unfold SortWWithin in *.
  destruct (Nat.le_ge_cases stack (Datatypes.S (List.length d))) as [Hle|Hle].
  - rewrite <- H2. symmetry. eapply pdqsort_mono; [exact Hle|exact S1|exact H1].
  - rewrite <- H1. eapply pdqsort_mono; [exact Hle|exact S2|exact H2].
Qed.
Lemma StableWWithin_log2 {E S} (less : comparatorW E S) (d : list E) (s : S) stack : keeps_length less ->
  Z.log2 (zlen d) + 1 <= Z.of_nat stack -> StableWWithin stack d less s = StableW d less s.
Proof.
  intros HK Hs. destruct (log2_frames (zlen d) stack (zlen_nonneg d) Hs) as [H0 Hlt].
  destruct (StableWWithin_run less HK stack d s H0 Hlt) as (r1 & d1 & s1 & k1 & H1 & _ & _ & S1 & _).
  destruct (StableW_run less d s HK) as (r2 & d2 & s2 & k2 & H2 & _ & _ & S2 & _).
  apply stops_ret in S1, S2. unfold StableW in *. rewrite H1, H2. unfold StableWWithin in *.
  destruct (Nat.le_ge_cases stack (Datatypes.S (List.length d))) as [Hle|Hle].
  - rewrite <- H2. symmetry. eapply stable_mono; [exact Hle|exact S1|exact H1].
  - rewrite <- H1. eapply stable_mono; [exact Hle|exact S2|exact H2].
Qed.
