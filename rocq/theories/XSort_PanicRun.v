(** Proofs about xsort: Sort and Stable with a comparator that may panic. *)
From Coq Require Import Permutation.
From Verif Require Import Base Arr XSort_Model XSort_Spec XSort_Panic XSort_Proofs XSort_Pdq XSort_Stab.

Lemma answers_C {E S} (less : comparatorP E S) lt : strict_weak_order lt -> answers_or_panics less lt ->
  C less (notLessP less) lt.
Proof.
  intros HW Ha. split; [auto|split; [exact Ha|]]. intros d x y s b s' H. unfold notLessP in H.
  destruct (less d x y s) as [[b0|e0] s0] eqn:Hl; cbn in H; [|discriminate]. injection H as <- <-. now rewrite (Ha _ _ _ _ _ _ Hl).
Qed.

(** Who panicked, from the structural lemma. *)
Lemma broke_less {E S} (less : comparatorP E S) (m : CM (list E * S) unit) d s r d' s' :
  good less (notLessP less) d (fun _ => True) m -> m (d, s) = (r, (d', s')) ->
  Permutation d d' /\
  (forall e, r = CUser e -> exists x y s0, In x d /\ In y d /\ less d' x y s0 = (inr e, s')).
Proof.
  intros Hg H. destruct (Hg d s r d' s' (Permutation_refl _) I H) as (Hp & _ & Hu). split; [exact Hp|].
  intros e He. destruct (Hu e He) as (x & y & s0 & Hx & Hy & _ & Hb). exists x, y, s0.
  apply Permutation_sym in Hp.
  split; [eapply Permutation_in; eauto|]. split; [eapply Permutation_in; eauto|].
  destruct Hb as [Hb|Hb]; [exact Hb|now apply notLessP_panic].
Qed.

Lemma SortP_run {E S} (less : comparatorP E S) (lt : E -> E -> bool) (d : list E) (s : S) :
  exists r d' s', SortP d less s = (r, (d', s')) /\ Permutation d d' /\
    ((exists e x y s0, r = CUser e /\ In x d /\ In y d /\ less d' x y s0 = (inr e, s')) \/
     r = CRet tt /\ (strict_weak_order lt -> answers_or_panics less lt -> sorted_by lt d')).
Proof.
  destruct d as [|x d0].
  - exists (CRet tt), [], s. split; [reflexivity|]. split; [constructor|right]. split; [reflexivity|].
    intros _ _ i j u v _ Hn. destruct i; discriminate Hn.
  - unfold SortP, SortW, SortWWithin. set (d := x :: d0).
    destruct (pdqsort_run x less (notLessP less) lt (Datatypes.S (List.length d)) d s (bitsLen (zlen d))
      ltac:(lia) (pow2_S_gt _)) as (r & d' & s' & Hr & Hc).
    exists r, d', s'. split; [exact Hr|].
    destruct (broke_less less _ d s r d' s' (good_pdqsort less (notLessP less) d (fun _ => True) ltac:(auto) ltac:(auto) _ _ _ _) Hr) as [Hp Hu].
    split; [exact Hp|]. destruct Hc as [[e ->]|(-> & _ & Hs)].
    + left. destruct (Hu e eq_refl) as (x0 & y0 & s0 & H). exists e, x0, y0, s0. tauto.
    + right. split; [reflexivity|]. intros HW Ha. apply Hs. now apply answers_C.
Qed.

Lemma StableP_run {E S} (less : comparatorP E S) (lt : E -> E -> bool) (d : list E) (s : S) :
  exists r d' s', StableP d less s = (r, (d', s')) /\ Permutation d d' /\
    ((exists e x y s0, r = CUser e /\ In x d /\ In y d /\ less d' x y s0 = (inr e, s')) \/
     r = CRet tt /\ (strict_weak_order lt -> answers_or_panics less lt -> sorted_by lt d' /\ keeps_equiv_order lt d d')).
Proof.
  destruct d as [|x d0].
  - exists (CRet tt), [], s. split; [reflexivity|]. split; [constructor|right]. split; [reflexivity|].
    intros _ _. split; [|intros z; reflexivity]. intros i j u v _ Hn. destruct i; discriminate Hn.
  - unfold StableP, StableW, StableWWithin. set (d := x :: d0).
    destruct (stable_run x less (notLessP less) lt (Datatypes.S (List.length d)) d s
      ltac:(lia) (pow2_S_gt _)) as (r & d' & s' & Hr & Hc).
    exists r, d', s'. split; [exact Hr|].
    destruct (broke_less less _ d s r d' s' (good_stable less (notLessP less) d (fun _ => True) ltac:(auto) ltac:(auto) _ _) Hr) as [Hp Hu].
    split; [exact Hp|]. destruct Hc as [[e ->]|(-> & _ & Hs)].
    + left. destruct (Hu e eq_refl) as (x0 & y0 & s0 & H). exists e, x0, y0, s0. tauto.
    + right. split; [reflexivity|]. intros HW Ha. apply Hs. now apply answers_C.
Qed.

Definition seen {E} (data : list E) (c : list E * E * E) : Prop :=
  Permutation data (fst (fst c)) /\ In (snd (fst c)) data /\ In (snd c) data.

Lemma recording_seen {E S} (less : comparatorP E S) (data : list E) d x y sc :
  Permutation data d -> In x d -> In y d -> Forall (seen data) (snd sc) ->
  Forall (seen data) (snd (snd (recording less d x y sc))).
Proof.
  intros Hp Hx Hy Hi. unfold recording. destruct (less d x y (fst sc)) as [r s']. cbn.
  constructor; [|exact Hi]. apply Permutation_sym in Hp.
  repeat split; cbn; [now apply Permutation_sym|eapply Permutation_in; eauto|eapply Permutation_in; eauto].
Qed.
Lemma SortP_seen {E S} (less : comparatorP E S) (data : list E) (s : S) :
  Forall (seen data) (snd (snd (snd (SortP data (recording less) (s, []))))).
Proof.
  unfold SortP, SortW, SortWWithin. destruct (pdqsort _ _ _ _ _ _ _) as [r [d' [s' calls]]] eqn:Hr. cbn.
  destruct (good_pdqsort (recording less) (notLessP (recording less)) data (fun sc => Forall (seen data) (snd sc))
    (recording_seen less data) ltac:(intros; rewrite notLessP_snd; now apply recording_seen) _ _ _ _
    data (s, []) r d' (s', calls) (Permutation_refl _) (Forall_nil _) Hr) as (_ & H & _). exact H.
Qed.
Lemma StableP_seen {E S} (less : comparatorP E S) (data : list E) (s : S) :
  Forall (seen data) (snd (snd (snd (StableP data (recording less) (s, []))))).
Proof.
  unfold StableP, StableW, StableWWithin. destruct (stable _ _ _ _ _) as [r [d' [s' calls]]] eqn:Hr. cbn.
  destruct (good_stable (recording less) (notLessP (recording less)) data (fun sc => Forall (seen data) (snd sc))
    (recording_seen less data) ltac:(intros; rewrite notLessP_snd; now apply recording_seen) _ _
    data (s, []) r d' (s', calls) (Permutation_refl _) (Forall_nil _) Hr) as (_ & H & _). exact H.
Qed.
