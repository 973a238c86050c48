(** The loop over all permutations. *)
From Coq Require Import Permutation Sorted.
From Verif Require Import Base Arr Exn XSort_Spec Iter_Model Iter_Spec Algo_Model Algo_Spec Algo_Proofs Perm_Proofs NextPerm_Proofs.
Local Open Scope list_scope.
Local Open Scope Z_scope.

(** Words of length [k] over [els]. *)
Fixpoint words {T} (k : nat) (els : list T) : list (list T) :=
  match k with
  | O => [[]]
  | S k => flat_map (fun x => map (cons x) (words k els)) els
  end.
Lemma in_words {T} (els l : list T) : (forall x, In x l -> In x els) -> In l (words (List.length l) els).
Proof.
  induction l as [|x l IH]; intros H; cbn; [now left|].
  apply in_flat_map. exists x. split; [apply H; now left|]. apply in_map, IH. intros y Hy. apply H. now right.
Qed.

Lemma filter_le {A} (f g : A -> bool) l : (forall x, g x = true -> f x = true) ->
  (List.length (filter g l) <= List.length (filter f l))%nat.
Proof.
  intros H. induction l as [|x l IH]; cbn; [lia|]. destruct (g x) eqn:G; [rewrite (H x G); cbn; lia|].
  destruct (f x); cbn; lia.
Qed.
Lemma filter_lt {A} (f g : A -> bool) l y : (forall x, g x = true -> f x = true) -> In y l -> f y = true -> g y = false ->
  (List.length (filter g l) < List.length (filter f l))%nat.
Proof.
  intros H. induction l as [|x l IH]; cbn; intros Hy Hf Hg; [contradiction|].
  pose proof (filter_le f g l H). destruct Hy as [->|Hy].
  - rewrite Hf, Hg. cbn. lia.
  - specialize (IH Hy Hf Hg). destruct (g x) eqn:G; [rewrite (H x G); cbn; lia|]. destruct (f x); cbn; lia.
Qed.

Section Lex.
  Context {T : Type} (lt : T -> T -> bool) (O : strict_weak_order lt).

  Fixpoint lexltb (l l' : list T) : bool :=
    match l, l' with
    | x :: l, y :: l' => lt x y || (negb (lt x y) && negb (lt y x) && lexltb l l')
    | _, _ => false
    end.
  Lemma lexltb_spec l : forall l', lexltb l l' = true <-> lexlt lt l l'.
  Proof.
    induction l as [|x l IH]; intros [|y l']; cbn; try (split; [discriminate|tauto]).
    destruct (lt x y), (lt y x); cbn; try rewrite IH; intuition discriminate.
  Qed.

  Lemma lex_trichotomy l : forall l', List.length l = List.length l' ->
    lexlt lt l l' \/ lexlt lt l' l \/ eqvs lt l l'.
  Proof.
    induction l as [|x l IH]; intros [|y l'] H; cbn in *; try lia.
    - right. right. constructor.
    - destruct (lt x y) eqn:E1; [left; now left|]. destruct (lt y x) eqn:E2; [right; left; now left|].
      destruct (IH l') as [H1|[H1|H1]]; [lia|left; now right|right; left; now right|].
      right. right. constructor; [split|]; assumption.
  Qed.
  Lemma eqvs_total l l' : total lt -> eqvs lt l l' -> l = l'.
  Proof. intros Tot. induction 1 as [|x y l l' [E1 E2] H IH]; [reflexivity|]. f_equal; auto. Qed.
End Lex.

Section Enum.
  Context {St It T C : Type} (o : ops St It T) (n : Z) (plug : C -> list T -> St) (at_ : Z -> It).
  Hypothesis L : lawful o n plug at_.
  Hypothesis LP : lawful_prev o n plug at_.
  Hypothesis LS : lawful_set o n plug at_.
  Hypothesis LR : lawful_random o n plug at_.
  Context (comp : T -> T -> X St bool) (lt : T -> T -> bool) (tick : T -> T -> C -> C).
  Hypothesis HC : answers comp lt tick plug.
  Hypothesis O : strict_weak_order lt.

  Context (pre post : list T) (len : Z) (fuel : nat).
  Hypothesis Hlen : zlen pre + len + zlen post = n.
  Hypothesis Hfuel : len <= Z.of_nat fuel.

  Let next := NextPermutationIterators o comp fuel (at_ (zlen pre)) (at_ (zlen pre + len)).
  Let holds (s : St) (p : list T) : Prop := exists w, s = plug w (pre ++ p ++ post).

  Lemma next_step w p : zlen p = len ->
    (exists w' p', next (plug w (pre ++ p ++ post)) = (Ok true, plug w' (pre ++ p' ++ post)) /\
       Permutation p p' /\ lexlt lt p p' /\ (forall q, Permutation p q -> lexlt lt p q -> ~ lexlt lt q p')) \/
    (exists w', next (plug w (pre ++ p ++ post)) = (Ok false, plug w' (pre ++ rev p ++ post)) /\
       desc lt p).
  Proof.
    intros Hp. destruct (shape lt O p) as [D|(p0 & x & s1 & y & s2 & P)].
    - right. destruct (np_false o n plug at_ L LP LS comp lt tick HC w pre p post fuel) as (calls & E & _).
      + rewrite !zlen_app. lia.
      + unfold zlen in *. lia.
      + assumption.
      + exists (ticks tick calls w). split; [|assumption]. unfold next. rewrite <- Hp. exact E.
    - left. destruct (np_true o n plug at_ L LP LS LR comp lt tick HC w pre post p0 x s1 y s2 p fuel) as (calls & E & _).
      + rewrite !zlen_app. lia.
      + unfold zlen in *. lia.
      + assumption.
      + exists (ticks tick calls w), (succOf p0 x s1 y s2). split; [unfold next; rewrite <- Hp; exact E|].
        split; [now apply (succ_perm lt)|]. split; [now apply succ_greater|]. now apply succ_least.
  Qed.

  Lemma enum m : forall w p (els : list T), zlen p = len -> (forall x, In x p -> In x els) ->
    (List.length (filter (lexltb lt p) (words (List.length p) els)) < m)%nat ->
    exists ss ps w' e, visits next (plug w (pre ++ p ++ post)) ss (plug w' (pre ++ e ++ post)) /\
      Forall2 holds ss ps /\ StronglySorted (lexlt lt) ps /\
      (forall q, In q ps -> Permutation p q /\ (q = p \/ lexlt lt p q)) /\
      (forall q, Permutation p q -> q = p \/ lexlt lt p q -> exists q', In q' ps /\ eqvs lt q q') /\
      Permutation p e /\ sorted_by lt e.
  Proof.
    induction m as [|m IH]; intros w p els Hp Hin Hm; [lia|].
    assert (Hrefl : forall q, eqvs lt q q) by (induction q; constructor; [now apply eqv_refl|assumption]).
    destruct (next_step w p Hp) as [(w1 & p1 & E & P1 & L1 & Least)|(w1 & E & D)].
    - assert (Hlp : List.length p1 = List.length p) by (symmetry; now apply Permutation_length).
      destruct (IH w1 p1 els) as (ss & ps & w' & e & V & F & Srt & Hps & Call & Pe & Se).
      + unfold zlen in *. lia.
      + intros x Hx. apply Hin. eapply Permutation_in; [symmetry; exact P1|assumption].
      + rewrite Hlp. eapply Nat.lt_le_trans; [|apply Nat.lt_succ_r; exact Hm].
        apply filter_lt with (y := p1).
        * intros q Hq. apply lexltb_spec in Hq. apply lexltb_spec. eapply lexlt_trans; eassumption.
        * rewrite <- Hlp. apply in_words. intros x Hx. apply Hin. eapply Permutation_in; [symmetry; exact P1|assumption].
        * now apply lexltb_spec.
        * destruct (lexltb lt p1 p1) eqn:F; [|reflexivity]. apply lexltb_spec in F. now apply (lexlt_irrefl lt O) in F.
      + exists (plug w (pre ++ p ++ post) :: ss), (p :: ps), w', e. repeat split.
        * eapply visits_more; eassumption.
        * constructor; [now exists w|assumption].
        * constructor; [assumption|]. apply Forall_forall. intros q Hq. destruct (Hps q Hq) as [_ [->|Hlt]]; [assumption|].
          eapply lexlt_trans; eassumption.
        * destruct H as [<-|Hq]; [reflexivity|]. etransitivity; [exact P1|]. now apply Hps.
        * destruct H as [<-|Hq]; [now left|]. right. destruct (Hps q Hq) as [_ [->|Hlt]]; [assumption|].
          eapply lexlt_trans; eassumption.
        * intros q Pq [->|Lq]; [exists p; split; [now left|apply Hrefl]|].
          assert (Hlq : List.length q = List.length p) by (symmetry; now apply Permutation_length).
          destruct (lex_trichotomy lt q p1) as [H1|[H1|H1]]; [lia| | |].
          -- exfalso. now apply (Least q).
          -- destruct (Call q) as (q' & Hq' & Eq'); [etransitivity; [symmetry; exact P1|exact Pq]|now right|].
             exists q'. split; [now right|assumption].
          -- destruct (Call p1) as (q' & Hq' & Eq'); [reflexivity|now left|].
             exists q'. split; [now right|]. clear - O H1 Eq'. revert q' Eq'.
             induction H1; intros q' E2; inversion E2; subst; constructor; [eapply eqv_trans; eassumption|auto].
        * etransitivity; eassumption.
        * assumption.
    - exists [plug w (pre ++ p ++ post)], [p], w1, (rev p). repeat split.
      + now apply visits_last.
      + constructor; [now exists w|constructor].
      + constructor; constructor.
      + destruct H as [<-|[]]. reflexivity.
      + destruct H as [<-|[]]. now left.
      + intros q Pq [->|Lq]; [exists p; split; [now left|apply Hrefl]|].
        exfalso. revert Lq. apply (desc_greatest lt O); [assumption|]. now apply perm_same.
      + apply Permutation_rev.
      + apply asc_sorted. now apply asc_rev.
  Qed.
End Enum.
