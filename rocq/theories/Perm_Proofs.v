(** Lexicographic successors: facts about lists only. *)
From Coq Require Import Permutation.
From Verif Require Import Base Arr XSort_Spec Algo_Spec.
Local Open Scope list_scope.
Local Open Scope Z_scope.

Section SWO.
  Context {T : Type} (lt : T -> T -> bool) (O : strict_weak_order lt).

  Lemma neg_trans x y z : lt x y = false -> lt y z = false -> lt x z = false.
  Proof.
    intros H1 H2. destruct (lt x z) eqn:E; [exfalso|reflexivity].
    destruct (lt y x) eqn:H3; [rewrite (swo_trans _ O y x z) in H2; congruence|].
    destruct (lt z y) eqn:H4; [rewrite (swo_trans _ O x z y) in H1; congruence|].
    destruct (swo_incomp _ O x y z); congruence.
  Qed.
  Lemma lt_asym x y : lt x y = true -> lt y x = false.
  Proof.
    intros H. destruct (lt y x) eqn:E; [|reflexivity].
    pose proof (swo_trans _ O _ _ _ H E) as F. rewrite (swo_irrefl _ O) in F. discriminate.
  Qed.

  Definition eqv (x y : T) : Prop := lt x y = false /\ lt y x = false.
  Lemma eqv_refl x : eqv x x.
  Proof. split; apply (swo_irrefl _ O). Qed.
  Lemma eqv_sym x y : eqv x y -> eqv y x.
  Proof. unfold eqv. tauto. Qed.
  Lemma eqv_trans x y z : eqv x y -> eqv y z -> eqv x z.
  Proof. intros [H1 H2] [H3 H4]. split; eapply neg_trans; eassumption. Qed.
  Lemma equivb_eqv x y : equivb lt x y = true <-> eqv x y.
  Proof. unfold equivb, eqv. destruct (lt x y), (lt y x); cbn; intuition discriminate. Qed.

  Definition cnt (z : T) (l : list T) : nat := List.length (filter (equivb lt z) l).
  Definition same (l l' : list T) : Prop := forall z, cnt z l = cnt z l'.

  Lemma cnt_cons z x l : cnt z (x :: l) = ((if equivb lt z x then 1 else 0) + cnt z l)%nat.
  Proof. unfold cnt. cbn. destruct (equivb lt z x); reflexivity. Qed.
  Lemma cnt_app z l l' : cnt z (l ++ l') = (cnt z l + cnt z l')%nat.
  Proof. unfold cnt. now rewrite filter_app, app_length. Qed.
  Lemma perm_same l l' : Permutation l l' -> same l l'.
  Proof.
    intros P z. induction P; rewrite ?cnt_cons; lia.
  Qed.
  Lemma equivb_cong z x y : eqv x y -> equivb lt z x = equivb lt z y.
  Proof.
    intros H. destruct (equivb lt z x) eqn:E1, (equivb lt z y) eqn:E2; try reflexivity.
    - apply equivb_eqv in E1. rewrite (proj2 (equivb_eqv z y)) in E2; [discriminate|eapply eqv_trans; eassumption].
    - apply equivb_eqv in E2. rewrite (proj2 (equivb_eqv z x)) in E1; [discriminate|].
      eapply eqv_trans; [eassumption|]. now apply eqv_sym.
  Qed.
  Lemma same_cons_inv x y l l' : eqv x y -> same (x :: l) (y :: l') -> same l l'.
  Proof. intros E S z. specialize (S z). rewrite !cnt_cons, (equivb_cong z x y E) in S. lia. Qed.
  Lemma cnt_in z l : In z l -> (0 < cnt z l)%nat.
  Proof.
    intros H. unfold cnt. assert (In z (filter (equivb lt z) l)).
    { apply filter_In. split; [assumption|]. apply equivb_eqv, eqv_refl. }
    destruct (filter _ _); [contradiction|cbn; lia].
  Qed.
  Lemma cnt_pos z l : (0 < cnt z l)%nat -> exists e, In e l /\ eqv z e.
  Proof.
    unfold cnt. intros H. destruct (filter (equivb lt z) l) as [|e r] eqn:E; [cbn in H; lia|].
    exists e. assert (In e (filter (equivb lt z) l)) by (rewrite E; now left).
    apply filter_In in H0 as [? ?]. split; [assumption|now apply equivb_eqv].
  Qed.

  (** Each element is followed by no smaller / greater one. *)
  Fixpoint asc (l : list T) : Prop :=
    match l with [] => True | x :: l' => (forall e, In e l' -> lt e x = false) /\ asc l' end.
  Fixpoint desc (l : list T) : Prop :=
    match l with [] => True | x :: l' => (forall e, In e l' -> lt x e = false) /\ desc l' end.

  Lemma desc_app l l' : desc (l ++ l') <-> desc l /\ desc l' /\ forall e e', In e l -> In e' l' -> lt e e' = false.
  Proof.
    induction l as [|x l IH]; cbn [app desc].
    - split; [intros H; repeat split; auto; intros ? ? []|tauto].
    - rewrite IH. split.
      + intros (H1 & H2 & H3 & H4). repeat split; auto.
        * intros e He. apply H1, in_or_app. now left.
        * intros e e' [<-|He] He'; [apply H1, in_or_app; now right|auto].
      + intros ((H1 & H2) & H3 & H4). repeat split; auto.
        * intros e He. apply in_app_iff in He as [He|He]; [auto|]. apply H4; [now left|assumption].
        * intros e e' He. apply H4. now right.
  Qed.
  Lemma asc_app l l' : asc (l ++ l') <-> asc l /\ asc l' /\ forall e e', In e l -> In e' l' -> lt e' e = false.
  Proof.
    induction l as [|x l IH]; cbn [app asc].
    - split; [intros H; repeat split; auto; intros ? ? []|tauto].
    - rewrite IH. split.
      + intros (H1 & H2 & H3 & H4). repeat split; auto.
        * intros e He. apply H1, in_or_app. now left.
        * intros e e' [<-|He] He'; [apply H1, in_or_app; now right|auto].
      + intros ((H1 & H2) & H3 & H4). repeat split; auto.
        * intros e He. apply in_app_iff in He as [He|He]; [auto|]. apply H4; [now left|assumption].
        * intros e e' He. apply H4. now right.
  Qed.
  Lemma asc_rev l : asc (rev l) <-> desc l.
  Proof.
    induction l as [|x l IH]; cbn [rev desc]; [cbn; tauto|].
    rewrite asc_app, IH. cbn [asc]. split.
    - intros (H1 & H2 & H3). split; [|assumption]. intros e He. apply H3; [now apply -> in_rev|now left].
    - intros (H1 & H2). repeat split; auto; [intros ? []|]. intros e e' He [<-|[]]. apply H1. now apply in_rev.
  Qed.
  Lemma desc_rev l : desc (rev l) <-> asc l.
  Proof. rewrite <- asc_rev, rev_involutive. tauto. Qed.

  Lemma asc_sorted l : asc l <-> sorted_by lt l.
  Proof.
    unfold sorted_by. induction l as [|x l IH]; cbn [asc].
    - split; [|tauto]. intros _ [|i] j x y _ H; discriminate.
    - rewrite IH. split.
      + intros [H1 H2] [|i] [|j] a b Hij Ha Hb; try lia; cbn in *.
        * injection Ha as <-. apply H1. eapply nth_error_In; eassumption.
        * eapply H2; [|eassumption|eassumption]. lia.
      + intros H. split.
        * intros e He. apply In_nth_error in He as [j Hj]. apply (H 0%nat (S j) x e); [lia|reflexivity|exact Hj].
        * intros i j a b Hij. apply (H (S i) (S j) a b). lia.
  Qed.
  Lemma desc_non_increasing l : desc l <-> non_increasing lt l.
  Proof.
    unfold non_increasing. induction l as [|x l IH]; cbn [desc].
    - split; [|tauto]. intros _ [|i] j x y _ H; discriminate.
    - rewrite IH. split.
      + intros [H1 H2] [|i] [|j] a b Hij Ha Hb; try lia; cbn in *.
        * injection Ha as <-. apply H1. eapply nth_error_In; eassumption.
        * eapply H2; [|eassumption|eassumption]. lia.
      + intros H. split.
        * intros e He. apply In_nth_error in He as [j Hj]. apply (H 0%nat (S j) x e); [lia|reflexivity|exact Hj].
        * intros i j a b Hij. apply (H (S i) (S j) a b). lia.
  Qed.

  (** ** Extremes *)
  Lemma asc_least a : asc a -> forall q, same a q -> ~ lexlt lt q a.
  Proof.
    induction a as [|x a IH]; intros Ha q S L; [destruct q; exact L|].
    destruct q as [|y q]; [exact L|]. cbn in L, Ha. destruct Ha as [Hx Ha].
    assert (N : lt y x = false).
    { pose proof (S y) as Sy. destruct (cnt_pos y (x :: a)) as (e & He & Ee).
      - rewrite Sy. apply cnt_in. now left.
      - destruct He as [<-|He]; [apply Ee|]. apply neg_trans with e; [apply Ee|auto]. }
    destruct L as [L|(L1 & L2 & L3)]; [congruence|]. apply (IH Ha q); [|assumption].
    apply same_cons_inv with x y; [|assumption]. split; assumption.
  Qed.

  Lemma desc_greatest a : desc a -> forall q, same a q -> ~ lexlt lt a q.
  Proof.
    induction a as [|x a IH]; intros Ha q S L; [destruct q; exact L|].
    destruct q as [|y q]; [exact L|]. cbn in L, Ha. destruct Ha as [Hx Ha].
    assert (N : lt x y = false).
    { pose proof (S y) as Sy. destruct (cnt_pos y (x :: a)) as (e & He & Ee).
      - rewrite Sy. apply cnt_in. now left.
      - destruct He as [<-|He]; [apply Ee|]. apply neg_trans with e; [auto|apply Ee]. }
    destruct L as [L|(L1 & L2 & L3)]; [congruence|]. apply (IH Ha q); [|assumption].
    apply same_cons_inv with x y; [|assumption]. split; assumption.
  Qed.

  Lemma lexlt_irrefl l : ~ lexlt lt l l.
  Proof. induction l as [|x l IH]; cbn; [tauto|]. rewrite (swo_irrefl _ O). intuition discriminate. Qed.

  Lemma lexlt_trans l1 : forall l2 l3, lexlt lt l1 l2 -> lexlt lt l2 l3 -> lexlt lt l1 l3.
  Proof.
    induction l1 as [|x l1 IH]; intros [|y l2] [|z l3]; cbn; try tauto.
    intros [H1|(H1 & H1' & H1'')] [H2|(H2 & H2' & H2'')].
    - left. eapply (swo_trans _ O); eassumption.
    - left. destruct (lt x z) eqn:E; [reflexivity|].
      rewrite (neg_trans x z y E H2') in H1. discriminate.
    - left. destruct (lt x z) eqn:E; [reflexivity|].
      rewrite (neg_trans y x z H1' E) in H2. discriminate.
    - right. split; [eapply neg_trans; eassumption|]. split; [eapply neg_trans; eassumption|]. eauto.
  Qed.
  Lemma lexlt_asym l l' : lexlt lt l l' -> ~ lexlt lt l' l.
  Proof. intros H1 H2. apply (lexlt_irrefl l). eapply lexlt_trans; eassumption. Qed.

  Lemma lexlt_prefix p l l' : lexlt lt (p ++ l) (p ++ l') <-> lexlt lt l l'.
  Proof.
    induction p as [|x p IH]; cbn; [tauto|]. rewrite (swo_irrefl _ O), IH. intuition discriminate.
  Qed.

  Inductive eqvs : list T -> list T -> Prop :=
  | eqvs_nil : eqvs [] []
  | eqvs_cons x y l l' : eqv x y -> eqvs l l' -> eqvs (x :: l) (y :: l').

  Lemma lexlt_split p : forall p' l l', List.length p = List.length p' -> lexlt lt (p ++ l) (p' ++ l') ->
    lexlt lt p p' \/ (eqvs p p' /\ lexlt lt l l').
  Proof.
    induction p as [|x p IH]; intros [|y p'] l l' Hl H; cbn in *; try lia.
    - right. split; [constructor|assumption].
    - destruct H as [H|(H1 & H2 & H3)]; [now left; left|].
      apply IH in H3; [|lia]. destruct H3 as [H3|[H3 H4]]; [left; right; auto|].
      right. split; [constructor; [split|]|]; assumption.
  Qed.
  Lemma eqvs_same p p' : eqvs p p' -> same p p'.
  Proof. induction 1; intros z; rewrite ?cnt_cons; [reflexivity|]. now rewrite (equivb_cong z x y H), IHeqvs. Qed.
  Lemma eqvs_sym p p' : eqvs p p' -> eqvs p' p.
  Proof. induction 1; constructor; [now apply eqv_sym|assumption]. Qed.
  Lemma eqvs_not_lexlt p p' : eqvs p p' -> ~ lexlt lt p p'.
  Proof.
    induction 1; cbn; [tauto|]. destruct H as [H1 H2]. intuition congruence.
  Qed.

  (** ** The successor *)

  (** [l] has a suffix that cannot be increased, preceded by [x]; [y] is the last
      element of that suffix greater than [x]. *)
  Record pivot (l p : list T) (x : T) (s1 : list T) (y : T) (s2 : list T) : Prop := {
    pv_eq : l = p ++ x :: s1 ++ y :: s2;
    pv_desc : desc (s1 ++ y :: s2);
    pv_gt : forall e, In e (s1 ++ [y]) -> lt x e = true;
    pv_le : forall e, In e s2 -> lt x e = false }.

  Definition succOf (p : list T) (x : T) (s1 : list T) (y : T) (s2 : list T) : list T :=
    p ++ y :: rev (s1 ++ x :: s2).

  Lemma succ_perm l p x s1 y s2 : pivot l p x s1 y s2 -> Permutation l (succOf p x s1 y s2).
  Proof.
    intros [-> _ _ _]. unfold succOf. apply Permutation_app_head.
    rewrite <- Permutation_rev. etransitivity; [|apply perm_skip, Permutation_middle].
    rewrite perm_swap. apply perm_skip. symmetry. apply Permutation_middle.
  Qed.

  Lemma succ_greater l p x s1 y s2 : pivot l p x s1 y s2 -> lexlt lt l (succOf p x s1 y s2).
  Proof.
    intros [-> _ G _]. unfold succOf. apply lexlt_prefix. left. apply G. apply in_or_app. right. now left.
  Qed.

  Lemma tail_desc x s1 y s2 : desc (s1 ++ y :: s2) -> (forall e, In e (s1 ++ [y]) -> lt x e = true) ->
    (forall e, In e s2 -> lt x e = false) -> desc (s1 ++ x :: s2).
  Proof.
    intros D G Le. apply desc_app in D as (D1 & D2 & D3). apply desc_app. cbn [desc] in *.
    destruct D2 as [D2 D4]. repeat split; auto.
    intros e e' He [<-|He'].
    - apply lt_asym, G, in_or_app. now left.
    - apply D3; [assumption|now right].
  Qed.

  Lemma succ_least l p x s1 y s2 : pivot l p x s1 y s2 ->
    forall q, Permutation l q -> lexlt lt l q -> ~ lexlt lt q (succOf p x s1 y s2).
  Proof.
    intros [-> D G Le] q P L1 L2.
    assert (Hlen : (List.length p <= List.length q)%nat).
    { apply Permutation_length in P. rewrite <- P, app_length. lia. }
    set (p' := firstn (List.length p) q) in *. set (u := skipn (List.length p) q) in *.
    assert (Eq : q = p' ++ u) by (symmetry; apply firstn_skipn).
    assert (Hp : List.length p = List.length p') by (unfold p'; rewrite firstn_length; lia).
    rewrite Eq in L1, L2. unfold succOf in L2.
    apply lexlt_split in L1; [|assumption]. apply lexlt_split in L2; [|lia].
    destruct L1 as [L1|[E1 L1]].
    { destruct L2 as [L2|[E2 _]]; [now apply (lexlt_asym p p')|]. apply eqvs_sym in E2. now apply (eqvs_not_lexlt p p'). }
    destruct L2 as [L2|[_ L2]]; [apply eqvs_sym in E1; now apply (eqvs_not_lexlt p' p)|].
    assert (S : same (x :: s1 ++ y :: s2) u).
    { intros z. pose proof (perm_same _ _ P z) as Pz. rewrite Eq, !cnt_app in Pz.
      rewrite (eqvs_same p p' E1 z) in Pz. lia. }
    assert (Sn : same (x :: s1 ++ y :: s2) (y :: rev (s1 ++ x :: s2))).
    { apply perm_same. rewrite <- Permutation_rev. etransitivity; [|apply perm_skip, Permutation_middle].
      rewrite perm_swap. apply perm_skip. symmetry. apply Permutation_middle. }
    destruct u as [|a u]; [exact L1|]. cbn in L1, L2.
    destruct L1 as [L1|(L1 & L1' & L1'')].
    - (* a > x, so a is not below y *)
      assert (Na : lt a y = false).
      { pose proof (S a) as Sa. destruct (cnt_pos a (x :: s1 ++ y :: s2)) as (e & He & Ee).
        - rewrite Sa. apply cnt_in. now left.
        - assert (Hxe : lt x e = true).
          { destruct (lt x e) eqn:F; [reflexivity|]. rewrite (neg_trans x e a F (proj2 Ee)) in L1. discriminate. }
          destruct He as [<-|He]; [rewrite (swo_irrefl _ O) in Hxe; discriminate|].
          apply neg_trans with e; [apply Ee|]. apply desc_app in D as (D1 & D2 & D3).
          apply in_app_iff in He as [He|[<-|He]].
          + apply D3; [assumption|now left].
          + apply (swo_irrefl _ O).
          + rewrite Le in Hxe by assumption. discriminate. }
      destruct L2 as [L2|(L2 & L2' & L2'')]; [congruence|].
      apply (asc_least (rev (s1 ++ x :: s2))) with (q := u); [| |assumption].
      + apply asc_rev. now apply tail_desc with y.
      + apply same_cons_inv with y a; [split; assumption|]. intros z. now rewrite <- Sn.
    - apply (desc_greatest (s1 ++ y :: s2) D u); [|assumption].
      apply same_cons_inv with x a; [split; assumption|assumption].
  Qed.

  (** Either the list is non-increasing or it has a pivot. *)
  Lemma last_greater x h t : desc (h :: t) -> lt x h = true ->
    exists s1 y s2, h :: t = s1 ++ y :: s2 /\ (forall e, In e (s1 ++ [y]) -> lt x e = true) /\
      (forall e, In e s2 -> lt x e = false).
  Proof.
    revert h. induction t as [|k t IH]; intros h D H.
    - exists [], h, []. repeat split; [|intros e []]. intros e [<-|[]]. assumption.
    - destruct (lt x k) eqn:E.
      + destruct (IH k) as (s1 & y & s2 & E1 & E2 & E3); [apply D|assumption|].
        exists (h :: s1), y, s2. rewrite E1. repeat split; auto. intros e [<-|He]; auto.
      + exists [], h, (k :: t). repeat split; [intros e [<-|[]]; assumption|].
        intros e [<-|He]; [assumption|]. apply neg_trans with k; [assumption|]. now apply D.
  Qed.
End SWO.
