(** What a run of NextPermutation does. *)
From Coq Require Import Permutation.
From Verif Require Import Base Arr Exn XSort_Spec Iter_Model Iter_Spec Algo_Model Algo_Spec Algo_Proofs Perm_Proofs.
Local Open Scope list_scope.
Local Open Scope Z_scope.

Local Ltac zl := repeat rewrite ?zlen_app, ?zlen_cons, ?zlen_nil, ?zlen_rev in *; lia.

Section NP.
  Context {St It T C : Type} (o : ops St It T) (n : Z) (plug : C -> list T -> St) (at_ : Z -> It).
  Hypothesis L : lawful o n plug at_.
  Hypothesis LP : lawful_prev o n plug at_.
  Hypothesis LS : lawful_set o n plug at_.
  Hypothesis LR : lawful_random o n plug at_.
  Context (comp : T -> T -> X St bool) (lt : T -> T -> bool) (tick : T -> T -> C -> C).
  Hypothesis HC : forall x y w l, comp x y (plug w l) = (Ok (lt x y), plug (tick x y w) l).
  Hypothesis O : strict_weak_order lt.

  Let ro := ReverseRandom o.
  Let pR := plugR plug.
  Let aR := atR n at_.

  Lemma ro_is : is_reverse o ro.
  Proof. repeat split. Qed.
  Lemma ro_lawful : lawful ro n pR aR.
  Proof. apply rev_lawful with o; auto using ro_is. Qed.
  Lemma ro_set : lawful_set ro n pR aR.
  Proof. apply rev_lawful_set with o; auto. Qed.
  Lemma ro_random : lawful_random ro n pR aR.
  Proof. apply rev_lawful_random with o; auto. Qed.
  Lemma ro_comp : forall x y w l, comp x y (pR w l) = (Ok (lt x y), pR (tick x y w) l).
  Proof. intros. apply HC. Qed.

  (** Pairwise from adjacent. *)
  Lemma ascending_asc x l : ascending lt x l -> asc lt (x :: l).
  Proof.
    revert x. induction l as [|y l IH]; intros x; cbn [ascending].
    - intros _. split; [intros ? []|exact I].
    - intros [H1 H2]. specialize (IH y H2). split; [|exact IH].
      intros e [<-|He]; [assumption|]. apply (neg_trans lt O) with y; [|assumption]. now apply IH.
  Qed.
  Lemma asc_ascending x l : asc lt (x :: l) -> ascending lt x l.
  Proof.
    revert x. induction l as [|y l IH]; intros x H; cbn [ascending]; [exact I|].
    split; [apply H; now left|]. apply IH. apply H.
  Qed.

  Lemma endOf_last (x : T) l : exists p, x :: l = p ++ [endOf x l].
  Proof.
    revert x. induction l as [|y l IH]; intros x; cbn [endOf]; [now exists []|].
    destruct (IH y) as [p Hp]. exists (x :: p). now rewrite Hp.
  Qed.

  (** Every list is non-increasing or has a pivot. *)
  Lemma shape l : desc lt l \/ exists p x s1 y s2, pivot lt l p x s1 y s2.
  Proof.
    destruct (rev l) as [|x0 r] eqn:E.
    - left. apply (f_equal (@rev T)) in E. rewrite rev_involutive in E. now rewrite E.
    - destruct (drop_exists lt r x0) as (a & b & -> & Ha & Hb).
      apply (f_equal (@rev T)) in E. rewrite rev_involutive in E.
      apply ascending_asc in Ha. destruct b as [|x b].
      + left. rewrite app_nil_r in E. rewrite E. now apply desc_rev.
      + right. assert (D : desc lt (rev (x0 :: a))) by (now apply desc_rev).
        destruct (endOf_last x0 a) as [q Hq]. rewrite Hq, rev_app_distr in D. cbn [rev app] in D.
        destruct (last_greater lt O x _ _ D Hb) as (s1 & y & s2 & E1 & E2 & E3).
        exists (rev b), x, s1, y, s2. split; auto.
        * rewrite E. replace (x0 :: a ++ x :: b) with ((x0 :: a) ++ x :: b) by reflexivity.
          rewrite rev_app_distr. cbn [rev]. rewrite <- app_assoc. cbn [app].
          change (rev a ++ [x0]) with (rev (x0 :: a)). rewrite Hq, rev_app_distr. cbn [rev app]. now rewrite E1.
        * now rewrite <- E1.
  Qed.

  Lemma np_false w pre mid post fuel : zlen (pre ++ mid ++ post) = n ->
    (List.length mid <= fuel)%nat -> desc lt mid ->
    exists calls,
    NextPermutationIterators o comp fuel (at_ (zlen pre)) (at_ (zlen pre + zlen mid)) (plug w (pre ++ mid ++ post))
    = (Ok false, plug (ticks tick calls w) (pre ++ rev mid ++ post)) /\ zlen calls <= zlen mid.
  Proof.
    intros Hn Hf D. pose proof (zlen_nonneg pre); pose proof (zlen_nonneg post); pose proof (zlen_nonneg mid).
    assert (Hn' := Hn). rewrite !zlen_app in Hn'.
    assert (E : exists calls, IsSortedUntilIterators ro comp fuel (Rev (at_ (zlen pre + zlen mid))) (Rev (at_ (zlen pre)))
        (plug w (pre ++ mid ++ post)) = (Ok (Rev (at_ (zlen pre))), plug (ticks tick calls w) (pre ++ mid ++ post)) /\
        zlen calls <= zlen mid).
    { assert (Hpl : forall w, plug w (pre ++ mid ++ post) = pR w (rev post ++ rev mid ++ rev pre)).
      { intros w'. unfold pR, plugR. now rewrite !rev_app_distr, !rev_involutive, <- app_assoc. }
      replace (Rev (at_ (zlen pre + zlen mid))) with (aR (zlen (rev post))) by (unfold aR, atR; rewrite zlen_rev; do 2 f_equal; lia).
      replace (Rev (at_ (zlen pre))) with (aR (zlen (rev post) + zlen (rev mid)))
        by (unfold aR, atR; rewrite !zlen_rev; do 2 f_equal; lia).
      rewrite Hpl. assert (Hr : zlen (rev post ++ rev mid ++ rev pre) = n) by (rewrite !zlen_app, !zlen_rev; lia).
      destruct (rev mid) as [|x0 a] eqn:Em.
      - exists []. split; [|rewrite zlen_nil; lia].
        rewrite zlen_nil, Z.add_0_r, Hpl. apply (sorted_until_nil ro n pR aR ro_lawful comp w (rev post) (rev pre)).
        exact Hr.
      - pose proof (sorted_until ro n pR aR ro_lawful comp lt tick ro_comp w (rev post) x0 a [] (rev pre) fuel) as Hc.
        apply (f_equal (@List.length T)) in Em as El. rewrite rev_length in El. cbn in El.
        rewrite app_nil_r in Hc. specialize (Hc Hr ltac:(lia)).
        eexists. rewrite Hpl. split; [apply Hc|].
        + split; [|exact I]. apply asc_ascending. rewrite <- Em. now apply asc_rev.
        + unfold zlen. rewrite firstn_length, combine_length. lia. }
    destruct E as (calls & E & Hcl). exists calls. split; [|exact Hcl]. unfold NextPermutationIterators. fold ro.
    erewrite xbind_ok by exact E.
    assert (Eq : Equal ro (Rev (at_ (zlen pre))) (Rev (at_ (zlen pre))) = Equal o (at_ (zlen pre)) (at_ (zlen pre))) by reflexivity.
    rewrite Eq. erewrite xbind_ok by (apply (law_equal _ _ _ _ L); [exact Hn|lia|lia]).
    rewrite Z.eqb_refl. cbn [negb]. erewrite xbind_ok by reflexivity. cbn [Base].
    erewrite xbind_ok by (apply reverse_elems with (n := n); [assumption..|exact Hn|lia]).
    erewrite xbind_ok by (apply (law_equal _ _ _ _ L); [rewrite !zlen_app, zlen_rev; lia|lia|lia]).
    now rewrite Z.eqb_refl.
  Qed.

  Lemma np_true w pre post p x s1 y s2 mid fuel : zlen (pre ++ mid ++ post) = n ->
    (List.length mid <= fuel)%nat -> pivot lt mid p x s1 y s2 ->
    exists calls,
    NextPermutationIterators o comp fuel (at_ (zlen pre)) (at_ (zlen pre + zlen mid)) (plug w (pre ++ mid ++ post))
    = (Ok true, plug (ticks tick calls w) (pre ++ succOf p x s1 y s2 ++ post)) /\
    zlen calls <= zlen (s1 ++ y :: s2) + rounds (zlen (s1 ++ y :: s2)).
  Proof.
    intros Hn Hf [-> D G Le]. pose proof (zlen_nonneg pre); pose proof (zlen_nonneg post);
      pose proof (zlen_nonneg p); pose proof (zlen_nonneg s1); pose proof (zlen_nonneg s2).
    assert (Hn' := Hn). rewrite <- !app_assoc in Hn'. cbn [app] in Hn'. rewrite <- app_assoc in Hn'. cbn [app] in Hn'.
    rewrite !zlen_app, zlen_cons, zlen_app, zlen_cons, zlen_app in Hn'.
    set (mid := p ++ x :: s1 ++ y :: s2) in *.
    assert (Lm : zlen mid = zlen p + 1 + zlen s1 + 1 + zlen s2) by (unfold mid; rewrite zlen_app, zlen_cons, zlen_app, zlen_cons; lia).
    (* the reversed view *)
    set (R := rev post ++ ((rev s2 ++ y :: rev s1) ++ x :: rev p) ++ rev pre).
    assert (Hpl : forall w, plug w (pre ++ mid ++ post) = pR w R).
    { intros w'. unfold pR, plugR, R, mid. f_equal.
      repeat (rewrite ?rev_app_distr, ?rev_involutive; cbn [rev]).
      repeat (rewrite <- ?app_assoc; cbn [app]). reflexivity. }
    assert (Hr : zlen R = n) by (unfold R; zl).
    (* the suffix read backwards is not empty *)
    destruct (rev s2 ++ y :: rev s1) as [|x0 a] eqn:Er.
    { destruct (rev s2); discriminate. }
    assert (La : zlen (x0 :: a) = zlen s1 + 1 + zlen s2) by (rewrite <- Er, zlen_app, zlen_cons, !zlen_rev; lia).
    assert (Asc : asc lt (x0 :: a)).
    { rewrite <- Er. replace (rev s2 ++ y :: rev s1) with (rev (s1 ++ y :: s2))
        by (rewrite rev_app_distr; cbn [rev]; now rewrite <- app_assoc). now apply asc_rev. }
    assert (Drop : lt x (endOf x0 a) = true).
    { apply G. destruct (endOf_last x0 a) as [q Hq]. rewrite <- Er in Hq.
      apply (f_equal (@rev T)) in Hq. rewrite !rev_app_distr in Hq. cbn [rev app] in Hq.
      rewrite !rev_involutive, <- app_assoc in Hq. cbn [app] in Hq.
      destruct s1 as [|z s1]; cbn in Hq; injection Hq as Hq _; rewrite <- Hq; cbn; auto. }
    set (k := zlen pre + zlen p + 1).
    (* left *)
    assert (exists c1, IsSortedUntilIterators ro comp fuel (aR (zlen (rev post)))
        (aR (zlen (rev post) + zlen (x0 :: a ++ x :: rev p))) (pR w (rev post ++ (x0 :: a ++ x :: rev p) ++ rev pre))
      = (Ok (aR (zlen (rev post) + zlen (x0 :: a))),
         pR (ticks tick c1 w) (rev post ++ (x0 :: a ++ x :: rev p) ++ rev pre)) /\ zlen c1 <= zlen (x0 :: a)) as (c1 & E1 & Hc1).
    { eexists. split; [apply (sorted_until ro n pR aR ro_lawful comp lt tick ro_comp)|
        unfold zlen; rewrite firstn_length; lia].
    { exact Hr. }
    { rewrite app_length. cbn. rewrite rev_length. apply (f_equal (@List.length T)) in Er. cbn in Er. rewrite app_length in Er.
      cbn in Er. rewrite !rev_length in Er. unfold mid in Hf. rewrite app_length in Hf. cbn in Hf. rewrite app_length in Hf. cbn in Hf. lia. }
    { split; [now apply asc_ascending|exact Drop]. } }
    change (x0 :: a ++ x :: rev p) with ((x0 :: a) ++ x :: rev p) in E1. fold R in E1.
    assert (K1 : aR (zlen (rev post)) = Rev (at_ (zlen pre + zlen mid))) by (unfold aR, atR; rewrite zlen_rev; do 2 f_equal; lia).
    assert (K2 : aR (zlen (rev post) + zlen ((x0 :: a) ++ x :: rev p)) = Rev (at_ (zlen pre))).
    { unfold aR, atR. rewrite zlen_app, La, zlen_cons, !zlen_rev. do 2 f_equal. lia. }
    assert (K3 : aR (zlen (rev post) + zlen (x0 :: a)) = Rev (at_ k)).
    { unfold aR, atR, k. rewrite La, zlen_rev. do 2 f_equal. lia. }
    rewrite K1, K2, K3 in E1.
    unfold NextPermutationIterators. fold ro. rewrite Hpl. erewrite xbind_ok by exact E1.
    assert (Ek : forall u l, zlen l = n -> Equal ro (Rev (at_ k)) (Rev (at_ (zlen pre))) (plug u l) = (Ok false, plug u l)).
    { intros u l Hl. change (Equal ro (Rev (at_ k)) (Rev (at_ (zlen pre)))) with (Equal o (at_ k) (at_ (zlen pre))).
      rewrite (law_equal _ _ _ _ L) by (unfold k; lia). do 2 f_equal. unfold k. lia. }
    erewrite xbind_ok by (rewrite <- Hpl; apply Ek; exact Hn). cbn [negb].
    rewrite Hpl. rewrite <- K3.
    assert (E2 : Get ro (aR (zlen (rev post) + zlen (x0 :: a))) (pR (ticks tick c1 w) R) = (Ok x, pR (ticks tick c1 w) R)).
    { apply (law_get _ _ _ _ ro_lawful); [exact Hr|]. unfold R.
      replace (rev post ++ ((x0 :: a) ++ x :: rev p) ++ rev pre) with ((rev post ++ x0 :: a) ++ x :: rev p ++ rev pre)
        by (rewrite <- !app_assoc; reflexivity).
      replace (zlen (rev post) + zlen (x0 :: a)) with (zlen (rev post ++ x0 :: a)) by (rewrite zlen_app; lia). apply zget_mid. }
    unfold xbind at 1. unfold xbind at 1. rewrite E2.
    (* right *)
    assert (ER : R = rev post ++ (rev s2 ++ y :: rev s1) ++ x :: rev p ++ rev pre).
    { unfold R. rewrite <- Er. rewrite <- !app_assoc. reflexivity. }
    destruct (upper_bound ro n pR aR ro_lawful comp lt tick ro_comp ro_random (ticks tick c1 w) (rev post) (rev s2) (y :: rev s1) (x :: rev p ++ rev pre) x) as (c2 & E3 & Hc2).
    { rewrite <- ER. exact Hr. }
    { intros e He. apply Le. now apply in_rev. }
    { intros e He. apply G. apply in_rev. rewrite rev_app_distr. exact He. }
    rewrite <- ER, Er, K1 in E3. erewrite xbind_ok by exact E3.
    (* swap *)
    assert (E4 : forall u, Swap ro (aR (zlen (rev post) + zlen (x0 :: a))) (aR (zlen (rev post) + zlen (rev s2))) (pR u R)
       = (Ok tt, plug u ((pre ++ p ++ [y]) ++ (s1 ++ x :: s2) ++ post))).
    { intros u. pose proof (swap_gt ro n pR aR ro_lawful ro_set u (rev post ++ rev s2) y (rev s1) x (rev p ++ rev pre)) as Hs.
      replace (zlen (rev post ++ rev s2)) with (zlen post + zlen s2) in Hs by (rewrite zlen_app, !zlen_rev; lia).
      rewrite (zlen_rev s1) in Hs. rewrite !zlen_rev, La.
      replace (zlen post + (zlen s1 + 1 + zlen s2)) with (zlen post + zlen s2 + 1 + zlen s1) by lia.
      rewrite ER.
      replace (rev post ++ (rev s2 ++ y :: rev s1) ++ x :: rev p ++ rev pre)
        with ((rev post ++ rev s2) ++ y :: rev s1 ++ x :: rev p ++ rev pre)
        by (rewrite <- !app_assoc; cbn [app]; reflexivity).
      rewrite Hs.
      - f_equal. unfold pR, plugR. f_equal. repeat (rewrite ?rev_app_distr, ?rev_involutive; cbn [rev]).
        repeat (rewrite <- ?app_assoc; cbn [app]). reflexivity.
      - zl. }
    rewrite E4.
    (* reverse *)
    rewrite K3. cbn [Base].
    pose proof (reverse_elems o n plug at_ L LS LP (ticks tick c2 (ticks tick c1 w)) fuel (s1 ++ x :: s2) (pre ++ p ++ [y]) post) as E5.
    replace (zlen (pre ++ p ++ [y])) with k in E5 by (unfold k; rewrite !zlen_app, zlen_cons, zlen_nil; lia).
    replace (k + zlen (s1 ++ x :: s2)) with (zlen pre + zlen mid) in E5
      by (unfold k; rewrite Lm, zlen_app, zlen_cons; lia).
    erewrite xbind_ok.
    2:{ apply E5.
        - zl.
        - unfold mid in Hf. rewrite !app_length in *. cbn [List.length] in *. rewrite app_length in *. cbn [List.length] in *. lia. }
    erewrite xbind_ok by (apply Ek; zl).
    exists (c1 ++ c2). split.
    2:{ rewrite zlen_app. replace (zlen (s1 ++ y :: s2)) with (zlen (x0 :: a)) by (rewrite La; zl).
        rewrite Er in Hc2. lia. }
    rewrite ticks_app. unfold xret. cbn [negb]. do 2 f_equal.
    unfold succOf. rewrite <- !app_assoc. reflexivity.
  Qed.
End NP.
