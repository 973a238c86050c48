(** The comparator calls of NextPermutation and of IsSortedUntil. *)
From Coq Require Import Permutation Sorted.
From Verif Require Import Base Arr Exn XSort_Spec Iter_Model Iter_Spec Algo_Model Algo_Spec
  Algo_Proofs Algo_Facts Perm_Proofs NextPerm_Proofs Enum_Proofs.
Local Open Scope list_scope.
Local Open Scope Z_scope.

(** ** The potential: how many elements are greater than all that follow them *)
Section Peaks.
  Context {T : Type} (lt : T -> T -> bool).

  Definition tops (x : T) (l : list T) : bool := forallb (fun e => lt e x) l.
  Fixpoint peaks (l : list T) : Z :=
    match l with [] => 0 | x :: l' => (if tops x l' then 1 else 0) + peaks l' end.

  Lemma peaks_range l : 0 <= peaks l <= zlen l.
  Proof.
    induction l as [|x l IH]; cbn [peaks]; [cbn; lia|]. rewrite zlen_cons.
    destruct (tops x l); lia.
  Qed.
  Lemma peaks_cons x l : peaks (x :: l) <= 1 + peaks l.
  Proof. cbn [peaks]. destruct (tops x l); lia. Qed.

  Lemma tops_true x l : tops x l = true <-> forall e, In e l -> lt e x = true.
  Proof. apply forallb_forall. Qed.
  Lemma tops_perm x l l' : Permutation l l' -> tops x l = tops x l'.
  Proof.
    intros P. destruct (tops x l) eqn:E, (tops x l') eqn:E'; try reflexivity.
    - assert (F : tops x l' = true); [|congruence]. rewrite tops_true in *. intros e He. apply E.
      eapply Permutation_in; [symmetry; exact P|exact He].
    - assert (F : tops x l = true); [|congruence]. rewrite tops_true in *. intros e He. apply E'.
      eapply Permutation_in; [exact P|exact He].
  Qed.
  Lemma peaks_app p s s' : Permutation s s' -> peaks (p ++ s') = peaks (p ++ s) - peaks s + peaks s'.
  Proof.
    intros P. induction p as [|x p IH]; cbn [app peaks]; [lia|].
    rewrite (tops_perm x (p ++ s') (p ++ s)); [lia|]. apply Permutation_app_head. now symmetry.
  Qed.

  Fixpoint dist (l : list T) : Prop :=
    match l with [] => True | x :: l' => (forall e, In e l' -> lt x e = true \/ lt e x = true) /\ dist l' end.
  Lemma dist_spec l : all_different lt l -> dist l.
  Proof.
    induction l as [|x l IH]; intros H; cbn [dist]; [exact I|]. split.
    - intros e He. apply In_nth_error in He as [j Hj]. apply (H 0%nat (S j) x e); [lia|reflexivity|exact Hj].
    - apply IH. intros i j a b Hij Ha Hb. apply (H (S i) (S j) a b); [lia|exact Ha|exact Hb].
  Qed.
  Lemma dist_perm l l' : Permutation l l' -> dist l -> dist l'.
  Proof.
    induction 1 as [|x l l' P IH|x y l|l1 l2 l3 P1 IH1 P2 IH2]; cbn [dist]; auto.
    - intros [H1 H2]. split; [|auto]. intros e He. apply H1. eapply Permutation_in; [symmetry; exact P|exact He].
    - intros (H1 & H2 & H3). repeat split; auto.
      + intros e [<-|He]; [|auto]. destruct (H1 x); [now left| |]; auto.
      + intros e He. apply H1. now right.
  Qed.
  Lemma dist_app l l' : dist (l ++ l') -> dist l'.
  Proof. induction l as [|x l IH]; cbn [app dist]; [auto|]. intros [_ H]. auto. Qed.

  Lemma desc_peaks l : dist l -> desc lt l -> peaks l = zlen l.
  Proof.
    induction l as [|x l IH]; cbn [dist desc peaks]; [reflexivity|]. intros [H1 H2] [H3 H4].
    rewrite IH, zlen_cons by assumption. assert (tops x l = true) as ->; [|lia].
    apply tops_true. intros e He. destruct (H1 e He); [rewrite H3 in * by assumption; discriminate|assumption].
  Qed.
  Lemma asc_peaks l : asc lt l -> peaks l <= 1.
  Proof.
    induction l as [|x l IH]; cbn [asc peaks]; [lia|]. intros [H1 H2]. specialize (IH H2).
    destruct l as [|y l]; [cbn; lia|]. unfold tops at 1. cbn [forallb]. rewrite (H1 y) by now left.
    cbn [andb]. lia.
  Qed.
End Peaks.

Section Amortised.
  Context {St It T C : Type} (o : ops St It T) (n : Z) (plug : C -> list T -> St) (at_ : Z -> It).
  Hypothesis L : lawful o n plug at_.
  Hypothesis LP : lawful_prev o n plug at_.
  Hypothesis LS : lawful_set o n plug at_.
  Hypothesis LR : lawful_random o n plug at_.
  Context (comp : T -> T -> X St bool) (lt : T -> T -> bool) (tick : T -> T -> C -> C).
  Hypothesis HC : answers comp lt tick plug.
  Hypothesis O : strict_weak_order lt.

  Lemma rounds_linear c : 0 < c -> rounds c <= c.
  Proof.
    intros Hc. unfold rounds. destruct (Z.leb_spec c 0); [lia|]. pose proof (Z.log2_lt_lin c Hc). lia.
  Qed.

  Lemma amortised_step w pre mid post fuel : zlen (pre ++ mid ++ post) = n -> (List.length mid <= fuel)%nat ->
    dist lt mid ->
    exists b calls mid',
      NextPermutationIterators o comp fuel (at_ (zlen pre)) (at_ (zlen pre + zlen mid)) (plug w (pre ++ mid ++ post))
      = (Ok b, plug (ticks tick calls w) (pre ++ mid' ++ post)) /\
      Permutation mid mid' /\ zlen calls <= 4 + 2 * (peaks lt mid - peaks lt mid').
  Proof.
    intros Hn Hf D. destruct (shape lt O mid) as [Ds|(p & x & s1 & y & s2 & P)].
    - destruct (np_false o n plug at_ L LP LS comp lt tick HC w pre mid post fuel Hn Hf Ds) as (calls & E & Hc).
      exists false, calls, (rev mid). split; [exact E|]. split; [apply Permutation_rev|].
      rewrite (desc_peaks lt mid D Ds). pose proof (asc_peaks lt (rev mid) (proj2 (asc_rev lt mid) Ds)).
      pose proof (zlen_nonneg mid). lia.
    - destruct (np_true o n plug at_ L LP LS LR comp lt tick HC w pre post p x s1 y s2 mid fuel Hn Hf P) as (calls & E & Hc).
      exists true, calls, (succOf p x s1 y s2). split; [exact E|]. split; [now apply (succ_perm lt)|].
      assert (Hs : 0 < zlen (s1 ++ y :: s2)).
      { rewrite zlen_app, zlen_cons. pose proof (zlen_nonneg s1). pose proof (zlen_nonneg s2). lia. }
      pose proof (rounds_linear _ Hs). destruct P as [-> Ds G Le]. unfold succOf.
      rewrite (peaks_app lt p (x :: s1 ++ y :: s2) (y :: rev (s1 ++ x :: s2))).
      2:{ rewrite <- Permutation_rev. etransitivity; [|apply perm_skip, Permutation_middle].
          rewrite perm_swap. apply perm_skip. symmetry. apply Permutation_middle. }
      apply dist_app in D. destruct D as [_ D].
      pose proof (desc_peaks lt _ D Ds) as K1.
      pose proof (asc_peaks lt (rev (s1 ++ x :: s2)) (proj2 (asc_rev lt _) (tail_desc lt O x s1 y s2 Ds G Le))) as K2.
      pose proof (peaks_cons lt y (rev (s1 ++ x :: s2))) as K3.
      assert (K4 : peaks lt (s1 ++ y :: s2) <= peaks lt (x :: s1 ++ y :: s2)).
      { cbn [peaks]. destruct (tops lt x (s1 ++ y :: s2)); lia. }
      lia.
  Qed.

  Lemma amortised k : forall w pre mid post fuel, zlen (pre ++ mid ++ post) = n -> (List.length mid <= fuel)%nat ->
    dist lt mid ->
    exists calls mid',
      times (NextPermutationIterators o comp fuel (at_ (zlen pre)) (at_ (zlen pre + zlen mid))) k
        (plug w (pre ++ mid ++ post)) (plug (ticks tick calls w) (pre ++ mid' ++ post)) /\
      Permutation mid mid' /\ zlen calls <= 4 * Z.of_nat k + 2 * (peaks lt mid - peaks lt mid').
  Proof.
    induction k as [|k IH]; intros w pre mid post fuel Hn Hf D.
    - exists [], mid. split; [constructor|]. split; [reflexivity|]. rewrite zlen_nil. lia.
    - destruct (amortised_step w pre mid post fuel Hn Hf D) as (b & c1 & m1 & E1 & P1 & H1).
      assert (Hl : List.length m1 = List.length mid) by (symmetry; now apply Permutation_length).
      assert (Hz : zlen m1 = zlen mid) by (unfold zlen; lia).
      destruct (IH (ticks tick c1 w) pre m1 post fuel) as (c2 & m2 & E2 & P2 & H2).
      + rewrite !zlen_app in *. lia.
      + lia.
      + eapply dist_perm; eassumption.
      + exists (c1 ++ c2), m2. split; [|split].
        * econstructor; [exact E1|]. rewrite ticks_app, <- Hz. exact E2.
        * now transitivity m1.
        * rewrite zlen_app. lia.
  Qed.

  Lemma times_visits (next : X St bool) s ss s' : visits next s ss s' -> times next (List.length ss) s s'.
  Proof. induction 1; cbn [List.length]; econstructor; try eassumption. constructor. Qed.
  Lemma times_det (next : X St bool) k s s1 : times next k s s1 -> forall s2, times next k s s2 -> s1 = s2.
  Proof.
    induction 1 as [|k s r s' s'' E H IH]; intros s2 H2; inversion H2; subst; [reflexivity|].
    apply IH. match goal with F : next s = (Ok _, _) |- _ => rewrite E in F; injection F as <- <- end. assumption.
  Qed.

  Lemma plug_inj w w' l l' : zlen l = n -> zlen l' = n -> plug w l = plug w' l' -> l = l'.
  Proof.
    intros Hl Hl' E. assert (G : forall i, 0 <= i < n -> zget l i = zget l' i).
    { intros i Hi. destruct (zget_some l i) as [x Hx]; [lia|]. destruct (zget_some l' i) as [x' Hx']; [lia|].
      pose proof (law_get _ _ _ _ L w l i x Hl Hx) as G1. pose proof (law_get _ _ _ _ L w' l' i x' Hl' Hx') as G2.
      rewrite E, G2 in G1. injection G1 as ->. congruence. }
    clear - Hl Hl' G. revert n l' Hl Hl' G. clear. induction l as [|x l IH]; intros n [|y l'] Hl Hl' G;
      rewrite ?zlen_cons, ?zlen_nil in *; try (pose proof (zlen_nonneg l)); try (pose proof (zlen_nonneg l')); try lia; [reflexivity|].
    f_equal.
    - specialize (G 0 ltac:(lia)). rewrite !zget_0 in G. congruence.
    - apply (IH (n - 1)); [lia|lia|]. intros i Hi. specialize (G (i + 1) ltac:(lia)).
      now rewrite !zget_cons_S in G by lia.
  Qed.

  (** *** IsSortedUntil *)
  Lemma first_drop_unique l k k' : first_drop lt l k -> first_drop lt l k' -> k = k'.
  Proof.
    assert (A : forall k k', first_drop lt l k -> first_drop lt l k' -> ~ k < k').
    { intros a b (Ha & _ & Da) (Hb & Ub & _) Hlt. destruct Da as (x & y & Hx & Hy & Hxy); [lia|].
      apply zget_range in Hx as Hr. rewrite (Ub a x y) in Hxy; [discriminate|lia|assumption|assumption]. }
    intros H H'. pose proof (A k k' H H'). pose proof (A k' k H' H). lia.
  Qed.

  Lemma sorted_until_calls w pre mid post fuel k : zlen (pre ++ mid ++ post) = n -> (List.length mid <= fuel)%nat ->
    first_drop lt mid k ->
    IsSortedUntilIterators o comp fuel (at_ (zlen pre)) (at_ (zlen pre + zlen mid)) (plug w (pre ++ mid ++ post))
    = (Ok (at_ (zlen pre + k)), plug (ticks tick (firstn (Z.to_nat k) (combine (tl mid) mid)) w) (pre ++ mid ++ post)).
  Proof.
    intros Hn Hf Hk. destruct mid as [|x mid].
    - assert (k = 0) as -> by (destruct Hk as [Hk _]; cbn in Hk; lia).
      cbn [tl combine Z.to_nat firstn ticks fold_left].
      rewrite zlen_nil, !Z.add_0_r. apply (sorted_until_nil o n plug at_ L comp w pre post fuel Hn).
    - destruct (drop_exists lt mid x) as (a & b & -> & D).
      assert (k = zlen (x :: a)) as -> by (eapply first_drop_unique; [exact Hk|now apply drop_first_drop]).
      rewrite (sorted_until o n plug at_ L comp lt tick HC w pre x a b post fuel Hn) by (cbn in Hf; try lia; exact D).
      replace (Z.to_nat (zlen (x :: a))) with (List.length (x :: a)) by (unfold zlen; now rewrite Nat2Z.id). reflexivity.
  Qed.
End Amortised.
