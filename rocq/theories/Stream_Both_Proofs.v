(** Proofs about streams whose callbacks add stages to them and call Next. *)
From Coq Require Import Lia.
From Verif Require Import Base Arr Exn Stream_Model Stream_Spec Stream_Reent_Proofs Stream_Both_Model Stream_Both_Spec.
Local Open Scope exn_scope.
Local Open Scope list_scope.
Local Open Scope Z_scope.

Ltac done_eq E := injection E as _ <-.

Section Mono.
  Context {S W T : Type} (src : source S W T) (grow : nat -> nat).
  Local Notation st := (bstream S W T).
  Definition size (s : st) : nat := List.length (arrays s).

  Lemma bsource_size {A} (m : X (S * W) A) (s : st) r s' : bsource m s = (r, s') -> size s' = size s.
  Proof. unfold bsource. destruct (m (bsrc s, bworld s)) as [r0 [z w]]. intros E. done_eq E. reflexivity. Qed.
  Lemma bappend_size o p (s : st) r s' : bappend grow o p s = (r, s') -> (size s <= size s')%nat.
  Proof.
    unfold bappend, size. destruct (slice s) as [a|].
    - destruct (nth_error (arrays s) a) as [[cap l]|]; [|intros E; done_eq E; lia].
      destruct (List.length l <? cap)%nat; intros E; done_eq E; cbn; rewrite ?length_upd, ?app_length; cbn; lia.
    - intros E. done_eq E. cbn. rewrite app_length. cbn. lia.
  Qed.
  Lemma bstore_size i o (s : st) r s' : bstore i o s = (r, s') -> size s' = size s.
  Proof.
    unfold bstore, size. destruct (slice s) as [a|]; [|intros E; done_eq E; reflexivity].
    destruct (nth_error (arrays s) a) as [[cap l]|]; [|intros E; done_eq E; reflexivity].
    destruct (i <? List.length l)%nat; intros E; done_eq E; cbn; rewrite ?length_upd; reflexivity.
  Qed.
  Lemma bbuild_size o (s : st) r s' : bbuild src grow o s = (r, s') -> (size s <= size s')%nat.
  Proof.
    destruct o as [p|n|n|f|c]; cbn [bbuild]; try apply bappend_size.
    - destruct (n <? 0); [intros E; done_eq E; lia|]. destruct (n =? 0); [intros E; done_eq E; lia|].
      unfold xbind at 1, xget. destruct (negb (bpred s)); [|apply bappend_size].
      destruct (bhas s); [|intros E; done_eq E; lia].
      intros E. apply bind_ok in E as [(b & s1 & E1 & E2)|[(e & E1 & _)|[E1 _]]]; pose proof (bsource_size _ _ _ _ E1); [done_eq E2|..]; lia.
    - destruct (n <? 0); [intros E; done_eq E; lia|]. apply bappend_size.
  Qed.

  Lemma mono fuel :
    (forall A (c : bcode (bop W T) W T A) (s : st) r s', brun src grow A fuel c s = (r, s') -> (size s <= size s')%nat) /\
    (forall (s : st) r s', bnext src grow fuel s = (r, s') -> (size s <= size s')%nat) /\
    (forall (s : st) r s', bloop src grow fuel s = (r, s') -> (size s <= size s')%nat) /\
    (forall a n i v (s : st) r s', bstages src grow fuel a n i v s = (r, s') -> (size s <= size s')%nat).
  Proof.
    induction fuel as [|fuel (R & N & L & G)].
    { repeat apply conj; intros; cbn in *; match goal with H : (_, _) = (_, _) |- _ => injection H as _ <- end; lia. }
    split; [|split; [|split]].
    - intros A c s r s' E. cbn [brun] in E. destruct c as [a|e|k|w k|k|o k].
      + done_eq E. lia.
      + done_eq E. lia.
      + exact (R _ _ s r s' E).
      + exact (R _ _ (mkB (bhas s) (arrays s) (slice s) (bpred s) (bsrc s) w) r s' E).
      + apply bind_ok in E as [(v & s1 & E1 & E2)|[(e & E1 & _)|[E1 _]]]; apply N in E1; [apply R in E2|..]; lia.
      + apply bind_ok in E as [(v & s1 & E1 & E2)|[(e & E1 & _)|[E1 _]]]; apply bbuild_size in E1; [apply R in E2|..]; lia.
    - intros s r s' E. cbn [bnext] in E. unfold xbind at 1, xget in E. destruct (bhas s); [exact (L _ _ _ E)|].
      done_eq E. cbn. unfold size. cbn. lia.
    - intros s r s' E. cbn [bloop] in E. unfold xbind at 1, xget in E. destruct (bhas s); cbn [negb] in E; [|done_eq E; lia].
      apply bind_ok in E as [(v & s1 & E1 & E2)|[(e & E1 & _)|[E1 _]]]; apply bsource_size in E1; try lia.
      destruct v as [v|]; [|done_eq E2; unfold size in *; cbn; lia].
      unfold xbind at 1, xget in E2.
      apply bind_ok in E2 as [(d & s2 & E3 & E4)|H].
      + assert (size s1 <= size s2)%nat.
        { destruct (slice s1) as [a|]; [|done_eq E3; lia]. destruct (nth_error (arrays s1) a) as [[cap l]|]; [exact (G _ _ _ _ _ _ _ E3)|discriminate E3]. }
        destruct d; [done_eq E4; lia|apply L in E4; lia|done_eq E4; unfold size in *; cbn; lia].
      + assert (size s1 <= size s')%nat; [|lia].
        destruct (slice s1) as [a|]; [destruct (nth_error (arrays s1) a) as [[cap l]|]|].
        * destruct H as [(e & E3 & _)|[E3 _]]; exact (G _ _ _ _ _ _ _ E3).
        * destruct H as [(e & E3 & _)|[E3 _]]; [done_eq E3; lia|discriminate E3].
        * destruct H as [(e & E3 & _)|[E3 _]]; discriminate E3.
    - intros a n i v s r s' E. cbn [bstages] in E. destruct n as [|n]; [done_eq E; lia|].
      unfold xbind at 1, xget in E.
      destruct (nth_error (arrays s) a) as [[cap l]|]; [|done_eq E; lia].
      destruct (nth_error l i) as [[p|k|k|f|c]|]; [| | | | |done_eq E; lia].
      + apply bind_ok in E as [(b & s1 & E1 & E2)|[(e & E1 & _)|[E1 _]]]; apply R in E1; try lia.
        destruct b; [apply G in E2; lia|done_eq E2; lia].
      + destruct (k >? 0); [|exact (G _ _ _ _ _ _ _ E)].
        apply bind_ok in E as [(b & s1 & E1 & E2)|[(e & E1 & _)|[E1 _]]]; apply bstore_size in E1; [done_eq E2|..]; lia.
      + destruct (k >? 0); [|done_eq E; lia].
        apply bind_ok in E as [(b & s1 & E1 & E2)|[(e & E1 & _)|[E1 _]]]; apply bstore_size in E1; [apply G in E2|..]; lia.
      + apply bind_ok in E as [(b & s1 & E1 & E2)|[(e & E1 & _)|[E1 _]]]; apply R in E1; [apply G in E2|..]; lia.
      + apply bind_ok in E as [(b & s1 & E1 & E2)|[(e & E1 & _)|[E1 _]]]; apply R in E1; [apply G in E2|..]; lia.
  Qed.
End Mono.

(** ** Limit, as long as no new array is made *)
Section Limit.
  Context {S W T : Type} (src : source S W T) (grow : nat -> nat) (obs : W -> Z) (bump : W -> W) (j L : nat).
  Local Notation st := (bstream S W T).
  Hypothesis Hsrc : bkeepsSource obs src.
  Hypothesis Hbump : forall w, obs (bump w) = obs w + 1.

  (** A Limit at position [j] that lets [m] more through, a counting Peek next. *)
  Definition bshape (m : Z) (l : list (bop W T)) : Prop :=
    nth_error l j = Some (BLimit m) /\ nth_error l (j + 1) = Some (bcounting bump) /\ 0 <= m /\
    forall i o, nth_error l i = Some o -> i <> (j + 1)%nat -> bkeepsOp obs o.
  Definition bwithin (C : Z) (s : st) : Prop :=
    (slice s = None \/ slice s = Some L) /\
    exists m cap l, nth_error (arrays s) L = Some (cap, l) /\ bshape m l /\ obs (bworld s) + m <= C.

  Lemma bshape_upd m l i o : (i < List.length l)%nat -> bshape m l -> i <> (j + 1)%nat -> i <> j -> bkeepsOp obs o -> bshape m (upd l i o).
  Proof.
    intros Hl (H1 & H2 & H3 & H4) Hi Hj Ho. repeat split; auto; rewrite ?nth_error_upd by exact Hl.
    - destruct (Nat.eqb_spec j i); [congruence|]. exact H1.
    - destruct (Nat.eqb_spec (j + 1) i); [congruence|]. exact H2.
    - intros i' o'. rewrite nth_error_upd by exact Hl. destruct (Nat.eqb_spec i' i); [|apply H4].
      intros E; injection E as <-. auto.
  Qed.
  Lemma bshape_down m l : 0 < m -> bshape m l -> bshape (m - 1) (upd l j (BLimit (m - 1))).
  Proof.
    intros Hm (H1 & H2 & H3 & H4).
    assert (Hl : (j < List.length l)%nat) by (apply nth_error_Some; congruence).
    repeat split; rewrite ?nth_error_upd by exact Hl; [now rewrite Nat.eqb_refl| |lia|].
    - destruct (Nat.eqb_spec (j + 1) j); [lia|]. exact H2.
    - intros i' o'. rewrite nth_error_upd by exact Hl. destruct (Nat.eqb_spec i' j); [|apply H4].
      intros E; injection E as <-. intros _. constructor.
  Qed.
  Lemma bshape_app m l o : bshape m l -> bkeepsOp obs o -> bshape m (l ++ [o]).
  Proof.
    intros (H1 & H2 & H3 & H4) Ho.
    assert (Hl : (j < List.length l)%nat) by (apply nth_error_Some; congruence).
    assert (Hl1 : (j + 1 < List.length l)%nat) by (apply nth_error_Some; congruence).
    repeat split; rewrite ?nth_error_app1 by assumption; auto.
    intros i o' E Hi. destruct (Nat.lt_ge_cases i (List.length l)) as [A|A].
    - rewrite nth_error_app1 in E by exact A. eauto.
    - rewrite nth_error_app2 in E by exact A. destruct (i - List.length l)%nat as [|[|n]]; cbn in E; try discriminate. injection E as <-. exact Ho.
  Qed.
  Lemma bwithin_source A (m : X (S * W) A) C s r s' : (forall z w, obs (snd (snd (m (z, w)))) = obs w) ->
    bwithin C s -> bsource m s = (r, s') -> bwithin C s' /\ slice s' = slice s /\ arrays s' = arrays s.
  Proof.
    intros Hm (H0 & n & cap & l & H1 & H2 & H3). unfold bsource. pose proof (Hm (bsrc s) (bworld s)) as HK.
    destruct (m (bsrc s, bworld s)) as [r0 [z w]]. intros E. done_eq E. split; [|auto]. split; [exact H0|]. exists n, cap, l. cbn in *. rewrite HK. auto.
  Qed.
  Lemma bwithin_append C o p s r s' : bkeepsOp obs o -> size s' = size s -> bwithin C s -> bappend grow o p s = (r, s') -> bwithin C s'.
  Proof.
    intros Ho Hz (H0 & n & cap & l & H1 & H2 & H3) E.
    assert (HL : (L < List.length (arrays s))%nat) by (apply nth_error_Some; congruence).
    unfold bappend in E. unfold size in Hz. destruct H0 as [H0|H0]; rewrite H0 in E.
    - done_eq E. cbn in Hz. rewrite app_length in Hz. cbn in Hz. lia.
    - rewrite H1 in E. destruct (List.length l <? cap)%nat; done_eq E.
      + split; [now right|]. exists n, cap, (l ++ [o]). cbn. rewrite nth_error_upd, Nat.eqb_refl by exact HL.
        split; [reflexivity|]. split; [now apply bshape_app|exact H3].
      + cbn in Hz. rewrite app_length in Hz. cbn in Hz. lia.
  Qed.
  Lemma bwithin_build C o s r s' : bkeepsOp obs o -> size s' = size s -> bwithin C s -> bbuild src grow o s = (r, s') -> bwithin C s'.
  Proof.
    intros Ho Hz HP. destruct o as [p|n|n|f|c]; cbn [bbuild]; try (now apply bwithin_append).
    - destruct (n <? 0); [intros E; done_eq E; exact HP|]. destruct (n =? 0); [intros E; done_eq E; exact HP|].
      unfold xbind at 1, xget. destruct (negb (bpred s)); [|now apply bwithin_append].
      destruct (bhas s); [|intros E; done_eq E; exact HP].
      intros E. apply bind_ok in E as [(b & s1 & E1 & E2)|[(e & E1 & _)|[E1 _]]];
        (apply bwithin_source with (C := C) in E1; [|intros z w; apply Hsrc|exact HP]); [done_eq E2|..]; tauto.
    - destruct (n <? 0); [intros E; done_eq E; exact HP|]. now apply bwithin_append.
  Qed.

  Lemma bbuild_obs o s r s' : bbuild src grow o s = (r, s') -> obs (bworld s') = obs (bworld s).
  Proof.
    assert (Ha : forall o p (s1 : st) r (s2 : st), bappend grow o p s1 = (r, s2) -> obs (bworld s2) = obs (bworld s1)).
    { intros o' p s1 r' s2. unfold bappend. destruct (slice s1) as [a|].
      - destruct (nth_error (arrays s1) a) as [[cap l]|]; [|intros E; done_eq E; reflexivity].
        destruct (List.length l <? cap)%nat; intros E; done_eq E; reflexivity.
      - intros E. done_eq E. reflexivity. }
    destruct o as [p|n|n|f|c]; cbn [bbuild]; try apply Ha.
    - destruct (n <? 0); [intros E; done_eq E; reflexivity|]. destruct (n =? 0); [intros E; done_eq E; reflexivity|].
      unfold xbind at 1, xget. destruct (negb (bpred s)); [|apply Ha].
      destruct (bhas s); [|intros E; done_eq E; reflexivity].
      assert (Hb : forall r1 s1, bsource (sSkip src n) s = (r1, s1) -> obs (bworld s1) = obs (bworld s)).
      { intros r1 s1. unfold bsource. pose proof (proj2 (Hsrc (bsrc s) (bworld s)) n) as HK.
        destruct (sSkip src n (bsrc s, bworld s)) as [r0 [z w]]. intros E. done_eq E. exact HK. }
      intros E. apply bind_ok in E as [(b & s1 & E1 & E2)|[(e & E1 & _)|[E1 _]]]; apply Hb in E1; [done_eq E2|..]; exact E1.
    - destruct (n <? 0); [intros E; done_eq E; reflexivity|]. apply Ha.
  Qed.

  Lemma blimit_within C fuel :
    (forall A (c : bcode (bop W T) W T A) s r s', bkeeps (bkeepsOp obs) obs (obs (bworld s)) c -> size s' = size s -> bwithin C s -> brun src grow A fuel c s = (r, s') -> bwithin C s') /\
    (forall s r s', size s' = size s -> bwithin C s -> bnext src grow fuel s = (r, s') -> bwithin C s') /\
    (forall s r s', size s' = size s -> bwithin C s -> bloop src grow fuel s = (r, s') -> bwithin C s') /\
    (forall n i v s r s', size s' = size s -> (if Nat.eqb i (j + 1) then bwithin (C - 1) s else bwithin C s) -> bstages src grow fuel L n i v s = (r, s') -> bwithin C s').
  Proof.
    assert (Hweak : forall s : st, bwithin (C - 1) s -> bwithin C s) by (intros s (H0 & m & cap & l & H1 & H2 & H3); split; [exact H0|]; exists m, cap, l; split; [assumption|split; [assumption|lia]]).
    assert (Hcl : forall s : st, bwithin C s -> bwithin C (mkB false (arrays s) None (bpred s) (bsrc s) (bworld s))) by (intros s (H0 & m & cap & l & H1 & H2 & H3); split; [now left|]; now exists m, cap, l).
    induction fuel as [|fuel (R & N & LL & G)].
    { repeat apply conj; intros; cbn in *; match goal with H : (_, _) = (_, _) |- _ => injection H as _ <- end; auto. destruct (Nat.eqb i (j + 1)); auto. }
    destruct (mono src grow fuel) as (MR & MN & ML & MG).
    split; [|split; [|split]].
    - intros A c s r s' Hc Hz HP E. cbn [brun] in E. destruct c as [a|e|k|w k|k|o k].
      + done_eq E. exact HP.
      + done_eq E. exact HP.
      + refine (R _ _ s r s' _ Hz HP E). inversion Hc as [| |? H| | |]. auto.
      + inversion Hc as [| | |? ? H1 H2| |]; subst.
        refine (R _ _ (mkB (bhas s) (arrays s) (slice s) (bpred s) (bsrc s) w) r s' _ Hz _ E); cbn; [congruence|].
        destruct HP as (H0 & m & cap & l & H3 & H4 & H5). split; [exact H0|]. exists m, cap, l. cbn. rewrite H1. auto.
      + inversion Hc as [| | | |? H|]; subst.
        apply bind_ok in E as [(v & s1 & E1 & E2)|[(e & E1 & _)|[E1 _]]]; pose proof (MN _ _ _ E1).
        * pose proof (MR _ _ _ _ _ E2). refine (R _ _ s1 r s' _ _ _ E2); [auto|lia|]. refine (N _ _ _ _ HP E1). lia.
        * exact (N _ _ _ Hz HP E1).
        * exact (N _ _ _ Hz HP E1).
      + inversion Hc as [| | | | |? ? H1 H2]; subst.
        apply bind_ok in E as [(v & s1 & E1 & E2)|[(e & E1 & _)|[E1 _]]]; pose proof (bbuild_size _ _ _ _ _ _ E1).
        * pose proof (MR _ _ _ _ _ E2). assert (Hz1 : size s1 = size s) by lia. pose proof (bwithin_build C _ _ _ _ H1 Hz1 HP E1) as HP1.
          refine (R _ _ s1 r s' _ _ HP1 E2); [|lia]. rewrite (bbuild_obs _ _ _ _ E1). exact H2.
        * exact (bwithin_build C _ _ _ _ H1 Hz HP E1).
        * exact (bwithin_build C _ _ _ _ H1 Hz HP E1).
    - intros s r s' Hz HP E. cbn [bnext] in E. unfold xbind at 1, xget in E. destruct (bhas s) eqn:Ea; [exact (LL _ _ _ Hz HP E)|].
      done_eq E. auto.
    - intros s r s' Hz HP E. cbn [bloop] in E. unfold xbind at 1, xget in E. destruct (bhas s); cbn [negb] in E; [|done_eq E; exact HP].
      assert (Hn : forall z w, obs (snd (snd (sNext src (z, w)))) = obs w) by (intros z w; apply Hsrc).
      apply bind_ok in E as [(v & s1 & E1 & E2)|[(e & E1 & _)|[E1 _]]]; destruct (bwithin_source _ _ _ _ _ _ Hn HP E1) as (HP1 & Hs1 & _); auto.
      pose proof (bsource_size _ _ _ _ E1) as Hz1.
      destruct v as [v|]; [|done_eq E2; auto].
      unfold xbind at 1, xget in E2.
      assert (HP1' : if Nat.eqb 0 (j + 1) then bwithin (C - 1) s1 else bwithin C s1) by (destruct (Nat.eqb_spec 0 (j + 1)); [lia|exact HP1]).
      set (m := match slice s1 with None => xret (Emit v) | Some a => _ end) in E2.
      assert (Hm : forall r2 s2, m s1 = (r2, s2) -> (size s1 <= size s2)%nat /\ (size s2 = size s1 -> bwithin C s2)).
      { intros r2 s2 Em. pose proof HP1 as (H0 & k & cap & l & H1 & H2 & H3). subst m. destruct H0 as [H0|H0]; rewrite H0 in Em.
        - done_eq Em. split; [lia|]. intros _. exact HP1.
        - rewrite H1 in Em. split; [exact (MG _ _ _ _ _ _ _ Em)|]. intros Hz2. exact (G _ _ _ _ _ _ Hz2 HP1' Em). }
      apply bind_ok in E2 as [(d & s2 & E3 & E4)|[(e & E3 & _)|[E3 _]]]; destruct (Hm _ _ E3) as [M1 M2]; [|apply M2; lia|apply M2; lia].
      destruct d; [done_eq E4; apply M2; lia| |done_eq E4; apply Hcl, M2; unfold size in *; cbn in Hz; lia].
      pose proof (ML _ _ _ E4). refine (LL _ _ _ _ _ E4); [lia|]. apply M2. lia.
    - intros n i v s r s' Hz HP E. cbn [bstages] in E.
      assert (HPw : bwithin C s) by (destruct (Nat.eqb i (j + 1)); auto).
      destruct n as [|n]; [done_eq E; exact HPw|]. unfold xbind at 1, xget in E.
      pose proof HPw as (H0 & _). 
      assert (exists m cap l, nth_error (arrays s) L = Some (cap, l) /\ bshape m l /\ obs (bworld s) + m <= (if Nat.eqb i (j + 1) then C - 1 else C)) as (m & cap & l & Hcell & Hsh & HC).
      { destruct (Nat.eqb i (j + 1)); destruct HP as (_ & HP); exact HP. }
      rewrite Hcell in E. assert (HL : (L < List.length (arrays s))%nat) by (apply nth_error_Some; congruence).
      destruct (nth_error l i) as [o|] eqn:Eo; [|done_eq E; exact HPw].
      pose proof Hsh as (H1 & H2 & H3 & H4).
      destruct (Nat.eqb_spec i (j + 1)) as [->|Hij].
      + (* the counting Peek *)
        rewrite H2 in Eo. injection Eo as <-. unfold bcounting in E.
        apply bind_ok in E as [(b & s1 & E1 & E2)|[(e & E1 & _)|[E1 _]]].
        * destruct fuel as [|[|[|fuel]]]; try discriminate E1. cbn in E1. injection E1 as _ <-.
          refine (G _ _ _ _ _ _ _ _ E2); [exact Hz|]. destruct (Nat.eqb_spec (j + 1 + 1) (j + 1)); [lia|].
          split; [exact H0|]. exists m, cap, l. cbn. rewrite Hbump. split; [exact Hcell|]. split; [exact Hsh|lia].
        * destruct fuel as [|[|[|fuel]]]; discriminate E1.
        * destruct fuel as [|[|[|fuel]]]; cbn in E1; inversion E1; subst; (split; [exact H0|]); exists m, cap, l; cbn; rewrite ?Hbump; (split; [exact Hcell|]); (split; [exact Hsh|lia]).
      + assert (Hnext : forall s1, bwithin C s1 -> i <> j -> if Nat.eqb (i + 1) (j + 1) then bwithin (C - 1) s1 else bwithin C s1).
        { intros s1 H Hi. destruct (Nat.eqb_spec (i + 1) (j + 1)); [lia|exact H]. }
        assert (Hl : (i < List.length l)%nat) by (apply nth_error_Some; congruence).
        pose proof (H4 _ _ Eo Hij) as Hk.
        assert (Hcb : forall A (c : bcode (bop W T) W T A) k, (forall n, bkeeps (bkeepsOp obs) obs n c) -> i <> j ->
          (forall a s1, k a s1 = (r, s') -> (size s1 <= size s')%nat) ->
          (forall a s1, size s' = size s1 -> bwithin C s1 -> i <> j -> k a s1 = (r, s') -> bwithin C s') ->
          xbind (brun src grow A fuel c) k s = (r, s') -> bwithin C s').
        { intros A c k Hkc Hi Hsz Hrest E0. apply bind_ok in E0 as [(b & s1 & E1 & E2)|[(e & E1 & _)|[E1 _]]]; pose proof (MR _ _ _ _ _ E1).
          - pose proof (Hsz _ _ E2). refine (Hrest b s1 _ _ Hi E2); [lia|]. refine (R _ _ _ _ _ (Hkc _) _ HPw E1). lia.
          - exact (R _ _ _ _ _ (Hkc _) Hz HPw E1).
          - exact (R _ _ _ _ _ (Hkc _) Hz HPw E1). }
        destruct o as [p|k|k|f|c]; inversion Hk as [? Hk'| | |? Hk'|? Hk']; subst.
        * assert (Hi : i <> j) by (intros ->; congruence). refine (Hcb _ _ _ (Hk' v) Hi _ _ E).
          -- intros b s1 E2. destruct b; [exact (MG _ _ _ _ _ _ _ E2)|done_eq E2; lia].
          -- intros b s1 Hz1 HP1 _ E2. destruct b; [exact (G _ _ _ _ _ _ Hz1 (Hnext s1 HP1 Hi) E2)|done_eq E2; exact HP1].
        * assert (Hi : i <> j) by (intros ->; congruence). destruct (k >? 0); [|exact (G _ _ _ _ _ _ Hz (Hnext s HPw Hi) E)].
          unfold xbind, bstore in E. destruct H0 as [H0|H0]; rewrite H0 in E; [done_eq E; exact HPw|]. rewrite Hcell in E.
          rewrite (proj2 (Nat.ltb_lt _ _) Hl) in E. done_eq E. split; [now right|]. exists m, cap, (upd l i (BSkip (k - 1))). cbn.
          rewrite nth_error_upd, Nat.eqb_refl by exact HL. split; [reflexivity|]. split; [|exact HC]. apply bshape_upd; auto. constructor.
        * destruct (k >? 0) eqn:Ek; [|done_eq E; exact HPw]. unfold xbind, bstore in E. destruct H0 as [H0|H0]; rewrite H0 in E; [done_eq E; exact HPw|]. rewrite Hcell in E.
          rewrite (proj2 (Nat.ltb_lt _ _) Hl) in E.
          refine (G _ _ _ _ _ _ _ _ E); [unfold size in *; cbn; rewrite length_upd; exact Hz|]. destruct (Nat.eqb_spec (i + 1) (j + 1)) as [Eq|Hne].
          -- assert (i = j) as -> by lia. rewrite H1 in Eo. injection Eo as <-. split; [now right|]. exists (m - 1), cap, (upd l j (BLimit (m - 1))). cbn.
             rewrite nth_error_upd, Nat.eqb_refl by exact HL. split; [reflexivity|]. split; [apply bshape_down; [lia|exact Hsh]|lia].
          -- split; [now right|]. exists m, cap, (upd l i (BLimit (k - 1))). cbn.
             rewrite nth_error_upd, Nat.eqb_refl by exact HL. split; [reflexivity|]. split; [|exact HC]. apply bshape_upd; auto; try lia; constructor.
        * assert (Hi : i <> j) by (intros ->; congruence). refine (Hcb _ _ _ (Hk' v) Hi _ _ E).
          -- intros b s1 E2. exact (MG _ _ _ _ _ _ _ E2).
          -- intros b s1 Hz1 HP1 _ E2. exact (G _ _ _ _ _ _ Hz1 (Hnext s1 HP1 Hi) E2).
        * assert (Hi : i <> j) by (intros ->; congruence). refine (Hcb _ _ _ (Hk' v) Hi _ _ E).
          -- intros b s1 E2. exact (MG _ _ _ _ _ _ _ E2).
          -- intros b s1 Hz1 HP1 _ E2. exact (G _ _ _ _ _ _ Hz1 (Hnext s1 HP1 Hi) E2).
  Qed.

  Lemma blimit_uses C us : Forall (bkeepsUse obs) us -> forall s, bwithin C s ->
    let s' := snd (runOps (buse1 src grow) us s) in (size s <= size s')%nat /\ (size s' = size s -> bwithin C s').
  Proof.
    induction 1 as [|u us Hu _ IH]; intros s HP; cbn [runOps snd]; [split; [lia|auto]|].
    destruct (buse1 src grow u s) as [r s1] eqn:E.
    assert (H1 : (size s <= size s1)%nat /\ (size s1 = size s -> bwithin C s1)).
    { destruct u as [fuel|o]; cbn [buse1] in E.
      - split; [exact (proj1 (proj2 (mono src grow fuel)) _ _ _ E)|]. intros Hz. exact (proj1 (proj2 (blimit_within C fuel)) _ _ _ Hz HP E).
      - apply bind_ok in E as [(b & s2 & E1 & E2)|[(e & E1 & _)|[E1 _]]]; [done_eq E2|..];
          (split; [exact (bbuild_size _ _ _ _ _ _ E1)|intros Hz; exact (bwithin_build C _ _ _ _ Hu Hz HP E1)]). }
    destruct H1 as [H1 H2].
    destruct (runOps (buse1 src grow) us s1) as [rs s2] eqn:Er. cbn [snd].
    assert (Hm : (size s1 <= size s2)%nat).
    { clear - Er. revert s1 rs s2 Er. induction us as [|u us IH]; intros s1 rs s2 Er; cbn [runOps] in Er; [done_eq Er; lia|].
      destruct (buse1 src grow u s1) as [r s3] eqn:E. destruct (runOps (buse1 src grow) us s3) as [rs' s4] eqn:E'. done_eq Er.
      apply IH in E'. enough (size s1 <= size s3)%nat by lia. destruct u as [fuel|o]; cbn [buse1] in E; [exact (proj1 (proj2 (mono src grow fuel)) _ _ _ E)|].
      apply bind_ok in E as [(b & s5 & E1 & E2)|[(e & E1 & _)|[E1 _]]]; [done_eq E2|..]; exact (bbuild_size _ _ _ _ _ _ E1). }
    split; [lia|]. intros Hz. assert (Hz1 : size s1 = size s) by lia. specialize (IH s1 (H2 Hz1)). rewrite Er in IH. cbn [snd] in IH. apply IH. lia.
  Qed.
End Limit.
