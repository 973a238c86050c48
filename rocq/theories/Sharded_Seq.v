(** xmap.Sharded used by one goroutine. *)
From Coq Require Import Permutation.
From Verif Require Import Base Arr GoMap XMap_Spec Sharded_Model Sharded_Spec Sharded_Locks.

Section Seq.
  Context {K V : Type} (eqb : K -> K -> bool) (zero : V) (nsh : nat) (hash : K -> Z).
  Hypothesis D : decides eqb.
  Hypothesis Hnsh : (0 < nsh)%nat.
  Notation prog := (prog K V).
  Notation shared := (shared K V).
  Notation config := (config K V).
  Notation op := (op K V).
  Notation res := (res K V).
  Notation progOf := (progOf eqb zero nsh hash).
  Notation cstep := (cstep eqb zero nsh hash).
  Notation reach := (reach eqb zero nsh hash).
  Notation value := (value eqb).
  Notation answer := (answer eqb zero).
  Notation shardOf := (GetShard nsh hash).
  Notation maps := (nat -> gomap K V).
  Let PE : partial_equiv eqb := eq_pe _ (decides_equiv _ D).

  Lemma shard_lt k : (shardOf k < nsh)%nat.
  Proof.
    unfold GetShard. destruct (Nat.eqb_spec nsh 1); [lia|].
    assert (0 <= hash k mod Z.of_nat nsh < Z.of_nat nsh) by (apply Z.mod_pos_bound; lia). lia.
  Qed.

  (** What [p] does when nothing else runs. *)
  Fixpoint swp (p : prog) (M : maps) (Q : res -> maps -> Prop) : Prop :=
    match p with
    | Ret r => Q r M
    | RLock _ k | RUnlock _ k | Lock _ k | LockWait _ k | Unlock _ k | Call k => swp k M Q
    | Read s k => swp (k (M s)) M Q
    | Range s k => forall l, Permutation l (M s) -> swp (k l) M Q
    | Write s f k => swp k (fupd M s (f (M s))) Q
    end.

  Definition rep (h : list op) (M : maps) : Prop :=
    (forall x, value h x = gget eqb (M (shardOf x)) x) /\
    (forall s, wfm eqb (M s)) /\
    (forall s k v, In (k, v) (M s) -> shardOf k = s).

  Lemma in_gset (m : gomap K V) k v k' v' : In (k', v') (gset eqb m k v) -> k' = k \/ In (k', v') m.
  Proof.
    induction m as [|[k0 v0] m IH]; cbn.
    - intros [[= -> ->]|[]]. auto.
    - destruct (eqb k0 k) eqn:E; cbn.
      + intros [[= -> ->]|H]; [|auto]. apply D in E. auto.
      + intros [[= -> ->]|H]; [auto|]. apply IH in H. tauto.
  Qed.
  Lemma in_gdel (m : gomap K V) k e : In e (gdel eqb m k) -> In e m.
  Proof.
    induction m as [|[k0 v0] m IH]; cbn; [auto|]. destruct (eqb k0 k); cbn; tauto.
  Qed.

  Lemma rep_same h o M : rep h M -> (forall x, value (o :: h) x = value h x) -> rep (o :: h) M.
  Proof. intros (R1 & R2 & R3) H. split; [|auto]. intros x. rewrite H. apply R1. Qed.

  Lemma rep_set h o M k v : rep h M ->
    (forall x, value (o :: h) x = if eqb k x then Some v else value h x) ->
    rep (o :: h) (fupd M (shardOf k) (gset eqb (M (shardOf k)) k v)).
  Proof.
    intros (R1 & R2 & R3) H. split; [|split].
    - intros x. rewrite H. destruct (fupd_case M (shardOf k) (shardOf x) (gset eqb (M (shardOf k)) k v)) as [[E ->]|[Hn ->]].
      + rewrite (gget_gset eqb PE), E, <- R1. reflexivity.
      + destruct (eqb k x) eqn:E; [apply D in E; congruence|apply R1].
    - intros s. destruct (fupd_case M (shardOf k) s (gset eqb (M (shardOf k)) k v)) as [[E ->]|[Hn ->]]; [|apply R2].
      now apply wfm_gset.
    - intros s k' v'. destruct (fupd_case M (shardOf k) s (gset eqb (M (shardOf k)) k v)) as [[E ->]|[Hn ->]]; [|apply R3].
      intros Hin. apply in_gset in Hin as [->|Hin]; [assumption|]. apply R3 in Hin. congruence.
  Qed.

  Lemma rep_del h o M k : rep h M ->
    (forall x, value (o :: h) x = if eqb k x then None else value h x) ->
    rep (o :: h) (fupd M (shardOf k) (gdel eqb (M (shardOf k)) k)).
  Proof.
    intros (R1 & R2 & R3) H. split; [|split].
    - intros x. rewrite H. destruct (fupd_case M (shardOf k) (shardOf x) (gdel eqb (M (shardOf k)) k)) as [[E ->]|[Hn ->]].
      + rewrite (gget_gdel eqb PE), E, <- R1. reflexivity.
      + destruct (eqb k x) eqn:E; [apply D in E; congruence|apply R1].
    - intros s. destruct (fupd_case M (shardOf k) s (gdel eqb (M (shardOf k)) k)) as [[E ->]|[Hn ->]]; [|apply R2].
      now apply wfm_gdel.
    - intros s k' v'. destruct (fupd_case M (shardOf k) s (gdel eqb (M (shardOf k)) k)) as [[E ->]|[Hn ->]]; [|apply R3].
      intros Hin. apply in_gdel in Hin. apply R3 in Hin. congruence.
  Qed.

  Lemma NoDup_app_intro' {A} (l l' : list A) : NoDup l -> NoDup l' ->
    (forall x, In x l -> In x l' -> False) -> NoDup (l ++ l').
  Proof.
    intros N N' H. induction N as [|x l Hx N IH]; cbn; [assumption|]. constructor.
    - rewrite in_app_iff. intros [Hi|Hi]; [contradiction|]. apply (H x); [now left|assumption].
    - apply IH. intros y Hy. apply H. now right.
  Qed.

  (** ** Enumerations *)
  Definition orders (M : maps) : list (list (K * V)) -> list nat -> Prop :=
    Forall2 (fun l s => Permutation l (M s)).

  Lemma orders_entries M ls ss : orders M ls ss ->
    (forall s, wfm eqb (M s)) -> (forall s k v, In (k, v) (M s) -> shardOf k = s) -> NoDup ss ->
    NoDup (map fst (List.concat ls)) /\
    forall k v, In (k, v) (List.concat ls) <-> exists s, In s ss /\ In (k, v) (M s).
  Proof.
    intros H R2 R3. induction H as [|l s ls ss P _ IH]; intros N.
    - split; [constructor|]. cbn. intros k v. split; [tauto|]. intros (s & [] & _).
    - inversion N; subst. destruct (IH H2) as [IH1 IH2]. cbn. split.
      + rewrite map_app. apply NoDup_app_intro'.
        * apply (Permutation_NoDup (l := map fst (M s))); [now apply Permutation_map, Permutation_sym|].
          now apply (wfm_nodup eqb D).
        * assumption.
        * intros k Hk1 Hk2. apply in_map_iff in Hk1 as ([k1 v1] & <- & Hk1).
          apply in_map_iff in Hk2 as ([k2 v2] & Heq & Hk2). cbn in Heq. subst k2.
          apply IH2 in Hk2 as (s' & Hs' & Hk2). apply (Permutation_in _ P) in Hk1.
          apply R3 in Hk1, Hk2. cbn in *. congruence.
      + intros k v. rewrite in_app_iff, IH2. split.
        * intros [Hin|(s' & ? & ?)]; [|eauto]. exists s. split; [auto|]. eapply Permutation_in; eassumption.
        * intros (s' & [<-|Hs'] & Hin); [left|right; eauto]. eapply Permutation_in; [symmetry; eassumption|assumption].
  Qed.

  Lemma orders_all h M ls : rep h M -> orders M ls (allShards nsh) -> allEntries eqb h (List.concat ls).
  Proof.
    intros (R1 & R2 & R3) H. destruct (orders_entries M ls _ H R2 R3) as [H1 H2]; [apply seq_NoDup|].
    split; [assumption|]. intros k v. rewrite H2, R1, (gget_iff_in eqb D _ (R2 _)). split.
    - intros (s & _ & Hin). pose proof (R3 _ _ _ Hin). congruence.
    - intros Hin. exists (shardOf k). split; [|assumption]. apply in_seq. pose proof (shard_lt k). lia.
  Qed.

  Lemma orders_refl M ss : orders M (map M ss) ss.
  Proof. induction ss; cbn; constructor; auto. Qed.

  Lemma swp_readOnly {A} ss (step : A -> list (K * V) -> A) fin M (Q : res -> maps -> Prop) : forall acc,
    (forall ls, orders M ls ss -> Q (fin (fold_left step ls acc)) M) ->
    swp (readOnlyP ss step fin acc) M Q.
  Proof.
    induction ss as [|s ss IH]; intros acc H; cbn.
    - apply (H []). constructor.
    - intros l P. apply IH. intros ls Hl. apply (H (l :: ls)). now constructor.
  Qed.

  Lemma swp_len ss M (Q : res -> maps -> Prop) : forall n,
    Q (RInt (n + zlen (List.concat (map M ss)))) M -> swp (lenP ss n) M Q.
  Proof.
    induction ss as [|s ss IH]; intros n H; cbn in *.
    - rewrite Z.add_0_r in H. assumption.
    - apply IH. rewrite zlen_app in H. unfold glen. now rewrite <- Z.add_assoc.
  Qed.

  Lemma swp_empty ss M (Q : res -> maps -> Prop) :
    Q (RBool (match List.concat (map M ss) with [] => true | _ => false end)) M -> swp (emptyP ss) M Q.
  Proof.
    induction ss as [|s ss IH]; intros H; cbn in *; [assumption|].
    unfold glen. destruct (M s) as [|e m] eqn:E; cbn in *.
    - auto.
    - destruct (zlen (e :: m) >? 0) eqn:G; [assumption|]. unfold zlen in G. cbn in G. lia.
  Qed.

  Lemma fold_gset (l acc : list (K * V)) : NoDup (map fst (acc ++ l)) ->
    fold_left (fun ret e => gset eqb ret (fst e) (snd e)) l acc = acc ++ l.
  Proof.
    revert acc. induction l as [|[k v] l IH]; intros acc N; cbn; [now rewrite app_nil_r|].
    rewrite (gset_new eqb).
    - rewrite IH; rewrite <- app_assoc; [reflexivity|assumption].
    - destruct (gget eqb acc k) eqn:E; [|reflexivity]. exfalso.
      apply gget_in in E as (k' & Hin & Hk). apply D in Hk. subst k'.
      rewrite map_app in N. cbn in N. apply NoDup_remove_2 in N. apply N. apply in_or_app. left.
      apply in_map_iff. exists (k, v0). auto.
  Qed.

  Lemma fold_concat {A B} (g : B -> A -> B) (ls : list (list A)) acc :
    fold_left (fun b l => fold_left g l b) ls acc = fold_left g (List.concat ls) acc.
  Proof.
    revert acc. induction ls as [|l ls IH]; intros acc; cbn; [reflexivity|]. now rewrite fold_left_app.
  Qed.

  Lemma fold_app_gen {A B} (g : list A -> list B) (ls : list (list A)) (acc : list B) :
    (forall x y, g (x ++ y) = g x ++ g y) -> g [] = [] ->
    fold_left (fun b l => b ++ g l) ls acc = acc ++ g (List.concat ls).
  Proof.
    intros Ha Hn. revert acc. induction ls as [|l ls IH]; intros acc; cbn.
    - now rewrite Hn, app_nil_r.
    - rewrite IH, Ha, app_assoc. reflexivity.
  Qed.

  (** ** Iterate *)
  Definition iterDone (fn : K -> V -> bool) (all : list (K * V)) (r : res) : Prop :=
    exists seen rest returned, all = seen ++ rest /\ r = RSeen seen returned /\
      (if returned : bool then rest = [] /\ forall k v, In (k, v) seen -> fn k v = true
       else exists before k v, seen = before ++ [(k, v)] /\ fn k v = false /\
            forall k v, In (k, v) before -> fn k v = true).

  Lemma swp_iterLoop s fn l next M Q all : forall seen later,
    (forall k v, In (k, v) seen -> fn k v = true) ->
    all = seen ++ l ++ later ->
    ((forall k v, In (k, v) (seen ++ l) -> fn k v = true) -> swp (next (seen ++ l)) M Q) ->
    (forall r, iterDone fn all r -> Q r M) ->
    swp (iterLoop s fn l seen next) M Q.
  Proof.
    induction l as [|[k v] l IH]; intros seen later Hs Ha Hn Hq; cbn.
    - rewrite app_nil_r in Hn. now apply Hn.
    - destruct (fn k v) eqn:E; cbn.
      + apply IH with (later := later).
        * intros k' v' Hin. apply in_app_iff in Hin as [Hin|[[= <- <-]|[]]]; auto.
        * rewrite <- app_assoc. cbn. assumption.
        * rewrite <- app_assoc. cbn. assumption.
        * assumption.
      + apply Hq. exists (seen ++ [(k, v)]), (l ++ later), false. rewrite <- app_assoc. cbn.
        split; [assumption|]. split; [reflexivity|]. exists seen, k, v. auto.
  Qed.

  Lemma swp_iterate ss fn M (Q : res -> maps -> Prop) : forall seen,
    (forall k v, In (k, v) seen -> fn k v = true) ->
    (forall ls r, orders M ls ss -> iterDone fn (seen ++ List.concat ls) r -> Q r M) ->
    swp (iterateP ss fn seen) M Q.
  Proof.
    induction ss as [|s ss IH]; intros seen Hs HQ; cbn.
    - apply (HQ []); [constructor|]. exists seen, [], true. cbn. repeat split; auto.
    - intros l P.
      assert (Hex : forall ls, orders M ls ss -> orders M (l :: ls) (s :: ss)) by (intros; now constructor).
      apply swp_iterLoop with (all := seen ++ l ++ List.concat (map M ss)) (later := List.concat (map M ss)).
      + assumption.
      + reflexivity.
      + intros Hs'. apply IH; [assumption|]. intros ls r Ho Hd. apply (HQ (l :: ls)); [auto|].
        cbn. now rewrite app_assoc.
      + intros r Hd. apply (HQ (l :: map M ss)); [apply Hex, orders_refl|]. exact Hd.
  Qed.

  Lemma swp_clear ss : forall M (Q : res -> maps -> Prop),
    (forall M', (forall s, In s ss -> M' s = []) -> (forall s, ~ In s ss -> M' s = M s) -> Q RUnit M') ->
    swp (clearP ss) M Q.
  Proof.
    induction ss as [|s ss IH]; intros M Q H; cbn.
    - apply H; [intros s []|auto].
    - apply IH. intros M' H1 H2. apply H.
      + intros s' [<-|Hin]; [|auto].
        destruct (in_dec Nat.eq_dec s ss) as [Hi|Hi]; [auto|]. rewrite H2 by assumption. apply fupd_same.
      + intros s' Hn. rewrite H2 by (intros Hi; apply Hn; now right). apply fupd_other.
        intros ->. apply Hn. now left.
  Qed.

  Definition seqOp (o : op) : Prop := match o with OIterateShards _ => False | _ => True end.

  Lemma swp_op h M o : seqOp o -> rep h M ->
    swp (progOf o) M (fun r M' => answer h o r /\ rep (o :: h) M').
  Proof.
    intros S R. pose proof R as (R1 & R2 & R3). destruct o; cbn [Sharded_Model.progOf].
    - cbn. split; [split; [reflexivity|exact I]|]. now apply rep_set.
    - unfold trySetP. cbn [swp]. unfold has. rewrite <- R1. destruct (value h key) eqn:E; cbn.
      + split; [split; [cbn; unfold present; now rewrite E|exact I]|]. apply rep_same; [assumption|].
        intros x. cbn. now rewrite E.
      + split; [split; [cbn; unfold present; now rewrite E|exact I]|]. apply rep_set; [assumption|].
        intros x. cbn. now rewrite E.
    - unfold getP, tryGetK. cbn [swp]. unfold get2. rewrite <- R1. destruct (value h key) eqn:E; cbn;
        (split; [split; [cbn; now rewrite E|exact I]|]); now apply rep_same.
    - unfold tryGetP, tryGetK. cbn [swp]. unfold get2. rewrite <- R1. destruct (value h key) eqn:E; cbn;
        (split; [split; [cbn; now rewrite E|exact I]|]); now apply rep_same.
    - cbn. unfold has. rewrite <- R1. split; [split; [reflexivity|exact I]|]. now apply rep_same.
    - cbn. split; [split; [reflexivity|exact I]|]. now apply rep_del.
    - unfold getOrSetDefaultP, tryGetK. cbn [swp]. unfold get2. rewrite <- R1. destruct (value h key) eqn:E; cbn.
      + split; [split; [cbn; now rewrite E|exact I]|]. apply rep_same; [assumption|]. intros x. cbn. now rewrite E.
      + unfold get2. rewrite <- R1, E. cbn. split; [split; [cbn; now rewrite E|exact I]|].
        apply rep_set; [assumption|]. intros x. cbn. now rewrite E.
    - unfold getOrSetFactoryP, tryGetK. cbn [swp]. unfold get2. rewrite <- R1. destruct (value h key) eqn:E; cbn.
      + split; [split; [cbn; now rewrite E|exact I]|]. apply rep_same; [assumption|]. intros x. cbn.
        destruct factory; [now rewrite E|reflexivity].
      + unfold get2. rewrite <- R1, E. cbn. destruct factory; cbn.
        * split; [split; [cbn; now rewrite E|exact I]|]. apply rep_set; [assumption|]. intros x. cbn. now rewrite E.
        * split; [split; [cbn; now rewrite E|exact I]|]. now apply rep_same.
    - apply swp_len. split; [|now apply rep_same]. split; [exact I|].
      eexists. split; [apply (orders_all h M _ R (orders_refl M _))|]. reflexivity.
    - apply swp_empty. split; [|now apply rep_same]. split; [exact I|].
      eexists. split; [apply (orders_all h M _ R (orders_refl M _))|]. reflexivity.
    - apply swp_readOnly. intros ls Ho. split; [|now apply rep_same]. split; [exact I|].
      exists (List.concat ls). split; [now apply orders_all with (M := M)|].
      rewrite (fold_app_gen (map fst)); [reflexivity| |reflexivity]. intros; apply map_app.
    - apply swp_readOnly. intros ls Ho. split; [|now apply rep_same]. split; [exact I|].
      exists (List.concat ls). split; [now apply orders_all with (M := M)|].
      rewrite (fold_app_gen (map snd)); [reflexivity| |reflexivity]. intros; apply map_app.
    - apply swp_readOnly. intros ls Ho. split; [|now apply rep_same]. split; [exact I|].
      exists (List.concat ls). split; [now apply orders_all with (M := M)|].
      rewrite (fold_app_gen (fun l => l)); reflexivity.
    - apply swp_readOnly. intros ls Ho. split; [|now apply rep_same]. split; [exact I|].
      exists (List.concat ls). pose proof (orders_all h M ls R Ho) as A. split; [assumption|].
      rewrite fold_concat, fold_gset; [reflexivity|]. apply A.
    - apply swp_clear. intros M' H1 H2. split; [split; [exact I|reflexivity]|].
      assert (H1' : forall x, M' (shardOf x) = []).
      { intros x. apply H1. apply in_seq. pose proof (shard_lt x). lia. }
      split; [|split].
      + intros x. rewrite H1'. reflexivity.
      + intros s. destruct (in_dec Nat.eq_dec s (allShards nsh)); [rewrite H1 by assumption; exact I|].
        rewrite H2 by assumption. apply R2.
      + intros s k v. destruct (in_dec Nat.eq_dec s (allShards nsh)); [rewrite H1 by assumption; contradiction|].
        rewrite H2 by assumption. apply R3.
    - apply swp_iterate; [intros k v []|]. intros ls r Ho Hd. split; [|now apply rep_same]. split; [exact I|].
      destruct Hd as (seen & rest & returned & Ha & Hr & Hd). exists seen, rest, returned.
      cbn in Ha. rewrite <- Ha. split; [now apply orders_all with (M := M)|]. auto.
    - apply swp_readOnly. intros ls Ho. split; [|now apply rep_same]. split; [exact I|].
      exists ls. split; [now apply orders_all with (M := M)|]. f_equal.
      assert (G : forall acc, fold_left (fun (ms : list (list (K * V))) l => ms ++ [l]) ls acc = acc ++ ls).
      { clear. induction ls as [|l ls IH]; intros acc; cbn; [now rewrite app_nil_r|].
        rewrite IH, <- app_assoc. reflexivity. }
      apply G.
    - contradiction.
  Qed.

  (** ** Runs of one goroutine *)
  Definition oneThread (t : nat) (o : op) : Prop := t = 0%nat /\ seqOp o.

  Lemma hist_snoc (h : list op) ops rs o r : hist answer h ops rs -> answer (rev ops ++ h) o r ->
    hist answer h (ops ++ [o]) (rs ++ [r]).
  Proof.
    induction 1 as [h|h o' r' ops rs A H IH]; cbn; intros Ho; [constructor; [assumption|constructor]|].
    rewrite <- app_assoc in Ho. constructor; auto.
  Qed.

  Lemma returns_app (tr1 tr2 : list (event K V)) : returns (tr1 ++ tr2) = returns tr1 ++ returns tr2.
  Proof. induction tr1 as [|[] tr1 IH]; cbn; congruence. Qed.

  Definition seqInv (tr : list (event K V)) (c : config) : Prop :=
    let ops := map fst (returns tr) in
    hist answer [] ops (map snd (returns tr)) /\
    (forall t, t <> 0%nat -> thr c t = Idle) /\
    match thr c 0%nat with
    | Idle => rep (rev ops) (items (shm c))
    | Running o p => swp p (items (shm c)) (fun r M' => answer (rev ops) o r /\ rep (o :: rev ops) M')
    end.

  Lemma seq_reach tr c : reach oneThread tr c -> seqInv tr c.
  Proof.
    induction 1 as [|tr c ev c' _ IH S].
    - split; [constructor|]. split; [reflexivity|]. cbn. repeat split. intros s k v [].
    - destruct IH as (H & HI & HR). unfold seqInv. rewrite returns_app, !map_app.
      destruct S as [t o sh th E [-> A]|t o r sh th E|t o p sh th E|t o p p' sh sh' th E T];
        cbn [shm thr returns map app fst snd] in HI, HR |- *; rewrite ?app_nil_r.
      + rewrite E in HR. split; [assumption|]. split.
        * intros t Ht. rewrite fupd_other by congruence. auto.
        * rewrite fupd_same. now apply swp_op.
      + assert (t = 0%nat) as -> by (destruct (Nat.eq_dec t 0); [assumption|]; rewrite HI in E by assumption; discriminate).
        rewrite E in HR. cbn in HR. destruct HR as [HA HR]. split; [|split].
        * apply hist_snoc; [assumption|]. now rewrite app_nil_r.
        * intros t Ht. rewrite fupd_other by congruence. auto.
        * rewrite fupd_same, rev_app_distr. exact HR.
      + assert (t = 0%nat) as -> by (destruct (Nat.eq_dec t 0); [assumption|]; rewrite HI in E by assumption; discriminate).
        rewrite E in HR. split; [assumption|]. split.
        * intros t Ht. rewrite fupd_other by congruence. auto.
        * rewrite fupd_same. exact HR.
      + assert (t = 0%nat) as -> by (destruct (Nat.eq_dec t 0); [assumption|]; rewrite HI in E by assumption; discriminate).
        rewrite E in HR. split; [assumption|]. split.
        * intros t Ht. rewrite fupd_other by congruence. auto.
        * rewrite fupd_same. destruct T; cbn in HR |- *; auto.
  Qed.

  (** ** A call by the only running goroutine returns *)
  Definition finishes allow t o tr : Prop :=
    exists tr' c' r, reach allow (tr ++ tr' ++ [ERet t o r]) c' /\ thr c' t = Idle.

  Lemma finishes_step allow t o tr c ev c' : reach allow tr c -> cstep allow c ev c' ->
    (reach allow (tr ++ ev) c' -> finishes allow t o (tr ++ ev)) -> finishes allow t o tr.
  Proof.
    intros R S H. destruct H as (tr' & c'' & r & H & H'); [eapply reach_step; eassumption|].
    exists (ev ++ tr'), c'', r. rewrite <- !app_assoc in *. auto.
  Qed.

  Definition alone (c : config) (t : nat) : Prop := forall t', t' <> t -> thr c t' = Idle.

  Lemma alone_free allow tr c t o p : reach allow tr c -> thr c t = Running o p -> alone c t ->
    forall h, owns (shm c) t h -> forall s,
      (h = HNone -> writer (mu (shm c) s) = None) /\
      (forall t', In t' (readers (mu (shm c) s)) -> h = HR s).
  Proof.
    intros R E HI h O s.
    assert (L : lockInv false c) by (eapply lockInv_reach; [now left|exact R]). destruct L as [M L].
    assert (Ho : forall t' h', owns (shm c) t' h' -> (t' = t /\ h' = h) \/ h' = HNone).
    { intros t' h' O'. destruct (Nat.eq_dec t' t) as [->|Hn].
      - left. split; [reflexivity|]. eapply owns_unique; eassumption.
      - right. destruct (L t') as (h2 & O2 & H2). rewrite HI in H2 by assumption. subst.
        eapply owns_unique; eassumption. }
    split.
    - intros ->. destruct (writer (mu (shm c) s)) as [[t' b]|] eqn:W; [exfalso|reflexivity].
      destruct (L t') as (h' & O' & _). assert (h' = HNone) by (destruct (Ho _ _ O') as [[_ ?]|?]; assumption). subst.
      destruct b; apply O' in W; discriminate.
    - intros t' Hin. destruct (L t') as (h' & O' & _). assert (h' = HR s) by now apply O'. subst.
      destruct (Ho _ _ O') as [[_ ?]|?]; [congruence|discriminate].
  Qed.

  Lemma alone_returns allow t o p : forall tr c, reach allow tr c ->
    thr c t = Running o p -> alone c t -> finishes allow t o tr.
  Proof.
    assert (Al : forall sh sh' th q, alone {| shm := sh; thr := th |} t ->
               alone {| shm := sh'; thr := fupd th t q |} t).
    { intros sh sh' th q HI t' Ht. cbn. rewrite fupd_other by congruence. now apply HI. }
    induction p as [r|s k IH|s k IH|s k IH|s k IH|s k IH|s k IH|s k IH|s f k IH|k IH]; intros tr c R E HI;
      pose proof (alone_free allow tr c t o _ R E HI) as AF;
      (assert (L : lockInv false c) by (eapply lockInv_reach; [now left|exact R]));
      destruct L as [M L]; destruct (L t) as (h & O & B); specialize (AF h O); rewrite E in B;
      destruct c as [sh th]; cbn in E, B, AF, O.
    - exists [], {| shm := sh; thr := fupd th t Idle |}, r. split; [|cbn; apply fupd_same].
      apply reach_step with (c := {| shm := sh; thr := th |}); [assumption|]. now constructor.
    - destruct B as [-> B]. eapply finishes_step; [exact R|eapply c_tau; [exact E|apply t_rlock; now apply AF]|].
      intros R'. eapply IH; [exact R'|cbn; apply fupd_same|eauto].
    - destruct B as [-> B]. eapply finishes_step; [exact R|eapply c_tau; [exact E|apply t_runlock; now apply O]|].
      intros R'. eapply IH; [exact R'|cbn; apply fupd_same|eauto].
    - destruct B as [-> B]. eapply finishes_step; [exact R|eapply c_tau; [exact E|apply t_lock; now apply AF]|].
      intros R'. eapply finishes_step; [exact R'|eapply c_tau; [apply fupd_same|apply t_lockwait]|].
      + cbn. now rewrite fupd_same.
      + cbn. rewrite fupd_same. cbn. destruct (readers (mu sh s)) as [|t' l] eqn:Er; [reflexivity|].
        destruct (AF s) as [_ A]. rewrite Er in A. specialize (A t' (or_introl eq_refl)). discriminate.
      + intros R2. eapply IH; [exact R2|cbn; apply fupd_same|apply (Al sh), (Al sh), HI].
    - destruct B as [-> B]. eapply finishes_step; [exact R|eapply c_tau; [exact E|apply t_lockwait; [now apply O|]]|].
      + destruct (readers (mu sh s)) as [|t' l] eqn:Er; [reflexivity|].
        destruct (AF s) as [_ A]. rewrite Er in A. specialize (A t' (or_introl eq_refl)). discriminate.
      + intros R'. eapply IH; [exact R'|cbn; apply fupd_same|eauto].
    - destruct B as [-> B]. eapply finishes_step; [exact R|eapply c_tau; [exact E|apply t_unlock; now apply O]|].
      intros R'. eapply IH; [exact R'|cbn; apply fupd_same|eauto].
    - eapply finishes_step; [exact R|eapply c_tau; [exact E|apply t_read]|].
      intros R'. eapply IH; [exact R'|cbn; apply fupd_same|eauto].
    - eapply finishes_step; [exact R|eapply c_tau; [exact E|apply t_range; reflexivity]|].
      intros R'. eapply IH; [exact R'|cbn; apply fupd_same|eauto].
    - eapply finishes_step; [exact R|eapply c_tau; [exact E|apply t_write]|].
      intros R'. eapply IH; [exact R'|cbn; apply fupd_same|eauto].
    - eapply finishes_step; [exact R|eapply c_call; exact E|].
      intros R'. eapply IH; [exact R'|cbn; apply fupd_same|eauto].
  Qed.
End Seq.
