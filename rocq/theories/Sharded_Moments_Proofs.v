(** Proofs: every read of a Sharded method sees the shard as it is at that moment. *)
From Coq Require Import Permutation.
From Verif Require Import Base Arr GoMap Sharded_Model Sharded_Locks Sharded_Spec Sharded_Len Sharded_Moments_Spec.

Section Moments.
  Context {K V : Type} (eqb : K -> K -> bool) (zero : V) (nsh : nat) (hash : K -> Z).
  Notation prog := (prog K V).
  Notation res := (res K V).
  Notation op := (op K V).
  Notation config := (config K V).
  Notation progOf := (progOf eqb zero nsh hash).
  Variable allow : nat -> op -> Prop.
  Notation cstep := (cstep eqb zero nsh hash allow).
  Notation during := (during eqb zero nsh hash allow).

  (** [p] returns [r] if what it reads, shard by shard, is [ms]. *)
  Inductive rs : prog -> list (nat * gomap K V) -> res -> Prop :=
  | rs_ret r : rs (Ret r) [] r
  | rs_rlock s k ms r : rs k ms r -> rs (RLock s k) ms r
  | rs_runlock s k ms r : rs k ms r -> rs (RUnlock s k) ms r
  | rs_lock s k ms r : rs (LockWait s k) ms r -> rs (Lock s k) ms r
  | rs_lockwait s k ms r : rs k ms r -> rs (LockWait s k) ms r
  | rs_unlock s k ms r : rs k ms r -> rs (Unlock s k) ms r
  | rs_read s k m ms r : rs (k m) ms r -> rs (Read s k) ((s, m) :: ms) r
  | rs_range s k l m ms r : Permutation l m -> rs (k l) ms r -> rs (Range s k) ((s, m) :: ms) r
  | rs_write s f k ms r : rs k ms r -> rs (Write s f k) ms r
  | rs_call k ms r : rs k ms r -> rs (Call k) ms r.

  Lemma during_reads c evs cs c1 : during c evs cs c1 -> forall t o p r, thr c t = Running o p ->
    (forall o' r', ~ In (ERet t o' r') evs) -> thr c1 t = Running o (Ret r) ->
    exists ms sts, rs p ms r /\ inOrder sts cs /\ Forall2 (fun sm st => snd sm = items (shm st) (fst sm)) ms sts.
  Proof.
    induction 1 as [c|c ev c1 evs cs c' S D IH]; intros t o p r E NR ER.
    - rewrite E in ER. injection ER as ->. exists [], []. repeat constructor.
    - assert (NR' : forall o' r', ~ In (ERet t o' r') evs) by (intros o' r' Hi; apply (NR o' r'); apply in_or_app; now right).
      assert (GO : forall p', thr c1 t = Running o p' -> (forall ms r, rs p' ms r -> rs p ms r) ->
                exists ms sts, rs p ms r /\ inOrder sts (c :: cs) /\ Forall2 (fun sm st => snd sm = items (shm st) (fst sm)) ms sts).
      { intros p' E' Hp. destruct (IH t o p' r E' NR' ER) as (ms & sts & R & I & F). exists ms, sts. split; [auto|]. split; [now constructor|assumption]. }
      destruct S as [t' o' sh th Et A|t' o' r' sh th Et|t' o' p' sh th Et|t' o' p0 p' sh sh' th Et T]; cbn [thr shm] in *;
        (destruct (Nat.eq_dec t' t) as [->|Ht]; [|apply (GO p); [cbn; now rewrite fupd_other|auto]]).
      + congruence.
      + exfalso. apply (NR o' r'). now left.
      + rewrite Et in E. injection E as -> <-. apply (GO p'); [cbn; now rewrite fupd_same|]. intros; now constructor.
      + rewrite Et in E. injection E as -> ->. specialize (GO p'). rewrite fupd_same in GO. specialize (GO eq_refl). cbn in IH.
        destruct T as [s k sh W|s k sh W|s k sh W|s k sh W R|s k sh W|s k sh|s k l sh P|s f k sh];
          try (apply GO; intros; now constructor).
        * destruct (IH t o (k (items sh s)) r) as (ms & sts & R & I & F); [cbn; now rewrite fupd_same|assumption|assumption|].
          exists ((s, items sh s) :: ms), ({| shm := sh; thr := th |} :: sts). split; [now constructor|]. split; [now constructor; constructor|].
          constructor; [reflexivity|assumption].
        * destruct (IH t o (k l) r) as (ms & sts & R & I & F); [cbn; now rewrite fupd_same|assumption|assumption|].
          exists ((s, items sh s) :: ms), ({| shm := sh; thr := th |} :: sts). split; [econstructor; eassumption|]. split; [now constructor; constructor|].
          constructor; [reflexivity|assumption].
  Qed.

  (** [parts] were read of the shards [s], [s + 1] ... in this order. *)
  Inductive vis : nat -> list (nat * gomap K V) -> list (list (K * V)) -> Prop :=
  | vis_nil s ms : vis s ms []
  | vis_skip s x ms parts : vis s ms parts -> vis s (x :: ms) parts
  | vis_take s m ms parts : vis (S s) ms parts -> vis s ((s, m) :: ms) (m :: parts).

  Lemma len_reads n : forall s z ms r, rs (lenP (seq s n) z) ms r ->
    exists parts, vis s ms parts /\ List.length parts = n /\ r = RInt (z + zlen (List.concat parts)).
  Proof.
    induction n as [|n IH]; intros s z ms r H; cbn [seq lenP] in H.
    - inversion H; subst. exists []. split; [constructor|]. split; [reflexivity|]. f_equal. cbn. lia.
    - inversion H as [|s1 k1 m1 r1 H1| | | | | | | | ]; subst.
      inversion H1 as [| | | | | |s2 k2 m ms2 r2 H2| | | ]; subst.
      inversion H2 as [| |s3 k3 m3 r3 H3| | | | | | | ]; subst.
      apply IH in H3 as (parts & Hv & Hl & ->). exists (m :: parts). split; [now constructor|].
      split; [cbn; now rewrite Hl|]. f_equal. cbn [List.concat]. unfold glen. rewrite zlen_app. lia.
  Qed.

  Lemma empty_reads n : forall s ms r, rs (emptyP (seq s n)) ms r ->
    exists parts, vis s ms parts /\ (List.length parts <= n)%nat /\
      forall fill, List.length (parts ++ fill) = n ->
        r = RBool (match List.concat (parts ++ fill) with [] => true | _ => false end).
  Proof.
    induction n as [|n IH]; intros s ms r H; cbn [seq emptyP] in H.
    - inversion H; subst. exists []. split; [constructor|]. split; [cbn; lia|]. intros [|] E; [reflexivity|discriminate].
    - inversion H as [|s1 k1 m1 r1 H1| | | | | | | | ]; subst.
      inversion H1 as [| | | | | |s2 k2 m ms2 r2 H2| | | ]; subst.
      inversion H2 as [| |s3 k3 m3 r3 H3| | | | | | | ]; subst.
      destruct m as [|e m]; cbn [glen] in H3.
      + apply IH in H3 as (parts & Hv & Hl & Hr). exists ([] :: parts). split; [now constructor|].
        split; [cbn; lia|]. intros fill E. apply (Hr fill). cbn in E. now injection E.
      + replace (glen (e :: m) >? 0) with true in H3 by (unfold glen; rewrite zlen_cons; pose proof (zlen_nonneg m); symmetry; apply Z.gtb_lt; lia).
        inversion H3; subst. exists [e :: m]. split; [apply vis_take; constructor|]. split; [cbn; lia|]. intros fill _. reflexivity.
  Qed.

  Lemma ro_reads {A} (step : A -> list (K * V) -> A) (fin : A -> res) n : forall s acc ms r,
    rs (readOnlyP (seq s n) step fin acc) ms r ->
    exists parts ls, vis s ms parts /\ List.length parts = n /\ Forall2 (@Permutation _) ls parts /\
      r = fin (fold_left step ls acc).
  Proof.
    induction n as [|n IH]; intros s acc ms r H; cbn [seq readOnlyP] in H.
    - inversion H; subst. exists [], []. split; [constructor|]. split; [reflexivity|]. split; [constructor|reflexivity].
    - inversion H as [|s1 k1 m1 r1 H1| | | | | | | | ]; subst.
      inversion H1 as [| | | | | | |s2 k2 l m ms2 r2 P H2| | ]; subst.
      inversion H2 as [| |s3 k3 m3 r3 H3| | | | | | | ]; subst.
      apply IH in H3 as (parts & ls & Hv & Hl & Hf & ->). exists (m :: parts), (l :: ls). split; [now constructor|].
      split; [cbn; now rewrite Hl|]. split; [now constructor|reflexivity].
  Qed.

  Lemma loop_reads s fn next l : forall seen ms r, rs (iterLoop s fn l seen next) ms r ->
    exists a b, l = a ++ b /\
      ((b = [] /\ (forall k v, In (k, v) a -> fn k v = true) /\
        exists ms', rs (next (seen ++ a)) ms' r /\ forall s' parts, vis s' ms' parts -> vis s' ms parts) \/
       (r = RSeen (seen ++ a) false /\ exists before k v, a = before ++ [(k, v)] /\ fn k v = false /\
          forall k v, In (k, v) before -> fn k v = true)).
  Proof.
    induction l as [|[k v] l IH]; intros seen ms r H; cbn [iterLoop] in H.
    - inversion H as [| |s3 k3 m3 r3 H3| | | | | | | ]; subst. exists [], []. split; [reflexivity|]. left.
      split; [reflexivity|]. split; [intros k v []|]. rewrite app_nil_r. eauto.
    - inversion H as [| | | | | |s2 k2 m ms2 r2 H2| | | ]; subst.
      inversion H2 as [| | | | | | | | |k3 m3 r3 H3]; subst.
      destruct (fn k v) eqn:Ef.
      + apply IH in H3 as (a & b & -> & [(-> & Ha & ms' & R & Hv)|(-> & before & k' & v' & -> & Ef' & Hb)]).
        * exists ((k, v) :: a), []. split; [reflexivity|]. left. split; [reflexivity|]. split.
          { intros k' v' [E|E]; [now injection E as <- <-|auto]. }
          exists ms'. rewrite <- app_assoc in R. split; [exact R|]. intros; constructor; auto.
        * exists ((k, v) :: before ++ [(k', v')]), b. split; [reflexivity|]. right. split; [now rewrite <- app_assoc|].
          exists ((k, v) :: before), k', v'. split; [reflexivity|]. split; [assumption|].
          intros k2 v2 [E|E]; [now injection E as <- <-|auto].
      + inversion H3 as [| |s3 k4 m4 r4 H4| | | | | | | ]; subst. inversion H4; subst.
        exists [(k, v)], l. split; [reflexivity|]. right. split; [reflexivity|]. exists [], k, v.
        split; [reflexivity|]. split; [assumption|]. intros k' v' [].
  Qed.

  Definition stopped (fn : K -> V -> bool) (seen rest : list (K * V)) (returned : bool) : Prop :=
    if returned then rest = [] /\ forall k v, In (k, v) seen -> fn k v = true
    else exists before k v, seen = before ++ [(k, v)] /\ fn k v = false /\
         forall k v, In (k, v) before -> fn k v = true.

  Lemma iter_reads fn n : forall s acc ms r, rs (iterateP (seq s n) fn acc) ms r ->
    exists parts ls, vis s ms parts /\ (List.length parts <= n)%nat /\ Forall2 (@Permutation _) ls parts /\
      forall fill, List.length (parts ++ fill) = n ->
      exists seen rest returned, List.concat (ls ++ fill) = seen ++ rest /\ r = RSeen (acc ++ seen) returned /\
        stopped fn seen rest returned.
  Proof.
    induction n as [|n IH]; intros s acc ms r H; cbn [seq iterateP] in H.
    - inversion H; subst. exists [], []. split; [constructor|]. split; [cbn; lia|]. split; [constructor|].
      intros [|] E; [|discriminate]. exists [], [], true. split; [reflexivity|]. split; [now rewrite app_nil_r|].
      split; [reflexivity|]. intros k v [].
    - inversion H as [|s1 k1 m1 r1 H1| | | | | | | | ]; subst.
      inversion H1 as [| | | | | | |s2 k2 l m ms2 r2 P H2| | ]; subst.
      apply loop_reads in H2 as (a & b & -> & [(-> & Ha & ms' & R & Hv)|(-> & Hb)]).
      + apply IH in R as (parts & ls & Hv' & Hl & Hf & Hr). exists (m :: parts), ((a ++ []) :: ls).
        split; [constructor; now apply Hv|]. split; [cbn; lia|]. split; [now constructor|].
        intros fill E. cbn in E. injection E as E. destruct (Hr fill E) as (seen & rest & returned & Ec & -> & Hs).
        exists (a ++ seen), rest, returned. cbn [List.concat app]. rewrite app_nil_r, Ec, <- !app_assoc.
        split; [reflexivity|]. split; [reflexivity|]. destruct returned; cbn [stopped] in *.
        * destruct Hs as [-> Hs]. split; [reflexivity|]. intros k v Hi. apply in_app_or in Hi as [Hi|Hi]; auto.
        * destruct Hs as (before & k & v & -> & Ef & Hb). exists (a ++ before), k, v. split; [now rewrite app_assoc|].
          split; [assumption|]. intros k' v' Hi. apply in_app_or in Hi as [Hi|Hi]; auto.
      + exists [m], [a ++ b]. split; [apply vis_take; constructor|]. split; [cbn; lia|]. split; [now repeat constructor|].
        intros fill _. exists a, (b ++ List.concat fill), false. cbn [List.concat app]. rewrite <- app_assoc.
        split; [reflexivity|]. split; [reflexivity|exact Hb].
  Qed.

  Lemma inOrder_split {A} (x : A) sts cs : inOrder (x :: sts) cs ->
    exists pre suf, cs = pre ++ x :: suf /\ inOrder sts (x :: suf).
  Proof.
    revert sts. induction cs as [|c cs IH]; intros sts H; inversion H as [|c1 cs1 st1 H1|c1 cs1 st1 H1]; subst.
    - apply IH in H1 as (pre & suf & -> & H1). now exists (c :: pre), suf.
    - now exists [], cs.
  Qed.
  Lemma inOrder_pre {A} (pre : list A) sts cs : inOrder sts cs -> inOrder sts (pre ++ cs).
  Proof. intros H. induction pre; [assumption|now constructor]. Qed.

  Lemma vis_moments s ms parts : vis s ms parts -> forall sts cs, inOrder sts cs ->
    Forall2 (fun sm (st : config) => snd sm = items (shm st) (fst sm)) ms sts ->
    exists sts', inOrder sts' cs /\ partsFrom s sts' = parts.
  Proof.
    induction 1 as [s ms|s x ms parts H IH|s m ms parts H IH]; intros sts cs I F.
    - exists []. split; [constructor|reflexivity].
    - inversion F as [|x' st ms' sts' E F']; subst. apply inOrder_split in I as (pre & suf & -> & I).
      destruct (IH _ _ I F') as (sts2 & I2 & E2). exists sts2. split; [now apply inOrder_pre|assumption].
    - inversion F as [|x' st ms' sts' E F']; subst. apply inOrder_split in I as (pre & suf & -> & I).
      destruct (IH _ _ I F') as (sts2 & I2 & E2). exists (st :: sts2). split; [apply inOrder_pre; now constructor|].
      cbn in *. now rewrite E2, <- E.
  Qed.

  Lemma partsFrom_length s (sts : list config) : List.length (partsFrom s sts) = List.length sts.
  Proof. revert s. induction sts; intros s; cbn; [reflexivity|]. now rewrite IHsts. Qed.
  Lemma partsFrom_app s (a b : list config) : partsFrom s (a ++ b) = partsFrom s a ++ partsFrom (s + List.length a) b.
  Proof.
    revert s. induction a as [|x a IH]; intros s; cbn; [now rewrite Nat.add_0_r|]. rewrite IH. do 3 f_equal. cbn. lia.
  Qed.

  Lemma inOrder_fill {A} (c1 : A) n sts cs : inOrder sts (cs ++ [c1]) -> inOrder (sts ++ repeat c1 n) (cs ++ [c1]).
  Proof.
    remember (cs ++ [c1]) as l eqn:E. intros H. revert cs E.
    induction H as [l|c l sts H IH|c l sts H IH]; intros cs E.
    - subst l. cbn. apply inOrder_pre. induction n; [constructor|]. cbn. now constructor.
    - destruct cs as [|c2 cs]; cbn in E; injection E as -> ->.
      + inversion H; subst. cbn. clear. induction n; [constructor|]. cbn. now constructor.
      + constructor. now apply (IH cs).
    - cbn. apply io_now. now apply (IH cs).
  Qed.

  Lemma during_last c evs cs c1 : during c evs cs c1 -> exists cs0, cs = cs0 ++ [c1].
  Proof. induction 1 as [c|c ev c1 evs cs c' S D (cs0 & ->)]; [now exists []|now exists (c :: cs0)]. Qed.

  Lemma perm_refl_all (ls : list (list (K * V))) : Forall2 (@Permutation _) ls ls.
  Proof. induction ls; constructor; auto. Qed.

  Lemma fold_app_map {B} (f : K * V -> B) ls : forall acc,
    fold_left (fun acc l => acc ++ map f l) ls acc = acc ++ map f (List.concat ls).
  Proof.
    induction ls as [|l ls IH]; intros acc; cbn; [now rewrite app_nil_r|]. rewrite IH, map_app, app_assoc. reflexivity.
  Qed.
  Lemma fold_app ls : forall acc : list (K * V), fold_left (fun acc l => acc ++ l) ls acc = acc ++ List.concat ls.
  Proof. induction ls as [|l ls IH]; intros acc; cbn; [now rewrite app_nil_r|]. now rewrite IH, app_assoc. Qed.
  Lemma fold_snoc ls : forall acc : list (list (K * V)), fold_left (fun acc l => acc ++ [l]) ls acc = acc ++ ls.
  Proof. induction ls as [|l ls IH]; intros acc; cbn; [now rewrite app_nil_r|]. now rewrite IH, <- app_assoc. Qed.
  Lemma fold_concat {A B} (f : A -> B -> A) ls : forall acc,
    fold_left (fun acc l => fold_left f l acc) ls acc = fold_left f (List.concat ls) acc.
  Proof. induction ls as [|l ls IH]; intros acc; cbn; [reflexivity|]. now rewrite IH, fold_left_app. Qed.

  Lemma op_reads o ms r : looks o -> rs (progOf o) ms r ->
    exists parts, vis 0 ms parts /\ (List.length parts <= nsh)%nat /\
      forall fill, List.length (parts ++ fill) = nsh -> tellsParts eqb (parts ++ fill) o r.
  Proof.
    assert (FULL : forall (parts fill : list (list (K * V))), List.length parts = nsh -> List.length (parts ++ fill) = nsh -> fill = []).
    { intros parts fill E E'. rewrite app_length in E'. destruct fill; [reflexivity|cbn in E'; lia]. }
    intros Lo H. destruct o; try contradiction; cbn [progOf] in H; unfold Sharded_Model.allShards in H;
      try (apply ro_reads in H as (parts & ls & Hv & Hl & Hf & ->); exists parts; split; [assumption|]; split; [lia|];
           intros fill E; rewrite (FULL _ _ Hl E), app_nil_r; exists ls; split; [assumption|]; cbn [tellsParts]).
    - apply len_reads in H as (parts & Hv & Hl & ->). exists parts. split; [assumption|]. split; [lia|].
      intros fill E. rewrite (FULL _ _ Hl E), app_nil_r. exists parts. split; [apply perm_refl_all|reflexivity].
    - apply empty_reads in H as (parts & Hv & Hl & Hr). exists parts. split; [assumption|]. split; [lia|].
      intros fill E. exists (parts ++ fill). split; [apply perm_refl_all|]. now apply Hr.
    - now rewrite (fold_app_map fst).
    - now rewrite (fold_app_map snd).
    - now rewrite fold_app.
    - now rewrite (fold_concat (fun ret e => gset eqb ret (fst e) (snd e))).
    - apply iter_reads in H as (parts & ls & Hv & Hl & Hf & Hr). exists parts. split; [assumption|]. split; [lia|].
      intros fill E. exists (ls ++ fill). split; [apply Forall2_app; [assumption|apply perm_refl_all]|].
      destruct (Hr fill E) as (seen & rest & returned & Ec & Er & Hs). exists seen, rest, returned. auto.
    - now rewrite fold_snoc.
  Qed.

  Lemma moments t o r c0 c evs cs c1 c' :
    cstep c0 [EInv t o] c -> looks o -> during c evs cs c1 -> (forall o' r', ~ In (ERet t o' r') evs) ->
    cstep c1 [ERet t o r] c' ->
    exists sts, List.length sts = nsh /\ inOrder sts cs /\ tellsParts eqb (partsFrom 0 sts) o r.
  Proof.
    intros S0 Lo D NR S1.
    assert (E0 : thr c t = Running o (progOf o)) by (inversion S0; subst; cbn; now rewrite fupd_same).
    assert (E1 : thr c1 t = Running o (Ret r)) by (inversion S1; subst; cbn; assumption).
    destruct (during_reads c evs cs c1 D t o _ r E0 NR E1) as (ms & sts & R & I & F).
    destruct (op_reads o ms r Lo R) as (parts & Hv & Hl & HT).
    destruct (vis_moments 0 ms parts Hv sts cs I F) as (sts' & I' & <-).
    rewrite partsFrom_length in Hl. destruct (during_last c evs cs c1 D) as (cs0 & ->).
    exists (sts' ++ repeat c1 (nsh - List.length sts')). split; [rewrite app_length, repeat_length; lia|].
    split; [now apply inOrder_fill|]. rewrite partsFrom_app. apply HT.
    rewrite app_length, !partsFrom_length, repeat_length. lia.
  Qed.
End Moments.
