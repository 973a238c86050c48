From Coq Require Import Lia.
From Verif Require Import Base Arr Exn Stream_Model Stream_Spec Stream_Grow_Model Stream_Grow_Spec Stream_Grow_Proofs.
Local Open Scope exn_scope.
Local Open Scope string_scope.
Local Open Scope list_scope.
Local Open Scope Z_scope.

(** * Callbacks that add nothing *)
Section Still.
  Context {S W T : Type} (src : source S W T).
  Local Notation lst := (lstream S W T).
  Local Notation st := (stream W T * (S * W))%type.

  Definition srel (s : st) (l : lst) : Prop :=
    Forall ends (ops (fst s)) /\ l = mkL (live (fst s)) (map stillOp (ops (fst s))) (hasPred (fst s)) (fst (snd s)) (snd (snd s)).

  Lemma lrun_still {A} (m : X W A) (l : lst) : (forall w, fst (m w) <> Diverge) ->
    lrun src (still m) l = (fst (m (lworld l)), mkL (lalive l) (lstages l) (lpred l) (lsrc l) (snd (m (lworld l)))).
  Proof.
    intros H. unfold still. cbn [lrun]. rewrite xget_eq. specialize (H (lworld l)).
    destruct (m (lworld l)) as [[a|e|] w']; cbn in *; try reflexivity. congruence.
  Qed.

  Lemma through_still (a p : bool) (z : S) todo : forall done v w, Forall ends (done ++ todo) ->
    lthrough src (map stillOp todo) (List.length done) v (mkL a (map stillOp (done ++ todo)) p z w) =
    (let '(r, (o, w')) := stages done todo v (done ++ todo, w) in (r, mkL a (map stillOp o) p z w')) /\
    Forall ends (fst (snd (stages done todo v (done ++ todo, w)))).
  Proof.
    induction todo as [|o todo IH]; intros done v w F; [split; [reflexivity|exact F]|].
    assert (N : forall o', done ++ o' :: todo = (done ++ [o']) ++ todo) by (intros; now rewrite <- app_assoc).
    assert (Ln : forall o' : op W T, (List.length done + 1 = List.length (done ++ [o']))%nat) by (intros; rewrite app_length; reflexivity).
    assert (He : ends o) by (rewrite Forall_app in F; destruct F as [_ F]; now inversion F).
    assert (U : forall o', upd (map stillOp (done ++ o :: todo)) (List.length done) (stillOp o') = map stillOp (done ++ o' :: todo)).
    { intros o'. rewrite !map_app. cbn [map]. rewrite <- (map_length (@stillOp W T) done). apply upd_app. }
    assert (F' : forall o', ends o' -> Forall ends (done ++ o' :: todo)).
    { intros o' Ho. rewrite Forall_app in *. destruct F as [F1 F2]. split; [exact F1|]. constructor; [exact Ho|now inversion F2]. }
    cbn [map]. destruct o as [q|k|k|f|c]; cbn [stillOp lthrough stages].
    - unfold xbind at 1 2 3. rewrite (lrun_still (q v)) by (intro; apply He). cbn [onWorld lworld lalive lstages lpred lsrc].
      destruct (q v w) as [[[]|e|] w']; cbn [fst snd xret]; try (split; [reflexivity|exact F]).
      rewrite (Ln (OPred q)), (N (OPred q)) in *. apply IH. exact F.
    - destruct (k >? 0).
      + split; [|apply (F' (OSkip (k - 1))); exact I]. unfold xbind, lset, xget, xput, xret. cbn [lalive lstages lpred lsrc lworld snd].
        now rewrite <- (U (OSkip (k - 1))).
      + rewrite (Ln (OSkip k)), (N (OSkip k)) in *. apply IH. exact F.
    - destruct (k >? 0).
      + unfold xbind, lset, xget, xput. cbn [lalive lstages lpred lsrc lworld snd].
        change (GLimit (k - 1)) with (@stillOp W T (OLimit (k - 1))). rewrite (U (OLimit (k - 1))).
        rewrite (Ln (OLimit (k - 1))), (N (OLimit (k - 1))). apply IH. rewrite <- N. apply F'. exact I.
      + split; [reflexivity|exact F].
    - unfold xbind at 1 2 3. rewrite (lrun_still (f v)) by (intro; apply He). cbn [onWorld lworld lalive lstages lpred lsrc].
      destruct (f v w) as [[v'|e|] w']; cbn [fst snd xret]; try (split; [reflexivity|exact F]).
      rewrite (Ln (OMap f)), (N (OMap f)) in *. apply IH. exact F.
    - unfold xbind at 1 2 3. rewrite (lrun_still (c v)) by (intro; apply He). cbn [onWorld lworld lalive lstages lpred lsrc].
      destruct (c v w) as [[v'|e|] w']; cbn [fst snd xret]; try (split; [reflexivity|exact F]).
      rewrite (Ln (OPeek c)), (N (OPeek c)) in *. apply IH. exact F.
  Qed.

  Definition ssim {A} (m : X lst A) (n : X st A) : Prop := forall l s, srel s l ->
    exists r l' s', m l = (r, l') /\ n s = (r, s') /\ srel s' l'.

  Lemma ssim_bind {A B} (m : X lst A) n (f : A -> X lst B) g : ssim m n -> (forall a, ssim (f a) (g a)) -> ssim (xbind m f) (xbind n g).
  Proof.
    intros H1 H2 l s R. destruct (H1 l s R) as (r & l1 & s1 & E1 & E1' & R1).
    rewrite (xbind_eq _ _ _ _ _ E1), (xbind_eq _ _ _ _ _ E1'). destruct r; [apply H2, R1|eauto 6|eauto 6].
  Qed.
  Lemma ssim_ret {A} (a : A) : ssim (xret a) (xret a).
  Proof. intros l s R. exists (Ok a), l, s. auto. Qed.
  Lemma ssim_panic {A} e : ssim (@xpanic _ A e) (xpanic e).
  Proof. intros l s R. exists (Panic e), l, s. auto. Qed.
  Lemma ssim_source {A} (m : X (S * W) A) : ssim (lsource m) (onSource m).
  Proof.
    intros l [s [z w]] [F ->]. unfold lsource, onSource. cbn [fst snd lsrc lworld lalive lstages lpred].
    destruct (m (z, w)) as [r [z' w']]. eexists _, _, _. split; [reflexivity|split; [reflexivity|]]. split; [exact F|reflexivity].
  Qed.
  Lemma ssim_end : ssim lend (clear (S := S)).
  Proof.
    intros l [s [z w]] [F ->]. eexists _, _, _. split; [reflexivity|split; [reflexivity|]]. split; [constructor|reflexivity].
  Qed.
  Lemma ssim_add o p : ends o -> ssim (ladd (stillOp o) p) (addOp o p).
  Proof.
    intros He l [s [z w]] [F ->]. eexists _, _, _. split; [reflexivity|split; [reflexivity|]].
    split; cbn; [apply Forall_app; auto|]. now rewrite map_app.
  Qed.
  Lemma ssim_through v : ssim (xbind xget (fun s => lthrough src (lstages s) 0 v)) (runStages v).
  Proof.
    intros l [s [z w]] [F ->]. rewrite xget_eq. unfold runStages. cbn [fst snd lstages] in *.
    destruct (through_still (live s) (hasPred s) z (ops s) [] v w F) as [E G]. cbn [app List.length] in *. rewrite E.
    destruct (stages [] (ops s) v (ops s, w)) as [r [o w']]. eexists _, _, _. split; [reflexivity|split; [reflexivity|]].
    split; [exact G|reflexivity].
  Qed.
  Lemma ssim_loop fuel : ssim (lloop src fuel) (nextLoop src fuel).
  Proof.
    induction fuel as [|fuel IH]; [intros l s R; exists Diverge, l, s; auto|]. cbn [lloop nextLoop].
    apply ssim_bind; [apply ssim_source|]. intros [v|]; [|apply ssim_bind; [apply ssim_end|intro; apply ssim_ret]].
    intros l s R. destruct (ssim_through v l s R) as (r & l1 & s1 & E1 & E1' & R1). rewrite xget_eq in E1. rewrite xget_eq.
    rewrite (xbind_eq _ _ _ _ _ E1), (xbind_eq _ _ _ _ _ E1').
    destruct r as [[v'| |]|e|]; eauto 6.
    - apply ssim_ret, R1.
    - apply (ssim_bind _ _ _ _ ssim_end (fun _ => ssim_ret None) _ _ R1).
  Qed.
  Lemma ssim_use u : endsUse u -> ssim (luse1 src (stillUse u)) (suse1 src u).
  Proof.
    intros He. destruct u as [fuel|o]; cbn [stillUse luse1 suse1].
    - intros l s R. unfold lnext, Next_. rewrite !xget_eq. assert (Ea : lalive l = live (fst s)) by (destruct R as [_ ->]; reflexivity).
      rewrite Ea. destruct (live (fst s)); [apply ssim_loop, R|]. apply (ssim_bind _ _ _ _ ssim_end (fun _ => ssim_ret None) _ _ R).
    - destruct o as [p|n|n|f|c]; cbn [stillOp lbuild]; (apply ssim_bind; [|intro; apply ssim_ret]).
      + apply (ssim_add (OPred p)), He.
      + unfold Skip. destruct (n <? 0); [apply ssim_panic|]. destruct (n =? 0); [apply ssim_ret|].
        intros l s R. rewrite !xget_eq. assert (Ea : lalive l = live (fst s) /\ lpred l = hasPred (fst s)) by (destruct R as [_ ->]; auto).
        destruct Ea as [-> ->]. destruct (negb _); [|apply (ssim_add (OSkip n)); [exact I|exact R]].
        destruct (live (fst s)); [|apply ssim_panic, R]. apply (ssim_bind _ _ _ _ (ssim_source _) (fun _ => ssim_ret tt) _ _ R).
      + unfold Limit. destruct (n <? 0); [apply ssim_panic|apply (ssim_add (OLimit n)); exact I].
      + apply (ssim_add (OMap f)), He.
      + apply (ssim_add (OPeek c)), He.
  Qed.
  Lemma ssim_uses us : Forall endsUse us -> forall l s, srel s l ->
    exists r l' s', runOps (luse1 src) (map stillUse us) l = (r, l') /\ runOps (suse1 src) us s = (r, s') /\ srel s' l'.
  Proof.
    induction us as [|u us IH]; intros F l s R; [exists [], l, s; auto|]. inversion F; subst. cbn [map runOps].
    destruct (ssim_use u ltac:(assumption) l s R) as (r & l1 & s1 & -> & -> & R1).
    destruct (IH ltac:(assumption) l1 s1 R1) as (rs & l2 & s2 & -> & -> & R2). eauto 6.
  Qed.
End Still.

(** * A filter that ends the stream *)
Section UpTo.
  Context {S W T V : Type} (src : source S W T) (obs : W -> V) (D : S -> list T -> Z -> Prop) (L : delivers obs src D) (stop : T -> bool).
  Local Notation lst := (lstream S W T).
  Local Notation calls n fuel := (repeat (UNext fuel) n).

  Definition given (l : list T) (n : nat) : list (outcome (option T)) :=
    firstn n (map (fun v => Ok (Some v)) l ++ repeat (Ok None) n).
  Lemma given_S x l n : given (x :: l) (1 + n) = Ok (Some x) :: given l n.
  Proof.
    unfold given. cbn [Nat.add map app firstn repeat]. f_equal. rewrite !firstn_app. f_equal.
    set (k := (n - _)%nat). assert (k <= n)%nat by (unfold k; lia). clearbody k. clear - H.
    change (Ok None :: repeat (Ok None) n) with (repeat (@Ok (option T) None) (1 + n)).
    transitivity (repeat (@Ok (option T) None) k); [|symmetry].
    - revert n H. induction k; intros n H; [reflexivity|]. destruct n; [lia|]. cbn. f_equal. apply (IHk n). lia.
    - revert n H. induction k; intros n H; [reflexivity|]. destruct n; [lia|]. cbn. f_equal. apply (IHk n). lia.
  Qed.
  Lemma given_nil n : given [] n = repeat (Ok None) n.
  Proof. unfold given. cbn. induction n; cbn; congruence. Qed.

  Arguments given : simpl never.

  Lemma over n fuel (l : lst) : lalive l = false -> fst (runOps (luse1 src) (calls n fuel) l) = repeat (Ok None) n.
  Proof.
    revert l. induction n as [|n IH]; intros l H; [reflexivity|]. cbn [repeat runOps luse1]. unfold lnext. rewrite xget_eq, H.
    cbn. specialize (IH (mkL false [] (lpred l) (lsrc l) (lworld l)) eq_refl).
    destruct (runOps (luse1 src) (calls n fuel) _) as [rs s']. cbn in *. now rewrite IH.
  Qed.
  Lemma stopped n fuel p z w more l b : D z l b -> fuel <> O ->
    fst (runOps (luse1 src) (calls n fuel) (mkL true (stopping stop :: GLimit 0 :: more) p z w)) = repeat (Ok None) n.
  Proof.
    intros HD Hf. destruct n as [|n]; [reflexivity|]. destruct fuel as [|fuel]; [congruence|].
    cbn [repeat runOps luse1]. unfold lnext. rewrite xget_eq. cbn [lalive lloop]. unfold xbind at 1, lsource. cbn [lsrc lworld].
    destruct l as [|x l].
    - destruct (del_end _ _ _ L z b w HD) as (z' & w' & -> & _). cbn. pose proof (over n (Datatypes.S fuel) (mkL false [] p z' w') eq_refl) as Q.
      destruct (runOps _ _ _) as [rs s']. cbn in *. now rewrite Q.
    - destruct (del_next _ _ _ L z x l b w HD) as (z' & w' & -> & HD' & _). rewrite xget_eq. unfold xbind, stopping. cbn [lstages lalive lpred lthrough].
      unfold xbind. destruct (stop x); cbn.
      all: match goal with |- context [runOps _ _ ?s] => pose proof (over n (Datatypes.S fuel) s eq_refl) as Q end;
        destruct (runOps _ _ _) as [rs s']; cbn in *; now rewrite Q.
  Qed.
  Lemma running n fuel : fuel <> O -> forall l p z w b, D z l b ->
    fst (runOps (luse1 src) (calls n fuel) (mkL true [stopping stop] p z w)) = given (upTo stop l) n.
  Proof.
    intros Hf. induction n as [|n IH]; intros l p z w b HD; [reflexivity|]. destruct fuel as [|fuel]; [congruence|].
    cbn [repeat runOps luse1]. unfold lnext. rewrite xget_eq. cbn [lalive lloop]. unfold xbind at 1, lsource. cbn [lsrc lworld].
    destruct l as [|x l].
    - destruct (del_end _ _ _ L z b w HD) as (z' & w' & -> & _). cbn [upTo]. rewrite given_nil. cbn.
      pose proof (over n (Datatypes.S fuel) (mkL false [] p z' w') eq_refl) as Q.
      destruct (runOps _ _ _) as [rs s']. cbn in *. now rewrite Q.
    - destruct (del_next _ _ _ L z x l b w HD) as (z' & w' & -> & HD' & _). rewrite xget_eq. unfold xbind, stopping. cbn [lstages lalive lpred lthrough upTo].
      unfold xbind. destruct (stop x) eqn:Ex.
      + cbn. pose proof (stopped n (Datatypes.S fuel) (p || true) z' w' [] l b HD' Hf) as Q. unfold stopping in Q.
        change (Datatypes.S n) with (1 + n)%nat. rewrite given_S, given_nil, <- Q.
        destruct (runOps _ _ _) as [rs s']. reflexivity.
      + cbn. specialize (IH l p z' w' b HD'). unfold stopping in IH.
        change (Datatypes.S n) with (1 + n)%nat. rewrite given_S, <- IH. destruct (runOps _ _ _) as [rs s']. reflexivity.
  Qed.
End UpTo.
