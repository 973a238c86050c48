(** Proofs about algo over any lawful iterator. *)
From Verif Require Import Base Arr Exn Iter_Model Iter_Spec Algo_Model.
Local Open Scope exn_scope.
Local Open Scope list_scope.
Local Open Scope Z_scope.

Lemma zget_app_l {A} (l l' : list A) i : i < zlen l -> zget (l ++ l') i = zget l i.
Proof.
  intros H. unfold zget. destruct (Z.ltb_spec i 0); [reflexivity|]. apply nth_error_app1. unfold zlen in H. lia.
Qed.
Lemma zget_app_r {A} (l l' : list A) i : zlen l <= i -> zget (l ++ l') i = zget l' (i - zlen l).
Proof.
  intros H. pose proof (zlen_nonneg l). unfold zget.
  destruct (Z.ltb_spec i 0), (Z.ltb_spec (i - zlen l) 0); try lia.
  rewrite nth_error_app2 by (unfold zlen in *; lia). f_equal. unfold zlen in *. lia.
Qed.
Lemma zget_mid {A} (p : list A) x q : zget (p ++ x :: q) (zlen p) = Some x.
Proof. rewrite zget_app_r by lia. now replace (zlen p - zlen p) with 0 by lia. Qed.
Lemma zset_mid {A} (p : list A) x y q : zset (p ++ x :: q) (zlen p) y = Some (p ++ y :: q).
Proof.
  rewrite zset_ok. f_equal.
  - unfold zlen. rewrite Nat2Z.id. apply upd_app.
  - rewrite zlen_app, zlen_cons. pose proof (zlen_nonneg p). pose proof (zlen_nonneg q). lia.
Qed.
Lemma zget_in {A} (l : list A) i x : zget l i = Some x -> In x l.
Proof. unfold zget. destruct (i <? 0); [discriminate|]. apply nth_error_In. Qed.
Lemma in_zget {A} (l : list A) x : In x l -> exists i, zget l i = Some x.
Proof.
  intros H. apply In_nth_error in H as [n H]. exists (Z.of_nat n). unfold zget.
  destruct (Z.ltb_spec (Z.of_nat n) 0); [lia|]. now rewrite Nat2Z.id.
Qed.
Lemma zget_cons_S {A} (x : A) l i : 0 <= i -> zget (x :: l) (i + 1) = zget l i.
Proof.
  intros H. change (x :: l) with ([x] ++ l). rewrite zget_app_r by (cbn; lia). f_equal. cbn. lia.
Qed.

Lemma zlen_snoc {A} (l : list A) x : zlen (l ++ [x]) = zlen l + 1.
Proof. now rewrite zlen_app. Qed.

Lemma xbind_ok {St A B} (m : X St A) (f : A -> X St B) s a s' :
  m s = (Ok a, s') -> (x <- m ;; f x) s = f a s'.
Proof. intros H. unfold xbind. now rewrite H. Qed.

(** ** The laws for reverse iterators *)
Section Rev.
  Context {St It T C : Type} (o : ops St It T) (n : Z) (plug : C -> list T -> St) (at_ : Z -> It).

  Definition plugR (w : C) (l : list T) : St := plug w (rev l).
  Definition atR (i : Z) : rev_it It := Rev (at_ (n - i)).

  Lemma zget_rev (l : list T) i : zget (rev l) i = zget l (zlen l - 1 - i).
  Proof.
    pose proof (zlen_nonneg l) as HL. destruct (zget l (zlen l - 1 - i)) as [x|] eqn:E.
    - apply zget_range in E as Hr. unfold zget in *.
      destruct (Z.ltb_spec (zlen l - 1 - i) 0); [discriminate|]. destruct (Z.ltb_spec i 0); [lia|].
      rewrite nth_error_nth' with (d := x) by (rewrite rev_length; unfold zlen in *; lia).
      rewrite rev_nth by (unfold zlen in *; lia). f_equal.
      apply nth_error_nth with (d := x) in E. etransitivity; [|exact E]. f_equal. unfold zlen in *. lia.
    - apply zget_none in E. apply zget_none. rewrite zlen_rev. lia.
  Qed.

  Lemma upd_rev (l : list T) i x : 0 <= i < zlen l ->
    rev (upd l (Z.to_nat i) x) = upd (rev l) (Z.to_nat (zlen l - 1 - i)) x.
  Proof.
    intros H. apply nth_ext with (d := x) (d' := x).
    - now rewrite rev_length, !length_upd, rev_length.
    - intros k Hk. rewrite rev_length, length_upd in Hk. unfold zlen in *.
      rewrite rev_nth by (now rewrite length_upd). rewrite length_upd.
      rewrite !nth_upd by (rewrite ?rev_length; lia). rewrite rev_nth by lia.
      repeat match goal with |- context [Nat.eqb ?a ?b] => destruct (Nat.eqb_spec a b) end; try lia; reflexivity.
  Qed.

  (** Every reverse iterator type has these methods. *)
  Definition is_reverse (r : ops St (rev_it It) T) : Prop :=
    (forall c, Next r c = (i <- Prev o (Base c) ;; xret (Rev i))) /\
    (forall c, Prev r c = (i <- Next o (Base c) ;; xret (Rev i))) /\
    (forall c, Get r c = (i <- Prev o (Base c) ;; Get o i)) /\
    (forall c d, Equal r c d = Equal o (Base c) (Base d)).

  Hypothesis L : lawful o n plug at_.
  Hypothesis LP : lawful_prev o n plug at_.

  Lemma rev_lawful r : is_reverse r -> lawful r n plugR atR.
  Proof.
    intros (HN & HP & HG & HE). unfold plugR, atR. pose proof (law_len _ _ _ _ L) as Hn. split.
    - assumption.
    - intros w l i Hl Hi. rewrite HN. cbn [Base]. erewrite xbind_ok by (apply LP; [now rewrite zlen_rev|lia]).
      unfold xret. now replace (n - i - 1) with (n - (i + 1)) by lia.
    - intros w l i x Hl Hx. rewrite HG. cbn [Base]. apply zget_range in Hx as Hr.
      erewrite xbind_ok by (apply LP; [now rewrite zlen_rev|lia]).
      apply (law_get _ _ _ _ L); [now rewrite zlen_rev|]. rewrite zget_rev. rewrite <- Hx. f_equal. lia.
    - intros w l i j Hl Hi Hj. rewrite HE. cbn [Base]. rewrite (law_equal _ _ _ _ L) by (rewrite ?zlen_rev; lia).
      do 2 f_equal. lia.
  Qed.

  Lemma rev_lawful_prev r : is_reverse r -> lawful_prev r n plugR atR.
  Proof.
    intros (HN & HP & HG & HE) w l i Hl Hi. unfold plugR, atR. rewrite HP. cbn [Base].
    erewrite xbind_ok by (apply (law_next _ _ _ _ L); [now rewrite zlen_rev|lia]). unfold xret. now replace (n - i + 1) with (n - (i - 1)) by lia.
  Qed.

  Lemma rev_lawful_set r : lawful_set o n plug at_ ->
    (forall c x, Set_ r c x = (i <- Prev o (Base c) ;; Set_ o i x)) -> lawful_set r n plugR atR.
  Proof.
    intros LS HS w l i x l' Hl Hset. rewrite HS. unfold plugR, atR. cbn [Base].
    assert (Hi : 0 <= i < zlen l).
    { destruct (zset l i x) eqn:E; [|discriminate]. unfold zset in E.
      destruct ((0 <=? i) && (i <? zlen l)) eqn:B; [|discriminate]. lia. }
    rewrite zset_ok in Hset by assumption. injection Hset as <-.
    erewrite xbind_ok by (apply LP; [now rewrite zlen_rev|lia]).
    apply LS; [now rewrite zlen_rev|]. rewrite zset_ok by (rewrite zlen_rev; lia).
    f_equal. rewrite upd_rev by assumption. f_equal. lia.
  Qed.

  Lemma rev_lawful_random r : lawful_random o n plug at_ ->
    (forall c k, Add r c k = (i <- Add o (Base c) (- k) ;; xret (Rev i))) ->
    (forall c, Pos r c = (p <- Pos o (Base c) ;; xret (- p))) -> lawful_random r n plugR atR.
  Proof.
    intros [LA (p0 & LPos)] HA HP. split.
    - intros w l i k Hl Hi Hk. rewrite HA. unfold plugR, atR. cbn [Base].
      erewrite xbind_ok by (apply LA; rewrite ?zlen_rev; lia). unfold xret. now replace (n - i + - k) with (n - (i + k)) by lia.
    - exists (- p0 - n). intros w l i Hl Hi. rewrite HP. unfold plugR, atR. cbn [Base].
      erewrite xbind_ok by (apply LPos; rewrite ?zlen_rev; lia). unfold xret. now replace (- (p0 + (n - i))) with (- p0 - n + i) by lia.
  Qed.
End Rev.

(** ** Running beside other state *)
Section Lift.
  Context {St It T : Type} (o : ops St It T) (W : Type).
  Definition liftOps : ops (St * W) It T := {|
    Next := fun i => onSt (Next o i); Get := fun i => onSt (Get o i);
    Equal := fun i j => onSt (Equal o i j); Prev := fun i => onSt (Prev o i);
    Add := fun i k => onSt (Add o i k); Pos := fun i => onSt (Pos o i);
    Set_ := fun i x => onSt (Set_ o i x) |}.

  Context {C : Type} (n : Z) (plug : C -> list T -> St) (at_ : Z -> It).
  Definition plugW (w : C * W) (l : list T) : St * W := (plug (fst w) l, snd w).

  Lemma lift_lawful : lawful o n plug at_ -> lawful liftOps n plugW at_.
  Proof.
    intros L. split; [apply (law_len _ _ _ _ L)|..]; intros [c w] l; intros; unfold plugW; cbn.
    - now rewrite (law_next _ _ _ _ L).
    - now rewrite (law_get _ _ _ _ L c l i x).
    - now rewrite (law_equal _ _ _ _ L).
  Qed.
  Lemma lift_set : lawful_set o n plug at_ -> lawful_set liftOps n plugW at_.
  Proof. intros L [c w] l i x l' Hl H. unfold plugW. cbn. now rewrite (L c l i x l'). Qed.
  Lemma lift_prev : lawful_prev o n plug at_ -> lawful_prev liftOps n plugW at_.
  Proof. intros L [c w] l i Hl Hi. unfold plugW. cbn. now rewrite L. Qed.
  Lemma lift_random : lawful_random o n plug at_ -> lawful_random liftOps n plugW at_.
  Proof.
    intros [LA [p0 LP]]. split.
    - intros [c w] l i k Hl Hi Hk. unfold plugW. cbn. now rewrite LA.
    - exists p0. intros [c w] l i Hl Hi. unfold plugW. cbn. now rewrite LP.
  Qed.
End Lift.

(** ** The algorithms *)
Section Algo.
  Context {St It T C : Type} (o : ops St It T) (n : Z) (plug : C -> list T -> St) (at_ : Z -> It).
  Hypothesis L : lawful o n plug at_.

  (** Walking a range reads its elements. *)
  Lemma walk w mid : forall pre post, zlen (pre ++ mid ++ post) = n ->
    walks o (plug w (pre ++ mid ++ post)) (at_ (zlen pre)) (at_ (zlen pre + zlen mid)) mid.
  Proof.
    induction mid as [|x mid IH]; intros pre post Hn;
      pose proof (zlen_nonneg pre); pose proof (zlen_nonneg post).
    - apply walks_end. rewrite zlen_nil, Z.add_0_r. cbn in *. rewrite zlen_app in Hn.
      rewrite (law_equal _ _ _ _ L) by (rewrite ?zlen_app; lia). now rewrite Z.eqb_refl.
    - pose proof (zlen_nonneg mid). assert (Hn' := Hn). cbn [app] in Hn'. rewrite zlen_app, zlen_cons, zlen_app in Hn'.
      eapply walks_step.
      + rewrite (law_equal _ _ _ _ L) by (rewrite ?zlen_cons; lia).
        destruct (Z.eqb_spec (zlen pre) (zlen pre + zlen (x :: mid))); [rewrite zlen_cons in *; lia|reflexivity].
      + apply (law_get _ _ _ _ L); [assumption|apply zget_mid].
      + apply (law_next _ _ _ _ L); [assumption|lia].
      + specialize (IH (pre ++ [x]) post). rewrite <- app_assoc in IH. cbn [app] in IH.
        rewrite zlen_snoc in IH. rewrite zlen_cons.
        replace (zlen pre + (zlen mid + 1)) with (zlen pre + 1 + zlen mid) by lia. apply IH. exact Hn.
  Qed.

  Section Comp.
  (** The comparator answers [lt] and may change [w], which records the calls. *)
  Context (comp : T -> T -> X St bool) (lt : T -> T -> bool) (tick : T -> T -> C -> C).
  Hypothesis HC : forall x y w l, comp x y (plug w l) = (Ok (lt x y), plug (tick x y w) l).

  Definition ticks (calls : list (T * T)) (w : C) : C :=
    fold_left (fun w c => tick (fst c) (snd c) w) calls w.

  Lemma ticks_app c1 c2 w : ticks (c1 ++ c2) w = ticks c2 (ticks c1 w).
  Proof. apply fold_left_app. Qed.

  (** Rounds of a binary search over [c] elements. *)
  Definition rounds (c : Z) : Z := if c <=? 0 then 0 else Z.log2 c + 1.

  Lemma rounds_half c c' : 0 < c -> 0 <= c' <= c / 2 -> rounds c' + 1 <= rounds c.
  Proof.
    intros Hc Hc'. unfold rounds. destruct (Z.leb_spec c 0); [lia|].
    destruct (Z.leb_spec c' 0).
    - pose proof (Z.log2_nonneg c). lia.
    - assert (Z.log2 c' <= Z.log2 (c / 2)) by (apply Z.log2_le_mono; lia).
      rewrite <- Z.div2_div in *. assert (Hc2 : 2 <= c).
      { rewrite Z.div2_div in *. destruct (Z.eq_dec c 1); [subst; cbn in *; lia|lia]. }
      assert (Z.log2 (Z.div2 c) = Z.log2 c - 1).
      { rewrite Z.div2_spec, Z.log2_shiftr by lia. pose proof (Z.log2_le_mono 2 c Hc2) as H2.
        change (Z.log2 2) with 1 in H2. lia. }
      lia.
  Qed.

  Hypothesis LR : lawful_random o n plug at_.

  Lemma distance w l i j : zlen l = n -> 0 <= i <= n -> 0 <= j <= n ->
    Distance o (at_ i) (at_ j) (plug w l) = (Ok (j - i), plug w l).
  Proof.
    intros Hl Hi Hj. destruct LR as [_ (p0 & HP)]. unfold Distance.
    erewrite xbind_ok by (apply (law_equal _ _ _ _ L); assumption).
    erewrite xbind_ok by (apply HP; assumption).
    erewrite xbind_ok by (apply HP; assumption). unfold xret. do 2 f_equal. lia.
  Qed.

  Lemma lower_loop l v fuel : forall w f c k, zlen l = n -> c <= Z.of_nat fuel ->
    0 <= f -> 0 <= c -> f + c <= n -> f <= k <= f + c ->
    (forall i x, f <= i < k -> zget l i = Some x -> lt x v = true) ->
    (forall i x, k <= i < f + c -> zget l i = Some x -> lt x v = false) ->
    exists calls, lowerLoop o comp fuel (at_ f) c v (plug w l) = (Ok (at_ k), plug (ticks calls w) l) /\
      zlen calls <= rounds c.
  Proof.
    induction fuel as [|fuel IH]; intros w f c k Hl Hf H0 Hc Hn Hk HT HF; cbn [lowerLoop]; rewrite Z.gtb_ltb.
    { destruct (Z.ltb_spec 0 c); [lia|]. exists []. assert (k = f) by lia. subst. split; [reflexivity|].
      unfold rounds. destruct (Z.leb_spec c 0); cbn; lia. }
    destruct (Z.ltb_spec 0 c) as [Hpos|]; [|exists []; assert (k = f) by lia; subst; split; [reflexivity|];
      unfold rounds; destruct (Z.leb_spec c 0); cbn; lia].
    assert (Hd : 0 <= c / 2 < c) by (split; [apply Z.div_pos; lia|apply Z.div_lt; lia]).
    destruct LR as [HA _]. erewrite xbind_ok by (apply HA; lia).
    destruct (zget_some l (f + c / 2)) as [x Hx]; [lia|].
    erewrite xbind_ok by (apply (law_get _ _ _ _ L); eassumption).
    erewrite xbind_ok by apply HC.
    destruct (lt x v) eqn:E.
    - assert (Hkk : f + c / 2 < k).
      { destruct (Z_lt_le_dec (f + c / 2) k); [assumption|]. rewrite (HF (f + c / 2) x) in E; [discriminate|lia|assumption]. }
      erewrite xbind_ok by (apply (law_next _ _ _ _ L); lia).
      destruct (IH (tick x v w) (f + c / 2 + 1) (c - (c / 2 + 1)) k) as (calls & Hr & Hcl); try lia.
      + intros i y Hi. apply HT. lia.
      + intros i y Hi. apply HF. lia.
      + exists ((x, v) :: calls). split; [exact Hr|]. rewrite zlen_cons.
        pose proof (rounds_half c (c - (c / 2 + 1))). pose proof (Z.div_mod c 2). pose proof (Z.mod_pos_bound c 2). lia.
    - assert (Hkk : k <= f + c / 2).
      { destruct (Z_lt_le_dec (f + c / 2) k); [|assumption]. rewrite (HT (f + c / 2) x) in E; [discriminate|lia|assumption]. }
      destruct (IH (tick x v w) f (c / 2) k) as (calls & Hr & Hcl); try lia.
      + intros i y Hi. apply HT. lia.
      + intros i y Hi. apply HF. lia.
      + exists ((x, v) :: calls). split; [exact Hr|]. rewrite zlen_cons.
        pose proof (rounds_half c (c / 2)). lia.
  Qed.

  Lemma upper_loop l v fuel : forall w f c k, zlen l = n -> c <= Z.of_nat fuel ->
    0 <= f -> 0 <= c -> f + c <= n -> f <= k <= f + c ->
    (forall i x, f <= i < k -> zget l i = Some x -> lt v x = false) ->
    (forall i x, k <= i < f + c -> zget l i = Some x -> lt v x = true) ->
    exists calls, upperLoop o comp fuel (at_ f) c v (plug w l) = (Ok (at_ k), plug (ticks calls w) l) /\
      zlen calls <= rounds c.
  Proof.
    induction fuel as [|fuel IH]; intros w f c k Hl Hf H0 Hc Hn Hk HT HF; cbn [upperLoop]; rewrite Z.gtb_ltb.
    { destruct (Z.ltb_spec 0 c); [lia|]. exists []. assert (k = f) by lia. subst. split; [reflexivity|].
      unfold rounds. destruct (Z.leb_spec c 0); cbn; lia. }
    destruct (Z.ltb_spec 0 c) as [Hpos|]; [|exists []; assert (k = f) by lia; subst; split; [reflexivity|];
      unfold rounds; destruct (Z.leb_spec c 0); cbn; lia].
    assert (Hd : 0 <= c / 2 < c) by (split; [apply Z.div_pos; lia|apply Z.div_lt; lia]).
    destruct LR as [HA _]. erewrite xbind_ok by (apply HA; lia).
    destruct (zget_some l (f + c / 2)) as [x Hx]; [lia|].
    erewrite xbind_ok by (apply (law_get _ _ _ _ L); eassumption).
    erewrite xbind_ok by apply HC.
    destruct (lt v x) eqn:E; cbn [negb].
    - assert (Hkk : k <= f + c / 2).
      { destruct (Z_lt_le_dec (f + c / 2) k); [|assumption]. rewrite (HT (f + c / 2) x) in E; [discriminate|lia|assumption]. }
      destruct (IH (tick v x w) f (c / 2) k) as (calls & Hr & Hcl); try lia.
      + intros i y Hi. apply HT. lia.
      + intros i y Hi. apply HF. lia.
      + exists ((v, x) :: calls). split; [exact Hr|]. rewrite zlen_cons.
        pose proof (rounds_half c (c / 2)). lia.
    - assert (Hkk : f + c / 2 < k).
      { destruct (Z_lt_le_dec (f + c / 2) k); [assumption|]. rewrite (HF (f + c / 2) x) in E; [discriminate|lia|assumption]. }
      erewrite xbind_ok by (apply (law_next _ _ _ _ L); lia).
      destruct (IH (tick v x w) (f + c / 2 + 1) (c - (c / 2 + 1)) k) as (calls & Hr & Hcl); try lia.
      + intros i y Hi. apply HT. lia.
      + intros i y Hi. apply HF. lia.
      + exists ((v, x) :: calls). split; [exact Hr|]. rewrite zlen_cons.
        pose proof (rounds_half c (c - (c / 2 + 1))). pose proof (Z.div_mod c 2). pose proof (Z.mod_pos_bound c 2). lia.
  Qed.

  Lemma in_window {A} (pre a b post : list A) i x : zget (pre ++ (a ++ b) ++ post) i = Some x ->
    (zlen pre <= i < zlen pre + zlen a -> In x a) /\
    (zlen pre + zlen a <= i < zlen pre + (zlen a + zlen b) -> In x b).
  Proof.
    intros H. pose proof (zlen_nonneg a). split; intros Hi.
    - rewrite zget_app_r, <- app_assoc, zget_app_l in H by lia. now apply zget_in in H.
    - rewrite zget_app_r, <- app_assoc, zget_app_r, zget_app_l in H by lia. now apply zget_in in H.
  Qed.

  Lemma lower_bound w pre a b post v : zlen (pre ++ (a ++ b) ++ post) = n ->
    (forall x, In x a -> lt x v = true) -> (forall x, In x b -> lt x v = false) ->
    exists calls,
      LowerBoundIterators o comp (at_ (zlen pre)) (at_ (zlen pre + zlen (a ++ b))) v (plug w (pre ++ (a ++ b) ++ post))
      = (Ok (at_ (zlen pre + zlen a)), plug (ticks calls w) (pre ++ (a ++ b) ++ post)) /\
      zlen calls <= rounds (zlen (a ++ b)).
  Proof.
    intros Hn Ha Hb. pose proof (zlen_nonneg pre); pose proof (zlen_nonneg a); pose proof (zlen_nonneg b); pose proof (zlen_nonneg post).
    assert (Hn' := Hn). rewrite !zlen_app in Hn'.
    unfold LowerBoundIterators. erewrite xbind_ok by (apply distance; [exact Hn|lia|rewrite zlen_app; lia]).
    replace (zlen pre + zlen (a ++ b) - zlen pre) with (zlen (a ++ b)) by lia.
    destruct (Z.ltb_spec (zlen (a ++ b)) 0); [rewrite zlen_app in *; lia|].
    apply lower_loop; [exact Hn|rewrite ?zlen_app in *; lia..| |].
    - intros i x Hi Hx. apply Ha. apply (proj1 (in_window _ _ _ _ _ _ Hx)). lia.
    - intros i x Hi Hx. apply Hb. apply (proj2 (in_window _ _ _ _ _ _ Hx)). rewrite zlen_app in Hi. lia.
  Qed.

  Lemma upper_bound w pre a b post v : zlen (pre ++ (a ++ b) ++ post) = n ->
    (forall x, In x a -> lt v x = false) -> (forall x, In x b -> lt v x = true) ->
    exists calls,
      UpperBoundIterators o comp (at_ (zlen pre)) (at_ (zlen pre + zlen (a ++ b))) v (plug w (pre ++ (a ++ b) ++ post))
      = (Ok (at_ (zlen pre + zlen a)), plug (ticks calls w) (pre ++ (a ++ b) ++ post)) /\
      zlen calls <= rounds (zlen (a ++ b)).
  Proof.
    intros Hn Ha Hb. pose proof (zlen_nonneg pre); pose proof (zlen_nonneg a); pose proof (zlen_nonneg b); pose proof (zlen_nonneg post).
    assert (Hn' := Hn). rewrite !zlen_app in Hn'.
    unfold UpperBoundIterators. erewrite xbind_ok by (apply distance; [exact Hn|lia|rewrite zlen_app; lia]).
    replace (zlen pre + zlen (a ++ b) - zlen pre) with (zlen (a ++ b)) by lia.
    destruct (Z.ltb_spec (zlen (a ++ b)) 0); [rewrite zlen_app in *; lia|].
    apply upper_loop; [exact Hn|rewrite ?zlen_app in *; lia..| |].
    - intros i x Hi Hx. apply Ha. apply (proj1 (in_window _ _ _ _ _ _ Hx)). lia.
    - intros i x Hi Hx. apply Hb. apply (proj2 (in_window _ _ _ _ _ _ Hx)). rewrite zlen_app in Hi. lia.
  Qed.
  End Comp.

  Section Sorted.
  Context (comp : T -> T -> X St bool) (lt : T -> T -> bool) (tick : T -> T -> C -> C).
  Hypothesis HC : forall x y w l, comp x y (plug w l) = (Ok (lt x y), plug (tick x y w) l).

  (** No element of [x :: l] is less than the one just before it. *)
  Fixpoint ascending (x : T) (l : list T) : Prop :=
    match l with [] => True | y :: l' => lt y x = false /\ ascending y l' end.

  (** The last element of [x :: l]. *)
  Fixpoint endOf (x : T) (l : list T) : T := match l with [] => x | y :: l' => endOf y l' end.

  Lemma ascending_app x a y b : ascending x (a ++ y :: b) <->
    ascending x a /\ lt y (endOf x a) = false /\ ascending y b.
  Proof.
    revert x. induction a as [|z a IH]; intros x; cbn [app ascending endOf].
    - tauto.
    - rewrite IH. tauto.
  Qed.

  (** [a] is ascending up to its end, and [b], if any, starts with a drop. *)
  Definition drop_at (x : T) (a b : list T) : Prop :=
    ascending x a /\ match b with [] => True | y :: _ => lt y (endOf x a) = true end.

  Lemma drop_exists l : forall x, exists a b, l = a ++ b /\ drop_at x a b.
  Proof.
    induction l as [|y l IH]; intros x.
    - exists [], []. split; [reflexivity|]. split; exact I.
    - destruct (lt y x) eqn:E.
      + exists [], (y :: l). split; [reflexivity|]. split; [exact I|exact E].
      + destruct (IH y) as (a & b & -> & Ha & Hb). exists (y :: a), b. split; [reflexivity|]. split; [split; assumption|].
        exact Hb.
  Qed.

  Lemma sorted_loop mid b post fuel : forall w pre x a, mid = a ++ b ->
    zlen (pre ++ (x :: mid) ++ post) = n -> (List.length mid <= fuel)%nat -> drop_at x a b ->
      sortedLoop o comp fuel (at_ (zlen pre)) (at_ (zlen pre + 1)) (at_ (zlen pre + 1 + zlen mid))
        (plug w (pre ++ (x :: mid) ++ post))
      = (Ok (at_ (zlen pre + 1 + zlen a)),
         plug (ticks tick (firstn (List.length (x :: a)) (combine mid (x :: mid))) w) (pre ++ (x :: mid) ++ post)).
  Proof.
    revert mid. induction fuel as [|fuel IH]; intros mid w pre x a -> Hn Hf [Ha Hb];
      pose proof (zlen_nonneg pre); pose proof (zlen_nonneg post); pose proof (zlen_nonneg a); pose proof (zlen_nonneg b);
      assert (Hn' := Hn); cbn [app] in Hn'; rewrite zlen_app, zlen_cons, !zlen_app in Hn'; cbn [sortedLoop].
    - assert (a = [] /\ b = []) as [-> ->] by (destruct a; [destruct b; [auto|cbn in Hf; lia]|cbn in Hf; lia]).
      erewrite xbind_ok by (apply (law_equal _ _ _ _ L); [exact Hn|..]; rewrite ?zlen_nil in *; cbn [app]; rewrite ?zlen_nil; lia).
      cbn [app combine firstn]. rewrite !zlen_nil, !Z.add_0_r, Z.eqb_refl. reflexivity.
    - erewrite xbind_ok by (apply (law_equal _ _ _ _ L); [exact Hn|rewrite ?zlen_app; lia..]).
      destruct (Z.eqb_spec (zlen pre + 1) (zlen pre + 1 + zlen (a ++ b))) as [E|E].
      + assert (Hz : zlen (a ++ b) = 0) by lia. rewrite zlen_app in Hz.
        assert (a = [] /\ b = []) as [-> ->]
          by (destruct a; [destruct b; [auto|rewrite zlen_cons in Hz; pose proof (zlen_nonneg b); lia]|
              rewrite zlen_cons in Hz; pose proof (zlen_nonneg a); lia]).
        reflexivity.
      + assert (Hg : forall y r, a ++ b = y :: r ->
           Get o (at_ (zlen pre + 1)) (plug w (pre ++ (x :: a ++ b) ++ post)) = (Ok y, plug w (pre ++ (x :: a ++ b) ++ post))).
        { intros y r Er. apply (law_get _ _ _ _ L); [assumption|]. rewrite zget_app_r by lia.
          replace (zlen pre + 1 - zlen pre) with (0 + 1) by lia. cbn [app]. rewrite zget_cons_S by lia. now rewrite Er. }
        destruct a as [|y a].
        * destruct b as [|y b]; [cbn in E; lia|]. cbn [app] in *.
          erewrite xbind_ok by (apply Hg with (r := b); reflexivity).
          erewrite xbind_ok by (apply (law_get _ _ _ _ L); [assumption|apply zget_mid]).
          erewrite xbind_ok by apply HC. cbn in Hb. rewrite Hb.
          unfold xret. rewrite zlen_nil, Z.add_0_r. reflexivity.
        * cbn [app] in *. erewrite xbind_ok by (apply Hg with (r := a ++ b); reflexivity).
          erewrite xbind_ok by (apply (law_get _ _ _ _ L); [assumption|apply zget_mid]).
          erewrite xbind_ok by apply HC. cbn in Ha. destruct Ha as [Hyx Ha]. rewrite Hyx.
          erewrite xbind_ok by (apply (law_next _ _ _ _ L); rewrite ?zlen_cons, ?zlen_app in *; lia).
          pose proof (IH (a ++ b) (tick y x w) (pre ++ [x]) y a eq_refl) as Hr.
          rewrite zlen_snoc, <- app_assoc in Hr. cbn [app] in Hr.
          specialize (Hr Hn ltac:(cbn in Hf; lia) (conj Ha Hb)).
             rewrite !zlen_cons. cbn [combine List.length firstn ticks fold_left fst snd].
             cbn [List.length] in Hr.
             replace (zlen pre + 1 + (zlen (a ++ b) + 1)) with (zlen pre + 1 + 1 + zlen (a ++ b)) by lia.
             replace (zlen pre + 1 + (zlen a + 1)) with (zlen pre + 1 + 1 + zlen a) by lia. exact Hr.
  Qed.

  Lemma sorted_until w pre x a b post fuel : zlen (pre ++ (x :: a ++ b) ++ post) = n ->
    (List.length (a ++ b) <= fuel)%nat -> drop_at x a b ->
      IsSortedUntilIterators o comp fuel (at_ (zlen pre)) (at_ (zlen pre + zlen (x :: a ++ b)))
        (plug w (pre ++ (x :: a ++ b) ++ post))
      = (Ok (at_ (zlen pre + zlen (x :: a))),
         plug (ticks tick (firstn (List.length (x :: a)) (combine (a ++ b) (x :: a ++ b))) w)
           (pre ++ (x :: a ++ b) ++ post)).
  Proof.
    intros Hn Hf Hd. assert (Hn' := Hn).
    pose proof (zlen_nonneg pre); pose proof (zlen_nonneg post); pose proof (zlen_nonneg (a ++ b)).
    cbn [app] in Hn'; rewrite zlen_app, zlen_cons, zlen_app in Hn'. unfold IsSortedUntilIterators.
    erewrite xbind_ok by (apply (law_equal _ _ _ _ L); rewrite ?zlen_cons; lia).
    destruct (Z.eqb_spec (zlen pre) (zlen pre + zlen (x :: a ++ b))); [rewrite zlen_cons in *; lia|].
    erewrite xbind_ok by (apply (law_next _ _ _ _ L); lia).
    pose proof (sorted_loop (a ++ b) b post fuel w pre x a eq_refl Hn Hf Hd) as Hr.
    rewrite !zlen_cons.
    replace (zlen pre + (zlen (a ++ b) + 1)) with (zlen pre + 1 + zlen (a ++ b)) by lia.
    replace (zlen pre + (zlen a + 1)) with (zlen pre + 1 + zlen a) by lia. exact Hr.
  Qed.

  Lemma sorted_until_nil w pre post fuel : zlen (pre ++ post) = n ->
    IsSortedUntilIterators o comp fuel (at_ (zlen pre)) (at_ (zlen pre)) (plug w (pre ++ post))
    = (Ok (at_ (zlen pre)), plug w (pre ++ post)).
  Proof.
    intros Hn. assert (Hn' := Hn). rewrite zlen_app in Hn'. pose proof (zlen_nonneg pre); pose proof (zlen_nonneg post).
    unfold IsSortedUntilIterators. erewrite xbind_ok by (apply (law_equal _ _ _ _ L); lia).
    now rewrite Z.eqb_refl.
  Qed.
  End Sorted.

  Section Mutate.
  Hypothesis LS : lawful_set o n plug at_.

  Lemma swap_same w l i : zlen l = n -> 0 <= i <= n -> Swap o (at_ i) (at_ i) (plug w l) = (Ok tt, plug w l).
  Proof.
    intros Hl Hi. unfold Swap. erewrite xbind_ok by (apply (law_equal _ _ _ _ L); lia).
    now rewrite Z.eqb_refl.
  Qed.

  Lemma swap_lt w p x m y q : zlen (p ++ x :: m ++ y :: q) = n ->
    Swap o (at_ (zlen p)) (at_ (zlen p + 1 + zlen m)) (plug w (p ++ x :: m ++ y :: q))
    = (Ok tt, plug w (p ++ y :: m ++ x :: q)).
  Proof.
    intros Hn. pose proof (zlen_nonneg p); pose proof (zlen_nonneg m); pose proof (zlen_nonneg q).
    assert (Hn' := Hn). rewrite zlen_app, zlen_cons, zlen_app, zlen_cons in Hn'.
    assert (Ez : zlen p + 1 + zlen m = zlen (p ++ x :: m)) by (rewrite zlen_app, zlen_cons; lia).
    assert (Ez' : zlen p + 1 + zlen m = zlen (p ++ y :: m)) by (rewrite zlen_app, zlen_cons; lia).
    unfold Swap. erewrite xbind_ok by (apply (law_equal _ _ _ _ L); lia).
    destruct (Z.eqb_spec (zlen p) (zlen p + 1 + zlen m)); [lia|].
    erewrite xbind_ok by (apply (law_get _ _ _ _ L); [assumption|apply zget_mid]).
    erewrite xbind_ok.
    2:{ apply (law_get _ _ _ _ L) with (x := y); [assumption|]. rewrite Ez.
        replace (p ++ x :: m ++ y :: q) with ((p ++ x :: m) ++ y :: q) by (now rewrite <- app_assoc). apply zget_mid. }
    erewrite xbind_ok by (apply LS; [assumption|apply zset_mid]).
    apply LS.
    - rewrite zlen_app, zlen_cons, zlen_app, zlen_cons. lia.
    - rewrite Ez'. replace (p ++ y :: m ++ y :: q) with ((p ++ y :: m) ++ y :: q) by (now rewrite <- app_assoc).
      rewrite zset_mid. now rewrite <- app_assoc.
  Qed.

  Lemma swap_gt w p x m y q : zlen (p ++ x :: m ++ y :: q) = n ->
    Swap o (at_ (zlen p + 1 + zlen m)) (at_ (zlen p)) (plug w (p ++ x :: m ++ y :: q))
    = (Ok tt, plug w (p ++ y :: m ++ x :: q)).
  Proof.
    intros Hn. pose proof (zlen_nonneg p); pose proof (zlen_nonneg m); pose proof (zlen_nonneg q).
    assert (Hn' := Hn). rewrite zlen_app, zlen_cons, zlen_app, zlen_cons in Hn'.
    assert (Ez : zlen p + 1 + zlen m = zlen (p ++ x :: m)) by (rewrite zlen_app, zlen_cons; lia).
    unfold Swap. erewrite xbind_ok by (apply (law_equal _ _ _ _ L); lia).
    destruct (Z.eqb_spec (zlen p + 1 + zlen m) (zlen p)); [lia|].
    erewrite xbind_ok.
    2:{ apply (law_get _ _ _ _ L) with (x := y); [assumption|]. rewrite Ez.
        replace (p ++ x :: m ++ y :: q) with ((p ++ x :: m) ++ y :: q) by (now rewrite <- app_assoc). apply zget_mid. }
    erewrite xbind_ok by (apply (law_get _ _ _ _ L); [assumption|apply zget_mid]).
    erewrite xbind_ok.
    2:{ apply LS with (l' := p ++ x :: m ++ x :: q); [assumption|]. rewrite Ez.
        replace (p ++ x :: m ++ y :: q) with ((p ++ x :: m) ++ y :: q) by (now rewrite <- app_assoc).
        rewrite zset_mid. now rewrite <- app_assoc. }
    apply LS.
    - rewrite zlen_app, zlen_cons, zlen_app, zlen_cons. lia.
    - apply zset_mid.
  Qed.

  Lemma fill_n w mid v : forall pre post, zlen (pre ++ mid ++ post) = n ->
    fillLoop o (List.length mid) (at_ (zlen pre)) v (plug w (pre ++ mid ++ post))
    = (Ok (at_ (zlen pre + zlen mid)), plug w (pre ++ repeat v (List.length mid) ++ post)).
  Proof.
    induction mid as [|x mid IH]; intros pre post Hn; cbn [List.length fillLoop repeat app].
    - rewrite zlen_nil, Z.add_0_r. reflexivity.
    - pose proof (zlen_nonneg pre); pose proof (zlen_nonneg mid); pose proof (zlen_nonneg post).
      assert (Hn' := Hn). cbn [app] in Hn'. rewrite zlen_app, zlen_cons, zlen_app in Hn'.
      erewrite xbind_ok by (apply LS; [assumption|apply zset_mid]).
      erewrite xbind_ok.
      2:{ apply (law_next _ _ _ _ L); [rewrite zlen_app, zlen_cons, zlen_app; lia|lia]. }
      specialize (IH (pre ++ [v]) post). rewrite zlen_snoc, <- !app_assoc in IH. cbn [app] in IH.
      rewrite zlen_cons. replace (zlen pre + (zlen mid + 1)) with (zlen pre + 1 + zlen mid) by lia. apply IH.
      rewrite zlen_app, zlen_cons, zlen_app. lia.
  Qed.

  Hypothesis LP : lawful_prev o n plug at_.

  Lemma reverse_elems w fuel : forall mid pre post, zlen (pre ++ mid ++ post) = n ->
    (List.length mid <= fuel)%nat ->
    ReverseElems o fuel (at_ (zlen pre)) (at_ (zlen pre + zlen mid)) (plug w (pre ++ mid ++ post))
    = (Ok tt, plug w (pre ++ rev mid ++ post)).
  Proof.
    induction fuel as [|fuel IH]; intros mid pre post Hn Hf; pose proof (zlen_nonneg pre); pose proof (zlen_nonneg post);
      pose proof (zlen_nonneg mid); assert (Hn' := Hn); rewrite !zlen_app in Hn'; cbn [ReverseElems].
    - destruct mid; [|cbn in Hf; lia]. rewrite zlen_nil, Z.add_0_r in *.
      erewrite xbind_ok by (apply (law_equal _ _ _ _ L); lia). now rewrite Z.eqb_refl.
    - erewrite xbind_ok by (apply (law_equal _ _ _ _ L); lia).
      destruct mid as [|x mid]; [rewrite zlen_nil, Z.add_0_r, Z.eqb_refl; reflexivity|].
      rewrite zlen_cons in *. destruct (Z.eqb_spec (zlen pre) (zlen pre + (zlen mid + 1))); [pose proof (zlen_nonneg mid); lia|].
      erewrite xbind_ok by (apply LP; pose proof (zlen_nonneg mid); lia).
      erewrite xbind_ok by (apply (law_equal _ _ _ _ L); lia).
      destruct (Z.eqb_spec (zlen pre) (zlen pre + (zlen mid + 1) - 1)) as [E|E].
      + assert (mid = []) by (apply zlen_0_nil; lia). subst. reflexivity.
      + destruct mid as [|y mid _] using rev_ind; [rewrite zlen_nil in E; lia|].
        rewrite zlen_snoc in *. pose proof (zlen_nonneg mid).
        replace (zlen pre + (zlen mid + 1 + 1) - 1) with (zlen pre + 1 + zlen mid) by lia.
        replace (pre ++ (x :: mid ++ [y]) ++ post) with (pre ++ x :: mid ++ y :: post) in *
          by (cbn; now rewrite <- app_assoc).
        erewrite xbind_ok by (apply swap_lt; assumption).
        erewrite xbind_ok.
        2:{ apply (law_next _ _ _ _ L); [rewrite zlen_app, zlen_cons, zlen_app, zlen_cons; lia|lia]. }
        specialize (IH mid (pre ++ [y]) (x :: post)). rewrite zlen_snoc, <- !app_assoc in IH.
        cbn [app] in IH. rewrite IH.
        * cbn. now rewrite rev_app_distr, <- !app_assoc.
        * rewrite zlen_app, zlen_cons, zlen_app, zlen_cons. lia.
        * cbn in Hf. rewrite app_length in Hf. cbn in Hf. lia.
  Qed.
  End Mutate.
End Algo.
