(** The algorithms with a comparator of which nothing is known. *)
From Coq Require Import Permutation.
From Verif Require Import Base Arr Exn GoSlice_Proofs Iter_Model Iter_Spec Algo_Model Algo_Spec Algo_Proofs.
Local Open Scope list_scope.
Local Open Scope Z_scope.

Local Ltac zl := repeat rewrite ?zlen_app, ?zlen_cons, ?zlen_nil, ?zlen_rev in *; lia.

Section Safe.
  Context {St It T C : Type} (o : ops St It T) (n : Z) (plug : C -> list T -> St) (at_ : Z -> It).
  Hypothesis L : lawful o n plug at_.
  Context (comp : T -> T -> X St bool) (meter : C -> Z).
  Hypothesis HU : unruly comp plug meter.

  (** [m] leaves the elements [l] alone, makes at most [k] comparisons, and
      returns with [Q] or lets a panic of the comparator through. *)
  Definition calm {A} (m : X St A) (w : C) (l : list T) (k : Z) (Q : A -> Prop) : Prop :=
    exists r w', m (plug w l) = (r, plug w' l) /\ meter w' <= meter w + k /\
      match r with Ok a => Q a | Panic p => comparator_panic comp p | Diverge => False end.

  Lemma calm_ret {A} (a : A) w l (Q : A -> Prop) : Q a -> calm (xret a) w l 0 Q.
  Proof. intros H. exists (Ok a), w. repeat split; [lia|exact H]. Qed.

  Lemma calm_bind {A B} (m : X St A) (f : A -> X St B) w l k k' (Q : A -> Prop) (Q' : B -> Prop) :
    calm m w l k Q -> (forall a w', Q a -> calm (f a) w' l k' Q') -> 0 <= k' -> calm (xbind m f) w l (k + k') Q'.
  Proof.
    intros (r & w' & E & Hk & H) Hf H0. unfold calm, xbind. rewrite E. destruct r as [a|p|]; [|exists (Panic p), w'; repeat split; [lia|exact H]|contradiction].
    destruct (Hf a w' H) as (r & w2 & E2 & Hk2 & H2). exists r, w2. rewrite E2. repeat split; [lia|exact H2].
  Qed.

  Lemma calm_ok {A} (m : X St A) a w l (Q : A -> Prop) : m (plug w l) = (Ok a, plug w l) -> Q a -> calm m w l 0 Q.
  Proof. intros E H. exists (Ok a), w. repeat split; [exact E|lia|exact H]. Qed.

  Lemma calm_more {A} (m : X St A) w l k k' (Q Q' : A -> Prop) : calm m w l k Q -> k <= k' -> (forall a, Q a -> Q' a) -> calm m w l k' Q'.
  Proof.
    intros (r & w' & E & Hk & H) Hle HQ. exists r, w'. repeat split; [exact E|lia|]. destruct r; auto.
  Qed.

  Lemma calm_comp x y w l : calm (comp x y) w l 1 (fun _ => True).
  Proof.
    destruct (HU x y w l) as (r & w' & E & D & Hm). exists r, w'. repeat split; [exact E|lia|].
    destruct r as [b|p|]; [exact I| |congruence]. exists x, y, (plug w l). now rewrite E.
  Qed.

  Lemma calm_step {A B} (m : X St A) (f : A -> X St B) a w l k (Q : B -> Prop) :
    m (plug w l) = (Ok a, plug w l) -> calm (f a) w l k Q -> calm (xbind m f) w l k Q.
  Proof. intros E (r & w' & E' & H). exists r, w'. split; [|exact H]. erewrite xbind_ok by exact E. exact E'. Qed.

  Lemma calm_ask {B} x y (f : bool -> X St B) w l k (Q : B -> Prop) : 0 <= k ->
    (forall b w, calm (f b) w l k Q) -> calm (xbind (comp x y) f) w l (1 + k) Q.
  Proof. intros H0 H. eapply calm_bind; [apply calm_comp| |exact H0]. intros b w' _. apply H. Qed.

  (** ** Binary search *)
  Hypothesis LR : lawful_random o n plug at_.

  Lemma rounds_nonneg c : 0 <= rounds c.
  Proof. unfold rounds. destruct (c <=? 0); [lia|]. pose proof (Z.log2_nonneg c). lia. Qed.

  Lemma lower_calm l v fuel : forall w f c, zlen l = n -> c <= Z.of_nat fuel -> 0 <= f -> 0 <= c -> f + c <= n ->
    calm (lowerLoop o comp fuel (at_ f) c v) w l (rounds c) (fun it => exists k, it = at_ k /\ f <= k <= f + c).
  Proof.
    induction fuel as [|fuel IH]; intros w f c Hl Hf H0 Hc Hn; cbn [lowerLoop]; rewrite Z.gtb_ltb;
      (destruct (Z.ltb_spec 0 c) as [Hp|Hp];
       [try lia|eapply calm_more; [apply (calm_ret _ _ _ (fun it => it = at_ f)); reflexivity|apply rounds_nonneg|
          intros a ->; exists f; split; [reflexivity|lia]]]).
    assert (Hd : 0 <= c / 2 < c) by (split; [apply Z.div_pos; lia|apply Z.div_lt; lia]).
    destruct LR as [HA _]. eapply calm_step; [apply HA; lia|].
    destruct (zget_some l (f + c / 2)) as [x Hx]; [lia|]. eapply calm_step; [apply (law_get _ _ _ _ L); eassumption|].
    pose proof (Z.div_mod c 2). pose proof (Z.mod_pos_bound c 2).
    pose proof (rounds_half c (c / 2)) as R1. pose proof (rounds_half c (c - (c / 2 + 1))) as R2.
    eapply calm_more with (k := 1 + (rounds c - 1)); [apply calm_ask| |intros a Ha; exact Ha]; [pose proof (rounds_nonneg (c / 2)); lia| |lia].
    intros [|] w'.
    - eapply calm_step; [apply (law_next _ _ _ _ L); lia|]. eapply calm_more; [apply IH; lia|lia|].
      intros a (k & -> & Hk). exists k. split; [reflexivity|lia].
    - eapply calm_more; [apply IH; lia|lia|]. intros a (k & -> & Hk). exists k. split; [reflexivity|lia].
  Qed.

  Lemma upper_calm l v fuel : forall w f c, zlen l = n -> c <= Z.of_nat fuel -> 0 <= f -> 0 <= c -> f + c <= n ->
    calm (upperLoop o comp fuel (at_ f) c v) w l (rounds c) (fun it => exists k, it = at_ k /\ f <= k <= f + c).
  Proof.
    induction fuel as [|fuel IH]; intros w f c Hl Hf H0 Hc Hn; cbn [upperLoop]; rewrite Z.gtb_ltb;
      (destruct (Z.ltb_spec 0 c) as [Hp|Hp];
       [try lia|eapply calm_more; [apply (calm_ret _ _ _ (fun it => it = at_ f)); reflexivity|apply rounds_nonneg|
          intros a ->; exists f; split; [reflexivity|lia]]]).
    assert (Hd : 0 <= c / 2 < c) by (split; [apply Z.div_pos; lia|apply Z.div_lt; lia]).
    destruct LR as [HA _]. eapply calm_step; [apply HA; lia|].
    destruct (zget_some l (f + c / 2)) as [x Hx]; [lia|]. eapply calm_step; [apply (law_get _ _ _ _ L); eassumption|].
    pose proof (Z.div_mod c 2). pose proof (Z.mod_pos_bound c 2).
    pose proof (rounds_half c (c / 2)) as R1. pose proof (rounds_half c (c - (c / 2 + 1))) as R2.
    eapply calm_more with (k := 1 + (rounds c - 1)); [apply calm_ask| |intros a Ha; exact Ha]; [pose proof (rounds_nonneg (c / 2)); lia| |lia].
    intros [|] w'; cbn [negb].
    - eapply calm_more; [apply IH; lia|lia|]. intros a (k & -> & Hk). exists k. split; [reflexivity|lia].
    - eapply calm_step; [apply (law_next _ _ _ _ L); lia|]. eapply calm_more; [apply IH; lia|lia|].
      intros a (k & -> & Hk). exists k. split; [reflexivity|lia].
  Qed.

  Lemma lower_bound_calm l v w i j : zlen l = n -> 0 <= i <= j -> j <= n ->
    calm (LowerBoundIterators o comp (at_ i) (at_ j) v) w l (rounds (j - i)) (fun it => exists k, it = at_ k /\ i <= k <= j).
  Proof.
    intros Hl Hi Hj. unfold LowerBoundIterators. eapply calm_step; [apply (distance o n plug at_ L LR); lia|].
    destruct (Z.ltb_spec (j - i) 0); [lia|]. eapply calm_more; [apply lower_calm; lia|lia|].
    intros a (k & -> & Hk). exists k. split; [reflexivity|lia].
  Qed.
  Lemma upper_bound_calm l v w i j : zlen l = n -> 0 <= i <= j -> j <= n ->
    calm (UpperBoundIterators o comp (at_ i) (at_ j) v) w l (rounds (j - i)) (fun it => exists k, it = at_ k /\ i <= k <= j).
  Proof.
    intros Hl Hi Hj. unfold UpperBoundIterators. eapply calm_step; [apply (distance o n plug at_ L LR); lia|].
    destruct (Z.ltb_spec (j - i) 0); [lia|]. eapply calm_more; [apply upper_calm; lia|lia|].
    intros a (k & -> & Hk). exists k. split; [reflexivity|lia].
  Qed.

  (** ** Sortedness *)
  Lemma sorted_calm l fuel : forall w i e, zlen l = n -> 1 <= i <= e -> e <= n -> e - i <= Z.of_nat fuel ->
    calm (sortedLoop o comp fuel (at_ (i - 1)) (at_ i) (at_ e)) w l (e - i) (fun it => exists k, it = at_ k /\ i <= k <= e).
  Proof.
    induction fuel as [|fuel IH]; intros w i e Hl Hi He Hf; cbn [sortedLoop];
      (eapply calm_step; [apply (law_equal _ _ _ _ L); lia|]); destruct (Z.eqb_spec i e) as [E|E].
    - eapply calm_more; [apply (calm_ret _ _ _ (fun it => it = at_ e)); reflexivity|lia|]. intros a ->. exists e. split; [reflexivity|lia].
    - lia.
    - eapply calm_more; [apply (calm_ret _ _ _ (fun it => it = at_ e)); reflexivity|lia|]. intros a ->. exists e. split; [reflexivity|lia].
    - destruct (zget_some l i) as [y Hy]; [lia|]. destruct (zget_some l (i - 1)) as [x Hx]; [lia|].
      eapply calm_step; [apply (law_get _ _ _ _ L); eassumption|]. eapply calm_step; [apply (law_get _ _ _ _ L); eassumption|].
      eapply calm_more with (k := 1 + (e - i - 1)); [apply calm_ask; [lia|]|lia|intros a Ha; exact Ha].
      intros [|] w'.
      + eapply calm_more; [apply (calm_ret _ _ _ (fun it => it = at_ i)); reflexivity|lia|]. intros a ->. exists i. split; [reflexivity|lia].
      + eapply calm_step; [apply (law_next _ _ _ _ L); lia|]. replace (at_ i) with (at_ (i + 1 - 1)) by (f_equal; lia).
        eapply calm_more; [apply IH; lia|lia|]. intros a (k & -> & Hk). exists k. split; [reflexivity|lia].
  Qed.

  Lemma sorted_until_calm l w i j fuel : zlen l = n -> 0 <= i <= j -> j <= n -> j - i <= Z.of_nat fuel ->
    calm (IsSortedUntilIterators o comp fuel (at_ i) (at_ j)) w l (Z.max 0 (j - i - 1))
      (fun it => exists k, it = at_ k /\ i <= k <= j /\ (i < j -> i < k)).
  Proof.
    intros Hl Hi Hj Hf. unfold IsSortedUntilIterators. eapply calm_step; [apply (law_equal _ _ _ _ L); lia|].
    destruct (Z.eqb_spec i j) as [E|E].
    - eapply calm_more; [apply (calm_ret _ _ _ (fun it => it = at_ j)); reflexivity|lia|]. intros a ->. exists j. split; [reflexivity|lia].
    - eapply calm_step; [apply (law_next _ _ _ _ L); lia|].
      pose proof (sorted_calm l fuel w (i + 1) j) as S. replace (i + 1 - 1) with i in S by lia.
      eapply calm_more; [apply S; lia|lia|]. intros a (k & -> & Hk). exists k. split; [reflexivity|lia].
  Qed.

  Lemma is_sorted_calm l w i j fuel : zlen l = n -> 0 <= i <= j -> j <= n -> j - i <= Z.of_nat fuel ->
    calm (IsSortedIterators o comp fuel (at_ i) (at_ j)) w l (Z.max 0 (j - i - 1)) (fun _ => True).
  Proof.
    intros Hl Hi Hj Hf. unfold IsSortedIterators. eapply calm_more.
    - eapply calm_bind with (k' := 0); [apply sorted_until_calm; assumption| |lia].
      intros a w' (k & -> & Hk & _). apply (calm_ok _ (k =? j) _ _ (fun _ => True)); [apply (law_equal _ _ _ _ L); lia|exact I].
    - lia.
    - intros a _. exact I.
  Qed.
End Safe.

(** ** NextPermutation *)
Section SafeNext.
  Context {St It T C : Type} (o : ops St It T) (n : Z) (plug : C -> list T -> St) (at_ : Z -> It).
  Hypothesis L : lawful o n plug at_.
  Hypothesis LP : lawful_prev o n plug at_.
  Hypothesis LS : lawful_set o n plug at_.
  Hypothesis LR : lawful_random o n plug at_.
  Context (comp : T -> T -> X St bool) (meter : C -> Z).
  Hypothesis HU : unruly comp plug meter.

  Let ro := ReverseRandom o.
  Let pR := plugR plug.
  Let aR := atR n at_.

  Lemma sro_is : is_reverse o ro.
  Proof. repeat split. Qed.
  Lemma sro_lawful : lawful ro n pR aR.
  Proof. apply rev_lawful with o; auto using sro_is. Qed.
  Lemma sro_set : lawful_set ro n pR aR.
  Proof. apply rev_lawful_set with o; auto. Qed.
  Lemma sro_random : lawful_random ro n pR aR.
  Proof. apply rev_lawful_random with o; auto. Qed.
  Lemma sro_unruly : unruly comp pR meter.
  Proof. intros x y w l. apply HU. Qed.

  (** Exchanging two elements of the middle part. *)
  Lemma swap_window w pre mid post j k : zlen (pre ++ mid ++ post) = n -> zlen pre <= k <= j -> j < zlen pre + zlen mid ->
    exists mid', Swap ro (aR j) (aR k) (pR w (pre ++ mid ++ post)) = (Ok tt, pR w (pre ++ mid' ++ post)) /\
      Permutation mid mid' .
  Proof.
    intros Hn Hk Hj. pose proof (zlen_nonneg post). assert (Hn' := Hn). rewrite !zlen_app in Hn'.
    destruct (Z.eq_dec k j) as [->|N].
    { exists mid. split; [|reflexivity]. apply (swap_same ro n pR aR sro_lawful); [exact Hn|pose proof (zlen_nonneg pre); lia]. }
    destruct (split_elem mid (k - zlen pre)) as (a & y & b & -> & Ha); [lia|]. rewrite zlen_app, zlen_cons in *.
    destruct (split_elem b (j - zlen pre - zlen a - 1)) as (m & x & c & -> & Hm); [lia|].
    exists (a ++ x :: m ++ y :: c). split.
    - pose proof (swap_gt ro n pR aR sro_lawful sro_set w (pre ++ a) y m x (c ++ post)) as S.
      replace (zlen (pre ++ a) + 1 + zlen m) with j in S by (rewrite zlen_app; lia).
      replace (zlen (pre ++ a)) with k in S by (rewrite zlen_app; lia).
      assert (R : forall u v : T, (pre ++ a) ++ u :: m ++ v :: c ++ post = pre ++ (a ++ u :: m ++ v :: c) ++ post).
      { intros u v. now rewrite <- !app_assoc, <- app_comm_cons, <- app_assoc. }
      rewrite !R in S. apply S. zl.
    - apply Permutation_app_head. rewrite <- (Permutation_middle m c x), <- (Permutation_middle m c y). apply perm_swap.
  Qed.

  (** Reversing the end of the middle part. *)
  Lemma reverse_window w pre mid post j fuel : zlen (pre ++ mid ++ post) = n -> (List.length mid <= fuel)%nat ->
    zlen post <= j <= zlen post + zlen mid ->
    exists mid', ReverseElems o fuel (at_ (n - j)) (at_ (zlen pre + zlen mid)) (plug w (pre ++ mid ++ post))
      = (Ok tt, plug w (pre ++ mid' ++ post)) /\ Permutation mid mid'.
  Proof.
    intros Hn Hf Hj. assert (Hn' := Hn). rewrite !zlen_app in Hn'.
    destruct (split_at mid (n - j - zlen pre)) as (a & b & -> & Ha); [lia|]. rewrite zlen_app in *.
    exists (a ++ rev b). split; [|apply Permutation_app_head, Permutation_rev].
    pose proof (reverse_elems o n plug at_ L LS LP w fuel b (pre ++ a) post) as S.
    replace (zlen (pre ++ a)) with (zlen pre + zlen a) in S by (now rewrite zlen_app). rewrite <- !app_assoc in S.
    rewrite <- !app_assoc. replace (n - j) with (zlen pre + zlen a) by lia.
    rewrite Z.add_assoc. apply S; [zl|]. rewrite app_length in Hf. lia.
  Qed.

  Lemma next_safe w pre mid post fuel : zlen (pre ++ mid ++ post) = n -> (List.length mid <= fuel)%nat ->
    exists r w' mid',
      NextPermutationIterators o comp fuel (at_ (zlen pre)) (at_ (zlen pre + zlen mid)) (plug w (pre ++ mid ++ post))
        = (r, plug w' (pre ++ mid' ++ post)) /\
      meter w' <= meter w + (Z.max 0 (zlen mid - 1) + rounds (zlen mid)) /\
      match r with
      | Ok _ => Permutation mid mid'
      | Panic p => mid' = mid /\ comparator_panic comp p
      | Diverge => False
      end.
  Proof.
    intros Hn Hf. pose proof (zlen_nonneg pre); pose proof (zlen_nonneg post); pose proof (zlen_nonneg mid).
    assert (Hn' := Hn). rewrite !zlen_app in Hn'.
    assert (Hpl : forall w m, plug w (pre ++ m ++ post) = pR w (rev post ++ rev m ++ rev pre)).
    { intros w0 m. unfold pR, plugR. now rewrite !rev_app_distr, !rev_involutive, <- app_assoc. }
    assert (K1 : Rev (at_ (zlen pre + zlen mid)) = aR (zlen post)) by (unfold aR, atR; do 2 f_equal; lia).
    assert (K2 : Rev (at_ (zlen pre)) = aR (zlen post + zlen mid)) by (unfold aR, atR; do 2 f_equal; lia).
    assert (Hr : forall m, zlen m = zlen mid -> zlen (rev post ++ rev m ++ rev pre) = n) by (intros m Hm; zl).
    assert (Hrounds : forall k, zlen post <= k <= zlen post + zlen mid -> rounds (k - zlen post) <= rounds (zlen mid)).
    { intros k Hk. unfold rounds. destruct (Z.leb_spec (k - zlen post) 0), (Z.leb_spec (zlen mid) 0); try lia.
      - pose proof (Z.log2_nonneg (zlen mid)). lia.
      - assert (Z.log2 (k - zlen post) <= Z.log2 (zlen mid)) by (apply Z.log2_le_mono; lia). lia. }
    pose proof (rounds_nonneg (zlen mid)) as Hr0.
    unfold NextPermutationIterators. fold ro. rewrite K1, K2.
    destruct (sorted_until_calm ro n pR aR sro_lawful comp meter sro_unruly (rev post ++ rev mid ++ rev pre) w
      (zlen post) (zlen post + zlen mid) fuel (Hr mid eq_refl)) as (r & w1 & E & Hm & HQ); [lia|lia|unfold zlen; lia|].
    unfold xbind at 1. rewrite Hpl, E. destruct r as [left|p|]; [|exists (Panic p), w1, mid; rewrite Hpl; repeat split; [lia|exact HQ]|contradiction].
    destruct HQ as (j & -> & Hj & _).
    assert (Eq : forall u m, zlen m = zlen mid -> Equal ro (aR j) (aR (zlen post + zlen mid)) (plug u (pre ++ m ++ post))
        = (Ok (j =? zlen post + zlen mid), plug u (pre ++ m ++ post))).
    { intros u m Hm'. rewrite Hpl. apply (law_equal _ _ _ _ sro_lawful); [now apply Hr|lia|lia]. }
    rewrite <- Hpl. erewrite xbind_ok by (apply Eq; reflexivity).
    assert (Hlen : forall m, Permutation mid m -> zlen m = zlen mid /\ (List.length m <= fuel)%nat).
    { intros m P. apply Permutation_length in P. unfold zlen. lia. }
    assert (Fin : forall u m, Permutation mid m -> exists b m', 
      xbind (ReverseElems o fuel (Base (aR j)) (at_ (zlen pre + zlen mid)))
        (fun _ => xbind (Equal ro (aR j) (aR (zlen post + zlen mid))) (fun e => xret (negb e))) (plug u (pre ++ m ++ post))
      = (Ok b, plug u (pre ++ m' ++ post)) /\ Permutation mid m').
    { intros u m P. destruct (Hlen m P) as [Hlm Hfm]. change (Base (aR j)) with (at_ (n - j)). rewrite <- Hlm.
      destruct (reverse_window u pre m post j fuel) as (m' & Er & P'); [zl|exact Hfm|lia|].
      erewrite xbind_ok by exact Er. assert (P2 : Permutation mid m') by (now transitivity m).
      rewrite Hlm. erewrite xbind_ok by (apply Eq; apply Hlen; exact P2). eexists _, m'. split; [reflexivity|exact P2]. }
    destruct (Z.eqb_spec j (zlen post + zlen mid)) as [Ej|Ej]; cbn [negb].
    - erewrite xbind_ok by reflexivity. destruct (Fin w1 mid (Permutation_refl _)) as (b & m' & Ef & P).
      exists (Ok b), w1, m'. rewrite Ef. repeat split; [lia|exact P].
    - destruct (zget_some (rev post ++ rev mid ++ rev pre) j) as [x Hx]; [rewrite (Hr mid eq_refl); lia|].
      assert (Eg : Get ro (aR j) (plug w1 (pre ++ mid ++ post)) = (Ok x, plug w1 (pre ++ mid ++ post))).
      { rewrite Hpl. apply (law_get _ _ _ _ sro_lawful); [now apply Hr|exact Hx]. }
      destruct (upper_bound_calm ro n pR aR sro_lawful comp meter sro_unruly sro_random (rev post ++ rev mid ++ rev pre) x w1
        (zlen post) j (Hr mid eq_refl)) as (r & w2 & E2 & Hm2 & H2); [lia|lia|].
      rewrite <- !Hpl in E2. unfold xbind at 1. erewrite xbind_ok by exact Eg. unfold xbind at 1. rewrite E2.
      specialize (Hrounds j ltac:(lia)).
      destruct r as [right|p|]; [|exists (Panic p), w2, mid; repeat split; [lia|exact H2]|contradiction].
      destruct H2 as (k & -> & Hk).
      destruct (swap_window w2 (rev post) (rev mid) (rev pre) j k) as (m & Es & P); [now apply Hr|zl|zl|].
      rewrite <- Hpl in Es. rewrite Es. rewrite <- (rev_involutive m), <- Hpl.
      destruct (Fin w2 (rev m)) as (b & m' & Ef & P').
      { rewrite (Permutation_rev mid), P. apply Permutation_rev. }
      exists (Ok b), w2, m'. rewrite Ef. repeat split; [lia|exact P'].
  Qed.
End SafeNext.
