(** From the run lemmas to the vocabulary of Algo_Spec. *)
From Coq Require Import Permutation Sorted.
From Verif Require Import Base Arr Exn XSort_Spec Iter_Model Iter_Spec Algo_Model Algo_Spec
  Algo_Proofs Perm_Proofs NextPerm_Proofs Enum_Proofs.
Local Open Scope list_scope.
Local Open Scope Z_scope.

Lemma rounds_bisections {A} (l : list A) : rounds (zlen l) = bisections (zlen l).
Proof.
  unfold rounds, bisections. pose proof (zlen_nonneg l).
  destruct (Z.leb_spec (zlen l) 0), (Z.eqb_spec (zlen l) 0); try lia; reflexivity.
Qed.

Lemma split_index {T} (f : T -> bool) a b :
  (forall x, In x a -> f x = true) -> (forall x, In x b -> f x = false) ->
  forall i x, zget (a ++ b) i = Some x -> (f x = true <-> i < zlen a).
Proof.
  intros Ha Hb i x Hx. destruct (Z_lt_le_dec i (zlen a)) as [Hi|Hi].
  - rewrite zget_app_l in Hx by assumption. apply zget_in in Hx. rewrite Ha by assumption. tauto.
  - rewrite zget_app_r in Hx by assumption. apply zget_in in Hx. rewrite Hb by assumption.
    split; [discriminate|lia].
Qed.

Lemma sorted_split_lower {T} (lt : T -> T -> bool) : strict_weak_order lt -> forall v l, sorted_by lt l ->
  exists a b, l = a ++ b /\ (forall x, In x a -> lt x v = true) /\ (forall x, In x b -> lt x v = false).
Proof.
  intros O v l S. apply asc_sorted in S. induction l as [|x l IH].
  - exists [], []. repeat split; intros ? [].
  - destruct S as [Hx S]. destruct (lt x v) eqn:E.
    + destruct (IH S) as (a & b & -> & Ha & Hb). exists (x :: a), b. repeat split; auto. intros y [<-|Hy]; auto.
    + exists [], (x :: l). repeat split; [intros ? []|]. intros y [<-|Hy]; [assumption|].
      apply (neg_trans lt O) with x; auto.
Qed.
Lemma sorted_split_upper {T} (lt : T -> T -> bool) : strict_weak_order lt -> forall v l, sorted_by lt l ->
  exists a b, l = a ++ b /\ (forall x, In x a -> lt v x = false) /\ (forall x, In x b -> lt v x = true).
Proof.
  intros O v l S. apply asc_sorted in S. induction l as [|x l IH].
  - exists [], []. repeat split; intros ? [].
  - destruct S as [Hx S]. destruct (lt v x) eqn:E.
    + exists [], (x :: l). repeat split; [intros ? []|]. intros y [<-|Hy]; [assumption|].
      destruct (lt v y) eqn:F; [reflexivity|]. rewrite (neg_trans lt O v y x F) in E; [discriminate|auto].
    + destruct (IH S) as (a & b & -> & Ha & Hb). exists (x :: a), b. repeat split; auto. intros y [<-|Hy]; auto.
Qed.

(** ** First drop *)
Section Drop.
  Context {T : Type} (lt : T -> T -> bool).

  Lemma zget_0 (x : T) l : zget (x :: l) 0 = Some x.
  Proof. reflexivity. Qed.

  Lemma ascending_adjacent x l : ascending lt x l <->
    forall i a b, zget (x :: l) i = Some a -> zget (x :: l) (i + 1) = Some b -> lt b a = false.
  Proof.
    revert x. induction l as [|y l IH]; intros x; cbn [ascending].
    - split; [|tauto]. intros _ i a b Ha Hb. apply zget_range in Ha, Hb. change (zlen [x]) with 1 in *. lia.
    - rewrite IH. split.
      + intros [H1 H2] i a b Ha Hb. apply zget_range in Ha as Hi.
        destruct (Z.eq_dec i 0) as [->|N].
        * rewrite zget_0 in Ha. injection Ha as <-.
          rewrite zget_cons_S, zget_0 in Hb by lia. now injection Hb as <-.
        * replace i with (i - 1 + 1) in Ha, Hb by lia. rewrite zget_cons_S in Ha, Hb by lia.
          apply (H2 (i - 1)); assumption.
      + intros H. split.
        * apply (H 0); [reflexivity|]. now rewrite zget_cons_S by lia.
        * intros i a b Ha Hb. apply zget_range in Ha as Hi. apply (H (i + 1)); rewrite zget_cons_S by lia; assumption.
  Qed.

  Lemma endOf_zget x (a : list T) : zget (x :: a) (zlen a) = Some (endOf x a).
  Proof.
    revert x. induction a as [|y a IH]; intros x; [reflexivity|]. pose proof (zlen_nonneg a).
    rewrite zlen_cons, zget_cons_S by lia. apply IH.
  Qed.

  Lemma drop_first_drop x a b : drop_at lt x a b -> first_drop lt (x :: a ++ b) (zlen (x :: a)).
  Proof.
    intros [Ha Hb]. pose proof (zlen_nonneg a); pose proof (zlen_nonneg b).
    split; [rewrite !zlen_cons, zlen_app; lia|]. split.
    - intros i u v Hi Hu Hv. rewrite zlen_cons in Hi.
      change (x :: a ++ b) with ((x :: a) ++ b) in *. rewrite zget_app_l in Hu, Hv by (rewrite zlen_cons; lia).
      replace i with (i - 1 + 1) in Hv by lia. revert Hu Hv. apply (proj1 (ascending_adjacent x a)). exact Ha.
    - intros Hlt. destruct b as [|y b]; [rewrite app_nil_r in Hlt; lia|].
      exists (endOf x a), y. split; [|split; [|exact Hb]].
      + change (x :: a ++ y :: b) with ((x :: a) ++ y :: b). rewrite zget_app_l by lia.
        rewrite zlen_cons. replace (zlen a + 1 - 1) with (zlen a) by lia. apply endOf_zget.
      + change (x :: a ++ y :: b) with ((x :: a) ++ y :: b). apply zget_mid.
  Qed.
End Drop.

Section Sorted.
  Context {St It T C : Type} (o : ops St It T) (n : Z) (plug : C -> list T -> St) (at_ : Z -> It).
  Context (comp : T -> T -> X St bool) (lt : T -> T -> bool) (tick : T -> T -> C -> C).
  Hypothesis L : lawful o n plug at_.
  Hypothesis HC : answers comp lt tick plug.

  Lemma sorted_until_spec w pre mid post fuel : zlen (pre ++ mid ++ post) = n -> (List.length mid <= fuel)%nat ->
    exists k w', first_drop lt mid k /\
    IsSortedUntilIterators o comp fuel (at_ (zlen pre)) (at_ (zlen pre + zlen mid)) (plug w (pre ++ mid ++ post))
    = (Ok (at_ (zlen pre + k)), plug w' (pre ++ mid ++ post)).
  Proof.
    intros Hn Hf. destruct mid as [|x mid].
    - exists 0, w. split.
      + split; [cbn; lia|]. split; [intros; lia|cbn; lia].
      + rewrite zlen_nil, !Z.add_0_r. apply (sorted_until_nil o n plug at_ L comp w pre post fuel Hn).
    - destruct (drop_exists lt mid x) as (a & b & -> & D).
      pose proof (sorted_until o n plug at_ L comp lt tick HC w pre x a b post fuel Hn ltac:(cbn in Hf; lia) D) as E.
      eexists (zlen (x :: a)), _. split; [now apply drop_first_drop|exact E].
  Qed.

  Lemma is_sorted_spec w pre mid post fuel : zlen (pre ++ mid ++ post) = n -> (List.length mid <= fuel)%nat ->
    exists b w',
    IsSortedIterators o comp fuel (at_ (zlen pre)) (at_ (zlen pre + zlen mid)) (plug w (pre ++ mid ++ post))
      = (Ok b, plug w' (pre ++ mid ++ post)) /\
    (b = true <-> forall i x y, zget mid i = Some x -> zget mid (i + 1) = Some y -> lt y x = false) /\
    (strict_weak_order lt -> (b = true <-> sorted_by lt mid)).
  Proof.
    intros Hn Hf. destruct (sorted_until_spec w pre mid post fuel Hn Hf) as (k & w' & (Hk & Hle & Hdrop) & E).
    assert (Hn' := Hn). rewrite !zlen_app in Hn'. pose proof (zlen_nonneg pre); pose proof (zlen_nonneg post).
    exists (k =? zlen mid), w'.
    assert (Adj : (k =? zlen mid) = true <-> forall i x y, zget mid i = Some x -> zget mid (i + 1) = Some y -> lt y x = false).
    { split.
      - intros Hb. intros i x y Hx Hy. apply zget_range in Hx as Hi, Hy as Hi'.
        apply (Hle (i + 1) x y); [lia| |assumption]. now replace (i + 1 - 1) with i by lia.
      - intros H2. destruct (Z.eqb_spec k (zlen mid)) as [|N]; [reflexivity|exfalso].
        destruct Hdrop as (x & y & Hx & Hy & Hlt); [lia|].
        rewrite (H2 (k - 1) x y) in Hlt; [discriminate|assumption|]. now replace (k - 1 + 1) with k by lia. }
    split; [|split].
    - unfold IsSortedIterators. erewrite xbind_ok by exact E. rewrite (law_equal _ _ _ _ L); [|exact Hn|lia|lia].
      do 2 f_equal. lia.
    - exact Adj.
    - intros O. rewrite Adj. rewrite <- asc_sorted. destruct mid as [|x mid].
      + split; [intros _; exact I|]. intros _ i a b Ha. apply zget_range in Ha. cbn in Ha. lia.
      + rewrite <- ascending_adjacent. split; [now apply ascending_asc|apply asc_ascending].
  Qed.
End Sorted.

Section Mutate.
  Context {St It T C : Type} (o : ops St It T) (n : Z) (plug : C -> list T -> St) (at_ : Z -> It).
  Hypothesis L : lawful o n plug at_.
  Hypothesis LS : lawful_set o n plug at_.

  Lemma zget_upd (l : list T) i k x : 0 <= i < zlen l ->
    zget (upd l (Z.to_nat i) x) k = if k =? i then Some x else zget l k.
  Proof.
    intros Hi. unfold zget. destruct (Z.ltb_spec k 0).
    - destruct (Z.eqb_spec k i); [lia|reflexivity].
    - rewrite nth_error_upd by (unfold zlen in *; lia).
      destruct (Nat.eqb_spec (Z.to_nat k) (Z.to_nat i)), (Z.eqb_spec k i); try lia; reflexivity.
  Qed.

  Lemma swap_spec w l i j x y : zlen l = n -> zget l i = Some x -> zget l j = Some y ->
    exists l', Swap o (at_ i) (at_ j) (plug w l) = (Ok tt, plug w l') /\
    zlen l' = n /\ zget l' i = Some y /\ zget l' j = Some x /\
    (forall k, k <> i -> k <> j -> zget l' k = zget l k).
  Proof.
    intros Hl Hx Hy. apply zget_range in Hx as Hi, Hy as Hj. unfold Swap.
    erewrite xbind_ok by (apply (law_equal _ _ _ _ L); lia). destruct (Z.eqb_spec i j) as [<-|N].
    - exists l. assert (x = y) by congruence. subst. repeat split; auto.
    - exists (upd (upd l (Z.to_nat i) y) (Z.to_nat j) x). split; [|split; [|split; [|split]]].
      + erewrite xbind_ok by (apply (law_get _ _ _ _ L); eassumption).
        erewrite xbind_ok by (apply (law_get _ _ _ _ L); eassumption).
        erewrite xbind_ok by (apply LS; [assumption|apply zset_ok; assumption]).
        apply LS; [now rewrite zlen_upd|]. apply zset_ok. now rewrite zlen_upd.
      + now rewrite !zlen_upd.
      + rewrite zget_upd by (now rewrite zlen_upd). destruct (Z.eqb_spec i j); [lia|].
        rewrite zget_upd by assumption. now rewrite Z.eqb_refl.
      + rewrite zget_upd by (now rewrite zlen_upd). now rewrite Z.eqb_refl.
      + intros k H1 H2. rewrite zget_upd by (now rewrite zlen_upd). destruct (Z.eqb_spec k j); [lia|].
        rewrite zget_upd by assumption. destruct (Z.eqb_spec k i); [lia|reflexivity].
  Qed.
End Mutate.

Lemma map_const_repeat {A B} (v : B) (l : list A) : map (fun _ => v) l = repeat v (List.length l).
Proof. induction l; cbn; congruence. Qed.

Lemma enumerates {St It T C} (o : ops St It T) n (plug : C -> list T -> St) at_ comp lt tick :
  lawful o n plug at_ -> lawful_prev o n plug at_ -> lawful_set o n plug at_ -> lawful_random o n plug at_ ->
  answers comp lt tick plug -> strict_weak_order lt -> total lt ->
  forall w pre mid post fuel, zlen (pre ++ mid ++ post) = n -> (List.length mid <= fuel)%nat ->
  sorted_by lt mid ->
  exists states perms w',
    visits (NextPermutationIterators o comp fuel (at_ (zlen pre)) (at_ (zlen pre + zlen mid)))
      (plug w (pre ++ mid ++ post)) states (plug w' (pre ++ mid ++ post)) /\
    Forall2 (fun s p => exists w, s = plug w (pre ++ p ++ post)) states perms /\
    StronglySorted (lexlt lt) perms /\ NoDup perms /\
    (forall q, In q perms <-> Permutation mid q).
Proof.
  intros L LP LS LR HC O Tot w pre mid post fuel Hn Hf Srt.
  apply asc_sorted in Srt.
  destruct (enum o n plug at_ L LP LS LR comp lt tick HC O pre post (zlen mid) fuel) with
    (m := S (List.length (filter (lexltb lt mid) (words (List.length mid) mid)))) (w := w) (p := mid) (els := mid)
    as (ss & ps & w' & e & V & F & SS & Hps & Call & Pe & Se).
  - rewrite !zlen_app in Hn. lia.
  - unfold zlen. lia.
  - reflexivity.
  - auto.
  - lia.
  - assert (e = mid).
    { apply asc_sorted in Se. destruct (lex_trichotomy lt e mid) as [H|[H|H]].
      - symmetry. now apply Permutation_length.
      - exfalso. revert H. apply (asc_least lt O mid Srt). now apply perm_same.
      - exfalso. revert H. apply (asc_least lt O e Se). apply perm_same. now symmetry.
      - now apply (eqvs_total lt). }
    subst e. exists ss, ps, w'. repeat split; auto.
    + clear - SS O. induction SS as [|p ps SS IH Hall]; constructor; [|assumption].
      intros Hin. rewrite Forall_forall in Hall. apply Hall in Hin. now apply (lexlt_irrefl lt O) in Hin.
    + intros Hq. now apply Hps.
    + intros Pq. destruct (Call q Pq) as (q' & Hq' & E').
      * destruct (lex_trichotomy lt q mid) as [H|[H|H]].
        -- symmetry. now apply Permutation_length.
        -- exfalso. revert H. apply (asc_least lt O mid Srt). now apply perm_same.
        -- now right.
        -- left. now apply (eqvs_total lt).
      * apply (eqvs_total lt) in E'; [|assumption]. now subst.
Qed.
