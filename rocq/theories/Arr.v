(** Proof library: arrays as lists indexed by [Z] with a default element,
    swaps, permutations confined to an index range. *)
From Coq Require Import Permutation.
From Verif Require Import Base.

Ltac Zify.zify_post_hook ::= Z.to_euclidean_division_equations.

Lemma zlen_nonneg {A} (l : list A) : 0 <= zlen l.
Proof. unfold zlen. lia. Qed.

Lemma zlen_app {A} (l l' : list A) : zlen (l ++ l') = zlen l + zlen l'.
Proof. unfold zlen. rewrite app_length. lia. Qed.

Lemma zlen_cons {A} (x : A) l : zlen (x :: l) = zlen l + 1.
Proof. unfold zlen. cbn [List.length]. lia. Qed.

Lemma zlen_nil {A} : zlen (@nil A) = 0.
Proof. reflexivity. Qed.

Lemma zlen_map {A B} (f : A -> B) l : zlen (map f l) = zlen l.
Proof. unfold zlen. now rewrite map_length. Qed.

Lemma zlen_rev {A} (l : list A) : zlen (rev l) = zlen l.
Proof. unfold zlen. now rewrite rev_length. Qed.

Lemma zlen_0_nil {A} (l : list A) : zlen l = 0 -> l = [].
Proof. destruct l; unfold zlen; cbn [List.length]; [reflexivity|lia]. Qed.

Lemma length_upd {A} (l : list A) n x : List.length (upd l n x) = List.length l.
Proof. revert n; induction l; intros [|n]; cbn; auto. Qed.

Lemma zlen_upd {A} (l : list A) n x : zlen (upd l n x) = zlen l.
Proof. unfold zlen. now rewrite length_upd. Qed.

Lemma nth_upd {A} (l : list A) n k x dd :
  (n < List.length l)%nat ->
  nth k (upd l n x) dd = if Nat.eqb k n then x else nth k l dd.
Proof.
  revert n k; induction l as [|y l IH]; intros n k Hn; cbn in Hn; [lia|].
  destruct n, k; cbn; auto. apply IH. lia.
Qed.

Lemma nth_error_upd {A} (l : list A) n k x :
  (n < List.length l)%nat ->
  nth_error (upd l n x) k = if Nat.eqb k n then Some x else nth_error l k.
Proof.
  revert n k; induction l as [|y l IH]; intros n k Hn; cbn in Hn; [lia|].
  destruct n, k; cbn; auto. apply IH. lia.
Qed.

Lemma upd_app {A} (p : list A) x y q :
  upd (p ++ x :: q) (List.length p) y = p ++ y :: q.
Proof. induction p; cbn; congruence. Qed.

Lemma zget_range {A} (l : list A) i x : zget l i = Some x -> 0 <= i < zlen l.
Proof.
  unfold zget, zlen. destruct (Z.ltb_spec i 0); [discriminate|].
  intros Hn. assert (Hl : (Z.to_nat i < List.length l)%nat)
    by (apply nth_error_Some; congruence). lia.
Qed.

Lemma zget_none {A} (l : list A) i : zget l i = None <-> ~ (0 <= i < zlen l).
Proof.
  unfold zget, zlen. destruct (Z.ltb_spec i 0); [split; [lia|reflexivity]|].
  rewrite nth_error_None. lia.
Qed.

Lemma zget_some {A} (l : list A) i : 0 <= i < zlen l -> exists x, zget l i = Some x.
Proof.
  intros Hi. destruct (zget l i) eqn:E; [eauto|].
  apply zget_none in E. contradiction.
Qed.

Lemma zset_ok {A} (l : list A) i x :
  0 <= i < zlen l -> zset l i x = Some (upd l (Z.to_nat i) x).
Proof.
  intros Hi. unfold zset.
  destruct (Z.leb_spec 0 i), (Z.ltb_spec i (zlen l)); cbn; auto; lia.
Qed.

Lemma zset_none {A} (l : list A) i x : zset l i x = None <-> ~ (0 <= i < zlen l).
Proof.
  unfold zset. destruct (Z.leb_spec 0 i), (Z.ltb_spec i (zlen l)); cbn;
    split; try discriminate; try lia; auto.
Qed.

Lemma skipn_skipn' {A} (n m : nat) (l : list A) : skipn n (skipn m l) = skipn (n + m) l.
Proof.
  revert l; induction m as [|m IH]; intros l; [now rewrite Nat.add_0_r|].
  rewrite Nat.add_succ_r. destruct l; cbn; [now rewrite skipn_nil|]. apply IH.
Qed.

Section Arr.
  Context {E : Type}.
  Variable dflt : E.

  (** Element at index [i], [dflt] if out of range. *)
  Definition at_ (d : list E) (i : Z) : E := nth (Z.to_nat i) d dflt.

  Lemma zget_at d i : 0 <= i < zlen d -> zget d i = Some (at_ d i).
  Proof.
    unfold zget, zlen, at_. intros Hi. destruct (Z.ltb_spec i 0); [lia|].
    apply nth_error_nth'. lia.
  Qed.

  Lemma zget_at_inv d i x : zget d i = Some x -> at_ d i = x.
  Proof.
    intros Hg. pose proof (zget_range _ _ _ Hg). rewrite zget_at in Hg by lia. congruence.
  Qed.

  Lemma at_upd d i k x : 0 <= i < zlen d -> 0 <= k ->
    at_ (upd d (Z.to_nat i) x) k = if k =? i then x else at_ d k.
  Proof.
    intros Hi Hk. unfold at_, zlen in *. rewrite nth_upd by lia.
    destruct (Z.eqb_spec k i), (Nat.eqb_spec (Z.to_nat k) (Z.to_nat i)); auto; lia.
  Qed.

  Lemma arr_ext d d' : zlen d = zlen d' ->
    (forall i, 0 <= i < zlen d -> at_ d i = at_ d' i) -> d = d'.
  Proof.
    unfold zlen. intros Hl He. apply nth_ext with (d := dflt) (d' := dflt); [lia|].
    intros n Hn. specialize (He (Z.of_nat n)). unfold at_ in He.
    rewrite Nat2Z.id in He. apply He. lia.
  Qed.

  Definition swp (d : list E) (i j : Z) : list E :=
    upd (upd d (Z.to_nat i) (at_ d j)) (Z.to_nat j) (at_ d i).

  Lemma zlen_swp d i j : zlen (swp d i j) = zlen d.
  Proof. unfold swp. now rewrite !zlen_upd. Qed.

  Lemma at_swp d i j k : 0 <= i < zlen d -> 0 <= j < zlen d -> 0 <= k ->
    at_ (swp d i j) k =
    if k =? j then at_ d i else if k =? i then at_ d j else at_ d k.
  Proof.
    intros Hi Hj Hk. unfold swp.
    rewrite at_upd by (rewrite ?zlen_upd; lia).
    destruct (k =? j); auto. now rewrite at_upd by lia.
  Qed.

  Lemma perm_swp d i j : 0 <= i < zlen d -> 0 <= j < zlen d ->
    Permutation d (swp d i j).
  Proof.
    intros Hi Hj. apply (proj2 (Permutation_nth d (swp d i j) dflt)).
    cbv zeta. split.
    { pose proof (zlen_swp d i j) as Hl. unfold zlen in Hl. lia. }
    exists (fun n => if Nat.eqb n (Z.to_nat i) then Z.to_nat j
                     else if Nat.eqb n (Z.to_nat j) then Z.to_nat i else n).
    unfold zlen in *. repeat split.
    - intros n Hn. destruct (Nat.eqb_spec n (Z.to_nat i)); [lia|].
      destruct (Nat.eqb_spec n (Z.to_nat j)); lia.
    - intros n m Hn Hm.
      destruct (Nat.eqb_spec n (Z.to_nat i)), (Nat.eqb_spec m (Z.to_nat i)),
        (Nat.eqb_spec n (Z.to_nat j)), (Nat.eqb_spec m (Z.to_nat j)); lia.
    - intros n Hn. pose proof (at_swp d i j (Z.of_nat n)) as Ha.
      unfold at_, zlen in Ha. rewrite Nat2Z.id in Ha. rewrite Ha by lia. clear Ha.
      destruct (Z.eqb_spec (Z.of_nat n) j), (Z.eqb_spec (Z.of_nat n) i),
        (Nat.eqb_spec n (Z.to_nat i)), (Nat.eqb_spec n (Z.to_nat j)); try lia;
        subst; try reflexivity.
  Qed.

  (** [d'] is a permutation of [d] that only moved elements of [a,b). *)
  Definition permr (a b : Z) (d d' : list E) : Prop :=
    zlen d' = zlen d /\
    (forall i, 0 <= i -> ~ (a <= i < b) -> at_ d' i = at_ d i) /\
    Permutation d d'.

  Lemma permr_refl a b d : permr a b d d.
  Proof. repeat split; auto. Qed.

  Lemma permr_trans a b d1 d2 d3 : permr a b d1 d2 -> permr a b d2 d3 -> permr a b d1 d3.
  Proof.
    intros (L1 & U1 & P1) (L2 & U2 & P2). repeat split.
    - congruence.
    - intros. rewrite U2, U1; auto.
    - eapply Permutation_trans; eauto.
  Qed.

  Lemma permr_weaken a b a' b' d d' : permr a b d d' -> a' <= a -> b <= b' -> permr a' b' d d'.
  Proof.
    intros (L & U & P) Ha Hb. repeat split; auto.
    intros i Hi Hn. apply U; lia.
  Qed.

  Lemma permr_len a b d d' : permr a b d d' -> zlen d' = zlen d.
  Proof. now intros (L & _ & _). Qed.

  Lemma permr_out a b d d' i : permr a b d d' -> 0 <= i -> ~ (a <= i < b) -> at_ d' i = at_ d i.
  Proof. intros (_ & U & _). apply U. Qed.

  Lemma permr_perm a b d d' : permr a b d d' -> Permutation d d'.
  Proof. now intros (_ & _ & P). Qed.

  Lemma permr_swp a b d i j : 0 <= i < zlen d -> 0 <= j < zlen d ->
    a <= i < b -> a <= j < b -> permr a b d (swp d i j).
  Proof.
    intros Hi Hj Hia Hja. split; [apply zlen_swp|split].
    - intros k Hk Hn. rewrite at_swp by lia.
      destruct (Z.eqb_spec k j), (Z.eqb_spec k i); auto; lia.
    - now apply perm_swp.
  Qed.

  Definition seg (a b : Z) (d : list E) : list E :=
    firstn (Z.to_nat (b - a)) (skipn (Z.to_nat a) d).

  Lemma split3 a b d : 0 <= a <= b -> b <= zlen d ->
    d = firstn (Z.to_nat a) d ++ seg a b d ++ skipn (Z.to_nat b) d.
  Proof.
    intros Hab Hb. unfold seg.
    rewrite <- (firstn_skipn (Z.to_nat a) d) at 1. f_equal.
    rewrite <- (firstn_skipn (Z.to_nat (b - a)) (skipn (Z.to_nat a) d)) at 1.
    f_equal. rewrite skipn_skipn'. f_equal. lia.
  Qed.

  Lemma nth_firstn_lt (d : list E) n k : (k < n)%nat -> nth k (firstn n d) dflt = nth k d dflt.
  Proof.
    revert n k; induction d as [|x d IH]; intros [|n] k Hk; try lia; cbn; auto.
    destruct k; auto. apply IH. lia.
  Qed.

  Lemma nth_skipn' (d : list E) n k : nth k (skipn n d) dflt = nth (n + k) d dflt.
  Proof.
    revert n; induction d as [|x d IH]; intros [|n]; cbn; auto.
    destruct k; auto.
  Qed.

  Lemma zlen_seg a b d : 0 <= a <= b -> b <= zlen d -> zlen (seg a b d) = b - a.
  Proof.
    unfold seg, zlen. intros. rewrite firstn_length, skipn_length. lia.
  Qed.

  Lemma at_seg a b d i : 0 <= a <= b -> b <= zlen d -> 0 <= i < b - a ->
    at_ (seg a b d) i = at_ d (a + i).
  Proof.
    intros. unfold at_, seg. rewrite nth_firstn_lt by lia. rewrite nth_skipn'.
    f_equal. lia.
  Qed.

  Lemma permr_seg a b d d' : permr a b d d' -> 0 <= a <= b -> b <= zlen d ->
    firstn (Z.to_nat a) d = firstn (Z.to_nat a) d' /\
    skipn (Z.to_nat b) d = skipn (Z.to_nat b) d' /\
    Permutation (seg a b d) (seg a b d').
  Proof.
    intros (L & U & P) Hab Hb.
    assert (Hf : firstn (Z.to_nat a) d = firstn (Z.to_nat a) d').
    { unfold zlen in *. apply nth_ext with (d := dflt) (d' := dflt).
      - rewrite !firstn_length. lia.
      - rewrite firstn_length. intros n Hn. rewrite !nth_firstn_lt by lia.
        specialize (U (Z.of_nat n)). unfold at_ in U. rewrite Nat2Z.id in U.
        symmetry. apply U; lia. }
    assert (Hs : skipn (Z.to_nat b) d = skipn (Z.to_nat b) d').
    { unfold zlen in *. apply nth_ext with (d := dflt) (d' := dflt).
      - rewrite !skipn_length. lia.
      - rewrite skipn_length. intros n Hn. rewrite !nth_skipn'.
        specialize (U (b + Z.of_nat n)). unfold at_ in U.
        replace (Z.to_nat (b + Z.of_nat n)) with (Z.to_nat b + n)%nat in U by lia.
        symmetry. apply U; lia. }
    split; [auto|split; [auto|]].
    rewrite (split3 a b d) in P by lia.
    rewrite (split3 a b d') in P by lia.
    rewrite Hf, Hs in P.
    apply Permutation_app_inv_l in P.
    now apply Permutation_app_inv_r in P.
  Qed.

  Lemma permr_forall a b d d' (P : E -> Prop) :
    permr a b d d' -> 0 <= a -> b <= zlen d ->
    (forall i, a <= i < b -> P (at_ d i)) -> forall i, a <= i < b -> P (at_ d' i).
  Proof.
    intros Hp Ha Hb H i Hi.
    destruct (permr_seg a b d d' Hp) as (_ & _ & HP); try lia.
    pose proof (permr_len _ _ _ _ Hp) as HL.
    assert (Hin : In (at_ d' i) (seg a b d')).
    { replace (at_ d' i) with (at_ (seg a b d') (i - a)).
      - unfold at_ at 1. apply nth_In.
        pose proof (zlen_seg a b d') as Hz. unfold zlen in *. lia.
      - rewrite at_seg by lia. f_equal. lia. }
    apply (Permutation_in _ (Permutation_sym HP)) in Hin.
    apply In_nth with (d := dflt) in Hin. destruct Hin as (n & Hn & He).
    pose proof (zlen_seg a b d) as Hz. unfold zlen in Hz.
    rewrite <- He. pose proof (at_seg a b d (Z.of_nat n)) as Hs.
    unfold at_ at 1 in Hs. rewrite Nat2Z.id in Hs. unfold zlen in *. rewrite Hs by lia.
    apply H. lia.
  Qed.

  (** Both-sided version: exact permutation of the pre-image. *)
  Lemma permr_sym a b d d' : permr a b d d' -> permr a b d' d.
  Proof.
    intros (L & U & P). repeat split; auto.
    - intros. symmetry. auto.
    - now apply Permutation_sym.
  Qed.
End Arr.
