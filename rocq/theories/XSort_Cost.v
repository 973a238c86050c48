(** Proofs about xsort: number of comparisons made by Sort. *)
From Coq Require Import Permutation.
From Verif Require Import Base Arr XSort_Model XSort_Spec XSort_Panic XSort_Proofs XSort_Pdq XSort_Stab.
Local Open Scope cb_scope.

(** lambda n = log2 (n^12): drops by one when n shrinks to at most 14n/15. *)
Definition lam (n : Z) : Z := Z.log2 (n ^ 12).

Lemma lam_nonneg n : 0 <= lam n.
Proof. apply Z.log2_nonneg. Qed.

Lemma lam_mono m n : 0 <= m <= n -> lam m <= lam n.
Proof. intros H. apply Z.log2_le_mono. apply Z.pow_le_mono_l. lia. Qed.

Lemma lam_shrink m n : 0 <= m -> 0 < n -> 15 * m <= 14 * n -> 13 <= n -> lam m <= lam n - 1.
Proof.
  intros Hm Hn H H13. unfold lam.
  assert (Hp : 2 * m ^ 12 <= n ^ 12).
  { assert (H1 : (15 * m) ^ 12 <= (14 * n) ^ 12) by (apply Z.pow_le_mono_l; lia).
    rewrite !Z.pow_mul_l in H1.
    assert (0 <= n ^ 12) by (apply Z.pow_nonneg; lia).
    assert (0 <= m ^ 12) by (apply Z.pow_nonneg; lia).
    set (x := m ^ 12) in *. set (y := n ^ 12) in *. clearbody x y.
    change (15 ^ 12) with 129746337890625 in H1.
    change (14 ^ 12) with 56693912375296 in H1. lia. }
  destruct (Z.eq_dec m 0) as [->|].
  - change (Z.log2 (0 ^ 12)) with 0.
    assert (1 <= Z.log2 (n ^ 12)); [|lia].
    change 1 with (Z.log2 2). apply Z.log2_le_mono.
    assert (13 ^ 12 <= n ^ 12) by (apply Z.pow_le_mono_l; lia).
    change (13 ^ 12) with 23298085122481 in *. lia.
  - assert (0 < m ^ 12) by (apply Z.pow_pos_nonneg; lia).
    pose proof (Z.log2_double (m ^ 12) ltac:(lia)) as Hd.
    pose proof (Z.log2_le_mono _ _ Hp). lia.
Qed.

Lemma lam_log2 n : 0 < n -> lam n <= 12 * Z.log2 n + 12.
Proof.
  intros Hn. unfold lam. pose proof (Z.log2_spec n Hn) as [_ H].
  pose proof (Z.log2_nonneg n).
  assert (Hp : n ^ 12 < 2 ^ (12 * Z.log2 n + 12)).
  { replace (12 * Z.log2 n + 12) with (Z.succ (Z.log2 n) * 12) by lia.
    rewrite Z.pow_mul_r by lia. apply Z.pow_lt_mono_l; lia. }
  assert (0 < n ^ 12) by (apply Z.pow_pos_nonneg; lia).
  apply Z.log2_lt_pow2 in Hp; lia.
Qed.

Definition b2z (b : bool) : Z := if b then 1 else 0.

Definition level (n lim : Z) (wb e : bool) : Z := 2 * (lam n + lim + b2z wb) + b2z e.

(** Upper bound on comparisons for a range of length [n]. *)
Definition pot (n lim : Z) (wb e : bool) : Z :=
  15 * n * level n lim wb e + 5 * n * (Z.log2 n + 1) + 12 * n.

Lemma level_nonneg n lim wb e : 0 <= lim -> 0 <= level n lim wb e.
Proof. intros. unfold level. pose proof (lam_nonneg n). destruct wb, e; cbn [b2z]; lia. Qed.

Lemma pot_nonneg n lim wb e : 0 <= n -> 0 <= lim -> 0 <= pot n lim wb e.
Proof.
  intros. unfold pot. pose proof (level_nonneg n lim wb e H0).
  pose proof (Z.log2_nonneg n). nia.
Qed.

Lemma pot_split n n1 n2 lim lim1 wb e wb1 e1 wb2 e2 :
  0 <= n1 -> 0 <= n2 -> n1 + n2 <= n -> 0 <= lim1 -> 0 <= lim ->
  level n1 lim1 wb1 e1 <= level n lim wb e - 1 ->
  level n2 lim1 wb2 e2 <= level n lim wb e - 1 ->
  pot n1 lim1 wb1 e1 + pot n2 lim1 wb2 e2 + 15 * n <= pot n lim wb e.
Proof.
  intros H1 H2 H12 Hl1 Hl L1 L2. unfold pot.
  pose proof (level_nonneg n1 lim1 wb1 e1 Hl1). pose proof (level_nonneg n2 lim1 wb2 e2 Hl1).
  pose proof (Z.log2_le_mono n1 n ltac:(lia)). pose proof (Z.log2_le_mono n2 n ltac:(lia)).
  pose proof (Z.log2_nonneg n1). pose proof (Z.log2_nonneg n2). pose proof (Z.log2_nonneg n).
  set (L := level n lim wb e) in *. set (l1 := level n1 lim1 wb1 e1) in *.
  set (l2 := level n2 lim1 wb2 e2) in *. clearbody L l1 l2.
  set (g := Z.log2 n) in *. set (g1 := Z.log2 n1) in *. set (g2 := Z.log2 n2) in *. clearbody g g1 g2.
  assert (n1 * l1 <= n1 * (L - 1)) by nia. assert (n2 * l2 <= n2 * (L - 1)) by nia.
  assert ((n1 + n2) * (L - 1) <= n * (L - 1)) by nia.
  assert (n1 * g1 <= n1 * g) by nia. assert (n2 * g2 <= n2 * g) by nia.
  assert ((n1 + n2) * g <= n * g) by nia. lia.
Qed.

Lemma pot_step n n2 lim lim1 wb e wb2 e2 :
  0 <= n2 -> n2 <= n -> 0 <= lim1 -> 0 <= lim ->
  level n2 lim1 wb2 e2 <= level n lim wb e - 1 ->
  pot n2 lim1 wb2 e2 + 15 * n <= pot n lim wb e.
Proof.
  intros H2 H12 Hl1 Hl L2. unfold pot.
  pose proof (level_nonneg n2 lim1 wb2 e2 Hl1).
  pose proof (Z.log2_le_mono n2 n ltac:(lia)).
  pose proof (Z.log2_nonneg n2). pose proof (Z.log2_nonneg n).
  set (L := level n lim wb e) in *. set (l2 := level n2 lim1 wb2 e2) in *. clearbody L l2.
  set (g := Z.log2 n) in *. set (g2 := Z.log2 n2) in *. clearbody g g2.
  assert (n2 * l2 <= n2 * (L - 1)) by nia.
  assert (n2 * (L - 1) <= n * (L - 1)) by nia.
  assert (n2 * g2 <= n2 * g) by nia. assert (n2 * g <= n * g) by nia. lia.
Qed.

Section Cost.
  Context {E : Type}.
  Variable dflt : E.
  Variable lt ge : list E -> E -> E -> Z -> (bool + string) * Z.
  Variable ltb : E -> E -> bool.
  Hypothesis HC : C lt ge ltb.
  Hypothesis Hlt : forall d x y s, snd (lt d x y s) = s + 1.
  Hypothesis Hge : forall d x y s, snd (ge d x y s) = s + 1.
  Local Notation "d .[ i ]" := (at_ dflt d i) (at level 2, format "d .[ i ]").
  Local Notation leE := (le ltb).
  Local Notation permr := (permr dflt).
  Local Notation swp := (swp dflt).
  Local Notation bounded := (bounded dflt ltb).
  Local Notation T := (list E).
  Local Notation st := (T * Z)%type.

  Lemma cost_ltAt i j (Q : bool -> T -> Z -> Prop) d s : 0 <= i < zlen d -> 0 <= j < zlen d ->
    (forall b, ltb d.[i] d.[j] = b -> Q b d (s + 1)) -> wpd (ltAt (reads lt) i j) Q d s.
  Proof.
    intros Hi Hj HQ. unfold ltAt.
    apply wpd_bind, (wpd_rd dflt lt ge ltb); auto. apply wpd_bind, (wpd_rd dflt lt ge ltb); auto.
    unfold wpd, askLt, reads. pose proof (Hlt d d.[i] d.[j] s) as H1.
    destruct HC as (_ & Ha & _). specialize (Ha d d.[i] d.[j] s).
    destruct (lt d d.[i] d.[j] s) as [[b|e] s']; cbn [fst snd] in *; [|exact I]. cbn in H1. subst s'. apply HQ. symmetry. now eapply Ha.
  Qed.

  Lemma cost_geAt i j (Q : bool -> T -> Z -> Prop) d s : 0 <= i < zlen d -> 0 <= j < zlen d ->
    (forall b, ltb d.[i] d.[j] = negb b -> Q b d (s + 1)) -> wpd (geAt (reads ge) i j) Q d s.
  Proof.
    intros Hi Hj HQ. unfold geAt.
    apply wpd_bind, (wpd_rd dflt lt ge ltb); auto. apply wpd_bind, (wpd_rd dflt lt ge ltb); auto.
    unfold wpd, askGe, reads. pose proof (Hge d d.[i] d.[j] s) as H1.
    destruct HC as (_ & _ & Ha). specialize (Ha d d.[i] d.[j] s).
    destruct (ge d d.[i] d.[j] s) as [[b|e] s']; cbn [fst snd] in *; [|exact I]. cbn in H1. subst s'. apply HQ.
    rewrite (Ha _ _ eq_refl). now rewrite negb_involutive.
  Qed.

  Ltac wp1 :=
    match goal with
    | |- wpd (ltAt _ _ _) _ _ _ => apply cost_ltAt; [try lia|try lia|intros ? ?]
    | |- wpd (geAt _ _ _) _ _ _ => apply cost_geAt; [try lia|try lia|intros ? ?]
    | _ => wp1_ dflt lt ge ltb
    end.

  Lemma insertionInner_cost fuel : forall a j (d : T) (s : Z),
    0 <= a -> a <= j -> j < zlen d -> j - a < Z.of_nat fuel ->
    wpd (insertionInner (reads lt) fuel a j) (fun _ d' s' => zlen d' = zlen d /\ s' <= s + (j - a)) d s.
  Proof.
    induction fuel as [|fuel IH]; intros a j d s Ha Haj Hj Hf; [lia|].
    cbn [insertionInner]. wp1. wp1.
    - bools. wp1. wp1.
      + wp1. wp1. eapply wpd_conseq; [apply IH; rewrite ?zlen_swp; lia|].
        intros ? d' s' [HL Hs]. rewrite zlen_swp in HL. split; [auto|lia].
      + wp1. split; [auto|lia].
    - wp1. split; [auto|lia].
  Qed.

  Lemma insertionOuter_cost fuel : forall a b i (d : T) (s : Z),
    0 <= a -> a < i -> b <= zlen d -> Z.max 0 (b - i) < Z.of_nat fuel ->
    wpd (insertionOuter (reads lt) fuel a b i) (fun _ d' s' => s' <= s + Z.max 0 (b - i) * (b - a)) d s.
  Proof.
    induction fuel as [|fuel IH]; intros a b i d s Ha Hai Hl Hf; [lia|].
    cbn [insertionOuter]. wp1; bools.
    - wp1. eapply wpd_conseq; [apply (insertionInner_cost _ a i); lia|].
      intros ? d1 s1 [HL1 Hs1].
      eapply wpd_conseq; [apply (IH a b (i + 1)); lia|].
      intros ? d2 s2 Hs2. cbn beta in Hs2.
      replace (Z.max 0 (b - (i + 1))) with (b - i - 1) in Hs2 by lia.
      replace (Z.max 0 (b - i)) with (b - i) by lia. nia.
    - wp1. lia.
  Qed.

  Lemma insertionSort_cost a b (d : T) (s : Z) : 0 <= a <= b -> b <= zlen d ->
    wpd (insertionSort (reads lt) a b) (fun _ d' s' => s' <= s + (b - a) * (b - a)) d s.
  Proof.
    intros Ha Hb. unfold insertionSort.
    eapply wpd_conseq; [apply insertionOuter_cost; lia|].
    intros ? d' s' Hs. cbn beta in Hs. nia.
  Qed.

  Lemma siftDownLoop_cost k : forall fuel root hi first (d : T) (s : Z),
    0 <= first -> 0 <= root -> first + hi <= zlen d -> Z.max 0 (hi - root) < Z.of_nat fuel ->
    hi <= (root + 1) * 2 ^ Z.of_nat k ->
    wpd (siftDownLoop (reads lt) (reads ge) fuel root hi first)
      (fun _ d' s' => zlen d' = zlen d /\ s' <= s + 2 * Z.of_nat k) d s.
  Proof.
    induction k as [|k IH]; intros fuel root hi first d s Hfi Hr Hl Hf Hk;
      (destruct fuel as [|fuel]; [lia|]); cbn [siftDownLoop]; cbv zeta; wp1; bools.
    - wp1. split; [auto|lia].
    - change (2 ^ Z.of_nat 0) with 1 in Hk. lia.
    - wp1. split; [auto|lia].
    - rewrite Nat2Z.inj_succ, Z.pow_succ_r in Hk by lia.
      assert (0 < 2 ^ Z.of_nat k) by (apply Z.pow_pos_nonneg; lia).
      assert (Hstep : forall (bb : bool) s1,
        (bb = true -> 2 * root + 1 + 1 < hi) -> s1 <= s + 1 ->
        wpd (g <- geAt (reads ge) (first + root) (first + (if bb then 2 * root + 1 + 1 else 2 * root + 1)) ;;
          (if g then cret tt
          else swap (first + root) (first + (if bb then 2 * root + 1 + 1 else 2 * root + 1)) ;;
            siftDownLoop (reads lt) (reads ge) fuel (if bb then 2 * root + 1 + 1 else 2 * root + 1) hi first))
        (fun _ d' s' => zlen d' = zlen d /\ s' <= s + 2 * Z.of_nat (Datatypes.S k)) d s1).
      { intros bb s1 Hbb Hs1.
        set (ch := if bb then 2 * root + 1 + 1 else 2 * root + 1).
        assert (Hch : 2 * root + 1 <= ch < hi) by (unfold ch; destruct bb; [specialize (Hbb eq_refl)|]; lia).
        clearbody ch. wp1. wp1. wp1.
        - wp1. split; [auto|lia].
        - wp1. wp1. eapply wpd_conseq; [apply IH; rewrite ?zlen_swp; try lia; nia|].
          intros ? d' s' [HL Hs]. rewrite zlen_swp in HL. split; [auto|lia]. }
      wp1. wp1; bools.
      + wp1. apply Hstep; auto. lia.
      + apply (Hstep false); auto. discriminate. lia.
  Qed.

  Lemma siftDown_cost k lo hi first (d : T) (s : Z) :
    0 <= first -> 0 <= lo -> first + hi <= zlen d -> hi <= 2 ^ Z.of_nat k ->
    wpd (siftDown (reads lt) (reads ge) lo hi first)
      (fun _ d' s' => zlen d' = zlen d /\ s' <= s + 2 * Z.of_nat k) d s.
  Proof.
    intros. unfold siftDown. assert (0 < 2 ^ Z.of_nat k) by (apply Z.pow_pos_nonneg; lia).
    apply siftDownLoop_cost; try lia; nia.
  Qed.

  Lemma heapBuild_cost k fuel : forall i hi first (d : T) (s : Z),
    0 <= first -> first + hi <= zlen d -> 0 <= i + 1 < Z.of_nat fuel -> hi <= 2 ^ Z.of_nat k ->
    wpd (heapBuild (reads lt) (reads ge) fuel i hi first)
      (fun _ d' s' => zlen d' = zlen d /\ s' <= s + (i + 1) * (2 * Z.of_nat k)) d s.
  Proof.
    induction fuel as [|fuel IH]; intros i hi first d s Hfi Hl Hf Hk; [lia|].
    cbn [heapBuild]. wp1; bools.
    - wp1. eapply wpd_conseq; [apply (siftDown_cost k); lia|].
      intros ? d1 s1 [HL1 Hs1]. eapply wpd_conseq; [apply IH; lia|].
      intros ? d2 s2 [HL2 Hs2]. split; [congruence|lia].
    - wp1. split; [auto|nia].
  Qed.

  Lemma heapPop_cost k fuel : forall i first (d : T) (s : Z),
    0 <= first -> first + i + 1 <= zlen d -> 0 <= i + 1 < Z.of_nat fuel -> i <= 2 ^ Z.of_nat k ->
    wpd (heapPop (reads lt) (reads ge) fuel i 0 first)
      (fun _ d' s' => s' <= s + (i + 1) * (2 * Z.of_nat k)) d s.
  Proof.
    induction fuel as [|fuel IH]; intros i first d s Hfi Hl Hf Hk; [lia|].
    cbn [heapPop]. wp1; bools.
    - wp1. wp1. wp1. eapply wpd_conseq; [apply (siftDown_cost k); rewrite ?zlen_swp; lia|].
      intros ? d1 s1 [HL1 Hs1]. rewrite zlen_swp in HL1. eapply wpd_conseq; [apply IH; lia|].
      intros ? d2 s2 Hs2. cbn beta in Hs2. lia.
    - wp1. nia.
  Qed.

  Lemma heapSort_cost a b (d : T) (s : Z) : 0 <= a -> 1 < b - a -> b <= zlen d ->
    wpd (heapSort (reads lt) (reads ge) a b) (fun _ d' s' => s' <= s + 5 * (b - a) * (Z.log2 (b - a) + 1)) d s.
  Proof.
    intros Ha Hab Hb. unfold heapSort.
    set (k := Z.to_nat (Z.log2 (b - a) + 1)).
    pose proof (Z.log2_spec (b - a) ltac:(lia)) as [_ Hk].
    pose proof (Z.log2_nonneg (b - a)).
    assert (Hk2 : Z.of_nat k = Z.log2 (b - a) + 1) by (unfold k; lia).
    replace (Z.succ (Z.log2 (b - a))) with (Z.of_nat k) in Hk by lia.
    rewrite <- Hk2. clearbody k.
    wp1. eapply wpd_conseq; [apply (heapBuild_cost k); lia|].
    intros ? d1 s1 [HL1 Hs1]. eapply wpd_conseq; [apply (heapPop_cost k); lia|].
    intros ? d2 s2 Hs2. cbn beta in Hs2.
    assert ((b - a - 1) ÷ 2 + 1 <= b - a) by lia. 
    assert (Hq : ((b - a - 1) ÷ 2 + 1) * (2 * Z.of_nat k) <= (b - a) * (2 * Z.of_nat k)) by nia.
    nia.
  Qed.

  Lemma advI_cost fuel : forall i j a (d : T) (s : Z),
    0 <= a -> 0 <= i -> a < zlen d -> j < zlen d -> Z.max 0 (j - i + 1) < Z.of_nat fuel ->
    wpd (advI (reads lt) fuel i j a) (fun i' d' s' => d' = d /\ i <= i' /\ (i' <= j + 1 \/ i' = i) /\
      s' = s + (i' - i) + (if i' <=? j then 1 else 0)) d s.
  Proof.
    induction fuel as [|fuel IH]; intros i j a d s Ha Hi Hal Hj Hf; [lia|].
    cbn [advI]. wp1. wp1; bools.
    - wp1. wp1.
      + eapply wpd_conseq; [apply IH; lia|]. intros i' d' s' (-> & Hx1 & Hx2 & Hx3).
        repeat split; lia.
      + wp1. destruct (Z.leb_spec i j); repeat split; lia.
    - wp1. destruct (Z.leb_spec i j); repeat split; lia.
  Qed.

  Lemma advJ_cost fuel : forall i j a (d : T) (s : Z),
    0 <= a -> 0 <= i -> a < zlen d -> j < zlen d -> Z.max 0 (j - i + 1) < Z.of_nat fuel ->
    wpd (advJ (reads ge) fuel i j a) (fun j' d' s' => d' = d /\ j' <= j /\ (i - 1 <= j' \/ j' = j) /\
      s' = s + (j - j') + (if i <=? j' then 1 else 0)) d s.
  Proof.
    induction fuel as [|fuel IH]; intros i j a d s Ha Hi Hal Hj Hf; [lia|].
    cbn [advJ]. wp1. wp1; bools.
    - wp1. wp1.
      + eapply wpd_conseq; [apply IH; lia|]. intros i' d' s' (-> & Hx1 & Hx2 & Hx3).
        repeat split; lia.
      + wp1. destruct (Z.leb_spec i j); repeat split; lia.
    - wp1. destruct (Z.leb_spec i j); repeat split; lia.
  Qed.

  Lemma eqAdvI_cost fuel : forall i j a (d : T) (s : Z),
    0 <= a -> 0 <= i -> a < zlen d -> j < zlen d -> Z.max 0 (j - i + 1) < Z.of_nat fuel ->
    wpd (eqAdvI (reads ge) fuel i j a) (fun i' d' s' => d' = d /\ i <= i' /\ (i' <= j + 1 \/ i' = i) /\
      s' = s + (i' - i) + (if i' <=? j then 1 else 0)) d s.
  Proof.
    induction fuel as [|fuel IH]; intros i j a d s Ha Hi Hal Hj Hf; [lia|].
    cbn [eqAdvI]. wp1. wp1; bools.
    - wp1. wp1.
      + eapply wpd_conseq; [apply IH; lia|]. intros i' d' s' (-> & Hx1 & Hx2 & Hx3).
        repeat split; lia.
      + wp1. destruct (Z.leb_spec i j); repeat split; lia.
    - wp1. destruct (Z.leb_spec i j); repeat split; lia.
  Qed.

  Lemma eqAdvJ_cost fuel : forall i j a (d : T) (s : Z),
    0 <= a -> 0 <= i -> a < zlen d -> j < zlen d -> Z.max 0 (j - i + 1) < Z.of_nat fuel ->
    wpd (eqAdvJ (reads lt) fuel i j a) (fun j' d' s' => d' = d /\ j' <= j /\ (i - 1 <= j' \/ j' = j) /\
      s' = s + (j - j') + (if i <=? j' then 1 else 0)) d s.
  Proof.
    induction fuel as [|fuel IH]; intros i j a d s Ha Hi Hal Hj Hf; [lia|].
    cbn [eqAdvJ]. wp1. wp1; bools.
    - wp1. wp1.
      + eapply wpd_conseq; [apply IH; lia|]. intros i' d' s' (-> & Hx1 & Hx2 & Hx3).
        repeat split; lia.
      + wp1. destruct (Z.leb_spec i j); repeat split; lia.
    - wp1. destruct (Z.leb_spec i j); repeat split; lia.
  Qed.

  Lemma partitionLoop_cost fuel : forall i j a b (d : T) (s : Z),
    0 <= a < i -> a <= j -> i <= j + 2 -> j < b -> b <= zlen d ->
    Z.max 0 (j - i + 1) < Z.of_nat fuel ->
    wpd (partitionLoop (reads lt) (reads ge) fuel i j a) (fun j' d' s' => zlen d' = zlen d /\
      a <= j' <= j /\ s' <= s + (j - i + 3)) d s.
  Proof.
    induction fuel as [|fuel IH]; intros i j a b d s Ha Haj Hij Hj Hb Hf; [lia|].
    cbn [partitionLoop]. wp1. eapply wpd_conseq; [apply advI_cost; unfold scanFuel; lia|].
    intros i' d1 s1 (-> & Hi1 & Hi2 & Hi3). wp1.
    eapply wpd_conseq; [apply advJ_cost; unfold scanFuel; lia|].
    intros j' d1 s2 (-> & Hj1 & Hj2 & Hj3). wp1; bools.
    - wp1. split; [auto|]. destruct (Z.leb_spec i' j), (Z.leb_spec i' j'); lia.
    - wp1. wp1. eapply wpd_conseq; [apply (IH (i' + 1) (j' - 1) a b); rewrite ?zlen_swp; lia|].
      intros j2 d2 s3 (HL & Hr & Hs). rewrite zlen_swp in HL. split; [auto|].
      destruct (Z.leb_spec i' j), (Z.leb_spec i' j'); lia.
  Qed.

  Lemma partition_cost a b pivot (d : T) (s : Z) :
    0 <= a -> a + 1 < b -> b <= zlen d -> a <= pivot < b ->
    wpd (partition (reads lt) (reads ge) a b pivot) (fun r d' s' => s' <= s + (b - a + 1)) d s.
  Proof.
    intros Ha Hab Hb Hp. unfold partition. wp1. wp1. cbv zeta. wp1.
    eapply wpd_conseq; [apply advI_cost; unfold scanFuel; rewrite ?zlen_swp; lia|].
    intros i d1 s1 (-> & Hi1 & Hi2 & Hi3). wp1.
    eapply wpd_conseq; [apply advJ_cost; unfold scanFuel; rewrite ?zlen_swp; lia|].
    intros j d1 s2 (-> & Hj1 & Hj2 & Hj3).
    pose proof (zlen_swp dflt d a pivot) as HL0.
    set (d0 := swp d a pivot) in *. clearbody d0. wp1; bools.
    - wp1. wp1. wp1. destruct (Z.leb_spec i (b - 1)), (Z.leb_spec i j); lia.
    - wp1. wp1. wp1.
      eapply wpd_conseq; [apply (partitionLoop_cost _ _ _ a b); unfold scanFuel; rewrite ?zlen_swp; lia|].
      intros j2 d2 s3 (HL & Hr & Hs). rewrite zlen_swp in HL. wp1. wp1. wp1.
      destruct (Z.leb_spec i (b - 1)), (Z.leb_spec i j); lia.
  Qed.

  Lemma partitionEqualLoop_cost fuel : forall i j a b (d : T) (s : Z),
    0 <= a < i -> a <= j -> i <= j + 2 -> j < b -> b <= zlen d ->
    Z.max 0 (j - i + 1) < Z.of_nat fuel ->
    wpd (partitionEqualLoop (reads lt) (reads ge) fuel i j a) (fun _ d' s' => s' <= s + (j - i + 3)) d s.
  Proof.
    induction fuel as [|fuel IH]; intros i j a b d s Ha Haj Hij Hj Hb Hf; [lia|].
    cbn [partitionEqualLoop]. wp1. eapply wpd_conseq; [apply eqAdvI_cost; unfold scanFuel; lia|].
    intros i' d1 s1 (-> & Hi1 & Hi2 & Hi3). wp1.
    eapply wpd_conseq; [apply eqAdvJ_cost; unfold scanFuel; lia|].
    intros j' d1 s2 (-> & Hj1 & Hj2 & Hj3). wp1; bools.
    - wp1. destruct (Z.leb_spec i' j), (Z.leb_spec i' j'); lia.
    - wp1. wp1. eapply wpd_conseq; [apply (IH (i' + 1) (j' - 1) a b); rewrite ?zlen_swp; lia|].
      intros j2 d2 s3 Hs. cbn beta in Hs.
      destruct (Z.leb_spec i' j), (Z.leb_spec i' j'); lia.
  Qed.

  Lemma partitionEqual_cost a b pivot (d : T) (s : Z) :
    0 <= a -> a + 1 < b -> b <= zlen d -> a <= pivot < b ->
    wpd (partitionEqual (reads lt) (reads ge) a b pivot) (fun r d' s' => s' <= s + (b - a + 1)) d s.
  Proof.
    intros Ha Hab Hb Hp. unfold partitionEqual. wp1. wp1.
    eapply wpd_conseq; [apply (partitionEqualLoop_cost _ _ _ a b); unfold scanFuel; rewrite ?zlen_swp; lia|].
    intros m d2 s3 Hs. cbn beta in Hs. lia.
  Qed.

  Lemma order2_cost i j sw (d : T) (s : Z) : 0 <= i < zlen d -> 0 <= j < zlen d ->
    wpd (order2 (reads lt) i j sw) (fun r d' s' => s' = s + 1) d s.
  Proof. intros. unfold order2. wp1. wp1. wp1. auto. Qed.

  Lemma median_cost lo hi i j k sw (d : T) (s : Z) :
    0 <= lo -> hi <= zlen d -> lo <= i < hi -> lo <= j < hi -> lo <= k < hi ->
    wpd (median (reads lt) i j k sw) (fun r d' s' => d' = d /\ lo <= fst r < hi /\ s' = s + 3) d s.
  Proof.
    intros Hl Hh Hi Hj Hk. unfold median.
    wp1. eapply wpd_conseq; [apply wpd_and; [apply (order2_spec dflt lt ge ltb); lia|apply order2_cost; lia]|].
    intros [[x1 y1] sw1] d1 s1 [[-> Hy1] ->]. cbn in Hy1.
    wp1. eapply wpd_conseq; [apply wpd_and; [apply (order2_spec dflt lt ge ltb); lia|apply order2_cost; lia]|].
    intros [[x2 y2] sw2] d1 s2 [[-> Hy2] ->]. cbn in Hy2.
    wp1. eapply wpd_conseq; [apply wpd_and; [apply (order2_spec dflt lt ge ltb); lia|apply order2_cost; lia]|].
    intros [[x3 y3] sw3] d1 s3 [[-> Hy3] ->]. cbn in Hy3. wp1. cbn. repeat split; try lia.
  Qed.

  Lemma choosePivot_cost a b (d : T) (s : Z) : 0 <= a -> a < b -> b <= zlen d ->
    wpd (choosePivot (reads lt) a b) (fun r d' s' => s' <= s + 12) d s.
  Proof.
    intros Ha Hab Hb. unfold choosePivot. cbv zeta. wp1.
    apply wpd_conseq with (P := fun r d' s' => s' <= s + 12).
    - wp1; bools.
      + wp1.
        apply wpd_conseq with (P := fun r d' s' => d' = d /\
          (a <= fst (fst (fst r)) < b /\ a <= snd (fst (fst r)) < b /\ a <= snd (fst r) < b) /\ s' <= s + 9).
        * wp1; bools.
          -- wp1. unfold medianAdjacent.
             eapply wpd_conseq; [apply (median_cost a b); lia|].
             intros [i sw1] d1 s1 (-> & Hy1 & ->). cbn in Hy1. wp1.
             eapply wpd_conseq; [apply (median_cost a b); lia|].
             intros [j sw2] d1 s2 (-> & Hy2 & ->). cbn in Hy2. wp1.
             eapply wpd_conseq; [apply (median_cost a b); lia|].
             intros [k sw3] d1 s3 (-> & Hy3 & ->). cbn in Hy3. wp1. cbn. split; [auto|lia].
          -- wp1. cbn. split; [auto|lia].
        * intros [[[i j] k] sw] d1 s1 (-> & (Hx1 & Hx2 & Hx3) & Hs). cbn in *. cbn iota.
          eapply wpd_conseq; [apply (median_cost a b); lia|].
          intros r d' s' (_ & _ & ->). lia.
      + wp1. lia.
    - intros [j sw] d1 s1 H1. cbn iota. wp1. exact H1.
  Qed.

  Lemma reverseLoop_cost fuel : forall i j (d : T) (s : Z),
    0 <= i -> j < zlen d -> Z.max 0 (j - i + 1) < Z.of_nat fuel ->
    wpd (reverseLoop fuel i j) (fun _ d' s' => s' = s) d s.
  Proof.
    induction fuel as [|fuel IH]; intros i j d s Hi Hj Hf; [lia|].
    cbn [reverseLoop]. wp1; bools.
    - wp1. wp1. apply IH; rewrite ?zlen_swp; lia.
    - wp1. auto.
  Qed.

  Lemma breakLoop_cost fuel : forall idx last random a b (d : T) (s : Z),
    0 <= a -> b <= zlen d -> 0 < b - a -> a <= idx -> last < b ->
    Z.max 0 (last - idx + 1) < Z.of_nat fuel ->
    wpd (breakLoop fuel idx last random (nextPowerOfTwo (b - a)) (b - a) a)
      (fun _ d' s' => s' = s) d s.
  Proof.
    induction fuel as [|fuel IH]; intros idx last random a b d s Ha Hb Hab Hi Hl Hf; [lia|].
    cbn [breakLoop]. wp1; bools.
    - cbv zeta. set (r := xorshiftNext random). clearbody r.
      pose proof (land_mask_bound r (b - a) Hab) as Hm.
      pose proof (nextPow2_bounds (b - a) Hab) as Hn.
      set (o := Z.land r (nextPowerOfTwo (b - a) - 1)) in *. clearbody o.
      assert (Ho : 0 <= (if o >=? b - a then o - (b - a) else o) < b - a).
      { destruct (o >=? b - a) eqn:Hc; bools; lia. }
      set (o2 := if o >=? b - a then o - (b - a) else o) in *. clearbody o2.
      wp1. wp1. apply IH; rewrite ?zlen_swp; lia.
    - wp1. auto.
  Qed.

  Lemma breakPatterns_cost a b (d : T) (s : Z) : 0 <= a -> b <= zlen d ->
    wpd (breakPatterns a b) (fun _ d' s' => s' = s) d s.
  Proof.
    intros Ha Hb. unfold breakPatterns. wp1; bools.
    - apply breakLoop_cost; lia.
    - wp1. auto.
  Qed.

  Lemma pisAdvance_cost fuel : forall i b (d : T) (s : Z),
    0 < i -> b <= zlen d -> Z.max 0 (b - i) < Z.of_nat fuel ->
    wpd (pisAdvance (reads ge) fuel i b) (fun i' d' s' => s' <= s + (i' - i) + 1) d s.
  Proof.
    induction fuel as [|fuel IH]; intros i b d s Hi Hb Hf; [lia|].
    cbn [pisAdvance]. wp1. wp1; bools.
    - wp1. wp1.
      + eapply wpd_conseq; [apply IH; lia|]. intros i' d' s' Hs. cbn beta in Hs. lia.
      + wp1. lia.
    - wp1. lia.
  Qed.

  Lemma pisShiftLeft_cost fuel : forall a j hi (d : T) (s : Z),
    0 <= a <= j -> j < hi -> hi <= zlen d -> j < Z.of_nat fuel ->
    (0 < a -> forall k, a <= k < hi -> leE d.[a - 1] d.[k]) ->
    wpd (pisShiftLeft (reads ge) fuel j) (fun _ d' s' => s' <= s + (j - a + 1)) d s.
  Proof.
    induction fuel as [|fuel IH]; intros a j hi d s Ha Hj Hl Hf Hbd; [lia|].
    cbn [pisShiftLeft]. wp1; bools.
    - wp1. wp1. wp1.
      + wp1. lia.
      + subst b. assert (a < j).
        { destruct (Z.eq_dec a j) as [->|]; [|lia]. specialize (Hbd ltac:(lia) j ltac:(lia)).
          unfold le in Hbd. cbn in H0. congruence. }
        wp1. wp1. eapply wpd_conseq.
        * apply (IH a (j - 1) hi); rewrite ?zlen_swp; try lia.
          intros Ha0 k Hk. swps; try lia; apply Hbd; lia.
        * intros ? d' s' Hs. cbn beta in Hs. lia.
    - wp1. lia.
  Qed.

  Lemma pisShiftRight_cost fuel : forall j b (d : T) (s : Z),
    0 < j -> b <= zlen d -> Z.max 0 (b - j) < Z.of_nat fuel ->
    wpd (pisShiftRight (reads ge) fuel j b) (fun _ d' s' => s' <= s + Z.max 0 (b - j)) d s.
  Proof.
    induction fuel as [|fuel IH]; intros j b d s Hj Hl Hf; [lia|].
    cbn [pisShiftRight]. wp1; bools.
    - wp1. wp1. wp1.
      + wp1. lia.
      + wp1. wp1. eapply wpd_conseq; [apply (IH (j + 1) b); rewrite ?zlen_swp; lia|].
        intros ? d' s1 Hp. cbn beta in Hp. lia.
    - wp1. lia.
  Qed.

  (** Invariant of the loop, kept together with the counts. *)
  Lemma pisLoop_cost steps : forall i a b (d : T) (s : Z),
    0 <= a < i -> i <= b -> b <= zlen d -> bounded a b d -> srt dflt ltb a i d ->
    wpd (pisLoop (reads ge) steps i a b) (fun r d' s' =>
      s' <= s + (b - i) + Z.of_nat steps * (2 * (b - a) + 1)) d s.
  Proof.
    induction steps as [|steps IH]; intros i a b d s Ha Hib Hb Hbd Hsrt.
    { cbn [pisLoop]. wp1. lia. }
    cbn [pisLoop]. wp1.
    eapply wpd_conseq; [apply wpd_and; [apply (pisAdvance_spec dflt lt ge ltb); lia|apply pisAdvance_cost; lia]|].
    intros i' d1 s1 [(-> & Hi1 & Hi2 & Hi3) Hc1]. specialize (Hi3 HC). wp1; bools.
    { wp1. nia. }
    wp1; bools.
    { wp1. nia. }
    wp1. wp1. wp1.
    assert (Hp1 : permr a b d (swp d i' (i' - 1))) by (apply permr_swp; lia).
    pose proof (zlen_swp dflt d i' (i' - 1)) as HL1.
    set (d1 := swp d i' (i' - 1)) in *.
    assert (Hbd1 : bounded a b d1) by (apply (bounded_permr dflt lt ge ltb a b d d1); auto; lia).
    assert (Hal : almost dflt ltb a (i' - 1) i' d1).
    { assert (Hsi : srt dflt ltb a i' d).
      { apply (adj_srt dflt lt ge ltb); [apply HC|]. intros k Hk.
        destruct (Z.lt_ge_cases k i); [apply Hsrt; lia|]. apply Hi3. lia. }
      intros p q Hpp Hpq Hq Hne. unfold d1. swps; try lia. apply Hsi; lia. }
    assert (Hleft : wpd (if i' - a >=? 2 then pisShiftLeft (reads ge) (Z.to_nat i' + 1) (i' - 1) else cret tt)
      (fun _ d' s' => (permr a i' d1 d' /\ srt dflt ltb a i' d') /\ s' <= s1 + (i' - a)) d1 s1).
    { wp1; bools.
      - eapply wpd_conseq; [apply wpd_and;
          [apply (pisShiftLeft_spec dflt lt ge ltb _ a (i' - 1) i'); lia
          |apply (pisShiftLeft_cost _ a (i' - 1) i'); try lia]|].
        + intros Ha0 k Hk. apply Hbd1; lia.
        + intros ? d' s2 [[Hp2 Hs2] Hcc]. split; [|lia].
          apply Hs2; auto; try lia. intros Ha0 k Hk. apply Hbd1; lia.
      - wp1. split; [split; [apply permr_refl|]|lia].
        apply (srt_small dflt lt ge ltb). lia. }
    eapply wpd_conseq; [apply Hleft|]. intros ? d2 s2 [[Hp2 Hs2] Hc2]. clear Hleft.
    pose proof (permr_len _ _ _ _ _ Hp2) as HL2. wp1.
    assert (Hright : wpd (if b - i' >=? 2 then pisShiftRight (reads ge) (Z.to_nat (b - i') + 1) (i' + 1) b else cret tt)
      (fun _ d' s' => permr i' b d2 d' /\ s' <= s2 + (b - i')) d2 s2).
    { wp1; bools.
      - eapply wpd_conseq; [apply wpd_and;
          [apply (pisShiftRight_spec dflt lt ge ltb); lia|apply pisShiftRight_cost; lia]|].
        intros ? d' s3 [Hp Hcc]. split; [|lia]. eapply permr_weaken; [apply Hp|lia|lia].
      - wp1. split; [apply permr_refl|lia]. }
    eapply wpd_conseq; [apply Hright|]. intros ? d3 s3 [Hp3 Hc3]. clear Hright.
    pose proof (permr_len _ _ _ _ _ Hp3) as HL3.
    eapply wpd_conseq; [apply (IH i' a b); try lia|].
    - assert (Hp03 : permr a b d1 d3).
      { eapply permr_trans; [eapply permr_weaken; [apply Hp2|lia|lia]|].
        eapply permr_weaken; [apply Hp3|lia|lia]. }
      apply (bounded_permr dflt lt ge ltb a b d1 d3); auto; lia.
    - apply (srt_ext dflt lt ge ltb a i' d2); auto. intros k Hk.
      symmetry. apply (permr_out dflt _ _ _ _ _ Hp3); lia.
    - intros r d4 s4 Hs4. cbn beta in Hs4. nia.
  Qed.

  Lemma partialInsertionSort_cost a b (d : T) (s : Z) :
    0 <= a -> 12 < b - a -> b <= zlen d -> bounded a b d ->
    wpd (partialInsertionSort (reads ge) a b) (fun r d' s' => s' <= s + 12 * (b - a)) d s.
  Proof.
    intros Ha Hab Hb Hbd. unfold partialInsertionSort.
    eapply wpd_conseq; [apply pisLoop_cost; auto; try lia|].
    - apply (srt_small dflt lt ge ltb). lia.
    - intros r d' s' Hs. cbn beta in Hs. lia.
  Qed.

  (** Every element of the range is strictly above its left neighbour's. *)
  Definition sbounded (a b : Z) (d : T) : Prop :=
    0 < a -> forall k, a <= k < b -> ltb d.[a - 1] d.[k] = true.

  Lemma sbounded_permr a b d d' : 0 <= a -> b <= zlen d ->
    sbounded a b d -> permr a b d d' -> sbounded a b d'.
  Proof.
    intros Ha Hb Hbd Hp Ha0. rewrite (permr_out dflt _ _ _ _ (a - 1) Hp) by lia.
    intros i Hi. apply (permr_forall dflt a b d d' (fun x => ltb d.[a - 1] x = true)); auto; lia.
  Qed.

  Definition costs (a b lim : Z) (m : CM (@XSort_Model.st E Z) unit) : Prop :=
    forall d s, b <= zlen d -> bounded a b d ->
      wpd m (fun _ d' s' => s' <= s + pot (b - a) lim true true) d s.

  Lemma pdqLoop_cost self fuel : forall a b limit wb wp e (d : T) (s : Z),
    0 <= a <= b -> b <= zlen d -> 0 <= limit ->
    (forall a' b' lim, a <= a' <= b' -> b' <= b -> 2 * (b' - a') <= b - a ->
       (12 < b - a) -> sorts dflt lt ge ltb a' b' (self a' b' lim)) ->
    (forall a' b' lim, a <= a' <= b' -> b' <= b -> 2 * (b' - a') <= b - a ->
       (12 < b - a) -> 0 <= lim -> costs a' b' lim (self a' b' lim)) ->
    b - a < Z.of_nat fuel -> bounded a b d -> (e = false -> sbounded a b d) ->
    wpd (pdqLoop (reads lt) (reads ge) self fuel a b limit wb wp) (fun _ d' s' =>
      s' <= s + pot (b - a) limit wb e) d s.
  Proof.
    induction fuel as [|fuel IH]; intros a b limit wb wp e d s Ha Hb Hlim Hself Hcost Hf Hbd He; [lia|].
    pose proof (Z.log2_nonneg (b - a)) as Hlog.
    pose proof (level_nonneg (b - a) limit wb e Hlim) as Hlev.
    cbn [pdqLoop]. cbv zeta. wp1; bools.
    { eapply wpd_conseq; [apply insertionSort_cost; lia|].
      intros ? d' s' Hs. cbn beta in Hs. unfold pot.
      assert ((b - a) * (b - a) <= 12 * (b - a)) by nia. nia. }
    wp1; bools.
    { eapply wpd_conseq; [apply heapSort_cost; lia|].
      intros ? d' s' Hs. cbn beta in Hs. unfold pot. nia. }
    wp1. apply wpd_conseq with (P := fun _ d' s' => permr a b d d' /\ s' = s).
    { wp1.
      - apply wpd_and; [apply (breakPatterns_spec dflt lt ge ltb); lia|apply breakPatterns_cost; lia].
      - wp1. split; [apply permr_refl|auto]. }
    intros ? d1 s1 [Hp1 ->]. pose proof (permr_len _ _ _ _ _ Hp1) as HL1.
    wp1. eapply wpd_conseq; [apply wpd_and;
      [apply (choosePivot_spec dflt lt ge ltb); lia|apply choosePivot_cost; lia]|].
    intros [pivot hint] ? s2 [[-> Hpiv] Hc2]. cbn in Hpiv. wp1.
    apply wpd_conseq with (P := fun r d' s' => (permr a b d1 d' /\ a <= fst r < b) /\ s' = s2).
    { destruct hint.
      1, 2: wp1; split; [split; [apply permr_refl|cbn; lia]|auto].
      wp1. eapply wpd_conseq; [apply wpd_and;
        [apply (reverseRange_spec dflt lt ge ltb a b); lia
        |unfold reverseRange; apply reverseLoop_cost; lia]|].
      intros ? d2 s3 [Hp ->]. wp1. split; [split; [auto|cbn; lia]|auto]. }
    intros [pivot2 hint2] d2 s3 [[Hp2 Hpiv2] ->]. cbn in Hpiv2. cbn iota.
    pose proof (permr_len _ _ _ _ _ Hp2) as HL2. rewrite HL1 in HL2. clear hint pivot Hpiv.
    assert (Hp02 : permr a b d d2) by (eapply permr_trans; eauto).
    clear d1 Hp1 HL1 Hp2.
    assert (Hbd2 : bounded a b d2) by (apply (bounded_permr dflt lt ge ltb a b d d2); auto; lia).
    wp1.
    apply wpd_conseq with (P := fun r d' s' => (permr 0 b d2 d' /\
      (C lt ge ltb -> bounded a b d2 -> permr a b d2 d' /\ (r = true -> srt dflt ltb a b d'))) /\
      s' <= s2 + 12 * (b - a)).
    { wp1.
      - apply wpd_and; [apply (partialInsertionSort_spec dflt lt ge ltb); lia
                       |apply partialInsertionSort_cost; auto; lia].
      - wp1. split; [split; [apply permr_refl|]|lia]. intros; split; [apply permr_refl|discriminate]. }
    intros done d3 s4 [[_ Hs3] Hc4]. destruct (Hs3 HC Hbd2) as [Hp3 _]. clear Hs3.
    pose proof (permr_len _ _ _ _ _ Hp3) as HL3.
    assert (Hp03 : permr a b d d3) by (eapply permr_trans; eauto).
    assert (Hbd3 : bounded a b d3) by (apply (bounded_permr dflt lt ge ltb a b d d3); auto; lia).
    assert (Hsb3 : e = false -> sbounded a b d3)
      by (intros; apply (sbounded_permr a b d d3); auto; lia).
    clear Hp3 Hp02 Hbd2. wp1.
    { wp1. unfold pot. assert (15 * (b - a) <= 15 * (b - a) * level (b - a) limit wb e).
      { assert (1 <= level (b - a) limit wb e); [|nia].
        unfold level. pose proof (lam_nonneg (b - a)). destruct wb, e; cbn [b2z]; lia. }
      nia. }
    wp1. apply wpd_conseq with (P := fun r d' s' => (d' = d3 /\
      (r = true -> 0 < a /\ leE d3.[pivot2] d3.[a - 1])) /\ s' <= s4 + 1).
    { wp1.
      - bools. wp1. split; [|lia]. split; [auto|]. intros ->. split; [auto|]. unfold le. auto.
      - split; [|lia]. split; [auto|discriminate]. }
    intros eq ? s5 [[-> Hq] Hc5].
    set (lim' := if negb wb then limit - 1 else limit).
    assert (Hlim' : 0 <= lim') by (unfold lim'; destruct wb; cbn [negb]; lia).
    wp1.
    - (* partitionEqual *)
      destruct (Hq H2) as [Ha0 Hle].
      assert (e = true).
      { destruct e; auto. specialize (Hsb3 eq_refl Ha0 pivot2 ltac:(lia)).
        unfold le in Hle. congruence. }
      subst e. wp1.
      eapply wpd_conseq; [apply wpd_and;
        [apply (partitionEqual_spec dflt lt ge ltb); lia|apply partitionEqual_cost; lia]|].
      intros m d4 s6 [(Hp4 & Hm & Hd4 & Hs4) Hc6]. pose proof (permr_len _ _ _ _ _ Hp4) as HL4.
      destruct (Hs4 HC) as [Heq Hgt].
      assert (Hsb : sbounded m b d4).
      { intros _ k Hk. apply (le_lt_trans ltb (proj1 HC)) with d4.[a].
        - unfold le. apply Heq. lia.
        - apply Hgt. lia. }
      eapply wpd_conseq.
      { apply (IH m b lim' wb wp false); try lia; auto.
        - intros; apply Hself; lia.
        - intros; apply Hcost; lia.
        - intros Hm0 k Hk. apply lt_le; [apply HC|]. apply Hsb; lia. }
      intros ? d5 s7 Hs7. cbn beta in Hs7.
      pose proof (pot_step (b - a) (b - m) limit lim' wb true wb false
        ltac:(lia) ltac:(lia) ltac:(lia) ltac:(lia)) as HP.
      assert (Hlv : level (b - m) lim' wb false <= level (b - a) limit wb true - 1).
      { unfold level. pose proof (lam_mono (b - m) (b - a) ltac:(lia)).
        unfold lim'. destruct wb; cbn [negb b2z]; lia. }
      specialize (HP Hlv). lia.
    - (* partition *)
      wp1. eapply wpd_conseq; [apply wpd_and;
        [apply (partition_spec dflt lt ge ltb); lia|apply partition_cost; lia]|].
      intros [m al] d4 s6 [(Hp4 & Hm & Hs4) Hc6]. cbn in Hm, Hs4. cbn iota.
      specialize (Hs4 HC). pose proof (permr_len _ _ _ _ _ Hp4) as HL4.
      assert (Hbd4 : bounded a b d4) by (apply (bounded_permr dflt lt ge ltb a b d3 d4); auto; lia).
      wp1; bools.
      + wp1. eapply wpd_conseq; [apply wpd_and;
          [apply (Hself a m); lia|apply (Hcost a m); try lia]|].
        { apply (bounded_sub dflt lt ge ltb a m b); auto; lia. }
        intros ? d5 s7 [[_ Hs5] Hc7]. destruct (Hs5 HC) as [Hp5 _].
        { apply (bounded_sub dflt lt ge ltb a m b); auto; lia. }
        pose proof (permr_len _ _ _ _ _ Hp5) as HL5.
        assert (Hpt5 : parted dflt ltb a m b d5) by (apply (parted_permrL dflt lt ge ltb a m b d4); auto; lia).
        eapply wpd_conseq.
        { apply (IH (m + 1) b lim' _ al true); try lia; try discriminate.
          - intros; apply Hself; lia.
          - intros; apply Hcost; lia.
          - intros _ k Hk. replace (m + 1 - 1) with m by lia. apply Hpt5. lia. }
        intros ? d6 s8 Hs8. cbn beta in Hs8.
        set (wb2 := m - a >=? (b - a) ÷ 8) in *.
        pose proof (pot_split (b - a) (m - a) (b - (m + 1)) limit lim' wb e true true wb2 true
          ltac:(lia) ltac:(lia) ltac:(lia) ltac:(lia) ltac:(lia)) as HP.
        assert (Hlv1 : level (m - a) lim' true true <= level (b - a) limit wb e - 1).
        { unfold level. pose proof (lam_shrink (m - a) (b - a) ltac:(lia) ltac:(lia) ltac:(lia) ltac:(lia)).
          unfold lim'. destruct wb, e; cbn [negb b2z]; lia. }
        assert (Hlv2 : level (b - (m + 1)) lim' wb2 true <= level (b - a) limit wb e - 1).
        { unfold level. destruct wb2 eqn:Hwb2.
          - unfold wb2 in Hwb2. bools.
            pose proof (lam_shrink (b - (m + 1)) (b - a) ltac:(lia) ltac:(lia) ltac:(lia) ltac:(lia)).
            unfold lim'. destruct wb, e; cbn [negb b2z]; lia.
          - pose proof (lam_mono (b - (m + 1)) (b - a) ltac:(lia)).
            unfold lim'. destruct wb, e; cbn [negb b2z]; lia. }
        specialize (HP Hlv1 Hlv2). lia.
      + wp1. eapply wpd_conseq; [apply wpd_and;
          [apply (Hself (m + 1) b); lia|apply (Hcost (m + 1) b); try lia]|].
        { intros _ k Hk. replace (m + 1 - 1) with m by lia. apply Hs4. lia. }
        intros ? d5 s7 [[_ Hs5] Hc7]. destruct (Hs5 HC) as [Hp5 _].
        { intros _ k Hk. replace (m + 1 - 1) with m by lia. apply Hs4. lia. }
        pose proof (permr_len _ _ _ _ _ Hp5) as HL5.
        assert (Hbd5 : bounded a b d5).
        { apply (bounded_permr dflt lt ge ltb a b d4 d5); auto; try lia.
          eapply permr_weaken; [apply Hp5|lia|lia]. }
        eapply wpd_conseq.
        { apply (IH a m lim' _ al true); try lia; try discriminate.
          - intros; apply Hself; lia.
          - intros; apply Hcost; lia.
          - apply (bounded_sub dflt lt ge ltb a m b); auto; lia. }
        intros ? d6 s8 Hs8. cbn beta in Hs8.
        set (wb2 := b - m >=? (b - a) ÷ 8) in *.
        pose proof (pot_split (b - a) (b - (m + 1)) (m - a) limit lim' wb e true true wb2 true
          ltac:(lia) ltac:(lia) ltac:(lia) ltac:(lia) ltac:(lia)) as HP.
        assert (Hlv1 : level (b - (m + 1)) lim' true true <= level (b - a) limit wb e - 1).
        { unfold level. pose proof (lam_shrink (b - (m + 1)) (b - a) ltac:(lia) ltac:(lia) ltac:(lia) ltac:(lia)).
          unfold lim'. destruct wb, e; cbn [negb b2z]; lia. }
        assert (Hlv2 : level (m - a) lim' wb2 true <= level (b - a) limit wb e - 1).
        { unfold level. destruct wb2 eqn:Hwb2.
          - unfold wb2 in Hwb2. bools.
            pose proof (lam_shrink (m - a) (b - a) ltac:(lia) ltac:(lia) ltac:(lia) ltac:(lia)).
            unfold lim'. destruct wb, e; cbn [negb b2z]; lia.
          - pose proof (lam_mono (m - a) (b - a) ltac:(lia)).
            unfold lim'. destruct wb, e; cbn [negb b2z]; lia. }
        specialize (HP Hlv1 Hlv2). lia.
  Qed.

  Lemma pdqsort_cost stack : forall a b limit,
    (0 < stack)%nat -> b - a < 2 ^ Z.of_nat stack -> 0 <= a <= b -> 0 <= limit ->
    costs a b limit (pdqsort (reads lt) (reads ge) stack a b limit).
  Proof.
    induction stack as [|stack IH]; intros a b limit Hst Hlen Ha Hl; [lia|].
    intros d s Hb Hbd. cbn [pdqsort].
    assert (Hstk : 12 < b - a -> (0 < stack)%nat)
      by (intros; destruct stack; [cbn in Hlen; lia|lia]).
    rewrite Nat2Z.inj_succ, Z.pow_succ_r in Hlen by lia.
    apply pdqLoop_cost; try lia; auto; try discriminate.
    - intros a' b' lim Ha' Hb' Hhalf Hbig. apply (pdqsort_spec dflt lt ge ltb); auto; lia.
    - intros a' b' lim Ha' Hb' Hhalf Hbig Hlim. apply IH; auto; lia.
  Qed.
End Cost.

(** A comparator counting its own calls. *)
Lemma Sort_cost {E} (lt : E -> E -> bool) (d : list E) :
  strict_weak_order lt ->
  exists d' k, Sort d (fun x y c => (lt x y, c + 1)) 0 = Ok (d', k) /\
    k <= 1000 * zlen d * (Z.log2 (zlen d) + 1).
Proof.
  intros HW. destruct d as [|x d0].
  { exists [], 0. split; [reflexivity|]. cbn. lia. }
  set (d := x :: d0).
  assert (Hn : 0 < zlen d) by (unfold d; rewrite zlen_cons; pose proof (zlen_nonneg d0); lia).
  set (less := fun x y c => (lt x y, c + 1)).
  assert (HC : C (always less) (notLessP (always less)) lt).
  { apply always_C; [auto|]. intros ? ? ?. reflexivity. }
  unfold Sort, SortP, SortW, SortWWithin.
  pose proof (pdqsort_cost x (always less) (notLessP (always less)) lt HC ltac:(reflexivity) ltac:(reflexivity)
    (Datatypes.S (List.length d)) 0 (zlen d) (bitsLen (zlen d)) ltac:(lia)) as Hc.
  pose proof (pow2_S_gt (List.length d)) as Hst. change (Z.of_nat (List.length d)) with (zlen d) in Hst.
  pose proof (bitsLen_nonneg x (always less) (notLessP (always less)) lt (zlen d)) as Hbl.
  rewrite Z.sub_0_r in Hc. specialize (Hc Hst ltac:(lia) Hbl d 0 ltac:(lia) ltac:(intros ?; lia)).
  unfold wpd in Hc.
  destruct (pdqsort _ _ _ _ _ _ (d, 0)) as [[u| | |e] [d' s']] eqn:Hr; try contradiction.
  2: { exfalso. eapply no_user; [apply always_total|apply notLess_total| |exact Hr]. now apply good_pdqsort. }
  exists d', s'. split; [auto|]. rewrite Z.sub_0_r in Hc. cbn beta in Hc. rewrite Z.add_0_l in Hc. clearbody d.
  eapply Z.le_trans; [apply Hc|]. unfold pot, level. cbn [b2z].
  pose proof (lam_log2 (zlen d) Hn). pose proof (lam_nonneg (zlen d)).
  pose proof (Z.log2_nonneg (zlen d)).
  unfold bitsLen. destruct (Z.leb_spec (zlen d) 0); [lia|].
  set (n := zlen d) in *. set (g := Z.log2 n) in *. clearbody n g.
  assert (15 * n * (2 * (lam n + (g + 1) + 1) + 1) <= 15 * n * (2 * (12 * g + 12 + (g + 1) + 1) + 1)) by nia.
  assert (0 <= n * g) by nia.
  lia.
Qed.
