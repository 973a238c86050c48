(** The sources deliver what they should. *)
From Coq Require Import Lia.
From Verif Require Import Base Arr Exn Iter_Model Iter_Spec Algo_Proofs Stream_Model Stream_Spec Stream_Proofs.
Local Open Scope string_scope.
Local Open Scope list_scope.
Local Open Scope Z_scope.

Lemma skipn_skipn {A} x y (l : list A) : skipn x (skipn y l) = skipn (x + y) l.
Proof. rewrite skipn_add. f_equal. lia. Qed.

Section Sources.
  Context {W O : Type} (obs : W -> O).

  (** ** Slices *)
  Definition DSlice {T} (a : list T) (i : Z) (l : list T) (b : Z) : Prop :=
    0 <= i <= zlen a /\ l = skipn (Z.to_nat i) a /\ zlen a + b <= maxInt.

  Lemma skipn_zget {T} (a : list T) i x l : 0 <= i -> skipn (Z.to_nat i) a = x :: l ->
    zget a i = Some x /\ i < zlen a /\ skipn (Z.to_nat (i + 1)) a = l.
  Proof.
    intros Hi E. assert (HL : (Z.to_nat i < List.length a)%nat).
    { destruct (Nat.lt_ge_cases (Z.to_nat i) (List.length a)) as [H|H]; [exact H|]. rewrite skipn_all2 in E by exact H. discriminate. }
    assert (Ea : a = firstn (Z.to_nat i) a ++ x :: l) by (rewrite <- E; symmetry; apply firstn_skipn).
    assert (HF : List.length (firstn (Z.to_nat i) a) = Z.to_nat i) by (rewrite firstn_length; lia).
    split; [|split; [unfold zlen; lia|]].
    - rewrite Ea. replace i with (zlen (firstn (Z.to_nat i) a)) at 2 by (unfold zlen; lia). apply zget_mid.
    - replace (Z.to_nat (i + 1)) with (1 + Z.to_nat i)%nat by lia. rewrite <- skipn_skipn, E. reflexivity.
  Qed.

  Lemma wrapInt_id x : - 2 ^ 63 <= x < 2 ^ 63 -> wrapInt x = x.
  Proof. intros H. unfold wrapInt. rewrite Z.mod_small by lia. lia. Qed.

  Lemma slice_delivers {T} (a : list T) : delivers obs (sliceSource a) (DSlice a).
  Proof.
    split.
    - intros i b w (Hi & E & Hb). exists i, w. cbn [sliceSource sNext]. symmetry in E.
      assert (HL : List.length (skipn (Z.to_nat i) a) = 0%nat) by now rewrite E. rewrite skipn_length in HL.
      replace (i =? zlen a) with true by (unfold zlen in *; lia). auto.
    - intros i x l b w (Hi & E & Hb). symmetry in E. destruct (skipn_zget a i x l ltac:(lia) E) as (Eg & Hl & Es).
      exists (i + 1), w. cbn [sliceSource sNext]. replace (i =? zlen a) with false by lia. rewrite Eg.
      split; [reflexivity|]. split; [|reflexivity]. split; [lia|]. split; [now symmetry|exact Hb].
    - intros i l b n w (Hi & -> & Hb) Hn. cbn [sliceSource sSkip]. replace (n <? 0) with false by lia.
      unfold maxInt in Hb. rewrite wrapInt_id by lia. rewrite skipn_skipn. destruct (i + n >=? zlen a) eqn:E.
      + do 3 eexists. split; [reflexivity|]. split; [|reflexivity]. split; [pose proof (zlen_nonneg a); lia|]. split; [|unfold maxInt; lia].
        rewrite !skipn_all2; [reflexivity|unfold zlen in *; lia..].
      + do 3 eexists. split; [reflexivity|]. split; [|reflexivity]. split; [lia|]. split; [|unfold maxInt; lia].
        f_equal. lia.
  Qed.

  (** ** Generators *)
  Lemma gen_skip {G T} (g : X (G * W) T) P f : generates obs g P f -> forall j z k w, P z k ->
    exists z' w', genSkip g j (z, w) = (Ok tt, (z', w')) /\ P z' (k + j)%nat /\ obs w' = obs w.
  Proof.
    intros H. induction j as [|j IH]; intros z k w HP; [exists z, w; rewrite Nat.add_0_r; auto|].
    destruct (H z k w HP) as (z1 & w1 & E1 & P1 & O1). destruct (IH z1 (S k) w1 P1) as (z2 & w2 & E2 & P2 & O2).
    exists z2, w2. cbn [genSkip]. unfold xbind. rewrite E1, E2. rewrite <- Nat.add_succ_comm. split; [reflexivity|]. split; [exact P2|congruence].
  Qed.
  Lemma generator_endless {G T} (g : X (G * W) T) P f : generates obs g P f -> endless obs (generator g) P f.
  Proof.
    intros H. split.
    - intros z k w HP. destruct (H z k w HP) as (z' & w' & E & HP' & HO). exists z', w'.
      cbn [generator sNext]. unfold xbind. rewrite E. auto.
    - intros z k n w HP _. cbn [generator sSkip]. exists n.
      destruct (gen_skip g P f H (Z.to_nat n) z k w HP) as (z' & w' & E & P' & O'). exists z', w'. unfold xbind. rewrite E. auto.
  Qed.

  Lemma bounded_skip {G T} (g : X (G * W) (option T)) P : enumerates obs g P -> forall k z l i w, P z l ->
    exists z' w', boundedSkip g k i (z, w) = (Ok (i + Z.min (Z.of_nat k) (zlen l)), (z', w')) /\ P z' (skipn k l) /\ obs w' = obs w.
  Proof.
    intros H. induction k as [|k IH]; intros z l i w HP.
    - exists z, w. cbn [boundedSkip skipn]. pose proof (zlen_nonneg l). replace (Z.min (Z.of_nat 0) (zlen l)) with 0 by lia.
      rewrite Z.add_0_r. auto.
    - cbn [boundedSkip]. destruct l as [|x l].
      + destruct (en_none _ _ _ H z w HP) as (z1 & w1 & E1 & P1 & O1). exists z1, w1. unfold xbind. rewrite E1.
        replace (Z.min _ _) with 0 by (unfold zlen; cbn; lia). rewrite Z.add_0_r. auto.
      + destruct (en_some _ _ _ H z x l w HP) as (z1 & w1 & E1 & P1 & O1). destruct (IH z1 l (i + 1) w1 P1) as (z2 & w2 & E2 & P2 & O2).
        exists z2, w2. unfold xbind. rewrite E1, E2. split; [|split; [exact P2|congruence]].
        do 2 f_equal. unfold zlen. cbn [List.length]. lia.
  Qed.
  Lemma bounded_delivers {G T} (g : X (G * W) (option T)) P : enumerates obs g P ->
    delivers obs (boundedGenerator g) (fun z l _ => P z l).
  Proof.
    intros H. split.
    - intros z b w HP. destruct (en_none _ _ _ H z w HP) as (z' & w' & E & _ & HO). exists z', w'. auto.
    - intros z x l b w HP. destruct (en_some _ _ _ H z x l w HP) as (z' & w' & E & P' & HO). exists z', w'. auto.
    - intros z l b n w HP Hn. destruct (bounded_skip g P H (Z.to_nat n) z l 0 w HP) as (z' & w' & E & P' & HO).
      eexists _, z', w'. split; [exact E|]. auto.
  Qed.

  (** ** Iterators *)
  Section Iterators.
    Context {St It T C : Type} (o : Iter_Model.ops St It T) (n : Z) (plug : C -> list T -> St) (at_ : Z -> It).
    Hypothesis LW : lawful o n plug at_.

    (** Between positions i and j of the sequence [l]. *)
    Definition DIter (c : C) (l : list T) (j : Z) (z : It * St) (r : list T) (_ : Z) : Prop :=
      exists i, z = (at_ i, plug c l) /\ zlen l = n /\ 0 <= i <= j /\ j <= n /\ r = part i j l.

    Lemma part_nil (l : list T) i : part i i l = [].
    Proof. unfold part. now rewrite Z.sub_diag. Qed.
    Lemma part_cons (l : list T) i j x r : 0 <= i <= j -> j <= zlen l -> part i j l = x :: r ->
      i < j /\ zget l i = Some x /\ part (i + 1) j l = r.
    Proof.
      intros Hi Hj E. unfold part in E. assert (i < j) by (destruct (Z.eq_dec i j) as [->|]; [rewrite Z.sub_diag in E; discriminate|lia]).
      destruct (skipn (Z.to_nat i) l) as [|y r'] eqn:Es; [rewrite firstn_nil in E; discriminate|].
      destruct (skipn_zget l i y r' ltac:(lia) Es) as (Eg & _ & Es').
      replace (Z.to_nat (j - i)) with (S (Z.to_nat (j - (i + 1)))) in E by lia. cbn [firstn] in E. injection E as -> <-.
      split; [assumption|]. split; [exact Eg|]. unfold part. now rewrite Es'.
    Qed.
    Lemma part_length (l : list T) i j : 0 <= i <= j -> j <= zlen l -> zlen (part i j l) = j - i.
    Proof. intros Hi Hj. unfold part, zlen in *. rewrite firstn_length, skipn_length. lia. Qed.
    Lemma part_skipn (l : list T) i j k : 0 <= i <= j -> j <= zlen l -> 0 <= k ->
      skipn (Z.to_nat k) (part i j l) = part (i + Z.min k (j - i)) j l.
    Proof.
      intros Hi Hj Hk. unfold part. rewrite skipn_firstn_comm, skipn_skipn.
      destruct (Z.le_ge_cases k (j - i)) as [H|H].
      - rewrite Z.min_l by lia. f_equal; [lia|f_equal; lia].
      - rewrite Z.min_r by lia. replace (Z.to_nat (j - i) - Z.to_nat k)%nat with 0%nat by lia.
        replace (j - (i + (j - i))) with 0 by lia. reflexivity.
    Qed.

    Lemma it_next c l j i w : zlen l = n -> 0 <= i <= j -> j <= n ->
      itNext (W := W) o (at_ j) ((at_ i, plug c l), w) =
        (Ok (hd_error (part i j l)), ((at_ (if i =? j then i else i + 1), plug c l), w)).
    Proof.
      intros Hl Hi Hj. unfold itNext, xbind, atCur at 1. rewrite (law_equal _ _ _ _ LW) by lia.
      destruct (i =? j) eqn:E.
      - apply Z.eqb_eq in E as ->. rewrite part_nil. reflexivity.
      - destruct (part i j l) as [|x r] eqn:Ep; [pose proof (part_length l i j Hi ltac:(lia)) as HL; rewrite Ep in HL; unfold zlen in HL; cbn in HL; lia|].
        destruct (part_cons l i j x r Hi ltac:(lia) Ep) as (_ & Eg & _).
        unfold atCur. rewrite (law_get _ _ _ _ LW _ _ _ x) by assumption. rewrite (law_next _ _ _ _ LW) by lia. reflexivity.
    Qed.

    Lemma it_skip c l j k : forall i s w, zlen l = n -> 0 <= i <= j -> j <= n ->
      itSkip (W := W) o (at_ j) k s ((at_ i, plug c l), w) =
        (Ok (s + Z.min (Z.of_nat k) (j - i)), ((at_ (i + Z.min (Z.of_nat k) (j - i)), plug c l), w)).
    Proof.
      induction k as [|k IH]; intros i s w Hl Hi Hj; cbn [itSkip].
      - replace (Z.min (Z.of_nat 0) (j - i)) with 0 by lia. rewrite !Z.add_0_r. reflexivity.
      - unfold xbind. rewrite it_next by assumption. destruct (i =? j) eqn:E.
        + apply Z.eqb_eq in E as ->. rewrite part_nil. cbn [hd_error]. replace (Z.min _ (j - j)) with 0 by lia. now rewrite !Z.add_0_r.
        + destruct (part i j l) as [|x r] eqn:Ep; [pose proof (part_length l i j Hi ltac:(lia)) as HL; rewrite Ep in HL; unfold zlen in HL; cbn in HL; lia|].
          cbn [hd_error]. rewrite IH by lia. replace (s + 1 + Z.min (Z.of_nat k) (j - (i + 1))) with (s + Z.min (Z.of_nat (S k)) (j - i)) by lia.
          now replace (i + 1 + Z.min (Z.of_nat k) (j - (i + 1))) with (i + Z.min (Z.of_nat (S k)) (j - i)) by lia.
    Qed.

    Lemma iterators_count random c l j i k w : (random = true -> lawful_random o n plug at_) ->
      zlen l = n -> 0 <= i <= j -> j <= n -> 0 <= k ->
      sSkip (iteratorSource (W := W) o random (at_ j)) k ((at_ i, plug c l), w) =
        (Ok (Z.min k (j - i)), ((at_ (i + Z.min k (j - i)), plug c l), w)).
    Proof.
      intros HR Hl Hi Hj Hk. cbn [iteratorSource sSkip]. destruct random.
      - destruct (HR eq_refl) as [HA [p0 HP]]. unfold xbind, atCur, setCur. rewrite !HP by lia.
        replace (p0 + j - (p0 + i)) with (j - i) by lia. now rewrite HA by lia.
      - rewrite it_skip by assumption. now rewrite Z2Nat.id by lia.
    Qed.

    Lemma iterators_deliver random c l j : (random = true -> lawful_random o n plug at_) ->
      delivers obs (iteratorSource (W := W) o random (at_ j)) (DIter c l j).
    Proof.
      intros HR. split.
      - intros z b w (i & -> & Hl & Hi & Hj & E). eexists _, w. cbn [iteratorSource sNext]. rewrite it_next by assumption.
        rewrite <- E. split; reflexivity.
      - intros z x r b w (i & -> & Hl & Hi & Hj & E). symmetry in E. destruct (part_cons l i j x r Hi ltac:(lia) E) as (Hlt & Eg & E').
        eexists _, w. cbn [iteratorSource sNext]. rewrite it_next by assumption. rewrite E. split; [reflexivity|]. split; [|reflexivity].
        replace (i =? j) with false by lia. exists (i + 1). repeat split; auto; lia.
      - intros z r b k w (i & -> & Hl & Hi & Hj & ->) Hk. cbn [iteratorSource sSkip]. rewrite part_skipn by lia. destruct random.
        + destruct (HR eq_refl) as [HA [p0 HP]]. unfold xbind, atCur, setCur. rewrite !HP by lia.
          replace (p0 + j - (p0 + i)) with (j - i) by lia. rewrite HA by lia.
          do 3 eexists. split; [reflexivity|]. split; [|reflexivity]. exists (i + Z.min k (j - i)). repeat split; auto; lia.
        + rewrite it_skip by assumption. do 3 eexists. split; [reflexivity|]. split; [|reflexivity].
          rewrite Z2Nat.id by lia. exists (i + Z.min k (j - i)). repeat split; auto; lia.
    Qed.
  End Iterators.

  (** ** Integers *)
  Section Ints.
    Context (t : inttype) (Ht : 0 < bits t).

    Lemma pow_pos : 0 < 2 ^ bits t.
    Proof. apply Z.pow_pos_nonneg; lia. Qed.
    Lemma span : tmax t - tmin t + 1 = 2 ^ bits t.
    Proof.
      unfold tmax, tmin. destruct (signed t); [|lia]. replace (2 ^ bits t) with (2 * 2 ^ (bits t - 1)); [lia|].
      rewrite <- Z.pow_succ_r by lia. f_equal. lia.
    Qed.
    Lemma wrap_in x : inType t (wrap t x).
    Proof. unfold inType, wrap. pose proof span. pose proof pow_pos. pose proof (Z.mod_pos_bound (x - tmin t) (2 ^ bits t)). lia. Qed.
    Lemma wrap_id x : inType t x -> wrap t x = x.
    Proof. unfold inType, wrap. intros H. pose proof span. rewrite Z.mod_small by lia. lia. Qed.
    Lemma wrap_add x y : wrap t (wrap t x + y) = wrap t (x + y).
    Proof.
      unfold wrap. f_equal. pose proof pow_pos.
      replace ((x - tmin t) mod 2 ^ bits t + tmin t + y - tmin t) with ((x - tmin t) mod 2 ^ bits t + y) by lia.
      rewrite Zplus_mod_idemp_l. f_equal. lia.
    Qed.
    Lemma wrap_add_r x y : wrap t (x + wrap t y) = wrap t (x + y).
    Proof. rewrite Z.add_comm, wrap_add. f_equal. lia. Qed.
    Lemma wrap_shift x k : wrap t (x + k * 2 ^ bits t) = wrap t x.
    Proof. unfold wrap. f_equal. pose proof pow_pos. replace (x + k * 2 ^ bits t - tmin t) with (x - tmin t + k * 2 ^ bits t) by lia. apply Z.mod_add. lia. Qed.

    (** [n] numbers are left from cur. *)
    Definition DRange (i : intSource_) (l : list Z) (b : Z) : Prop :=
      inf i = false /\ step i <> 0 /\ inType t (cur i) /\
      let n := range_count (cur i) (end_ i) (step i) in
      l = progression (cur i) (step i) n /\
      inType t (cur i + (Z.of_nat n + b) * step i) /\ inType t b /\ (0 <= b).

    Lemma progression_S a s n : progression a s (S n) = a :: progression (a + s) s n.
    Proof.
      unfold progression. cbn [seq map]. f_equal; [lia|]. rewrite <- seq_shift, map_map. apply map_ext. intros k. lia.
    Qed.
    Lemma count_zero a e s : s <> 0 -> range_count a e s = 0%nat <-> (s > 0 /\ a > e) \/ (s < 0 /\ a < e).
    Proof.
      intros Hs. unfold range_count. destruct (s >? 0) eqn:E.
      - assert (s > 0) by lia. split; intros H0.
        + left. split; [lia|]. destruct (Z_le_gt_dec a e) as [Hle|]; [|lia].
          assert (0 <= (e - a) / s) by (apply Z.div_pos; lia). lia.
        + assert (e - a < 0) by lia. assert ((e - a) / s < 0) by (apply Z.div_lt_upper_bound; lia). lia.
      - assert (s < 0) by lia. split; intros H0.
        + right. split; [lia|]. destruct (Z_lt_ge_dec a e) as [|Hle]; [lia|].
          assert (0 <= (a - e) / - s) by (apply Z.div_pos; lia). lia.
        + assert (a - e < 0) by lia. assert ((a - e) / - s < 0) by (apply Z.div_lt_upper_bound; lia). lia.
    Qed.
    Lemma count_S a e s n : s <> 0 -> range_count a e s = S n -> range_count (a + s) e s = n.
    Proof.
      unfold range_count. intros Hs E. destruct (s >? 0) eqn:E0.
      - replace (e - (a + s)) with (e - a + (-1) * s) by lia. rewrite Z.div_add by lia. lia.
      - replace (a + s - e) with (a - e + (-1) * (- s)) by lia. rewrite Z.div_add by lia. lia.
    Qed.
    Lemma count_skip a e s k : s <> 0 -> range_count (a + Z.of_nat k * s) e s = (range_count a e s - k)%nat.
    Proof.
      unfold range_count. intros Hs. destruct (s >? 0) eqn:E0.
      - replace (e - (a + Z.of_nat k * s)) with (e - a + (- Z.of_nat k) * s) by lia. rewrite Z.div_add by lia. lia.
      - replace (a + Z.of_nat k * s - e) with (a - e + (- Z.of_nat k) * (- s)) by lia. rewrite Z.div_add by lia. lia.
    Qed.
    Lemma progression_skip s k : forall a n, skipn k (progression a s n) = progression (a + Z.of_nat k * s) s (n - k).
    Proof.
      induction k as [|k IH]; intros a n.
      - cbn [skipn]. rewrite Nat.sub_0_r. f_equal. lia.
      - destruct n as [|n]; [reflexivity|]. rewrite progression_S. cbn [skipn]. rewrite IH. cbn [Nat.sub]. f_equal. lia.
    Qed.

    Lemma between a b m s : inType t a -> inType t b -> (m = 0 \/ (0 <= m <= s \/ s <= m <= 0)) -> b = a + s -> inType t (a + m).
    Proof. unfold inType. lia. Qed.

    Lemma range_delivers : delivers obs (intSource (W := W) t) DRange.
    Proof.
      split.
      - intros [e s c f] b w (Hf & Hs & Hc & E & Hn & Hb). cbn [cur end_ step inf] in *. subst f.
        destruct (range_count c e s) as [|n] eqn:En; [|rewrite progression_S in E; discriminate].
        apply count_zero in En; [|exact Hs]. eexists _, w. cbn [intSource sNext cur end_ step inf negb andb].
        replace ((s >? 0) && (c >? e) || (s <? 0) && (c <? e)) with true by lia. split; reflexivity.
      - intros [e s c f] x l b w (Hf & Hs & Hc & E & Hn & Hb & Hb0). cbn [cur end_ step inf] in *. subst f.
        destruct (range_count c e s) as [|n] eqn:En; [discriminate|]. rewrite progression_S in E. injection E as -> ->.
        assert (HZ : ~ (s > 0 /\ c > e \/ s < 0 /\ c < e)) by (rewrite <- count_zero by exact Hs; lia).
        assert (Hin : inType t (c + s)).
        { unfold inType in *. nia. }
        eexists _, w. cbn [intSource sNext cur end_ step inf negb andb].
        replace ((s >? 0) && (c >? e) || (s <? 0) && (c <? e)) with false by lia. split; [reflexivity|]. split; [|reflexivity].
        rewrite wrap_id by exact Hin. unfold DRange. cbn [cur end_ step inf]. rewrite (count_S c e s n Hs En).
        split; [reflexivity|]. split; [exact Hs|]. split; [exact Hin|]. split; [reflexivity|]. split; [|auto].
        replace (c + s + (Z.of_nat n + b) * s) with (c + (Z.of_nat (S n) + b) * s) by lia. exact Hn.
      - intros [e s c f] l b n w (Hf & Hs & Hc & E & Hn & Hb & Hb0) Hk. cbn [cur end_ step inf] in *. subst f l.
        cbn [intSource sSkip cur end_ step inf]. do 3 eexists. split; [reflexivity|]. split; [|reflexivity].
        rewrite (wrap_id n) by (unfold inType, tmin, tmax in *; destruct (signed t); lia).
        rewrite wrap_add_r. set (m := range_count c e s) in *.
        assert (Hin : inType t (c + n * s)) by (unfold inType in *; nia).
        rewrite (wrap_id _ Hin). unfold DRange. cbn [cur end_ step inf].
        assert (HC : range_count (c + n * s) e s = (m - Z.to_nat n)%nat).
        { rewrite <- (Z2Nat.id n) at 1 by lia. now apply count_skip. }
        rewrite HC, progression_skip, Z2Nat.id by lia.
        split; [reflexivity|]. split; [exact Hs|]. split; [exact Hin|]. split; [reflexivity|].
        split; [|unfold inType, tmin, tmax in *; destruct (signed t); lia].
        destruct (Z.le_ge_cases n (Z.of_nat m)) as [Hle|Hge].
        + replace (Z.of_nat (m - Z.to_nat n)) with (Z.of_nat m - n) by lia.
          replace (c + n * s + (Z.of_nat m - n + (b - n)) * s) with (c + (Z.of_nat m + (b - n)) * s) by ring.
          unfold inType in *. nia.
        + replace (m - Z.to_nat n)%nat with 0%nat by lia. replace (c + n * s + (Z.of_nat 0 + (b - n)) * s) with (c + b * s) by (cbn [Z.of_nat]; ring).
          unfold inType in *. nia.
    Qed.

    (** Without end. *)
    Lemma sequence_endless start s : endless obs (intSource (W := W) t)
      (fun i k => inf i = true /\ step i = s /\ cur i = wrap t (start + Z.of_nat k * s)) (fun k => wrap t (start + Z.of_nat k * s)).
    Proof.
      split.
      - intros [e s' c f] k w (Hf & Hs & Hc). cbn [inf step cur] in *. subst. eexists _, w. cbn [intSource sNext cur end_ step inf negb andb].
        split; [reflexivity|]. split; [|reflexivity]. cbn [inf step cur]. repeat split. rewrite wrap_add. f_equal. lia.
      - intros [e s' c f] k n w (Hf & Hs & Hc) Hn. cbn [inf step cur] in *. subst. do 3 eexists. cbn [intSource sSkip cur end_ step inf].
        split; [reflexivity|]. split; [|reflexivity]. cbn [inf step cur]. repeat split.
        rewrite wrap_add_r, wrap_add. assert (HQ : exists q, wrap t n = n + q * 2 ^ bits t).
        { unfold wrap. exists (- ((n - tmin t) / 2 ^ bits t)). pose proof pow_pos. rewrite Z.mod_eq by lia. lia. }
        destruct HQ as [q ->].
        replace (start + Z.of_nat k * s + (n + q * 2 ^ bits t) * s) with (start + Z.of_nat (k + Z.to_nat n) * s + q * s * 2 ^ bits t)
          by (rewrite Nat2Z.inj_add, Z2Nat.id by lia; ring).
        apply wrap_shift.
    Qed.
  End Ints.
End Sources.
