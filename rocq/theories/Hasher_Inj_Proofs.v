(** Hashes tell values apart as far as the hash of memory does. *)
From Verif Require Import Base Hasher_Model Hasher_Spec Hasher_Proofs.

Scheme alike_ind' := Induction for alike Sort Prop with alikes_ind' := Induction for alikes Sort Prop.

Lemma leBytes_inj n : forall a b, 0 <= a < 2 ^ (8 * Z.of_nat n) -> 0 <= b < 2 ^ (8 * Z.of_nat n) -> leBytes n a = leBytes n b -> a = b.
Proof.
  induction n as [|n IH]; intros a b Ha Hb H.
  - cbn in Ha, Hb. lia.
  - cbn [leBytes] in H. injection H as H1 H2.
    replace (8 * Z.of_nat (Datatypes.S n)) with (8 + 8 * Z.of_nat n) in * by lia. rewrite Z.pow_add_r in Ha, Hb by lia. change (2 ^ 8) with 256 in *.
    apply IH in H2; [rewrite (Z.div_mod a 256), (Z.div_mod b 256) by lia; lia| |];
      (split; [apply Z.div_pos; lia|apply Z.div_lt_upper_bound; lia]).
Qed.
Lemma floatBytes_le w b : floatBytes w b = leBytes (if w then 8 else 4) b.
Proof.
  unfold floatBytes. generalize (if w then 8%nat else 4%nat) as n. intros n.
  assert (G : forall n k, map (fun i => Z.land (Z.shiftr b (8 * Z.of_nat i)) 255) (seq k n) = leBytes n (b / 2 ^ (8 * Z.of_nat k))).
  { clear n. induction n as [|n IH]; intros k; [reflexivity|]. cbn [seq map leBytes]. f_equal.
    - rewrite Z.shiftr_div_pow2 by lia. change 255 with (Z.ones 8). now rewrite Z.land_ones by lia.
    - rewrite IH. f_equal. rewrite Z.div_div by (try lia; apply Z.pow_nonzero; lia). f_equal.
      replace (8 * Z.of_nat (Datatypes.S k)) with (8 * Z.of_nat k + 8) by lia. rewrite Z.pow_add_r by lia. reflexivity. }
  rewrite G. cbn. now rewrite Z.div_1_r.
Qed.

Lemma isZero_mod (w : bool) b : 0 <= b < 2 ^ (if w then 64 else 32) -> (isZero w b = true <-> b mod (if w then 2 ^ 63 else 2 ^ 31) = 0).
Proof.
  intros Hb. unfold isZero. rewrite orb_true_iff, !Z.eqb_eq.
  assert (G : forall m, 0 < m -> 0 <= b < 2 * m -> (b = 0 \/ b = m <-> b mod m = 0)).
  { intros m Hm H. split; [intros [->| ->]; [apply Z.mod_0_l|apply Z.mod_same]; lia|].
    intros E. apply Z.mod_divide in E as [k ->]; [|lia]. assert (k = 0 \/ k = 1) as [->| ->] by nia; lia. }
  destruct w; cbn [mantBits expBits]; apply G; lia.
Qed.

Section Inj.
  Variable memhash : list Z -> Z -> Z.
  Hypothesis Hmem : forall bs h, 0 <= memhash bs h < 2 ^ 64.
  Local Notation fixed := (fixedHash memhash).
  Local Notation asks := (asks memhash).
  Local Notation rawHash := (rawHash memhash).

  Definition clash (x y : val) (h1 h2 : Z) : Prop :=
    exists q q', asks x h1 q /\ asks y h2 q' /\ q <> q' /\ rawHash q = rawHash q'.

  Lemma mulw_range a b : 0 <= mulw a b < 2 ^ 64.
  Proof. unfold mulw. apply Z.mod_pos_bound. lia. Qed.
  Lemma lxor_inj a b c : Z.lxor a c = Z.lxor b c -> a = b.
  Proof. intros E. apply (f_equal (fun x => Z.lxor x c)) in E. rewrite !Z.lxor_assoc, !Z.lxor_nilpotent, !Z.lxor_0_r in E. exact E. Qed.
  Lemma c0_range : 0 <= c0 < 2 ^ 64.
  Proof. unfold c0. lia. Qed.

  Definition told (x y : val) : Prop := ~ unhashable x -> ~ unhashable y -> ~ has_nan x -> ~ has_nan y ->
    forall h1 h2, 0 <= h1 < 2 ^ 64 -> 0 <= h2 < 2 ^ 64 ->
    exists r1 r2, fixed x h1 r1 /\ fixed y h2 r2 /\ 0 <= r1 < 2 ^ 64 /\ 0 <= r2 < 2 ^ 64 /\
      (r1 = r2 -> (h1 = h2 /\ goEq x y = Ok true) \/ clash x y h1 h2).

  Lemma query_told (x y : val) h1 h2 q q' : asks x h1 q -> asks y h2 q' -> rawHash q = rawHash q' ->
    q = q' \/ clash x y h1 h2.
  Proof.
    intros H1 H2 E. assert (D : q = q' \/ q <> q').
    { destruct q as [o h], q' as [o' h']. destruct (Z.eq_dec h h') as [->|]; [|right; congruence].
      destruct o as [a|], o' as [b|]; try (right; congruence); [|left; reflexivity].
      destruct (list_eq_dec Z.eq_dec a b) as [->|]; [left; reflexivity|right; congruence]. }
    destruct D as [D|D]; [left; exact D|right]. exists q, q'. auto.
  Qed.

  Lemma float_fixed (w : bool) b h : ~ has_nan (VFloat w b) -> 0 <= b < 2 ^ (if w then 64 else 32) -> 0 <= h < 2 ^ 64 ->
    exists q, asks (VFloat w b) h q /\ fixed (VFloat w b) h (rawHash q) /\ 0 <= rawHash q < 2 ^ 64 /\ snd q = h /\
      (if isZero w b then fst q = None else fst q = Some (leBytes (if w then 8 else 4) b)).
  Proof using Hmem.
    intros HN Hb Hh. assert (EN : isNaN w b = false).
    { destruct (isNaN w b) eqn:E; [|reflexivity]. exfalso. apply HN. constructor. now apply isNaN_bits. }
    destruct (isZero w b) eqn:EZ.
    - exists (None, h). split; [constructor; now apply isZero_mod|]. split; [|split; [apply mulw_range|auto]].
      intros rnd n. cbn [typehash]. unfold floatHash. rewrite EZ. reflexivity.
    - exists (Some (leBytes (if w then 8 else 4) b), h). split; [|split; [|split; [apply Hmem|auto]]].
      + constructor. intros C. apply isZero_mod in C; [congruence|exact Hb].
      + intros rnd n. cbn [typehash]. unfold floatHash. rewrite EZ, EN. now rewrite floatBytes_le.
  Qed.

  (** A clash among parts is one of the sequences. *)
  Lemma asks_next x l h h' q : fixed x h h' -> asks (VSeq l) h' q -> asks (VSeq (x :: l)) h q.
  Proof.
    intros Hx H. inversion H as [| | | | |l0 y r h0 h1 q0 Hl Hy E]; subst. apply (as_part memhash (x :: l0) y r h h1); [|exact Hy].
    intros rnd n. unfold HashSeed, mHashSeed, Of. rewrite typehash_seq. cbn [hashParts]. unfold bind. rewrite Hx.
    rewrite <- typehash_seq. apply Hl.
  Qed.
  Lemma asks_first x l h q : asks x h q -> asks (VSeq (x :: l)) h q.
  Proof. intros H. apply (as_part memhash [] x l h h); [reflexivity|exact H]. Qed.

  Lemma alike_told x y : alike x y -> told x y.
  Proof using Hmem.
    induction 1 using alike_ind' with (P0 := fun l l' _ => told (VSeq l) (VSeq l')); intros U1 U2 N1 N2 h1 h2 Hh1 Hh2.
    - exists (memhash a h1), (memhash b h2). split; [now intros ? ?|]. split; [now intros ? ?|]. do 2 (split; [apply Hmem|]).
      intros E. destruct (query_told (VMem a) (VMem b) h1 h2 _ _ (as_mem memhash a h1) (as_mem memhash b h2) E) as [[= -> ->]|C]; [left|right; exact C].
      split; [reflexivity|]. cbn. f_equal. now apply eqBytes_eq.
    - destruct (float_fixed w a h1 N1 a0 Hh1) as (q & A1 & F1 & R1 & S1 & V1).
      destruct (float_fixed w b h2 N2 a1 Hh2) as (q' & A2 & F2 & R2 & S2 & V2).
      exists (rawHash q), (rawHash q'). do 4 (split; [assumption|]). intros E.
      destruct (query_told _ _ _ _ _ _ A1 A2 E) as [->|C]; [left|right; exact C]. split; [congruence|].
      assert (NN : forall b, ~ has_nan (VFloat w b) -> isNaN w b = false).
      { intros b0 H. destruct (isNaN w b0) eqn:EN; [|reflexivity]. exfalso. apply H. constructor. now apply isNaN_bits. }
      cbn [goEq]. rewrite Bool.eqb_reflx, (NN a N1), (NN b N2). cbn [negb andb]. f_equal.
      destruct (isZero w a), (isZero w b); try reflexivity; try congruence.
      cbn [andb orb]. apply Z.eqb_eq. rewrite V1 in V2. injection V2 as V2. destruct w; eapply leBytes_inj; try exact V2; cbn; assumption.
    - exists (memhash a h1), (memhash b h2). split; [now intros ? ?|]. split; [now intros ? ?|]. do 2 (split; [apply Hmem|]).
      intros E. destruct (query_told (VString a) (VString b) h1 h2 _ _ (as_string memhash a h1) (as_string memhash b h2) E) as [[= -> ->]|C]; [left|right; exact C].
      split; [reflexivity|]. cbn. f_equal. now apply eqBytes_eq.
    - exists h1, h2. split; [now intros ? ?|]. split; [now intros ? ?|]. do 2 (split; [assumption|]). intros ->. left. split; reflexivity.
    - assert (Ht : comparable t = true) by (destruct (comparable t) eqn:E; [reflexivity|exfalso; apply U1; now constructor]).
      destruct (IHalike (fun C => U1 (uh_held t v C)) (fun C => U2 (uh_held t v' C)) (fun C => N1 (hn_held t v C)) (fun C => N2 (hn_held t v' C))
        (Z.lxor h1 c0) (Z.lxor h2 c0)) as (r1 & r2 & F1 & F2 & R1 & R2 & HI);
        [apply lxor_bound; [lia|assumption|apply c0_range]|apply lxor_bound; [lia|assumption|apply c0_range]|].
      exists (mulw c1 r1), (mulw c1 r2).
      split; [intros rnd n; cbn [typehash]; rewrite Ht; cbn [negb]; unfold bind; now rewrite F1|].
      split; [intros rnd n; cbn [typehash]; rewrite Ht; cbn [negb]; unfold bind; now rewrite F2|].
      do 2 (split; [apply mulw_range|]). intros E. apply mulw_c1_inj in E; [|assumption|assumption].
      destruct (HI E) as [[Eh Es]|(q & q' & A1 & A2 & Hq)]; [left|right].
      + split; [now apply lxor_inj in Eh|]. cbn [goEq]. rewrite (proj2 (sameType_eq t t) eq_refl), Ht. exact Es.
      + exists q, q'. split; [now constructor|]. split; [now constructor|exact Hq].
    - now apply IHalike.
    - exists h1, h2. split; [now intros ? ?|]. split; [now intros ? ?|]. do 2 (split; [assumption|]). intros ->. left. split; reflexivity.
    - exists h1, h2. split; [now intros ? ?|]. split; [now intros ? ?|]. do 2 (split; [assumption|]). intros ->. left. split; reflexivity.
    - assert (UT : forall v l, unhashable (VSeq l) -> unhashable (VSeq (v :: l))).
      { intros x r C. inversion C; subst. econstructor; [right; eassumption|assumption]. }
      assert (NT : forall v l, has_nan (VSeq l) -> has_nan (VSeq (v :: l))).
      { intros x r C. inversion C; subst. econstructor; [right; eassumption|assumption]. }
      destruct (IHalike (fun C => U1 (uh_part (v :: l) v (in_eq v l) C)) (fun C => U2 (uh_part (v' :: l') v' (in_eq v' l') C))
        (fun C => N1 (hn_part (v :: l) v (in_eq v l) C)) (fun C => N2 (hn_part (v' :: l') v' (in_eq v' l') C)) h1 h2 Hh1 Hh2)
        as (r1 & r2 & F1 & F2 & R1 & R2 & HI).
      destruct (IHalike0 (fun C => U1 (UT v l C)) (fun C => U2 (UT v' l' C)) (fun C => N1 (NT v l C)) (fun C => N2 (NT v' l' C)) r1 r2 R1 R2)
        as (s1 & s2 & G1 & G2 & S1 & S2 & HJ).
      exists s1, s2.
      split; [intros rnd n; rewrite typehash_seq; cbn [hashParts]; unfold bind; rewrite F1, <- typehash_seq; apply G1|].
      split; [intros rnd n; rewrite typehash_seq; cbn [hashParts]; unfold bind; rewrite F2, <- typehash_seq; apply G2|].
      do 2 (split; [assumption|]). intros E. destruct (HJ E) as [[Er Es]|(q & q' & A1 & A2 & Hq)].
      + destruct (HI Er) as [[Eh Ex]|(q & q' & A1 & A2 & Hq)]; [left|right].
        * split; [exact Eh|]. rewrite goEq_seq in *. cbn [goEqs]. now rewrite Ex.
        * exists q, q'. split; [now apply asks_first|]. split; [now apply asks_first|exact Hq].
      + right. exists q, q'. split; [eapply asks_next; eassumption|]. split; [eapply asks_next; eassumption|exact Hq].
  Qed.
End Inj.
