(** Proofs about xhash. *)
From Verif Require Import Base Arr XHash_Model XHash_Spec.

Ltac Zbool := repeat match goal with |- context [Z.ltb ?a ?b] => destruct (Z.ltb_spec a b) end.

Lemma is_word_u64 x : is_word (u64 x).
Proof. unfold is_word, u64, W64. apply Z.mod_pos_bound. lia. Qed.

Lemma u64_id x : is_word x -> u64 x = x.
Proof. intros H. unfold u64, W64. now apply Z.mod_small. Qed.

(** Words are determined by their 64 bits. *)
Lemma word_high x i : is_word x -> 64 <= i -> Z.testbit x i = false.
Proof.
  intros [H0 H1] Hi. destruct (Z.eqb_spec x 0) as [->|]; [apply Z.bits_0|].
  apply Z.bits_above_log2; [lia|]. assert (Z.log2 x < 64) by (apply Z.log2_lt_pow2; lia). lia.
Qed.

Lemma bits_word x : 0 <= x -> (forall i, 64 <= i -> Z.testbit x i = false) -> is_word x.
Proof.
  intros H0 H. split; [assumption|]. destruct (Z.eqb_spec x 0) as [->|]; [reflexivity|].
  apply Z.log2_lt_pow2; [lia|]. destruct (Z.ltb_spec (Z.log2 x) 64); [assumption|].
  pose proof (Z.bit_log2 x ltac:(lia)). rewrite H in H2 by assumption. discriminate.
Qed.

Lemma word_ext x y : is_word x -> is_word y ->
  (forall i, 0 <= i < 64 -> Z.testbit x i = Z.testbit y i) -> x = y.
Proof.
  intros Hx Hy H. apply Z.bits_inj'. intros i Hi.
  destruct (Z.ltb_spec i 64); [apply H; lia|]. now rewrite !word_high.
Qed.

Lemma lxor_word x y : is_word x -> is_word y -> is_word (Z.lxor x y).
Proof.
  intros Hx Hy. apply bits_word.
  - apply Z.lxor_nonneg. destruct Hx, Hy. lia.
  - intros i Hi. rewrite Z.lxor_spec, !word_high by assumption. reflexivity.
Qed.

Lemma shiftr_word x k : 0 <= k -> is_word x -> is_word (Z.shiftr x k).
Proof.
  intros Hk Hx. apply bits_word; [apply Z.shiftr_nonneg; destruct Hx; lia|].
  intros i Hi. rewrite Z.shiftr_spec by lia. apply word_high; [assumption|lia].
Qed.

Lemma u64_bits x i : 0 <= i < 64 -> Z.testbit (u64 x) i = Z.testbit x i.
Proof. intros. unfold u64, W64. apply Z.mod_pow2_bits_low. lia. Qed.

Lemma rotl_word x k : 0 < k < 64 -> is_word x -> is_word (RotateLeft64 x k).
Proof.
  intros Hk Hx. unfold RotateLeft64. apply bits_word.
  - apply Z.lor_nonneg. split; [apply is_word_u64|apply Z.shiftr_nonneg; destruct Hx; lia].
  - intros i Hi. rewrite Z.lor_spec, (word_high (u64 _)) by (auto using is_word_u64).
    rewrite (word_high (Z.shiftr _ _)); auto. apply shiftr_word; [lia|assumption].
Qed.

(** Bits indexed modulo 64. *)
Definition bit (x i : Z) : bool := Z.testbit x (i mod 64).

Lemma bit_period x i n : bit x (i + 64 * n) = bit x i.
Proof. unfold bit. f_equal. rewrite Z.mul_comm. apply Z_mod_plus_full. Qed.

Lemma bit_ext x y : is_word x -> is_word y -> (forall i, bit x i = bit y i) -> x = y.
Proof.
  intros Hx Hy H. apply word_ext; auto. intros i Hi. specialize (H i). unfold bit in H.
  rewrite Z.mod_small in H by lia. assumption.
Qed.

Lemma bit_lxor x y i : bit (Z.lxor x y) i = xorb (bit x i) (bit y i).
Proof. apply Z.lxor_spec. Qed.

Lemma bit_rotl x k i : 0 < k < 64 -> is_word x -> bit (RotateLeft64 x k) i = bit x (i - k).
Proof.
  intros Hk Hx. unfold bit, RotateLeft64. set (j := i mod 64).
  assert (Hj : 0 <= j < 64) by (apply Z.mod_pos_bound; lia).
  rewrite Z.lor_spec, u64_bits, Z.shiftr_spec, Z.shiftl_spec by lia.
  assert (Hm : (i - k) mod 64 = (j - k) mod 64).
  { unfold j. rewrite Zminus_mod_idemp_l. reflexivity. }
  rewrite Hm. destruct (Z.ltb_spec j k).
  - rewrite (Z.testbit_neg_r x (j - k)) by lia. cbn [orb]. f_equal.
    replace ((j - k) mod 64) with (j - k + 64); [lia|].
    symmetry. rewrite <- (Z_mod_plus_full (j - k) 1 64). apply Z.mod_small. lia.
  - rewrite (word_high x (j + (64 - k))) by (auto; lia). rewrite orb_false_r.
    rewrite Z.mod_small by lia. reflexivity.
Qed.

(** ** x ^ rotl x 49 ^ rotl x 24 is invertible: its 64th iterate is the identity. *)
Definition rr (x : Z) : Z := Z.lxor x (Z.lxor (RotateLeft64 x 49) (RotateLeft64 x 24)).

Lemma rr_word x : is_word x -> is_word (rr x).
Proof.
  intros H. unfold rr. apply lxor_word; [assumption|]. apply lxor_word; apply rotl_word; auto; lia.
Qed.

Lemma rr_bit x i : is_word x ->
  bit (rr x) i = xorb (bit x i) (xorb (bit x (i - 49)) (bit x (i - 24))).
Proof. intros H. unfold rr. rewrite !bit_lxor, !bit_rotl by (auto; lia). reflexivity. Qed.

Fixpoint iter (n : nat) (f : Z -> Z) (x : Z) : Z :=
  match n with O => x | S n' => f (iter n' f x) end.

Lemma iter_add n m f x : iter (n + m) f x = iter n f (iter m f x).
Proof. induction n; cbn; congruence. Qed.

Lemma iter_S n f x : iter (S n) f x = f (iter n f x).
Proof. reflexivity. Qed.

Lemma iter_rr_word n x : is_word x -> is_word (iter n rr x).
Proof. induction n; cbn; auto using rr_word. Qed.

Lemma rr_iter_bit k : forall x i, is_word x ->
  bit (iter (2 ^ k) rr x) i =
  xorb (bit x i) (xorb (bit x (i - 49 * 2 ^ Z.of_nat k)) (bit x (i - 24 * 2 ^ Z.of_nat k))).
Proof.
  induction k as [|k IH]; intros x i Hx.
  - cbn [iter Nat.pow]. rewrite rr_bit by assumption. change (2 ^ Z.of_nat 0) with 1.
    now rewrite !Z.mul_1_r.
  - replace (2 ^ S k)%nat with (2 ^ k + 2 ^ k)%nat by (cbn; lia). rewrite iter_add.
    rewrite IH by (now apply iter_rr_word). rewrite !IH by assumption.
    rewrite Nat2Z.inj_succ, Z.pow_succ_r by lia. set (p := 2 ^ Z.of_nat k).
    replace (i - 49 * p - 49 * p) with (i - 49 * (2 * p)) by lia.
    replace (i - 24 * p - 24 * p) with (i - 24 * (2 * p)) by lia.
    replace (i - 24 * p - 49 * p) with (i - 49 * p - 24 * p) by lia.
    generalize (bit x i) (bit x (i - 49 * p)) (bit x (i - 24 * p)) (bit x (i - 49 * (2 * p)))
      (bit x (i - 24 * (2 * p))) (bit x (i - 49 * p - 24 * p)).
    intros [] [] [] [] [] []; reflexivity.
Qed.

Lemma rr_iter64 x : is_word x -> iter 64 rr x = x.
Proof.
  intros Hx. apply bit_ext; auto; [now apply iter_rr_word|]. intros i.
  change 64%nat with (2 ^ 6)%nat. rewrite rr_iter_bit by assumption.
  change (2 ^ Z.of_nat 6) with 64.
  replace (i - 49 * 64) with (i + 64 * (-49)) by lia.
  replace (i - 24 * 64) with (i + 64 * (-24)) by lia. rewrite !bit_period.
  destruct (bit x i); reflexivity.
Qed.

(** Bijections compose. *)
Lemma bij_of_inverse f g :
  (forall x, is_word x -> is_word (f x)) -> (forall x, is_word x -> is_word (g x)) ->
  (forall x, is_word x -> g (f x) = x) -> (forall x, is_word x -> f (g x) = x) ->
  bijective_on_words f.
Proof.
  intros Hf Hg H1 H2. split; [assumption|split].
  - intros x y Hx Hy E. rewrite <- (H1 x), <- (H1 y), E by assumption. reflexivity.
  - intros z Hz. exists (g z). auto.
Qed.

Lemma bij_comp f g : bijective_on_words f -> bijective_on_words g -> bijective_on_words (fun x => g (f x)).
Proof.
  intros (Hf & If & Sf) (Hg & Ig & Sg). split; [auto|split].
  - intros x y Hx Hy E. auto.
  - intros z Hz. destruct (Sg z Hz) as (y & Hy & <-). destruct (Sf y Hy) as (x & Hx & <-). eauto.
Qed.

Lemma rr_bij : bijective_on_words rr.
Proof.
  apply (bij_of_inverse rr (iter 63 rr)); auto using rr_word, iter_rr_word.
  - intros x Hx. rewrite <- (rr_iter64 x Hx) at 2. change 64%nat with (63 + 1)%nat.
    rewrite iter_add. f_equal.
  - intros x Hx. rewrite <- iter_S. apply (rr_iter64 x Hx).
Qed.

Definition P : Z := 0x9fb21c651e98df25.
Definition Pinv : Z := 0x2ab9c720d1024ad.

Lemma mul_bij : bijective_on_words (fun x => u64 (x * P)).
Proof.
  assert (H : forall a b x, (a * b) mod W64 = 1 -> is_word x -> u64 (u64 (x * a) * b) = x).
  { intros a b x Hab Hx. unfold u64. rewrite Zmult_mod_idemp_l.
    replace (x * a * b) with (x * (a * b)) by lia. rewrite <- Zmult_mod_idemp_r, Hab, Z.mul_1_r.
    apply (u64_id x Hx). }
  apply (bij_of_inverse _ (fun x => u64 (x * Pinv))); auto using is_word_u64.
Qed.

(** x ^ ((x >> 35) + 8) is an involution. *)
Lemma xs35_bij : bijective_on_words (fun x => Z.lxor x (u64 (Z.shiftr x 35 + 8))).
Proof.
  assert (Hw : forall x, is_word x -> is_word (Z.lxor x (u64 (Z.shiftr x 35 + 8)))).
  { intros. apply lxor_word; auto using is_word_u64. }
  assert (Hi : forall x, is_word x ->
    let y := Z.lxor x (u64 (Z.shiftr x 35 + 8)) in Z.lxor y (u64 (Z.shiftr y 35 + 8)) = x).
  { intros x Hx y. assert (E : Z.shiftr y 35 = Z.shiftr x 35).
    { unfold y. rewrite Z.shiftr_lxor.
      assert (Hs : 0 <= Z.shiftr x 35 < 2 ^ 29).
      { rewrite Z.shiftr_div_pow2 by lia. unfold is_word in Hx. split; [apply Z.div_pos; lia|].
        apply Z.div_lt_upper_bound; lia. }
      rewrite u64_id by (unfold is_word; lia).
      replace (Z.shiftr (Z.shiftr x 35 + 8) 35) with 0; [apply Z.lxor_0_r|].
      symmetry. rewrite (Z.shiftr_div_pow2 (_ + 8)) by lia. apply Z.div_small. lia. }
    rewrite E. unfold y. rewrite Z.lxor_assoc, Z.lxor_nilpotent. apply Z.lxor_0_r. }
  apply (bij_of_inverse _ (fun x => Z.lxor x (u64 (Z.shiftr x 35 + 8)))); auto.
Qed.

Lemma xs28_bij : bijective_on_words (fun x => Z.lxor x (Z.shiftr x 28)).
Proof.
  apply (bij_of_inverse _ (fun y => Z.lxor (Z.lxor y (Z.shiftr y 28)) (Z.shiftr y 56))).
  - intros x Hx. apply lxor_word; auto. apply shiftr_word; auto; lia.
  - intros x Hx. repeat apply lxor_word; auto; apply shiftr_word; auto; lia.
  - intros x Hx. apply word_ext; auto.
    { repeat apply lxor_word; auto; repeat apply shiftr_word; auto; try lia;
        repeat apply lxor_word; auto; apply shiftr_word; auto; lia. }
    intros i Hi. rewrite !Z.lxor_spec, !Z.shiftr_spec by lia. rewrite !Z.lxor_spec, !Z.shiftr_spec by lia.
    rewrite (word_high x (i + 56 + 28)) by (auto; lia).
    replace (i + 28 + 28) with (i + 56) by lia.
    destruct (Z.testbit x i), (Z.testbit x (i + 28)), (Z.testbit x (i + 56)); reflexivity.
  - intros x Hx. apply word_ext; auto.
    { repeat apply lxor_word; auto; repeat apply shiftr_word; auto; try lia;
        repeat apply lxor_word; auto; apply shiftr_word; auto; lia. }
    intros i Hi. rewrite !Z.lxor_spec, !Z.shiftr_spec by lia. rewrite !Z.lxor_spec, !Z.shiftr_spec by lia.
    rewrite (word_high x (i + 28 + 56)) by (auto; lia).
    replace (i + 28 + 28) with (i + 56) by lia.
    destruct (Z.testbit x i), (Z.testbit x (i + 28)), (Z.testbit x (i + 56)); reflexivity.
Qed.

Lemma rrmxmx_bij : bijective_on_words rrmxmx.
Proof.
  pose proof (bij_comp _ _ (bij_comp _ _ (bij_comp _ _ (bij_comp _ _ rr_bij mul_bij) xs35_bij) mul_bij) xs28_bij)
    as H. exact H.
Qed.

Lemma lxor_bij k : is_word k -> bijective_on_words (fun x => Z.lxor x k).
Proof.
  intros Hk. apply (bij_of_inverse _ (fun x => Z.lxor x k)).
  - intros. now apply lxor_word.
  - intros. now apply lxor_word.
  - intros. now rewrite Z.lxor_assoc, Z.lxor_nilpotent, Z.lxor_0_r.
  - intros. now rewrite Z.lxor_assoc, Z.lxor_nilpotent, Z.lxor_0_r.
Qed.

Lemma keys_word : is_word (Z.lxor key64_008 key64_016).
Proof. split; vm_compute; congruence. Qed.

Lemma Uint64_bij : bijective_on_words Uint64.
Proof. exact (bij_comp _ _ (lxor_bij _ keys_word) rrmxmx_bij). Qed.

Lemma Uint64Seed_bij_v seed : bijective_on_words (fun v => Uint64Seed v seed).
Proof. refine (bij_comp _ _ (lxor_bij _ _) rrmxmx_bij). apply is_word_u64. Qed.

(** The seed scrambling: the high half is xored with a function of the low half. *)
Definition scramble (seed : Z) : Z := Z.lxor seed (u64 (Z.shiftl (ReverseBytes32 (u32 seed)) 32)).

Lemma scramble_bij : bijective_on_words scramble.
Proof.
  assert (Hw : forall x, is_word x -> is_word (scramble x)).
  { intros. apply lxor_word; auto using is_word_u64. }
  assert (Hi : forall x, is_word x -> scramble (scramble x) = x).
  { intros x Hx. assert (E : u32 (scramble x) = u32 x).
    { unfold u32. apply Z.bits_inj'. intros i Hi. destruct (Z.ltb_spec i 32).
      - rewrite !Z.mod_pow2_bits_low by lia. unfold scramble. rewrite Z.lxor_spec, u64_bits by lia.
        rewrite Z.shiftl_spec by lia. rewrite (Z.testbit_neg_r _ (i - 32)) by lia. apply xorb_false_r.
      - rewrite !Z.mod_pow2_bits_high by lia. reflexivity. }
    unfold scramble at 1. rewrite E. unfold scramble.
    now rewrite Z.lxor_assoc, Z.lxor_nilpotent, Z.lxor_0_r. }
  apply (bij_of_inverse _ scramble); auto.
Qed.

Lemma sub_bij k : bijective_on_words (fun x => u64 (k - x)).
Proof.
  apply (bij_of_inverse _ (fun x => u64 (k - x))); auto using is_word_u64.
  - intros x Hx. unfold u64. rewrite Zminus_mod_idemp_r. replace (k - (k - x)) with x by lia.
    now apply u64_id.
  - intros x Hx. unfold u64. rewrite Zminus_mod_idemp_r. replace (k - (k - x)) with x by lia.
    now apply u64_id.
Qed.

Lemma Uint64Seed_bij_seed v : is_word v -> bijective_on_words (fun seed => Uint64Seed v seed).
Proof.
  intros Hv.
  pose proof (bij_comp _ _ (bij_comp _ _ scramble_bij (sub_bij (Z.lxor key64_008 key64_016)))
     (bij_comp _ _ (lxor_bij v Hv) rrmxmx_bij)) as (H1 & H2 & H3).
  assert (E : forall s, Uint64Seed v s =
     rrmxmx (Z.lxor (u64 (Z.lxor key64_008 key64_016 - scramble s)) v)).
  { intros s. unfold Uint64Seed. cbv zeta. rewrite Z.lxor_comm. reflexivity. }
  split; [|split].
  - intros x Hx. rewrite E. auto.
  - intros x y Hx Hy. rewrite !E. auto.
  - intros z Hz. destruct (H3 z Hz) as (x & Hx & Ex). exists x. rewrite E. auto.
Qed.

Lemma write_word h v : is_word v -> is_word h -> is_word (WriteUint64 h v).
Proof. intros Hv Hh. apply (Uint64Seed_bij_seed v Hv). assumption. Qed.

Lemma fold_word vs : forall h, Forall is_word vs -> is_word h -> is_word (fold_left WriteUint64 vs h).
Proof.
  induction vs as [|v vs IH]; intros h Hvs Hh; cbn; auto. inversion Hvs; subst.
  apply IH; auto. now apply write_word.
Qed.

Lemma fold_inj vs : forall h h', Forall is_word vs -> is_word h -> is_word h' ->
  fold_left WriteUint64 vs h = fold_left WriteUint64 vs h' -> h = h'.
Proof.
  induction vs as [|v vs IH]; intros h h' Hvs Hh Hh' E; cbn in E; auto. inversion Hvs; subst.
  apply IH in E; auto using write_word. destruct (Uint64Seed_bij_seed v H1) as (_ & Hi & _).
  apply Hi; auto.
Qed.

(** ** Bytes *)
Lemma lor_add a b k : 0 <= a < 2 ^ k -> 0 <= k -> Z.lor a (Z.shiftl b k) = a + b * 2 ^ k.
Proof.
  intros Ha Hk. rewrite Z.shiftl_mul_pow2 by lia.
  assert (D : Z.land a (b * 2 ^ k) = 0).
  { apply Z.bits_inj'. intros i Hi. rewrite Z.land_spec, Z.bits_0.
    destruct (Z.ltb_spec i k).
    - rewrite Z.mul_pow2_bits_low by lia. apply andb_false_r.
    - destruct (Z.eqb_spec a 0) as [->|]; [rewrite Z.bits_0; reflexivity|].
      rewrite Z.bits_above_log2; [reflexivity|lia|].
      assert (Z.log2 a < k) by (apply Z.log2_lt_pow2; lia). lia. }
  rewrite <- Z.lxor_lor by assumption. symmetry. now apply Z.add_nocarry_lxor.
Qed.

Lemma toUint64_le b : List.length b = 8%nat -> Forall is_byte b -> toUint64 b = Ok (le b).
Proof.
  intros Hl Hb. do 8 (destruct b as [|? b]; [discriminate|]). destruct b; [|discriminate].
  repeat match goal with H : Forall _ (_ :: _) |- _ => inversion H; subst; clear H end.
  unfold is_byte in *. cbn [toUint64]. f_equal.
  rewrite (lor_add z z0 8) by lia. rewrite (lor_add _ z1 16) by lia.
  rewrite (lor_add _ z2 24) by lia. rewrite (lor_add _ z3 32) by lia. rewrite (lor_add _ z4 40) by lia.
  rewrite (lor_add _ z5 48) by lia. rewrite (lor_add _ z6 56) by lia. cbn [le]. lia.
Qed.

Lemma le_bytes_len n : forall v, List.length (le_bytes n v) = n.
Proof. induction n; cbn; auto. Qed.
Lemma le_bytes_byte n : forall v, Forall is_byte (le_bytes n v).
Proof. induction n; cbn; constructor; auto. apply Z.mod_pos_bound. lia. Qed.
Lemma le_le_bytes n : forall v, 0 <= v < 256 ^ Z.of_nat n -> le (le_bytes n v) = v.
Proof.
  induction n as [|n IH]; intros v Hv; cbn [le le_bytes].
  - cbn in Hv. lia.
  - rewrite Nat2Z.inj_succ, Z.pow_succ_r in Hv by lia. rewrite IH.
    + pose proof (Z.div_mod v 256). lia.
    + split; [apply Z.div_pos; lia|]. apply Z.div_lt_upper_bound; lia.
Qed.

Lemma putUint64_le v : putUint64 v = le_bytes 8 v.
Proof.
  unfold putUint64, u8. cbn [le_bytes]. rewrite !Z.shiftr_div_pow2 by lia.
  rewrite !Z.div_div by lia. reflexivity.
Qed.

Lemma roundtrip v : is_word v -> toUint64 (putUint64 v) = Ok v.
Proof.
  intros Hv. rewrite putUint64_le, toUint64_le by (auto using le_bytes_len, le_bytes_byte).
  f_equal. apply le_le_bytes. exact Hv.
Qed.

(** ** Write *)
(** The words of a byte string, 8 bytes each; an incomplete tail is left out. *)
Fixpoint words (n : nat) (b : list Z) : list Z :=
  match n with O => [] | S n' => le (firstn 8 b) :: words n' (skipn 8 b) end.

Lemma Forall_skipn {A} (Q : A -> Prop) n : forall l, Forall Q l -> Forall Q (skipn n l).
Proof. induction n; intros [|x l] H; cbn; auto. inversion H; auto. Qed.
Lemma Forall_firstn {A} (Q : A -> Prop) n : forall l, Forall Q l -> Forall Q (firstn n l).
Proof. induction n; intros [|x l] H; cbn; auto. inversion H; auto. Qed.

Lemma skipn_skipn {A} n m (l : list A) : skipn n (skipn m l) = skipn (n + m) l.
Proof.
  revert l; induction m as [|m IH]; intros l; [now rewrite Nat.add_0_r|].
  rewrite Nat.add_succ_r. destruct l as [|x l]; cbn; [now rewrite skipn_nil|]. apply IH.
Qed.

(** The loop with [n] blocks to go. *)
Lemma writeLoop_blocks (p : bytes) : Forall is_byte (mem p) ->
  forall n fuel h i, (n < fuel)%nat -> 0 <= i ->
  8 * Z.of_nat n = 8 * ((blen p - i + 7) / 8) -> (n = 0%nat -> blen p <= i) ->
  i + 8 * Z.of_nat n <= zlen (mem p) ->
  writeLoop fuel p h i =
  Ok (fold_left WriteUint64 (words n (skipn (Z.to_nat i) (mem p))) h, i + 8 * Z.of_nat n).
Proof.
  intros Hb. induction n as [|n IH]; intros [|fuel] h i Hf Hi Hn H0 Hm; try lia; cbn [writeLoop].
  - specialize (H0 eq_refl). destruct (Z.ltb_spec i (blen p)); [lia|]. cbn. do 2 f_equal. lia.
  - destruct (Z.ltb_spec i (blen p)) as [Hlt|].
    2:{ pose proof (Z.div_lt_upper_bound (blen p - i + 7) 8 1). lia. }
    unfold reslice.
    destruct (Z.leb_spec 0 i), (Z.leb_spec i (i + 8)), (Z.leb_spec (i + 8) (zlen (mem p))); try lia.
    cbn [andb obind]. replace (i + 8 - i) with 8 by lia. change (Z.to_nat 8) with 8%nat.
    rewrite toUint64_le.
    + cbn [obind]. rewrite IH; try lia.
      * replace (Z.to_nat (i + 8)) with (8 + Z.to_nat i)%nat by lia.
        cbn [words fold_left]. rewrite <- skipn_skipn. f_equal. f_equal. lia.
    + rewrite firstn_length, skipn_length. unfold zlen in *. lia.
    + apply Forall_firstn, Forall_skipn, Hb.
Qed.

Definition nblocks (n : Z) : Z := (n + 7) / 8.

(** Exact behaviour: every whole or partial block is read as 8 bytes of the
    backing array. *)
Lemma Write_ok h (p : bytes) : Forall is_byte (mem p) -> 0 <= blen p ->
  8 * nblocks (blen p) <= zlen (mem p) ->
  Write h p = Ok (fold_left WriteUint64 (words (Z.to_nat (nblocks (blen p))) (mem p))
                    (WriteUint64 h (u64 (blen p))), 8 * nblocks (blen p)).
Proof.
  intros Hb Hl Hc. unfold Write, nblocks in *. set (n := (blen p + 7) / 8) in *.
  assert (Hn : 0 <= n) by (apply Z.div_pos; lia).
  assert (Hn8 : blen p <= 8 * n < blen p + 8).
  { pose proof (Z.mod_pos_bound (blen p + 7) 8). pose proof (Z.div_mod (blen p + 7) 8). lia. }
  rewrite (writeLoop_blocks p Hb (Z.to_nat n)); try lia.
  - cbn [obind skipn Z.to_nat]. rewrite Z2Nat.id by lia. cbn [Z.add].
    destruct (Z.ltb_spec (8 * n) (blen p)); [lia|]. reflexivity.
Qed.

(** Otherwise it panics. *)
Lemma writeLoop_panics (p : bytes) : Forall is_byte (mem p) -> blen p <= zlen (mem p) ->
  forall fuel h i, (Z.to_nat (blen p - i) < fuel)%nat -> 0 <= i ->
  zlen (mem p) < i + 8 * ((blen p - i + 7) / 8) -> i <= blen p ->
  exists m, writeLoop fuel p h i = Panic m.
Proof.
  intros Hb Hle. induction fuel as [|fuel IH]; intros h i Hf Hi Hc Hil; [lia|]. cbn [writeLoop].
  destruct (Z.ltb_spec i (blen p)).
  2:{ replace i with (blen p) in * by lia. replace (blen p - blen p + 7) with 7 in Hc by lia.
      change (7 / 8) with 0 in Hc. lia. }
  unfold reslice.
  destruct (Z.leb_spec 0 i), (Z.leb_spec i (i + 8)); try lia.
  destruct (Z.leb_spec (i + 8) (zlen (mem p))); cbn [andb obind]; [|eauto].
  rewrite toUint64_le.
  - cbn [obind].
    assert (E : (blen p - (i + 8) + 7) / 8 = (blen p - i + 7) / 8 - 1).
    { replace (blen p - (i + 8) + 7) with (blen p - i + 7 + (-1) * 8) by lia.
      rewrite Z.div_add by lia. lia. }
    destruct (Z.leb_spec (i + 8) (blen p)).
    + apply IH; lia.
    + exfalso. pose proof (Z.mod_pos_bound (blen p - i + 7) 8). pose proof (Z.div_mod (blen p - i + 7) 8). lia.
  - rewrite firstn_length, skipn_length. unfold zlen in *. lia.
  - apply Forall_firstn, Forall_skipn, Hb.
Qed.

Lemma words_firstn n : forall k b, (8 * n <= k)%nat -> words n (firstn k b) = words n b.
Proof.
  induction n as [|n IH]; intros k b Hk; cbn [words]; [reflexivity|].
  f_equal.
  - rewrite firstn_firstn, Nat.min_l by lia. reflexivity.
  - replace (skipn 8 (firstn k b)) with (firstn (k - 8) (skipn 8 b)).
    + apply IH. lia.
    + rewrite skipn_firstn_comm. reflexivity.
Qed.

Lemma le_word8 b : (List.length b <= 8)%nat -> Forall is_byte b -> is_word (le b).
Proof.
  intros Hl Hb. assert (H : 0 <= le b < 256 ^ zlen b).
  { clear Hl. unfold zlen. induction Hb as [|x b Hx Hb IH]; cbn [le List.length]; [lia|].
    rewrite Nat2Z.inj_succ, Z.pow_succ_r by lia. unfold is_byte in Hx. lia. }
  unfold is_word. assert (256 ^ zlen b <= 256 ^ 8) by (apply Z.pow_le_mono_r; unfold zlen; lia).
  change (256 ^ 8) with (2 ^ 64) in *. lia.
Qed.

Lemma words_word n : forall b, Forall is_byte b -> Forall is_word (words n b).
Proof.
  induction n; intros b Hb; cbn [words]; constructor; auto using Forall_skipn.
  apply le_word8; [rewrite firstn_length; lia|auto using Forall_firstn].
Qed.

(** ** XXH3 *)
Lemma rotl_spec x k : 0 < k < 64 -> is_word x -> RotateLeft64 x k = rotl64 x k.
Proof.
  intros Hk Hx. unfold RotateLeft64, rotl64. rewrite Z.shiftr_div_pow2 by lia.
  rewrite Z.shiftl_mul_pow2 by lia. fold (u64 (x * 2 ^ k)).
  assert (Hd : 0 <= x / 2 ^ (64 - k) < 2 ^ k).
  { unfold is_word in Hx. assert (0 < 2 ^ (64 - k)) by (apply Z.pow_pos_nonneg; lia).
    split; [apply Z.div_pos; lia|]. apply Z.div_lt_upper_bound; [lia|].
    rewrite <- Z.pow_add_r by lia. replace (64 - k + k) with 64 by lia. lia. }
  assert (E : u64 (x * 2 ^ k) = (x mod 2 ^ (64 - k)) * 2 ^ k).
  { unfold u64, W64. replace (2 ^ 64) with (2 ^ (64 - k) * 2 ^ k).
    - rewrite Zmult_mod_distr_r. reflexivity.
    - rewrite <- Z.pow_add_r by lia. f_equal. lia. }
  change ((x * 2 ^ k) mod 2 ^ 64) with (u64 (x * 2 ^ k)). rewrite E, Z.lor_comm.
  rewrite <- Z.shiftl_mul_pow2 by lia. rewrite lor_add by lia.
  rewrite Z.shiftl_mul_pow2 by lia. lia.
Qed.

Lemma rrmxmx_spec h : is_word h -> rrmxmx h = XXH3_rrmxmx h 8.
Proof.
  intros Hh. unfold rrmxmx, XXH3_rrmxmx. cbv zeta. rewrite !rotl_spec by (auto; lia).
  rewrite <- Z.lxor_assoc. set (a := Z.lxor (Z.lxor h (rotl64 h 49)) (rotl64 h 24)).
  change 11507291218515648293 with PRIME_MX2.
  change ((a * PRIME_MX2) mod 2 ^ 64) with (u64 (a * PRIME_MX2)).
  assert (Hb : is_word (u64 (a * PRIME_MX2))) by apply is_word_u64.
  set (b := u64 (a * PRIME_MX2)) in *. clearbody b.
  rewrite !Z.shiftr_div_pow2 by lia.
  assert (Hs : 0 <= b / 2 ^ 35 < 2 ^ 29).
  { unfold is_word in Hb. split; [apply Z.div_pos; lia|]. apply Z.div_lt_upper_bound; lia. }
  rewrite (u64_id (b / 2 ^ 35 + 8)) by (unfold is_word; lia). reflexivity.
Qed.

Lemma swap_spec x : 0 <= x < 2 ^ 32 -> ReverseBytes32 x = swap32 x.
Proof.
  intros Hx. unfold ReverseBytes32, swap32, u8. rewrite !Z.shiftr_div_pow2 by lia.
  cbn [le_bytes rev app le]. rewrite !Z.div_div by lia.
  set (b0 := x mod 256). set (b1 := (x / 2 ^ 8) mod 256).
  set (b2 := (x / 2 ^ 16) mod 256). set (b3 := (x / 2 ^ 24) mod 256).
  assert (0 <= b0 < 256) by (apply Z.mod_pos_bound; lia).
  assert (0 <= b1 < 256) by (apply Z.mod_pos_bound; lia).
  assert (0 <= b2 < 256) by (apply Z.mod_pos_bound; lia).
  assert (0 <= b3 < 256) by (apply Z.mod_pos_bound; lia).
  change ((x / 256) mod 256) with b1. change ((x / (256 * 256)) mod 256) with b2.
  change ((x / (256 * (256 * 256))) mod 256) with b3. clearbody b0 b1 b2 b3.
  rewrite (Z.lor_comm (Z.shiftl b0 24)), (Z.lor_comm (Z.shiftl b2 8)).
  rewrite (lor_add b3 b2 8) by lia.
  rewrite (Z.lor_comm _ (b3 + b2 * 2 ^ 8)), Z.lor_assoc.
  rewrite (lor_add _ b1 16) by lia. rewrite (lor_add _ b0 24) by lia. lia.
Qed.

Lemma swap_bound x : 0 <= swap32 x < 2 ^ 32.
Proof.
  unfold swap32. cbn [le_bytes rev app le].
  pose proof (Z.mod_pos_bound x 256). pose proof (Z.mod_pos_bound (x / 256) 256).
  pose proof (Z.mod_pos_bound (x / 256 / 256) 256). pose proof (Z.mod_pos_bound (x / 256 / 256 / 256) 256).
  lia.
Qed.

Lemma Uint64Seed_spec v seed : is_word v -> is_word seed ->
  Uint64Seed v seed = XXH3_len_4to8 (halves v) seed.
Proof.
  intros Hv Hs. unfold Uint64Seed, XXH3_len_4to8. cbv zeta.
  assert (Hl : List.length (halves v) = 8%nat).
  { unfold halves. now rewrite app_length, !le_bytes_len. }
  rewrite Hl. change (Z.of_nat 8) with 8.
  rewrite swap_spec by (unfold u32; apply Z.mod_pos_bound; lia).
  change (seed mod 2 ^ 32) with (u32 seed).
  pose proof (swap_bound (u32 seed)) as Hsw. rewrite Z.shiftl_mul_pow2 by lia.
  rewrite (u64_id (_ * 2 ^ 32)) by (unfold is_word; lia).
  replace (readLE32 (halves v) (8 - 4) + readLE32 (halves v) 0 * 2 ^ 32) with v.
  - change (readLE64 secret 8) with key64_008. change (readLE64 secret 16) with key64_016.
    change ((Z.lxor key64_008 key64_016 - Z.lxor seed (swap32 (u32 seed) * 2 ^ 32)) mod 2 ^ 64)
      with (u64 (Z.lxor key64_008 key64_016 - Z.lxor seed (swap32 (u32 seed) * 2 ^ 32))).
    apply rrmxmx_spec. apply lxor_word; auto using is_word_u64.
  - unfold readLE32, halves. cbn [Nat.sub].
    rewrite skipn_app, le_bytes_len, (skipn_all2 (le_bytes 4 (v / 2 ^ 32))) by (rewrite le_bytes_len; lia).
    cbn [Nat.sub skipn app]. rewrite firstn_app, le_bytes_len. cbn [Nat.sub]. rewrite firstn_O, app_nil_r.
    rewrite !firstn_all2 by (rewrite le_bytes_len; lia).
    unfold is_word in Hv.
    rewrite !le_le_bytes.
    + pose proof (Z.div_mod v (2 ^ 32)). lia.
    + change (256 ^ Z.of_nat 4) with (2 ^ 32). split; [apply Z.div_pos; lia|].
      apply Z.div_lt_upper_bound; lia.
    + change (256 ^ Z.of_nat 4) with (2 ^ 32). apply Z.mod_pos_bound. lia.
Qed.

Lemma Uint64_seed0 v : Uint64 v = Uint64Seed v 0.
Proof. reflexivity. Qed.

Lemma le_bytes_le b : Forall is_byte b -> le_bytes (List.length b) (le b) = b.
Proof.
  induction 1 as [|x b Hx Hb IH]; cbn [le le_bytes List.length]; [reflexivity|].
  unfold is_byte in Hx. f_equal.
  - rewrite Z.mul_comm, Z_mod_plus_full. apply Z.mod_small. lia.
  - rewrite Z.mul_comm, Z.div_add by lia. rewrite Z.div_small by lia. exact IH.
Qed.

Lemma le_inj a b : Forall is_byte a -> Forall is_byte b -> List.length a = List.length b ->
  le a = le b -> a = b.
Proof.
  intros Ha Hb Hl E. rewrite <- (le_bytes_le a Ha), <- (le_bytes_le b Hb), Hl, E. reflexivity.
Qed.

Lemma words_app n : forall a b, List.length a = (8 * n)%nat ->
  forall m, words (n + m) (a ++ b) = words n a ++ words m b.
Proof.
  induction n as [|n IH]; intros a b Ha m; cbn [words Nat.add].
  - destruct a; [reflexivity|discriminate].
  - cbn [app]. f_equal.
    + rewrite firstn_app. replace (8 - List.length a)%nat with 0%nat by lia.
      now rewrite firstn_O, app_nil_r.
    + rewrite skipn_app. replace (8 - List.length a)%nat with 0%nat by lia. rewrite skipn_O.
      apply IH. rewrite skipn_length. lia.
Qed.

Lemma words_split before z after n :
  zlen before mod 8 = 0 -> zlen after mod 8 = 0 -> zlen z = 8 ->
  (8 * n = List.length before + 8 + List.length after)%nat ->
  words n (before ++ z ++ after) =
  words (Z.to_nat (zlen before / 8)) before ++ le z :: words (Z.to_nat (zlen after / 8)) after.
Proof.
  intros Lb La Lz Hn.
  pose proof (Z.div_mod (zlen before) 8 ltac:(lia)) as D1. pose proof (Z.div_mod (zlen after) 8 ltac:(lia)) as D2.
  rewrite Lb in D1. rewrite La in D2.
  assert (0 <= zlen before / 8) by (apply Z.div_pos; unfold zlen; lia).
  assert (0 <= zlen after / 8) by (apply Z.div_pos; unfold zlen; lia).
  set (q := zlen before / 8) in *. set (r := zlen after / 8) in *. clearbody q r.
  replace n with (Z.to_nat q + (1 + Z.to_nat r))%nat by (unfold zlen in *; lia).
  rewrite words_app by (unfold zlen in *; lia). f_equal.
  rewrite words_app by (unfold zlen in *; lia). cbn [words app]. f_equal.
  rewrite firstn_all2 by (unfold zlen in *; lia). reflexivity.
Qed.
