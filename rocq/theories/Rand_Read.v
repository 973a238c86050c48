(** Ranges and panics of the bounded functions; Read; floats; xrand.Crypto. *)
From Verif Require Import Base Exn Rand_Model Rand_Spec Rand_Proofs.
From Verif Require Secrand_Proofs.
Local Open Scope list_scope.
Local Open Scope Z_scope.

(** ** Bounded functions *)
Lemma ok_inj {A} (x y : A) : Ok x = Ok y -> x = y.
Proof. congruence. Qed.

Section Range.
  Context {st : Type} (src : st -> Z * st).

  Lemma redraw_no_panic fuel (d : X st Z) bad v s m s' : (forall s m s', d s <> (Panic m, s')) -> redraw fuel d bad v s <> (Panic m, s').
  Proof.
    intros HD. revert v s. induction fuel as [|fuel IH]; intros v s H; cbn [redraw] in H; destruct (bad v); try discriminate H.
    unfold xbind in H. destruct (d s) as [[x|e|] s1] eqn:E; try discriminate H; [now apply IH in H|now apply HD in E].
  Qed.

  Lemma Int63n_range fuel n s r s' : 0 < n -> Int63n src fuel n s = (Ok r, s') -> 0 <= r < n.
  Proof.
    intros Hn H. unfold Int63n in H. rewrite (proj2 (Z.leb_gt _ _)) in H by lia. destruct (Z.land n (n - 1) =? 0) eqn:E.
    - apply Z.eqb_eq in E. unfold xbind, xret, Int63, draw in H. apply (f_equal fst) in H. cbn [fst] in H. apply ok_inj in H. subst r.
      rewrite mask_mod by lia. apply Z.mod_pos_bound. exact Hn.
    - unfold xbind, xret, Int63 at 1, draw at 1 in H.
      destruct (redraw _ _ _ _ _) as [[x|e|] s1]; try discriminate H. apply (f_equal fst) in H. cbn [fst] in H. apply ok_inj in H. subst r. apply Z.mod_pos_bound. exact Hn.
  Qed.
  Lemma Int31n_range fuel n s r s' : 0 < n -> Int31n src fuel n s = (Ok r, s') -> 0 <= r < n.
  Proof.
    intros Hn H. unfold Int31n in H. rewrite (proj2 (Z.leb_gt _ _)) in H by lia. destruct (Z.land n (n - 1) =? 0) eqn:E.
    - apply Z.eqb_eq in E. unfold Int31, xbind, xret, Int63, draw in H. apply (f_equal fst) in H. cbn [fst] in H. apply ok_inj in H. subst r.
      rewrite mask_mod by lia. apply Z.mod_pos_bound. exact Hn.
    - unfold Int31 at 1, xbind, xret, Int63 at 1, draw at 1 in H.
      destruct (redraw _ _ _ _ _) as [[x|e|] s1]; try discriminate H. apply (f_equal fst) in H. cbn [fst] in H. apply ok_inj in H. subst r. apply Z.mod_pos_bound. exact Hn.
  Qed.
  Lemma Intn_range fuel n s r s' : 0 < n -> Intn src fuel n s = (Ok r, s') -> 0 <= r < n.
  Proof.
    intros Hn H. unfold Intn in H. rewrite (proj2 (Z.leb_gt _ _)) in H by lia. destruct (n <=? 2 ^ 31 - 1).
    - eapply Int31n_range; eassumption.
    - eapply Int63n_range; eassumption.
  Qed.
  Lemma Int63n_panic fuel n s m s' : 0 < n -> Int63n src fuel n s <> (Panic m, s').
  Proof.
    intros Hn H. unfold Int63n in H. rewrite (proj2 (Z.leb_gt _ _)) in H by lia. destruct (Z.land n (n - 1) =? 0); [discriminate H|].
    unfold xbind, xret, Int63 at 1, draw at 1 in H.
    destruct (redraw _ _ _ _ _) as [[x|e|] s1] eqn:E; try discriminate H. apply redraw_no_panic in E; [exact E|discriminate].
  Qed.
  Lemma Int31n_panic fuel n s m s' : 0 < n -> Int31n src fuel n s <> (Panic m, s').
  Proof.
    intros Hn H. unfold Int31n in H. rewrite (proj2 (Z.leb_gt _ _)) in H by lia. destruct (Z.land n (n - 1) =? 0); [discriminate H|].
    unfold Int31 at 1, xbind, xret, Int63 at 1, draw at 1 in H.
    destruct (redraw _ _ _ _ _) as [[x|e|] s1] eqn:E; try discriminate H. apply redraw_no_panic in E; [exact E|discriminate].
  Qed.
  Lemma Intn_panic fuel n s m s' : 0 < n -> Intn src fuel n s <> (Panic m, s').
  Proof.
    intros Hn. unfold Intn. rewrite (proj2 (Z.leb_gt _ _)) by lia. destruct (n <=? 2 ^ 31 - 1); [now apply Int31n_panic|now apply Int63n_panic].
  Qed.

  Lemma first_result accept fuel s r s' : firstAccepted src accept fuel s = (r, s') -> exists s0, r = accept (fst (src s0)).
  Proof.
    revert s. induction fuel as [|fuel IH]; intros s H; cbn [firstAccepted] in H; destruct (src s) as [w s1] eqn:E;
      destruct (accept w) eqn:EA; try (exists s; rewrite E; cbn [fst]; congruence).
    now apply IH in H.
  Qed.

  Context (HW : words63 src).
  Lemma int31n_range fuel n s r s' : 0 < n < 2 ^ 31 -> int31n src fuel n s = (Ok r, s') -> 0 <= r < n.
  Proof.
    intros Hn H. rewrite int31n_first in H by assumption. apply first_result in H as (s0 & H). pose proof (HW s0) as Hw.
    unfold accept32 in H. pose proof (div_range (fst (src s0)) 31 Hw ltac:(lia)). destruct (_ <? _); [discriminate H|]. apply ok_inj in H. subst r.
    split; [apply Z.div_pos; nia|]. apply Z.div_lt_upper_bound; nia.
  Qed.
  Lemma int31n_panic fuel n s m s' : 0 < n < 2 ^ 31 -> int31n src fuel n s <> (Panic m, s').
  Proof.
    intros Hn H. rewrite int31n_first in H by assumption. apply first_result in H as (s0 & H). unfold accept32 in H. destruct (_ <? _); discriminate H.
  Qed.
End Range.

Lemma first_redraws (F : forall st, (st -> Z * st) -> nat -> X st Z) accept :
  (forall st (src : st -> Z * st), words63 src -> forall fuel s, F st src fuel s = firstAccepted src accept fuel s) ->redraws F.
Proof.
  intros HF st src HW fuel s. pose proof (HW s) as Hw. rewrite (HF Z always always_63). rewrite always_words by exact Hw.
  rewrite (HF st src HW fuel s). cbn [fst]. destruct fuel as [|fuel]; cbn [firstAccepted]; destruct (src s) as [w s1]; cbn [fst snd];
    destruct (accept w); auto. symmetry. now apply HF.
Qed.


(** ** Read *)
Section Reading.
  Context {st : Type} (src : st -> Z * st).

  (** Byte number [k] of what [r] will still give. *)
  Definition byteOf (r : reader st) (k : nat) : Z :=
    if (k <? Z.to_nat (readPos r))%nat then readVal r / 256 ^ Z.of_nat k mod 256
    else let k := (k - Z.to_nat (readPos r))%nat in word src (k / 7) (source r) / 256 ^ Z.of_nat (k mod 7) mod 256.

  Definition refill (r : reader st) : reader st :=
    if readPos r =? 0 then let '(v, s) := src (source r) in Build_reader s v 7 else r.
  Definition forward (r : reader st) : reader st := Build_reader (source r) (Z.shiftr (readVal r) 8) (readPos r - 1).

  Lemma refill_bytes r k : 0 <= readPos r -> byteOf (refill r) k = byteOf r k.
  Proof.
    intros Hp. unfold refill. destruct (readPos r =? 0) eqn:E; [|reflexivity]. apply Z.eqb_eq in E. destruct (src (source r)) as [v s] eqn:ES.
    unfold byteOf. cbn [readPos readVal source]. rewrite E. change (Z.to_nat 7) with 7%nat. change (Z.to_nat 0) with 0%nat.
    rewrite Nat.sub_0_r. change (k <? 0)%nat with false. cbv iota. destruct (Nat.ltb_spec k 7) as [L|L].
    - rewrite Nat.div_small, Nat.mod_small by exact L. cbn [word]. now rewrite ES.
    - replace k with ((k - 7) + 1 * 7)%nat at 3 4 by lia. rewrite Nat.div_add, Nat.mod_add by lia. rewrite Nat.add_1_r. cbn [word]. now rewrite ES.
  Qed.
  Lemma forward_bytes r k : 0 < readPos r -> byteOf (forward r) k = byteOf r (S k).
  Proof.
    intros Hp. unfold byteOf, forward. cbn [readPos readVal source].
    replace (Z.to_nat (readPos r)) with (S (Z.to_nat (readPos r - 1))) by lia. cbn [Nat.sub].
    change (S k <? S (Z.to_nat (readPos r - 1)))%nat with (k <? Z.to_nat (readPos r - 1))%nat. destruct (_ <? _)%nat; [|reflexivity].
    rewrite Z.shiftr_div_pow2 by lia. change (2 ^ 8) with 256. rewrite Z.div_div by (try apply Z.pow_pos_nonneg; lia).
    rewrite Nat2Z.inj_succ, Z.pow_succ_r by lia. reflexivity.
  Qed.
  Lemma byteOf_0 r : 0 < readPos r -> byteOf r 0 = readVal r mod 256.
  Proof.
    intros Hp. unfold byteOf. rewrite (proj2 (Nat.ltb_lt _ _)) by lia. now rewrite Z.pow_0_r, Z.div_1_r.
  Qed.
  Lemma refill_pos r : 0 <= readPos r -> 0 < readPos (refill r).
  Proof.
    intros H. unfold refill. destruct (readPos r =? 0) eqn:E; [|apply Z.eqb_neq in E; lia]. destruct (src (source r)). cbn. lia.
  Qed.
  Lemma Read_S len r : Read src (S len) r =
    (readVal (refill r) mod 256 :: fst (Read src len (forward (refill r))), snd (Read src len (forward (refill r)))).
  Proof. cbn [Read]. fold (refill r). fold (forward (refill r)). now destruct (Read src len (forward (refill r))). Qed.

  Lemma Read_bytes len : forall r, 0 <= readPos r -> fst (Read src len r) = map (byteOf r) (seq 0 len).
  Proof.
    induction len as [|len IH]; intros r Hp; [reflexivity|]. rewrite Read_S. cbn [fst seq map]. pose proof (refill_pos r Hp) as HR. f_equal.
    - rewrite <- byteOf_0 by exact HR. now apply refill_bytes.
    - rewrite IH by (cbn; lia). rewrite <- seq_shift, map_map. apply map_ext. intros k. rewrite forward_bytes by exact HR. now apply refill_bytes.
  Qed.
  Lemma Read_app a : forall b r, Read src (a + b) r =
    (fst (Read src a r) ++ fst (Read src b (snd (Read src a r))), snd (Read src b (snd (Read src a r)))).
  Proof.
    induction a as [|a IH]; intros b r.
    - cbn [Nat.add Read fst snd app]. now destruct (Read src b r).
    - cbn [Nat.add]. rewrite !Read_S. rewrite IH. reflexivity.
  Qed.
End Reading.

(** ** Floats *)
Lemma round_spec p x : 0 < p -> 0 <= x < 2 ^ 63 ->
  0 <= round p x <= 2 ^ 63 /\ significant p (round p x) /\ (x < 2 ^ 62 -> round p x <= 2 ^ 62).
Proof.
  intros Hp Hx. destruct (Z.eq_dec x 0) as [->|N].
  { unfold round. rewrite (proj2 (Z.leb_le _ _)) by (change (Z.log2 0) with 0; lia). split; [lia|]. split; [|lia]. exists 0, 0. lia. }
  pose proof (Z.log2_spec x ltac:(lia)) as HL. pose proof (Z.log2_nonneg x) as H0.
  assert (HU : forall k, x < 2 ^ k -> 0 <= k -> 2 ^ Z.succ (Z.log2 x) <= 2 ^ k).
  { intros k Hk H1. apply Z.pow_le_mono_r; [lia|]. apply Z.le_succ_l. apply Z.log2_lt_pow2; lia. }
  unfold round. destruct (Z.log2 x + 1 - p <=? 0) eqn:E.
  { apply Z.leb_le in E. split; [lia|]. split; [|lia]. exists x, 0. split; [lia|]. split; [|lia]. split; [lia|].
    apply Z.lt_le_trans with (2 ^ Z.succ (Z.log2 x)); [lia|]. apply Z.pow_le_mono_r; lia. }
  apply Z.leb_gt in E. set (k := Z.log2 x + 1 - p) in *. set (q := x / 2 ^ k). set (q' := if _ <? _ then _ else _).
  assert (Hk : 0 < 2 ^ k) by (apply Z.pow_pos_nonneg; lia).
  assert (Hq : 0 <= q < 2 ^ p).
  { split; [apply Z.div_pos; lia|]. apply Z.div_lt_upper_bound; [exact Hk|]. rewrite <- Z.pow_add_r by lia.
    replace (k + p) with (Z.succ (Z.log2 x)) by lia. lia. }
  assert (Hq' : q' = q \/ q' = q + 1) by (subst q'; destruct (_ <? _); [|destruct (_ <? _); [|destruct (Z.even q)]]; auto).
  assert (HB : 0 <= q' <= 2 ^ p) by lia.
  assert (HV : q' * 2 ^ k <= 2 ^ Z.succ (Z.log2 x)).
  { replace (Z.succ (Z.log2 x)) with (p + k) by lia. rewrite Z.pow_add_r by lia. apply Z.mul_le_mono_nonneg_r; lia. }
  split; [|split].
  - split; [nia|]. pose proof (HU 63 ltac:(lia) ltac:(lia)). lia.
  - destruct (Z.eq_dec q' (2 ^ p)) as [->|NQ].
    + exists 1, (p + k). split; [lia|]. split; [split; [lia|apply Z.pow_gt_1; lia]|]. rewrite Z.pow_add_r by lia. lia.
    + exists q', k. split; [lia|]. split; [lia|reflexivity].
  - intros H. pose proof (HU 62 H ltac:(lia)). lia.
Qed.

Section Floats.
  Context {st : Type} (src : st -> Z * st) (HW : words63 src).

  Lemma Float64_unfold fuel s : Float64 src fuel s =
    let f := round 53 (fst (src s)) in
    if f =? 2 ^ 63 then match fuel with O => (Diverge, snd (src s)) | S fuel' => Float64 src fuel' (snd (src s)) end else (Ok f, snd (src s)).
  Proof. destruct fuel; cbn [Float64]; unfold xbind, Int63, draw, xret; cbv zeta; destruct (_ =? _); reflexivity. Qed.

  Lemma Float64_range fuel s r s' : Float64 src fuel s = (r, s') ->
    match r with Ok f => 0 <= f < 2 ^ 63 /\ significant 53 f | Panic _ => False | Diverge => True end.
  Proof.
    revert s. induction fuel as [|fuel IH]; intros s; rewrite Float64_unfold; cbv zeta;
      destruct (round_spec 53 (fst (src s)) ltac:(lia) (HW s)) as (H1 & H2 & _);
      destruct (Z.eqb_spec (round 53 (fst (src s))) (2 ^ 63)) as [E|E]; intros H.
    - apply (f_equal fst) in H. cbn [fst] in H. now subst r.
    - apply (f_equal fst) in H. cbn [fst] in H. subst r. split; [lia|exact H2].
    - now apply IH in H.
    - apply (f_equal fst) in H. cbn [fst] in H. subst r. split; [lia|exact H2].
  Qed.
  Lemma Float64_returns fuel s : fst (src s) < 2 ^ 62 -> exists f, Float64 src fuel s = (Ok f, snd (src s)) /\ f <= 2 ^ 62.
  Proof.
    intros H. rewrite Float64_unfold. cbv zeta. destruct (round_spec 53 (fst (src s)) ltac:(lia) (HW s)) as (H1 & _ & H2). specialize (H2 H).
    destruct (Z.eqb_spec (round 53 (fst (src s))) (2 ^ 63)) as [E|E]; [lia|]. eauto.
  Qed.

  Lemma Float32_range fuel64 fuel s r s' : Float32 src fuel64 fuel s = (r, s') ->
    match r with Ok f => 0 <= f < 2 ^ 63 /\ significant 24 f | Panic _ => False | Diverge => True end.
  Proof.
    revert s. induction fuel as [|fuel IH]; intros s H; cbn [Float32] in H; unfold xbind in H;
      destruct (Float64 src fuel64 s) as [[v|m|] s1] eqn:E64; pose proof (Float64_range _ _ _ _ E64) as HR; cbn in HR; try contradiction;
      try (apply (f_equal fst) in H; cbn [fst] in H; now subst r);
      cbv zeta in H; destruct HR as [HR _]; destruct (round_spec 24 v ltac:(lia) HR) as (H1 & H2 & _);
      destruct (Z.eqb_spec (round 24 v) (2 ^ 63)) as [E|E].
    - apply (f_equal fst) in H. cbn [fst] in H. now subst r.
    - unfold xret in H. apply (f_equal fst) in H. cbn [fst] in H. subst r. split; [lia|exact H2].
    - now apply IH in H.
    - unfold xret in H. apply (f_equal fst) in H. cbn [fst] in H. subst r. split; [lia|exact H2].
  Qed.
  Lemma Float32_returns fuel64 fuel s : fst (src s) < 2 ^ 62 -> exists f, Float32 src fuel64 fuel s = (Ok f, snd (src s)).
  Proof.
    intros H. destruct (Float64_returns fuel64 s H) as (v & E & Hv).
    pose proof (Float64_range _ _ _ _ E) as [HR _].
    assert (HN : round 24 v <> 2 ^ 63).
    { destruct (Z.eq_dec v (2 ^ 62)) as [->|N]; [now vm_compute|]. destruct (round_spec 24 v ltac:(lia) HR) as (_ & _ & H2). specialize (H2 ltac:(lia)). lia. }
    destruct fuel; cbn [Float32]; unfold xbind; rewrite E; cbv zeta; destruct (Z.eqb_spec (round 24 v) (2 ^ 63)); try contradiction; unfold xret; eauto.
  Qed.
End Floats.

(** ** xrand.Crypto *)
Lemma from_bytes_le b : zlen b = 8 -> Forall (fun x => 0 <= x < 256) b -> littleEndian b = Ok (fromBytes b) /\ 0 <= fromBytes b < 2 ^ 64.
Proof.
  intros HL HB. do 8 (destruct b as [|? b]; [discriminate HL|]). destruct b; [|unfold zlen in HL; cbn [List.length] in HL; lia].
  repeat match goal with H : Forall _ (_ :: _) |- _ => let H1 := fresh "B" in inversion H as [|? ? H1 ?]; subst; clear H end.
  unfold littleEndian.
  rewrite (Secrand_Proofs.lor_shift _ _ 8) by lia. rewrite (Secrand_Proofs.lor_shift _ _ 16) by lia.
  rewrite (Secrand_Proofs.lor_shift _ _ 24) by lia. rewrite (Secrand_Proofs.lor_shift _ _ 32) by lia. rewrite (Secrand_Proofs.lor_shift _ _ 40) by lia.
  rewrite (Secrand_Proofs.lor_shift _ _ 48) by lia. rewrite (Secrand_Proofs.lor_shift _ _ 56) by lia.
  cbn [fromBytes]. split; [f_equal; ring|]. lia.
Qed.

Lemma bytes_unique k v : 0 <= v < 256 ^ Z.of_nat k ->
  exists b, (List.length b = k /\ Forall (fun x => 0 <= x < 256) b /\ fromBytes b = v) /\
    forall b', List.length b' = k -> Forall (fun x => 0 <= x < 256) b' -> fromBytes b' = v -> b' = b.
Proof.
  revert v. induction k as [|k IH]; intros v Hv.
  - change (256 ^ Z.of_nat 0) with 1 in Hv. exists []. split; [repeat split; [constructor|cbn; lia]|]. now intros [|].
  - rewrite Nat2Z.inj_succ, Z.pow_succ_r in Hv by lia. destruct (IH (v / 256)) as (b & (H1 & H2 & H3) & HU).
    { split; [apply Z.div_pos; lia|]. apply Z.div_lt_upper_bound; lia. }
    pose proof (Z.div_mod v 256 ltac:(lia)). pose proof (Z.mod_pos_bound v 256 ltac:(lia)).
    exists (v mod 256 :: b). split.
    + split; [cbn; lia|]. split; [constructor; assumption|]. cbn [fromBytes]. lia.
    + intros [|x b'] HL HF HE; [discriminate HL|]. pose proof (Forall_inv HF) as Hx. pose proof (Forall_inv_tail HF) as HF'. cbn beta in Hx. cbn [fromBytes] in HE.
      assert (fromBytes b' = v / 256) by lia. f_equal; [lia|]. apply HU; [now injection HL|exact HF'|assumption].
Qed.
