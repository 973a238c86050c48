(** Proofs about xfn/arithmetic.go. *)
From Coq Require Import SpecFloat Permutation.
From Verif Require Import Base Stream_Model Stream_Spec Stream_Sources XFn_Arith_Model XFn_Arith_Spec.

Lemma wraps_wrap t x : 0 < bits t -> wraps_to t x (wrap t x).
Proof.
  intros Ht. split; [now apply wrap_in|]. exists (- ((x - tmin t) / 2 ^ bits t)). unfold wrap.
  pose proof (Z.div_mod (x - tmin t) (2 ^ bits t) ltac:(pose proof (Z.pow_pos_nonneg 2 (bits t)); lia)). lia.
Qed.
Lemma wraps_unique t x r r' : 0 < bits t -> wraps_to t x r -> wraps_to t x r' -> r = r'.
Proof.
  intros Ht [H1 [k Hk]] [H2 [k' Hk']]. pose proof (span t Ht). unfold inType in *. subst.
  pose proof (Z.pow_pos_nonneg 2 (bits t) ltac:(lia) ltac:(lia)). assert (k = k') by nia. now subst.
Qed.
Lemma wraps_id t x : inType t x -> wraps_to t x x.
Proof. intros H. split; [exact H|]. exists 0. lia. Qed.

Lemma sum_wraps t l : 0 < bits t -> forall a, wraps_to t (a + sum l) (fold_left (PlusOp (intOps t)) l (wrap t a)).
Proof.
  intros Ht. induction l as [|x l IH]; intros a; cbn [fold_left sum fold_right].
  - rewrite Z.add_0_r. now apply wraps_wrap.
  - unfold PlusOp at 2. cbn [add intOps]. rewrite wrap_add by exact Ht. change (fold_right Z.add 0 l) with (sum l). rewrite Z.add_assoc. apply IH.
Qed.
Lemma wrap_mul t x y : 0 < bits t -> wrap t (wrap t x * y) = wrap t (x * y).
Proof.
  intros Ht. destruct (wraps_wrap t x Ht) as [_ [k ->]]. replace ((x + k * 2 ^ bits t) * y) with (x * y + k * y * 2 ^ bits t) by lia.
  now apply wrap_shift.
Qed.
Lemma product_wraps t l : 0 < bits t -> forall a, wraps_to t (a * product l) (fold_left (MultOp (intOps t)) l (wrap t a)).
Proof.
  intros Ht. induction l as [|x l IH]; intros a; cbn [fold_left product fold_right].
  - rewrite Z.mul_1_r. now apply wraps_wrap.
  - unfold MultOp at 2. cbn [mul intOps]. rewrite wrap_mul by exact Ht. change (fold_right Z.mul 1 l) with (product l). rewrite Z.mul_assoc. apply IH.
Qed.

Lemma quot_abs_le x y : y <> 0 -> Z.abs (Z.quot x y) * Z.abs y <= Z.abs x.
Proof.
  intros H0. rewrite <- Z.quot_abs by exact H0. rewrite Z.mul_comm. apply Z.mul_quot_le; lia.
Qed.
Lemma quot_inType t x y : 0 < bits t -> inType t x -> inType t y -> y <> 0 ->
  inType t (Z.quot x y) \/ (signed t = true /\ x = tmin t /\ y = -1).
Proof.
  intros Ht Hx Hy H0. unfold inType, tmin, tmax in *. pose proof (quot_abs_le x y H0) as HA.
  pose proof (Z.abs_nonneg (Z.quot x y)) as HP. destruct (signed t).
  - set (h := 2 ^ (bits t - 1)) in *. assert (0 < h) by (apply Z.pow_pos_nonneg; lia).
    destruct (Z.eq_dec y (-1)) as [->|N].
    { change (-1) with (- (1)). rewrite Z.quot_opp_r, Z.quot_1_r by lia. destruct (Z.eq_dec x (-h)); [right; auto|left; lia]. }
    left. destruct (Z.eq_dec y 1) as [->|N1]; [rewrite Z.quot_1_r; lia|].
    assert (2 * Z.abs (Z.quot x y) <= Z.abs x); [|lia].
    assert (2 <= Z.abs y) by lia. generalize dependent (Z.abs y). generalize dependent (Z.abs (Z.quot x y)). intros. nia.
  - left. pose proof (Z.quot_pos x y ltac:(lia) ltac:(lia)).
    assert (Z.abs (Z.quot x y) <= Z.abs x); [|lia].
    assert (1 <= Z.abs y) by lia. generalize dependent (Z.abs y). generalize dependent (Z.abs (Z.quot x y)). intros. nia.
Qed.

Lemma rem_inType t x y : 0 < bits t -> inType t x -> inType t y -> y <> 0 -> inType t (Z.rem x y).
Proof.
  intros Ht Hx Hy H0. unfold inType, tmin, tmax in *.
  pose proof (Z.rem_sign_mul x y H0) as HS.
  assert (HA : Z.abs (Z.rem x y) <= Z.abs x).
  { rewrite <- Z.rem_abs by exact H0. apply Z.rem_le; lia. }
  destruct (signed t).
  - assert (0 < 2 ^ (bits t - 1)) by (apply Z.pow_pos_nonneg; lia).
    pose proof (Z.rem_bound_abs x y H0). destruct (Z.eq_dec x (- 2 ^ (bits t - 1))) as [->|]; nia.
  - nia.
Qed.

Lemma div_mod_int t x y : 0 < bits t -> inType t x -> inType t y -> y <> 0 ->
  exists q r, quo (intOps t) x y = Ok q /\ rem (intOps t) x y = Ok r /\ inType t q /\ inType t r /\
    wraps_to t (q * y + r) x /\ Z.abs r < Z.abs y /\ 0 <= r * x /\
    (q * y + r = x \/ (signed t = true /\ x = tmin t /\ y = -1 /\ q = x /\ r = 0)).
Proof.
  intros Ht Hx Hy H0. cbn [quo rem intOps]. rewrite (proj2 (Z.eqb_neq y 0) H0).
  exists (wrap t (Z.quot x y)), (wrap t (Z.rem x y)).
  rewrite (wrap_id t Ht (Z.rem x y)) by now apply rem_inType.
  pose proof (Z.quot_rem x y H0) as HQ. pose proof (Z.rem_bound_abs x y H0). pose proof (Z.rem_sign_mul x y H0).
  pose proof (rem_inType t x y Ht Hx Hy H0). pose proof (wrap_in t Ht (Z.quot x y)).
  assert (E : wrap t (Z.quot x y) * y + Z.rem x y = x \/ (signed t = true /\ x = tmin t /\ y = -1 /\ wrap t (Z.quot x y) = x /\ Z.rem x y = 0)).
  { destruct (quot_inType t x y Ht Hx Hy H0) as [HI|(Hs & Hxm & Hym)].
    - left. rewrite wrap_id by assumption. lia.
    - right. repeat split; auto.
      + subst y. change (-1) with (- (1)). rewrite Z.quot_opp_r, Z.quot_1_r by lia.
        rewrite <- (wrap_shift t Ht _ (-1)). rewrite wrap_id; auto; unfold inType, tmin, tmax in *; rewrite Hs in *;
        assert (2 ^ bits t = 2 * 2 ^ (bits t - 1)) by (rewrite <- Z.pow_succ_r by lia; f_equal; lia); lia.
      + subst y. change (-1) with (- (1)). rewrite Z.rem_opp_r by lia. apply Z.rem_1_r. }
  do 4 (split; [assumption || reflexivity|]). split; [|split; [lia|split; [lia|exact E]]].
  split; [exact Hx|]. destruct (wraps_wrap t (Z.quot x y) Ht) as [_ [k Hk]]. exists (- k * y). rewrite Hk. lia.
Qed.

Lemma string_sum {B} (l : list (list B)) : forall a, fold_left (PlusOp stringOps) l a = a ++ List.concat l.
Proof.
  induction l as [|x l IH]; intros a; cbn [fold_left List.concat]; [now rewrite app_nil_r|].
  rewrite IH. unfold PlusOp. cbn [add stringOps]. now rewrite app_assoc.
Qed.

Lemma SFadd_comm p e x y : SFadd p e x y = SFadd p e y x.
Proof.
  destruct x as [sx|sx| |sx mx ex], y as [sy|sy| |sy my ey]; cbn; try reflexivity;
    try (destruct sx, sy; reflexivity). now rewrite Z.min_comm, Z.add_comm.
Qed.
Lemma SFmul_comm p e x y : SFmul p e x y = SFmul p e y x.
Proof.
  destruct x as [sx|sx| |sx mx ex], y as [sy|sy| |sy my ey]; cbn; try reflexivity; try (now rewrite xorb_comm).
  now rewrite (xorb_comm sx), (Pos.mul_comm mx), (Z.add_comm ex).
Qed.
