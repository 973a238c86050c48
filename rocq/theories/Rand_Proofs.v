(** Proofs about random numbers. *)
From Coq Require Import Permutation.
From Verif Require Import Base Arr Exn Rand_Model Rand_Spec.
Local Open Scope list_scope.
Local Open Scope Z_scope.

(** ** Counting *)
Lemma below_in n x : In x (below n) <-> 0 <= x < n.
Proof.
  unfold below. rewrite in_map_iff. split.
  - intros (k & <- & H). apply in_seq in H. lia.
  - intros H. exists (Z.to_nat x). split; [lia|]. apply in_seq. lia.
Qed.
Lemma below_nodup n : NoDup (below n).
Proof. unfold below. apply FinFun.Injective_map_NoDup; [intros a b; lia|apply seq_NoDup]. Qed.
Lemma below_len n : 0 <= n -> zlen (below n) = n.
Proof. intros H. unfold zlen, below. rewrite map_length, seq_length. lia. Qed.

Lemma likely_ext N n f g : (forall w, 0 <= w < N -> f w = g w) -> equallyLikely N n f -> equallyLikely N n g.
Proof.
  intros HE (q & Hq & H). exists q. split; [exact Hq|]. intros r Hr. destruct (H r Hr) as (ws & HN & HL & HI).
  exists ws. split; [exact HN|]. split; [exact HL|]. intros w. rewrite HI. split; intros [Hw E]; (split; [exact Hw|]).
  - now rewrite <- HE.
  - now rewrite HE.
Qed.

Lemma likely_mod N n : 0 < n <= N -> equallyLikely N n (fun w => if w <? n * (N / n) then Ok (w mod n) else Diverge).
Proof.
  intros Hn. pose proof (Z.div_mod N n ltac:(lia)) as HD. pose proof (Z.mod_pos_bound N n ltac:(lia)) as HM.
  assert (1 <= N / n) by (apply Z.div_le_lower_bound; lia).
  exists (N / n). split; [nia|]. intros r Hr. exists (map (fun k => k * n + r) (below (N / n))). split; [|split].
  - apply FinFun.Injective_map_NoDup; [intros a b; nia|apply below_nodup].
  - unfold zlen. rewrite map_length. apply below_len. lia.
  - intros w. rewrite in_map_iff. split.
    + intros (k & <- & Hk). apply below_in in Hk. split; [nia|]. rewrite (proj2 (Z.ltb_lt _ _)) by nia.
      rewrite Z.add_comm, Z.mod_add, Z.mod_small by lia. reflexivity.
    + intros [Hw E]. destruct (w <? n * (N / n)) eqn:EL; [|discriminate]. injection E as E. apply Z.ltb_lt in EL.
      pose proof (Z.div_mod w n ltac:(lia)) as Hd. exists (w / n). split; [nia|]. apply below_in. split; [apply Z.div_pos; lia|].
      apply Z.div_lt_upper_bound; lia.
Qed.

Lemma nodup_app {A} (a b : list A) : NoDup a -> NoDup b -> (forall x, In x a -> ~ In x b) -> NoDup (a ++ b).
Proof.
  induction a as [|x a IH]; intros Ha Hb Hd; [exact Hb|]. inversion Ha; subst. cbn. constructor.
  - rewrite in_app_iff. intros [H|H]; [contradiction|]. now apply (Hd x (or_introl eq_refl)).
  - apply IH; auto. intros y Hy. apply Hd. now right.
Qed.

Lemma likely_shift N k n f : 0 <= k -> equallyLikely N n f -> equallyLikely (N * 2 ^ k) n (fun w => f (w / 2 ^ k)).
Proof.
  intros Hk (q & Hq & H). assert (0 < 2 ^ k) by lia. exists (q * 2 ^ k). split; [nia|]. intros r Hr.
  destruct (H r Hr) as (ws & HN & HL & HI).
  set (blk := fun w => map (fun i => w * 2 ^ k + i) (below (2 ^ k))).
  assert (HB : forall w x, In x (blk w) <-> x / 2 ^ k = w).
  { intros w x. unfold blk. rewrite in_map_iff. split.
    - intros (i & <- & Hi). apply below_in in Hi. rewrite Z.add_comm, Z.div_add, Z.div_small by lia. reflexivity.
    - intros <-. exists (x mod 2 ^ k). pose proof (Z.div_mod x (2 ^ k) ltac:(lia)). pose proof (Z.mod_pos_bound x (2 ^ k) ltac:(lia)).
      split; [lia|]. now apply below_in. }
  exists (flat_map blk ws). split; [|split].
  - clear HL HI. induction ws as [|w ws IH]; [constructor|]. inversion HN; subst. cbn [flat_map]. apply nodup_app.
    + apply FinFun.Injective_map_NoDup; [intros a b; lia|apply below_nodup].
    + auto.
    + intros x Hx Hy. apply HB in Hx. apply in_flat_map in Hy as (w' & Hw' & Hy). apply HB in Hy. congruence.
  - rewrite <- HL. clear HN HI HL. induction ws as [|w ws IH]; [reflexivity|]. cbn [flat_map]. unfold zlen in *.
    rewrite app_length, Nat2Z.inj_add, IH. change (List.length (blk w)) with (List.length (map (fun i => w * 2 ^ k + i) (below (2 ^ k)))).
    rewrite map_length. pose proof (below_len (2 ^ k) ltac:(lia)) as HL. unfold zlen in HL. rewrite HL. cbn [List.length]. lia.
  - intros w. rewrite in_flat_map. split.
    + intros (v & Hv & Hw). apply HB in Hw. subst v. apply HI in Hv as [Hv E]. split; [|exact E].
      split.
      * destruct (Z.lt_ge_cases w 0); [|lia]. assert (w / 2 ^ k < 0) by (apply Z.div_lt_upper_bound; lia). lia.
      * pose proof (Z.div_mod w (2 ^ k) ltac:(lia)). pose proof (Z.mod_pos_bound w (2 ^ k) ltac:(lia)). nia.
    + intros [Hw E]. exists (w / 2 ^ k). split; [|now apply HB]. apply HI. split; [|exact E]. split; [apply Z.div_pos; lia|].
      apply Z.div_lt_upper_bound; lia.
Qed.

(** The product method: of the words 0 .. N-1, those with (v * n) mod N at least
    N mod n. *)
Lemma likely_product N n : 0 < n <= N ->
  equallyLikely N n (fun v => if (v * n) mod N <? N mod n then Diverge else Ok (v * n / N)).
Proof.
  intros Hn. set (t := N mod n). set (q := N / n).
  pose proof (Z.div_mod N n ltac:(lia)) as HD. fold t q in HD. pose proof (Z.mod_pos_bound N n ltac:(lia)) as HM. fold t in HM.
  assert (1 <= q) by (apply Z.div_le_lower_bound; lia).
  exists q. split; [nia|]. intros r Hr.
  (* the first multiple of n that is at least r * N + t *)
  set (a := - ((- (r * N + t)) / n)).
  assert (Ha : r * N + t <= a * n < r * N + t + n).
  { unfold a. pose proof (Z.div_mod (- (r * N + t)) n ltac:(lia)). pose proof (Z.mod_pos_bound (- (r * N + t)) n ltac:(lia)). nia. }
  exists (map (fun i => a + i) (below q)). split; [|split].
  - apply FinFun.Injective_map_NoDup; [intros x y; lia|apply below_nodup].
  - unfold zlen. rewrite map_length. apply below_len. lia.
  - intros v. rewrite in_map_iff. split.
    + intros (i & <- & Hi). apply below_in in Hi.
      assert (HV : r * N + t <= (a + i) * n < (r + 1) * N) by nia.
      assert (E1 : (a + i) * n / N = r) by (symmetry; apply (Z.div_unique _ _ _ ((a + i) * n - r * N)); nia).
      assert (E2 : ((a + i) * n) mod N = (a + i) * n - r * N) by (symmetry; apply (Z.mod_unique _ _ r); nia).
      split; [nia|]. rewrite E2, E1, (proj2 (Z.ltb_ge _ _)) by lia. reflexivity.
    + intros [Hv E]. destruct (_ <? _) eqn:EL; [discriminate|]. injection E as E. apply Z.ltb_ge in EL.
      pose proof (Z.div_mod (v * n) N ltac:(lia)) as H1. pose proof (Z.mod_pos_bound (v * n) N ltac:(lia)) as H2. rewrite E in H1.
      exists (v - a). split; [lia|]. apply below_in. nia.
Qed.

(** ** Bounded integers *)
Lemma power_of_two n : 0 < n -> Z.land n (n - 1) = 0 -> n = 2 ^ Z.log2 n.
Proof.
  intros Hn H. pose proof (Z.log2_spec n Hn) as HL. pose proof (Z.log2_nonneg n) as H0.
  destruct (Z.eq_dec n (2 ^ Z.log2 n)) as [E|NE]; [exact E|exfalso].
  assert (E1 : Z.testbit n (Z.log2 n) = true) by (apply Z.bit_log2; lia).
  assert (E2 : Z.testbit (n - 1) (Z.log2 n) = true).
  { replace (Z.log2 n) with (Z.log2 (n - 1)) at 1; [apply Z.bit_log2; lia|]. apply Z.log2_unique; lia. }
  assert (E3 : Z.testbit (Z.land n (n - 1)) (Z.log2 n) = true) by now rewrite Z.land_spec, E1, E2.
  rewrite H, Z.bits_0 in E3. discriminate.
Qed.

Lemma mask_mod v n : 0 < n -> Z.land n (n - 1) = 0 -> Z.land v (n - 1) = v mod n.
Proof.
  intros Hn H. apply power_of_two in H; [|exact Hn]. rewrite H. replace (2 ^ Z.log2 n - 1) with (Z.ones (Z.log2 n)).
  - apply Z.land_ones, Z.log2_nonneg.
  - rewrite Z.ones_equiv. lia.
Qed.

Lemma power_divides n B : 0 < n <= 2 ^ B -> 0 <= B -> Z.land n (n - 1) = 0 -> n * (2 ^ B / n) = 2 ^ B.
Proof.
  intros Hn HB H. apply power_of_two in H; [|lia]. set (k := Z.log2 n) in *. assert (0 <= k) by apply Z.log2_nonneg.
  assert (k <= B). { destruct (Z.le_gt_cases k B) as [L|L]; [exact L|]. assert (2 ^ B < 2 ^ k) by (apply Z.pow_lt_mono_r; lia). lia. }
  rewrite H. replace (2 ^ B) with (2 ^ k * 2 ^ (B - k)) by (rewrite <- Z.pow_add_r by lia; f_equal; lia).
  rewrite (Z.mul_comm (2 ^ k) (2 ^ (B - k))), Z.div_mul by lia. lia.
Qed.

Lemma low_limit N n v : 0 < n -> v > N - 1 - N mod n <-> n * (N / n) <= v.
Proof. intros Hn. pose proof (Z.div_mod N n ltac:(lia)). lia. Qed.

(** What one of the functions does with its source: draws words until [accept]. *)
Section Draws.
  Context {st : Type} (src : st -> Z * st) (accept : Z -> outcome Z).
  (** The first accepted of the next words, at most [S fuel] of them. *)
  Fixpoint firstAccepted (fuel : nat) (s : st) : outcome Z * st :=
    let '(w, s1) := src s in
    match accept w with
    | Diverge => match fuel with O => (Diverge, s1) | S fuel' => firstAccepted fuel' s1 end
    | r => (r, s1)
    end.
End Draws.

Lemma redraw_first {st} (src : st -> Z * st) (D : X st Z) (f : Z -> Z) (bad : Z -> bool) (g : Z -> Z) fuel s :
  (forall s, D s = (Ok (f (fst (src s))), snd (src s))) ->
  xbind D (fun v => xbind (redraw fuel D bad v) (fun v => xret (g v))) s
  = firstAccepted src (fun w => if bad (f w) then Diverge else Ok (g (f w))) fuel s.
Proof.
  intros HD. revert s. induction fuel as [|fuel IH]; intros s; unfold xbind, xret in *; rewrite HD; cbn [redraw firstAccepted];
    destruct (src s) as [w s1] eqn:E; cbn [fst snd].
  - destruct (bad (f w)); reflexivity.
  - destruct (bad (f w)); [|reflexivity]. rewrite <- IH. unfold xbind. rewrite HD. reflexivity.
Qed.

Lemma first_ext {st} (src : st -> Z * st) f g fuel s : words63 src -> (forall w, 0 <= w < 2 ^ 63 -> f w = g w) ->
  firstAccepted src f fuel s = firstAccepted src g fuel s.
Proof.
  intros HW HE. revert s. induction fuel as [|fuel IH]; intros s; cbn [firstAccepted]; pose proof (HW s) as Hs;
    destruct (src s) as [w s1]; cbn [fst] in Hs; rewrite (HE w Hs); [reflexivity|]. destruct (g w); auto.
Qed.

Lemma draw_first {st} (src : st -> Z * st) (g : Z -> Z) fuel s :
  xbind (draw src) (fun v => xret (g v)) s = firstAccepted src (fun w => Ok (g w)) fuel s.
Proof. unfold xbind, draw, xret. destruct fuel; cbn [firstAccepted]; now destruct (src s). Qed.

(** The answers on a single word. *)
Definition accept63 (n w : Z) : outcome Z := if w <? n * (2 ^ 63 / n) then Ok (w mod n) else Diverge.
Definition accept31 (n w : Z) : outcome Z := (fun v => if v <? n * (2 ^ 31 / n) then Ok (v mod n) else Diverge) (w / 2 ^ 32).
Definition accept32 (n w : Z) : outcome Z :=
  (fun v => if (v * n) mod 2 ^ 32 <? 2 ^ 32 mod n then Diverge else Ok (v * n / 2 ^ 32)) (w / 2 ^ 31).
Definition acceptN (n : Z) : Z -> outcome Z := if n <=? 2 ^ 31 - 1 then accept31 n else accept63 n.

Section Functions.
  Context {st : Type} (src : st -> Z * st) (HW : words63 src).

  Lemma div_range w k : 0 <= w < 2 ^ 63 -> 0 <= k <= 63 -> 0 <= w / 2 ^ k < 2 ^ (63 - k).
  Proof.
    intros Hw Hk. split; [apply Z.div_pos; lia|]. apply Z.div_lt_upper_bound; [lia|]. rewrite <- Z.pow_add_r by lia.
    replace (k + (63 - k)) with 63 by lia. lia.
  Qed.

  Lemma Int63n_first fuel n s : 0 < n < 2 ^ 63 -> Int63n src fuel n s = firstAccepted src (accept63 n) fuel s.
  Proof.
    intros Hn. unfold Int63n. rewrite (proj2 (Z.leb_gt _ _)) by lia. destruct (Z.land n (n - 1) =? 0) eqn:E.
    - apply Z.eqb_eq in E. unfold Int63. rewrite (draw_first src (fun v => Z.land v (n - 1)) fuel). apply first_ext; [exact HW|].
      intros w Hw. unfold accept63. rewrite power_divides, (proj2 (Z.ltb_lt _ _)) by lia. f_equal. apply mask_mod; lia.
    - rewrite (redraw_first src (Int63 src) (fun w => w)) by reflexivity.
      apply first_ext; [exact HW|]. intros w Hw. unfold accept63. pose proof (low_limit (2 ^ 63) n w ltac:(lia)) as HL.
      destruct (w >? 2 ^ 63 - 1 - 2 ^ 63 mod n) eqn:EG; [apply Z.gtb_lt in EG|rewrite Z.gtb_ltb, Z.ltb_ge in EG].
      + rewrite (proj2 (Z.ltb_ge _ _)) by lia. reflexivity.
      + rewrite (proj2 (Z.ltb_lt _ _)) by lia. reflexivity.
  Qed.

  Lemma Int31n_first fuel n s : 0 < n < 2 ^ 31 -> Int31n src fuel n s = firstAccepted src (accept31 n) fuel s.
  Proof.
    intros Hn. unfold Int31n. rewrite (proj2 (Z.leb_gt _ _)) by lia. destruct (Z.land n (n - 1) =? 0) eqn:E.
    - apply Z.eqb_eq in E. unfold Int31, Int63.
      replace (firstAccepted src (accept31 n) fuel s) with (firstAccepted src (fun w => Ok (Z.land (Z.shiftr w 32) (n - 1))) fuel s).
      + rewrite <- (draw_first src (fun w => Z.land (Z.shiftr w 32) (n - 1)) fuel). unfold xbind, draw, xret. reflexivity.
      + apply first_ext; [exact HW|]. intros w Hw. unfold accept31. rewrite Z.shiftr_div_pow2 by lia.
        pose proof (div_range w 32 Hw ltac:(lia)). rewrite power_divides, (proj2 (Z.ltb_lt _ _)) by lia. f_equal. apply mask_mod; lia.
    - rewrite (redraw_first src (Int31 src) (fun w => Z.shiftr w 32)) by reflexivity.
      apply first_ext; [exact HW|]. intros w Hw. unfold accept31. rewrite Z.shiftr_div_pow2 by lia.
      pose proof (low_limit (2 ^ 31) n (w / 2 ^ 32) ltac:(lia)) as HL.
      destruct (w / 2 ^ 32 >? 2 ^ 31 - 1 - 2 ^ 31 mod n) eqn:EG; [apply Z.gtb_lt in EG|rewrite Z.gtb_ltb, Z.ltb_ge in EG].
      + rewrite (proj2 (Z.ltb_ge _ _)) by lia. reflexivity.
      + rewrite (proj2 (Z.ltb_lt _ _)) by lia. reflexivity.
  Qed.

  Lemma Intn_first fuel n s : 0 < n < 2 ^ 63 -> Intn src fuel n s = firstAccepted src (acceptN n) fuel s.
  Proof.
    intros Hn. unfold Intn, acceptN. rewrite (proj2 (Z.leb_gt _ _)) by lia. destruct (n <=? 2 ^ 31 - 1) eqn:E.
    - apply Z.leb_le in E. apply Int31n_first. lia.
    - apply Int63n_first. lia.
  Qed.

  Lemma neg_mod n : 0 < n < 2 ^ 31 -> (- n) mod 2 ^ 32 mod n = 2 ^ 32 mod n.
  Proof.
    intros Hn. replace ((- n) mod 2 ^ 32) with (2 ^ 32 + (-1) * n).
    - apply Z.mod_add. lia.
    - rewrite <- (Z.mod_add (- n) 1 (2 ^ 32)) by lia. rewrite Z.mod_small; lia.
  Qed.

  Lemma int31n_first fuel n s : 0 < n < 2 ^ 31 -> int31n src fuel n s = firstAccepted src (accept32 n) fuel s.
  Proof.
    intros Hn. unfold int31n. rewrite neg_mod by exact Hn. pose proof (Z.mod_pos_bound (2 ^ 32) n ltac:(lia)) as HM.
    set (th := 2 ^ 32 mod n) in *.
    transitivity (xbind (Uint32 src) (fun v =>
      xbind (redraw fuel (Uint32 src) (fun v => (v * n) mod 2 ^ 32 <? th) v) (fun v => xret (Z.shiftr (v * n) 32))) s).
    - unfold xbind at 1. unfold xbind at 2. destruct (Uint32 src s) as [[v|m|] s1]; [|reflexivity|reflexivity].
      unfold xbind. destruct ((v * n) mod 2 ^ 32 <? n) eqn:E; [reflexivity|]. apply Z.ltb_ge in E.
      destruct fuel; cbn [redraw]; rewrite (proj2 (Z.ltb_ge _ _)) by lia; reflexivity.
    - rewrite (redraw_first src (Uint32 src) (fun w => Z.shiftr w 31 mod 2 ^ 32)) by reflexivity. apply first_ext; [exact HW|]. intros w Hw.
      unfold accept32. rewrite !Z.shiftr_div_pow2 by lia. pose proof (div_range w 31 Hw ltac:(lia)). rewrite (Z.mod_small (w / 2 ^ 31)) by lia.
      reflexivity.
  Qed.
End Functions.

Lemma always_63 : words63 always.
Proof. intros s. cbn [always fst]. apply Z.mod_pos_bound. reflexivity. Qed.
Lemma always_words w : 0 <= w < 2 ^ 63 -> forall fuel accept, firstAccepted always accept fuel w = (accept w, w).
Proof.
  intros Hw fuel accept. assert (E : always w = (w, w)) by (unfold always; now rewrite Z.mod_small).
  induction fuel as [|fuel IH]; cbn [firstAccepted]; rewrite E; destruct (accept w); auto.
Qed.
