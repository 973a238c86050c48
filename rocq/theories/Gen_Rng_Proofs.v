(** Proofs about secrand/dieharder_test. *)
From Verif Require Import Base Arr Exn Secrand_Model Secrand_Spec Secrand_Proofs Secrand_Cut_Proofs.
From Verif Require XHash_Spec XHash_Proofs.
From Verif Require Import Gen_Spec Gen_Model Gen_Proofs.
Local Open Scope exn_scope.
Local Open Scope list_scope.
Local Open Scope Z_scope.

Lemma put_littleEndian b : zlen b = 8 -> bytes b -> PutUint64 (littleEndian b) = b.
Proof.
  intros Hl Hb. rewrite put_le. change (littleEndian b) with (XHash_Spec.le b).
  replace 8%nat with (List.length b) by (unfold zlen in Hl; lia). apply XHash_Proofs.le_bytes_le. exact Hb.
Qed.
Lemma seed32_length s : zlen (seed32 s) = 32.
Proof. reflexivity. Qed.

Section Rng.
  Context (ks : Z -> list Z -> list Z -> nat -> Z) (rd : Z) (nc : list Z) (bs : nat).
  Hypothesis Hks : cipher ks.
  Hypothesis Hrd : rd = 8 \/ rd = 12 \/ rd = 20.
  Hypothesis Hnc : zlen nc = 8.
  Hypothesis Hbs : (64 <= bs)%nat.

  Lemma words_reads k : forall buf r, good rd nc bs r ->
    exists l r', performs ks (map CRead (repeat (zeros 8) k)) r = (Ok l, r') /\
      rngLoop ks false k buf r = (Ok (output l), r').
  Proof.
    induction k as [|k IH]; intros b r Hg; cbn [repeat map performs rngLoop].
    { exists [], r. split; reflexivity. }
    destruct (read_good ks rd nc bs Hks Hrd Hnc Hbs 0 (zeros 8) r Hg) as (b' & r1 & E & HL & HB & Hg1).
    specialize (HB (bytes_zeros 8)). change (zlen (zeros 8)) with 8 in HL, E.
    pose proof (uint64_read ks rd nc bs Hks Hrd Hnc Hbs 0 r Hg) as EU. rewrite E in EU.
    destruct (IH b r1 Hg1) as (l & r2 & E1 & E2).
    exists (ARead 8 b' :: l), r2. split.
    - unfold xbind at 1. cbn [perform]. unfold xbind at 1. rewrite E. unfold xret at 1. cbn [fst snd].
      unfold xbind. now rewrite E1.
    - unfold xbind at 1. rewrite EU. unfold xbind. rewrite E2. unfold xret. cbn [output].
      rewrite put_littleEndian by assumption. reflexivity.
  Qed.

  Lemma aligned8 k : forall p, (p mod 8 = 0)%nat -> (bs mod 8 = 0)%nat ->
    aligned bs p (map (@List.length Z) (repeat (zeros 8) k)).
  Proof.
    induction k as [|k IH]; intros p Hp Hb; cbn [repeat map aligned]; [exact I|].
    change (List.length (zeros 8)) with 8%nat. split.
    - pose proof (Nat.mod_upper_bound p bs ltac:(lia)).
      pose proof (Nat.div_mod p bs ltac:(lia)) as D.
      assert (exists a, p = 8 * a)%nat as [a Ha] by (exists (p / 8)%nat; pose proof (Nat.div_mod p 8); lia).
      assert (exists c, bs = 8 * c)%nat as [c Hc] by (exists (bs / 8)%nat; pose proof (Nat.div_mod bs 8); lia).
      assert (E : (p mod bs = 8 * (a - c * (p / bs)))%nat).
      { rewrite Nat.mul_sub_distr_l, Nat.mul_assoc, <- Hc, <- Ha. lia. }
      lia.
    - apply IH; [|exact Hb]. rewrite Nat.add_mod, Hp by lia. reflexivity.
  Qed.

  Lemma sum8 k : list_sum (map (@List.length Z) (repeat (zeros 8) k)) = (8 * k)%nat.
  Proof.
    induction k as [|k IH]; [reflexivity|]. cbn [repeat map]. change (List.length (zeros 8)) with 8%nat.
    unfold list_sum in *. cbn [fold_right]. rewrite IH. lia.
  Qed.

  (** *** Reads of equal length *)
  Section Equal.
    Context (seed : list Z) (d : nat).
    Hypothesis Hd : (0 < d <= bs)%nat.
    Local Notation pk := (pageKey ks rd nc seed).
    Local Notation pg := (page ks rd nc seed bs).
    Local Notation sv := (served pg (leave bs d)).

    Lemma leave_bound i : (leave bs d i <= bs)%nat.
    Proof. unfold leave. pose proof (Nat.mul_div_le (S i * bs) d ltac:(lia)). cbn [Nat.mul] in *. lia. Qed.

    Lemma raw_loop k : forall r i o b, (o <= bs)%nat -> (i * bs + o = r * d)%nat -> List.length b = d ->
      exists s, rngLoop ks true k b (shaped rd nc (pk i) o (skipn o (sv i))) =
        (Ok (map (servedByte pg bs (leave bs d)) (seq (r * d) (k * d))), s).
    Proof.
      induction k as [|k IH]; intros r i o b Ho Hr Hb; cbn [rngLoop].
      { eexists. reflexivity. }
      replace (S k * d)%nat with (d + k * d)%nat by lia. rewrite seq_app, map_app.
      destruct (read_served ks rd nc bs Hrd Hnc Hbs seed (leave bs d) leave_bound i o b Ho ltac:(lia)) as (i' & o' & Ho' & Hp & ER).
      { intros Hx. unfold leave. assert (Hq : (S i * bs / d = r)%nat).
        { symmetry. apply Nat.div_unique with (S i * bs - r * d)%nat; rewrite ?(Nat.mul_comm d r); cbn [Nat.mul]; lia. }
        rewrite Hq, (Nat.mul_comm d r). lia. }
      destruct (IH (S r) i' o' (map (servedByte pg bs (leave bs d)) (seq (i * bs + o) (List.length b))) Ho') as (s & E).
      { cbn [Nat.mul]. lia. }
      { now rewrite map_length, seq_length. }
      exists s. unfold xbind at 1. rewrite ER. cbn [snd]. unfold xbind. rewrite E. unfold xret.
      rewrite Hb, Hr. replace (r * d + d)%nat with (S r * d)%nat by lia. reflexivity.
    Qed.
  End Equal.
End Rng.

(** The first two pages, with and without what is left of the first one. *)
Lemma first_pages (pg : nat -> list Z) bs d j : (forall i, List.length (pg i) = bs) -> (leave bs d 0 < bs)%nat ->
  let plain j := nth (j mod bs) (pg (j / bs)%nat) 0 in
  ((j < bs + leave bs d 0)%nat -> servedByte pg bs (leave bs d) j = plain j) /\
  ((bs + leave bs d 0 <= j < bs + bs)%nat -> servedByte pg bs (leave bs d) j = Z.lxor (plain j) (plain (j - bs)%nat)).
Proof.
  intros Hlen Hlv plain. set (lv := leave bs d 0) in *.
  assert (X : forall a b i, (i < List.length a)%nat -> List.length a = List.length b ->
    nth i (xorl a b) 0 = Z.lxor (nth i a 0) (nth i b 0)).
  { clear. induction a as [|x a IH]; intros [|y b] [|i] Hi Hl; cbn in *; try lia. apply IH; lia. }
  assert (P1 : forall i, (i < bs)%nat -> servedByte pg bs (leave bs d) (i + bs)%nat =
    Z.lxor (plain (i + bs)%nat) (nth i (repeat 0 lv ++ skipn lv (pg 0%nat)) 0)).
  { intros i Hi. unfold plain, servedByte. replace (i + bs)%nat with (i + 1 * bs)%nat by lia.
    rewrite Nat.mod_add, Nat.mod_small, Nat.div_add, Nat.div_small by lia. cbn [Nat.add served]. fold lv.
    apply X; [rewrite Hlen; exact Hi|]. rewrite app_length, repeat_length, skipn_length, !Hlen. lia. }
  assert (P0 : forall i, (i < bs)%nat -> servedByte pg bs (leave bs d) i = plain i).
  { intros i Hi. unfold plain, servedByte. rewrite Nat.mod_small, Nat.div_small by lia. reflexivity. }
  split; intros Hj.
  - destruct (lt_dec j bs) as [L|L]; [now apply P0|]. replace j with (j - bs + bs)%nat by lia.
    rewrite P1 by lia. rewrite app_nth1 by (rewrite repeat_length; lia). rewrite nth_repeat. apply Z.lxor_0_r.
  - replace (servedByte pg bs (leave bs d) j) with (servedByte pg bs (leave bs d) (j - bs + bs)) by (f_equal; lia).
    rewrite P1 by lia. replace (j - bs + bs)%nat with j by lia. f_equal.
    rewrite app_nth2 by (rewrite repeat_length; lia). rewrite repeat_length.
    assert (N : forall a (l : list Z) i, nth i (skipn a l) 0 = nth (a + i) l 0).
    { clear. induction a as [|a IH]; intros [|x l] i; cbn [skipn Nat.add nth]; try reflexivity; [destruct i; reflexivity|]. apply IH. }
    rewrite N. replace (lv + (j - bs - lv))%nat with (j - bs)%nat by lia.
    unfold plain. rewrite (Nat.mod_small (j - bs)), (Nat.div_small (j - bs)) by lia. reflexivity.
Qed.
