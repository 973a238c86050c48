(** Proofs about the generator programs. *)
From Coq Require Import Lia.
From Verif Require Import Base Arr Exn XHash_Spec Gen_Spec Gen_Model.
From Verif Require XHash_Model XHash_Proofs Secrand_Model Secrand_Spec Secrand_Proofs.
Local Open Scope list_scope.
Local Open Scope Z_scope.

Lemma put_put v : PutUint64 v = XHash_Model.putUint64 v.
Proof. unfold PutUint64, XHash_Model.putUint64, XHash_Model.u8. cbn [map]. now rewrite Z.shiftr_0_r. Qed.
Lemma put_le v : PutUint64 v = le_bytes 8 v.
Proof. rewrite put_put. apply XHash_Proofs.putUint64_le. Qed.
Lemma put_length v : List.length (PutUint64 v) = 8%nat.
Proof. reflexivity. Qed.

(** ** Words of a concatenation *)
Lemma wordAt_0 v l : is_word v -> wordAt (PutUint64 v ++ l) 0 = v.
Proof.
  intros Hv. unfold wordAt. rewrite Nat.mul_0_r. cbn [skipn].
  rewrite firstn_app, put_length. replace (8 - 8)%nat with 0%nat by lia.
  rewrite firstn_O, app_nil_r. rewrite firstn_all2 by (rewrite put_length; lia).
  rewrite put_le. apply XHash_Proofs.le_le_bytes. exact Hv.
Qed.
Lemma wordAt_S v l j : wordAt (PutUint64 v ++ l) (S j) = wordAt l j.
Proof.
  unfold wordAt. f_equal. f_equal. replace (8 * S j)%nat with (8 + 8 * j)%nat by lia.
  rewrite skipn_app, put_length. rewrite skipn_all2 by (rewrite put_length; lia). cbn [app]. f_equal. lia.
Qed.

(** ** The counters *)
Definition counted (m : mode) : Prop := m <> Incr64.
Definition wordOf (m : mode) (i : Z) : Z :=
  match m with CountUint64Seed => XHash_Model.Uint64Seed 0 i | _ => XHash_Model.Uint64 i end.

Lemma word0 : is_word 0.
Proof. split; [lia|reflexivity]. Qed.
Lemma u64_word x : is_word (XHash_Model.u64 x).
Proof. apply Z.mod_pos_bound. reflexivity. Qed.
Lemma wordOf_bij m : bijective_on_words (wordOf m).
Proof.
  destruct m; [exact XHash_Proofs.Uint64_bij|exact XHash_Proofs.Uint64_bij|].
  apply (XHash_Proofs.Uint64Seed_bij_seed 0 word0).
Qed.

Lemma count_word m k : counted m -> forall h i j, is_word i -> (j < k)%nat ->
  wordAt (hashLoop m k h i) j = wordOf m (XHash_Model.u64 (i + Z.of_nat j)).
Proof.
  intros Hm. induction k as [|k IH]; intros h i j Hi Hj; [lia|].
  assert (W : is_word (wordOf m i)) by (now apply wordOf_bij).
  assert (E : hashLoop m (S k) h i = PutUint64 (wordOf m i) ++ hashLoop m k h (XHash_Model.u64 (i + 1)))
    by (destruct m; [now contradict Hm|reflexivity|reflexivity]).
  rewrite E. destruct j as [|j].
  - rewrite wordAt_0 by exact W. f_equal. unfold XHash_Model.u64. rewrite Z.add_0_r. symmetry. apply Z.mod_small. exact Hi.
  - rewrite wordAt_S, IH by (apply u64_word || lia). f_equal. unfold XHash_Model.u64.
    rewrite Zplus_mod_idemp_l. f_equal. lia.
Qed.

Lemma counter_cycles m : counted m -> cycles (hashMain m) (2 ^ 64).
Proof.
  intros Hm k i j Hi Hj. unfold hashMain. rewrite !count_word by (assumption || apply word0). rewrite !Z.add_0_l.
  destruct (wordOf_bij m) as (_ & Inj & _). unfold XHash_Model.u64. change XHash_Model.W64 with (2 ^ 64).
  split; [|intros E; now rewrite E].
  apply Inj; apply Z.mod_pos_bound; reflexivity.
Qed.

Lemma nodup_prefix {A} (a b : list A) : NoDup (a ++ b) -> NoDup a.
Proof.
  induction a as [|x a IH]; cbn [app]; intros H; [constructor|]. inversion H as [|? ? H1 H2]; subst.
  constructor; [|now apply IH]. intros I. apply H1, in_or_app. now left.
Qed.

(** ** The orbit of an injection of the words is a cycle *)
Section Orbit.
  Context (f : Z -> Z) (x0 : Z).
  Hypothesis W0 : is_word x0.
  Hypothesis Wf : forall x, is_word x -> is_word (f x).
  Hypothesis Inj : forall x y, is_word x -> is_word y -> f x = f y -> x = y.

  Fixpoint orb (n : nat) : Z := match n with O => x0 | S n => f (orb n) end.
  Lemma orb_word n : is_word (orb n).
  Proof. induction n; cbn; auto. Qed.
  Lemma orb_back p n : orb (p + n) = orb n -> orb p = x0.
  Proof.
    induction n as [|n IH]; [now rewrite Nat.add_0_r|]. rewrite Nat.add_succ_r. cbn [orb].
    intros E. apply IH. apply Inj; [apply orb_word|apply orb_word|exact E].
  Qed.
  Definition hits (n : nat) : list Z := map orb (seq 0 n).
  Lemma hits_S n : hits (S n) = hits n ++ [orb n].
  Proof. unfold hits. rewrite seq_S, map_app. reflexivity. Qed.

  Lemma search n : NoDup (hits n) \/ exists p, (0 < p <= n)%nat /\ orb p = x0 /\ NoDup (hits p).
  Proof.
    induction n as [|n [IH|(p & Hp & E & ND)]].
    - left. constructor.
    - destruct (in_dec Z.eq_dec (orb n) (hits n)) as [I|I].
      + right. apply in_map_iff in I as (q & E & Hq). apply in_seq in Hq.
        destruct n as [|n]; [lia|].
        assert (E0 : orb (S n - q) = x0) by (apply orb_back with q; replace (S n - q + q)%nat with (S n) by lia; auto).
        exists (S n - q)%nat. split; [lia|]. split; [exact E0|].
        assert (Hsub : hits (S n) = hits (S n - q) ++ map orb (seq (S n - q) q)).
        { unfold hits. rewrite <- map_app. f_equal. replace (S n) with (S n - q + q)%nat at 1 by lia. apply seq_app. }
        rewrite Hsub in IH. now apply nodup_prefix in IH.
      + left. rewrite hits_S. apply NoDup_rev in IH. rewrite <- (rev_involutive (hits n ++ [orb n])). apply NoDup_rev.
        rewrite rev_app_distr. cbn [rev app]. constructor; [|exact IH]. now rewrite <- in_rev.
    - right. exists p. split; [lia|]. auto.
  Qed.

  Lemma words_few N (l : list Z) : NoDup l -> Forall (fun x => 0 <= x < Z.of_nat N) l -> (List.length l <= N)%nat.
  Proof.
    intros ND F. rewrite <- (seq_length N 0). rewrite <- (map_length Z.of_nat). apply NoDup_incl_length; [exact ND|].
    intros x Hx. rewrite Forall_forall in F. specialize (F x Hx). apply in_map_iff. exists (Z.to_nat x).
    split; [lia|]. apply in_seq. lia.
  Qed.

  Lemma cycle_exists : exists p, 0 < p <= 2 ^ 64 /\ forall i j, orb i = orb j <-> Z.of_nat i mod p = Z.of_nat j mod p.
  Proof.
    assert (H : exists p, (0 < p)%nat /\ Z.of_nat p <= 2 ^ 64 /\ orb p = x0 /\ NoDup (hits p)).
    { assert (Few : forall q, NoDup (hits q) -> Z.of_nat q <= 2 ^ 64).
      { intros q ND. assert (K : (List.length (hits q) <= Z.to_nat (2 ^ 64))%nat).
        - apply words_few; [exact ND|]. apply Forall_forall. intros y Hy. apply in_map_iff in Hy as (a & <- & _).
          rewrite Z2Nat.id by (apply Z.pow_nonneg; lia). apply orb_word.
        - unfold hits in K. rewrite map_length, seq_length in K. apply Nat2Z.inj_le in K.
          rewrite Z2Nat.id in K by (apply Z.pow_nonneg; lia). exact K. }
      destruct (search (S (Z.to_nat (2 ^ 64)))) as [ND|(p & Hp & E & ND)].
      - apply Few in ND. rewrite Nat2Z.inj_succ, Z2Nat.id in ND by (apply Z.pow_nonneg; lia).
        exfalso. clear - ND. assert (forall z, ~ Z.succ z <= z) as A by (intros; lia). exact (A _ ND).
      - exists p. split; [apply Hp|]. split; [now apply Few|]. auto. }
    destruct H as (p & Hp & Hle & Ep & ND). exists (Z.of_nat p). split; [split; [lia|exact Hle]|].
    assert (Add : forall n, orb (n + p) = orb n).
    { induction n as [|n IH]; [exact Ep|]. cbn [Nat.add orb]. now rewrite IH. }
    assert (Mul : forall q n, orb (n + q * p) = orb n).
    { induction q as [|q IH]; intros n; [now rewrite Nat.add_0_r|].
      replace (n + S q * p)%nat with (n + q * p + p)%nat by (cbn; lia). now rewrite Add. }
    assert (Mod : forall n, orb n = orb (n mod p)).
    { intros n. rewrite (Nat.div_mod n p) at 1 by lia. replace (p * (n / p) + n mod p)%nat with (n mod p + n / p * p)%nat by lia.
      apply Mul. }
    intros i j. rewrite <- !Nat2Z.inj_mod. rewrite (Mod i), (Mod j). split.
    - intros E. f_equal. pose proof (Nat.mod_upper_bound i p ltac:(lia)). pose proof (Nat.mod_upper_bound j p ltac:(lia)).
      assert (Hn : forall a, (a < p)%nat -> nth_error (hits p) a = Some (orb a)).
      { intros a Ha. unfold hits. rewrite nth_error_map. rewrite nth_error_nth' with (d := 0%nat) by (now rewrite seq_length).
        rewrite seq_nth by exact Ha. reflexivity. }
      apply (proj1 (NoDup_nth_error (hits p)) ND).
      + unfold hits. rewrite map_length, seq_length. assumption.
      + rewrite !Hn by assumption. now f_equal.
    - intros E. apply Nat2Z.inj in E. now rewrite E.
  Qed.
End Orbit.

Definition hashStep (h : Z) : Z := XHash_Model.WriteUint64 h 0.
Lemma incr_word k : forall n j, (j < k)%nat ->
  wordAt (hashLoop Incr64 k (orb hashStep XHash_Model.NewFast64 n) 0) j =
  XHash_Model.Sum64 (orb hashStep XHash_Model.NewFast64 (n + j)).
Proof.
  assert (WS : forall x, is_word x -> is_word (hashStep x)) by (intros; apply XHash_Proofs.write_word; [apply word0|assumption]).
  assert (WN : is_word XHash_Model.NewFast64) by (split; vm_compute; congruence).
  induction k as [|k IH]; intros n j Hj; [lia|]. cbn [hashLoop].
  destruct j as [|j].
  - rewrite wordAt_0; [now rewrite Nat.add_0_r|]. apply XHash_Proofs.Uint64_bij. now apply orb_word.
  - rewrite wordAt_S. change (XHash_Model.WriteUint64 (orb hashStep XHash_Model.NewFast64 n) 0)
      with (orb hashStep XHash_Model.NewFast64 (S n)). rewrite IH by lia. do 2 f_equal. lia.
Qed.

Lemma incr_cycles : exists p, 0 < p <= 2 ^ 64 /\ cycles (hashMain Incr64) p.
Proof.
  assert (WS : forall x, is_word x -> is_word (hashStep x)) by (intros; apply XHash_Proofs.write_word; [apply word0|assumption]).
  assert (WN : is_word XHash_Model.NewFast64) by (split; vm_compute; congruence).
  destruct (cycle_exists hashStep XHash_Model.NewFast64 WN WS) as (p & Hp & H).
  - intros x y Hx Hy. apply (proj1 (proj2 (XHash_Proofs.Uint64Seed_bij_seed 0 word0))); assumption.
  - exists p. split; [exact Hp|]. intros k i j Hi Hj. unfold hashMain.
    change XHash_Model.NewFast64 with (orb hashStep XHash_Model.NewFast64 0) at 1 2.
    rewrite !incr_word by assumption. cbn [Nat.add]. rewrite <- H. split; [|intros E; now rewrite E].
    apply (proj1 (proj2 XHash_Proofs.Uint64_bij)); now apply orb_word.
Qed.
