(** Proofs about hasher. *)
From Coq Require Import Znumtheory.
From Verif Require Import Base Hasher_Model Hasher_Spec.

(** The bits of a NaN. *)
Lemma isNaN_bits w b : isNaN w b = true <-> nanBits w b.
Proof.
  unfold isNaN, nanBits. rewrite andb_true_iff, negb_true_iff, Z.eqb_eq, Z.eqb_neq.
  assert (G : forall m e, 0 <= m -> 0 < e ->
    (Z.land (Z.shiftr b m) (2 ^ e - 1) = 2 ^ e - 1 /\ Z.land b (2 ^ m - 1) <> 0 <-> (2 ^ e - 1) * 2 ^ m < b mod 2 ^ (m + e))).
  { intros m e Hm He. rewrite Z.shiftr_div_pow2 by lia. replace (2 ^ e - 1) with (Z.ones e) by (rewrite Z.ones_equiv; lia). replace (2 ^ m - 1) with (Z.ones m) by (rewrite Z.ones_equiv; lia).
    rewrite !Z.land_ones, !Z.ones_equiv by lia.
    rewrite Z.pow_add_r by lia. assert (Hp : 0 < 2 ^ m) by (apply Z.pow_pos_nonneg; lia). assert (Hq : 0 < 2 ^ e) by (apply Z.pow_pos_nonneg; lia).
    rewrite Z.rem_mul_r by lia. pose proof (Z.mod_pos_bound b (2 ^ m) Hp). pose proof (Z.mod_pos_bound (b / 2 ^ m) (2 ^ e) Hq). split; intros; nia. }
  destruct w; cbn [mantBits expBits]; apply G; lia.
Qed.

(** Induction over values, with the hypothesis for all parts of a sequence. *)
Section Ind.
  Variable P : val -> Prop.
  Hypothesis Hmem : forall bs, P (VMem bs).
  Hypothesis Hfloat : forall w b, P (VFloat w b).
  Hypothesis Hstring : forall bs, P (VString bs).
  Hypothesis Hnil : P VNil.
  Hypothesis Hiface : forall t v, P v -> P (VIface t v).
  Hypothesis Hseq : forall l, Forall P l -> P (VSeq l).
  Hypothesis Hblank : forall bs, P (VBlank bs).
  Hypothesis Hfunc : forall id, P (VFunc id).
  Fixpoint val_induction (v : val) : P v :=
    match v with
    | VMem bs => Hmem bs
    | VFloat w b => Hfloat w b
    | VString bs => Hstring bs
    | VNil => Hnil
    | VIface t v => Hiface t v (val_induction v)
    | VSeq l => Hseq l ((fix all l : Forall P l :=
        match l with [] => Forall_nil P | x :: l => Forall_cons x (val_induction x) (all l) end) l)
    | VBlank bs => Hblank bs
    | VFunc id => Hfunc id
    end.
End Ind.

Lemma eqBytes_eq a : forall b, eqBytes a b = true <-> a = b.
Proof.
  induction a as [|x a IH]; intros [|y b]; cbn; try (split; congruence).
  rewrite andb_true_iff, Z.eqb_eq, IH. split; [intros [-> ->]; reflexivity|intros [= -> ->]; auto].
Qed.
Lemma sameType_eq t t' : sameType t t' = true <-> t = t'.
Proof.
  unfold sameType. rewrite andb_true_iff, Z.eqb_eq, Bool.eqb_true_iff. destruct t, t'; cbn. split; [intros [-> ->]; reflexivity|intros [= -> ->]; auto].
Qed.

(** The loop over the parts, as a function of its own. *)
Fixpoint goEqs (l l' : list val) : outcome bool :=
  match l, l' with
  | [], [] => Ok true
  | x :: l, y :: l' => match goEq x y with Ok true => goEqs l l' | r => r end
  | _, _ => Ok false
  end.
Lemma goEq_seq l l' : goEq (VSeq l) (VSeq l') = goEqs l l'.
Proof.
  revert l'. induction l as [|x l IH]; intros [|y l']; reflexivity.
Qed.

(** [x == y] evaluates to true. *)
Notation same x y := (goEq x y = Ok true).

Lemma same_cases x y : same x y ->
  (exists a, x = VMem a /\ y = VMem a) \/
  (exists w a b, x = VFloat w a /\ y = VFloat w b /\ isNaN w a = false /\ isNaN w b = false /\
     ((isZero w a = true /\ isZero w b = true) \/ a = b)) \/
  (exists a, x = VString a /\ y = VString a) \/
  (x = VNil /\ y = VNil) \/
  (exists t v v', x = VIface t v /\ y = VIface t v' /\ comparable t = true /\ same v v') \/
  (exists l l', x = VSeq l /\ y = VSeq l' /\ goEqs l l' = Ok true) \/
  (exists a b, x = VBlank a /\ y = VBlank b).
Proof.
  intros H. destruct x as [a|w a|a| |t v|l|a|i], y as [b|w' b|b| |t' v'|l'|b|i']; cbn [goEq] in H; try discriminate H.
  - injection H as H. apply eqBytes_eq in H as ->. left. eauto.
  - injection H as H. rewrite !andb_true_iff, orb_true_iff, andb_true_iff, !negb_true_iff, Bool.eqb_true_iff, Z.eqb_eq in H.
    destruct H as [[[-> Ha] Hb] Hc]. right; left. eauto 12.
  - injection H as H. apply eqBytes_eq in H as ->. right; right; left. eauto.
  - auto 10.
  - destruct (sameType t t') eqn:E; cbn [negb] in H; [|discriminate]. apply sameType_eq in E as ->.
    destruct (comparable t') eqn:E; cbn [negb] in H; [|discriminate]. do 4 right; left. eauto 10.
  - change (goEq (VSeq l) (VSeq l') = Ok true) in H. rewrite goEq_seq in H. do 5 right; left. eauto.
  - do 6 right. eauto.
Qed.

Lemma goEqs_Forall2 l : forall l', goEqs l l' = Ok true <-> Forall2 (fun x y => same x y) l l'.
Proof.
  induction l as [|x l IH]; intros [|y l']; cbn [goEqs].
  - split; auto.
  - split; [discriminate|inversion 1].
  - split; [discriminate|inversion 1].
  - split.
    + intros H. destruct (goEq x y) as [[|]| |] eqn:E; try discriminate. constructor; [exact E|now apply IH].
    + inversion 1; subst. rewrite H3. now apply IH.
Qed.

Lemma same_sym x : forall y, same x y -> same y x.
Proof.
  induction x as [bs|w b|bs| |t v IH|l IH|bs|i] using val_induction; intros y H; destruct (same_cases _ _ H) as [C|[C|[C|[C|[C|[C|C]]]]]].
  all: repeat match goal with H : exists _, _ |- _ => destruct H | H : _ /\ _ |- _ => destruct H end; try discriminate.
  all: subst y; repeat match goal with H : _ = _ :> val |- _ => (injection H; clear H; intros; subst) || (clear H; subst) end.
  - cbn. f_equal. now apply eqBytes_eq.
  - cbn [goEq]. f_equal. rewrite Bool.eqb_reflx. repeat match goal with H : isNaN _ _ = false |- _ => rewrite H end. cbn [negb andb].
    match goal with H : _ \/ _ |- _ => destruct H as [[Z1 Z2]|Z1] end; [now rewrite Z1, Z2|subst; now rewrite Z.eqb_refl, orb_true_r].
  - cbn. f_equal. now apply eqBytes_eq.
  - reflexivity.
  - cbn [goEq]. rewrite (proj2 (sameType_eq _ _) eq_refl). match goal with H : comparable _ = true |- _ => rewrite H end. cbn [negb]. auto.
  - rewrite goEq_seq. rewrite goEqs_Forall2 in *. match goal with H1 : Forall2 _ _ _ |- _ => clear - IH H1; induction H1; inversion IH; subst; constructor; auto end.
  - reflexivity.
Qed.

Lemma same_trans x : forall y z, same x y -> same y z -> same x z.
Proof.
  induction x as [bs|w b|bs| |t v IH|l IH|bs|i] using val_induction; intros y z H H'; destruct (same_cases _ _ H) as [C|[C|[C|[C|[C|[C|C]]]]]].
  all: repeat match goal with H : exists _, _ |- _ => destruct H | H : _ /\ _ |- _ => destruct H end; try discriminate.
  all: subst y; destruct (same_cases _ _ H') as [C|[C|[C|[C|[C|[C|C]]]]]].
  all: repeat match goal with H : exists _, _ |- _ => destruct H | H : _ /\ _ |- _ => destruct H end; try discriminate.
  all: subst z; repeat match goal with H : _ = _ :> val |- _ => (injection H; clear H; intros; subst) || (clear H; subst) end.
  - cbn. f_equal. now apply eqBytes_eq.
  - cbn [goEq]. f_equal. rewrite Bool.eqb_reflx. repeat match goal with H : isNaN _ _ = false |- _ => rewrite H end. cbn [negb andb].
    repeat match goal with H : _ \/ _ |- _ => destruct H as [[? ?]|?] end; subst; try match goal with |- context [_ =? _] => now rewrite Z.eqb_refl, orb_true_r end;
      repeat match goal with H : isZero _ _ = true |- _ => rewrite H; clear H end; reflexivity.
  - cbn. f_equal. now apply eqBytes_eq.
  - reflexivity.
  - cbn [goEq]. rewrite (proj2 (sameType_eq _ _) eq_refl). match goal with H : comparable _ = true |- _ => rewrite H end. cbn [negb]. eauto.
  - rewrite goEq_seq in *. rewrite goEqs_Forall2 in *.
    match goal with H1 : Forall2 _ ?l ?l', H2 : Forall2 _ ?l' ?l'' |- _ => clear - IH H1 H2; revert l'' H2; induction H1; intros l'' H2; inversion H2; subst; inversion IH; subst; constructor; eauto end.
  - reflexivity.
Qed.

Section Hash.
  Variable memhash : list Z -> Z -> Z.
  Local Notation typehash := (typehash memhash).

  Fixpoint hashParts (rnd : nat -> Z) (l : list val) (h : Z) : M nat Z :=
    match l with
    | [] => ret h
    | x :: l => bind (typehash rnd x h) (fun h' => hashParts rnd l h')
    end.
  Lemma typehash_seq rnd l : forall h n, typehash rnd (VSeq l) h n = hashParts rnd l h n.
  Proof.
    induction l as [|x l IH]; intros h n; [reflexivity|].
    change (bind (typehash rnd x h) (fun h' => typehash rnd (VSeq l) h') n = hashParts rnd (x :: l) h n).
    cbn [hashParts]. unfold bind. destruct (typehash rnd x h n) as [[h' n']| |]; [apply IH|reflexivity|reflexivity].
  Qed.

  (** The hash is a fixed number, and no random number is taken. *)
  Definition fixedHash (v : val) (h r : Z) : Prop := forall rnd n, typehash rnd v h n = Ok (r, n).

  Lemma same_hash x : forall y h, same x y -> exists r, fixedHash x h r /\ fixedHash y h r.
  Proof.
    induction x as [bs|w b|bs| |t v IH|l IH|bs|i] using val_induction; intros y h H; destruct (same_cases _ _ H) as [C|[C|[C|[C|[C|[C|C]]]]]].
    all: repeat match goal with H : exists _, _ |- _ => destruct H | H : _ /\ _ |- _ => destruct H end; try discriminate.
    all: subst y; repeat match goal with H : _ = _ :> val |- _ => (injection H; clear H; intros; subst) || (clear H; subst) end.
    - eexists. split; intros rnd n; reflexivity.
    - match goal with H : _ \/ _ |- _ => destruct H as [[Z1 Z2]|Z1] end.
      + eexists. split; intros rnd n; cbn [Hasher_Model.typehash floatHash]; unfold floatHash; rewrite ?Z1, ?Z2; reflexivity.
      + subst. match goal with |- context [VFloat ?w ?b] => destruct (isZero w b) eqn:E end; eexists; split; intros rnd n; cbn [Hasher_Model.typehash]; unfold floatHash; rewrite E;
          repeat match goal with H : isNaN _ _ = false |- _ => rewrite H end; reflexivity.
    - eexists. split; intros rnd n; reflexivity.
    - eexists. split; intros rnd n; reflexivity.
    - match goal with H : same _ _ |- _ => destruct (IH _ (Z.lxor h c0) H) as (r & F1 & F2) end.
      exists (mulw c1 r). split; intros rnd n; cbn [Hasher_Model.typehash]; match goal with H : comparable _ = true |- _ => rewrite H end; cbn [negb]; unfold bind; rewrite ?F1, ?F2; reflexivity.
    - match goal with H : goEqs _ _ = _ |- _ => apply goEqs_Forall2 in H end.
      match goal with H1 : Forall2 _ ?a ?b |- _ =>
        enough (exists r, (forall rnd n, hashParts rnd a h n = Ok (r, n)) /\ (forall rnd n, hashParts rnd b h n = Ok (r, n))) as (r & F1 & F2) end.
      { exists r. split; intros rnd n; rewrite typehash_seq; auto. }
      match goal with H1 : Forall2 _ _ _ |- _ => clear - IH H1; revert h; induction H1; intros h end.
      + exists h. split; reflexivity.
      + inversion IH; subst. destruct (H3 _ h H) as (r & F1 & F2). destruct (IHForall2 H4 r) as (r' & G1 & G2).
        exists r'. split; intros rnd n; cbn [hashParts]; unfold bind; rewrite ?F1, ?F2; auto.
    - eexists. split; intros rnd n; reflexivity.
  Qed.

  (** Hashing returns exactly for the values without uncomparable parts. *)
  Lemma hash_ok x : ~ unhashable x -> forall rnd h n, exists r n', typehash rnd x h n = Ok (r, n').
  Proof.
    induction x as [bs|w b|bs| |t v IH|l IH|bs|i] using val_induction; intros HU rnd h n; try (eexists _, _; reflexivity).
    - cbn [Hasher_Model.typehash]. unfold floatHash. destruct (isZero w b); [eauto|]. destruct (isNaN w b); eauto.
    - cbn [Hasher_Model.typehash]. destruct (comparable t) eqn:E; cbn [negb].
      + destruct (IH (fun C => HU (uh_held t v C)) rnd (Z.lxor h c0) n) as (r & n' & Hr). unfold bind. rewrite Hr. eexists _, _; reflexivity.
      + exfalso. apply HU. now constructor.
    - rewrite typehash_seq. revert h n. induction IH as [|x l Hx Hl IHl]; intros h n; [eexists _, _; reflexivity|].
      cbn [hashParts]. unfold bind. destruct (Hx (fun C => HU (uh_part (x :: l) x (or_introl eq_refl) C)) rnd h n) as (r & n' & ->).
      apply IHl. intros C. apply HU. inversion C; subst. econstructor; [right; eassumption|assumption].
    - exfalso. apply HU. constructor.
  Qed.
  Lemma hash_panics x : unhashable x -> forall rnd h n, exists msg, typehash rnd x h n = Panic msg.
  Proof.
    induction x as [bs|w b|bs| |t v IH|l IH|bs|i] using val_induction; intros HU rnd h n; try (now inversion HU).
    - cbn [Hasher_Model.typehash]. destruct (comparable t) eqn:E; cbn [negb]; [|eexists; reflexivity].
      inversion HU; subst; [congruence|]. unfold bind. destruct (IH ltac:(assumption) rnd (Z.lxor h c0) n) as (msg & ->). eauto.
    - rewrite typehash_seq. inversion HU as [| | |? x Hin Hx]; subst. revert h n. clear HU. induction IH as [|y l Hy Hl IHl]; intros h n; [destruct Hin|].
      cbn [hashParts]. unfold bind. destruct Hin as [->|Hin].
      + destruct (Hy Hx rnd h n) as (msg & ->). eauto.
      + destruct (typehash rnd y h n) as [[r n']|msg|] eqn:E; [apply IHl; exact Hin|eauto|].
        exfalso. clear - E. revert rnd h n E. induction y as [bs|w b|bs| |t v IH|l IH|bs|i] using val_induction; intros rnd h n; try discriminate.
        * cbn [Hasher_Model.typehash]. unfold floatHash. destruct (isZero w b); [discriminate|]. destruct (isNaN w b); discriminate.
        * cbn [Hasher_Model.typehash]. destruct (comparable t); cbn [negb]; [|discriminate]. unfold bind. destruct (typehash rnd v _ n) as [[? ?]| |] eqn:E; try discriminate. intros _. eapply IH; exact E.
        * rewrite typehash_seq. revert h n. induction IH as [|x l Hx Hl IHl]; intros h n; [discriminate|]. cbn [hashParts]. unfold bind.
          destruct (typehash rnd x h n) as [[? ?]| |] eqn:E; [apply IHl|discriminate|]. intros _. eapply Hx; exact E.
    - eexists. reflexivity.
  Qed.
End Hash.

Lemma diag l : Forall2 (fun x y => same x y) l l <-> forall x, In x l -> same x x.
Proof.
  induction l as [|a l IH]; split; intros H.
  - intros x [].
  - constructor.
  - inversion H; subst. intros x [<-|Hx]; [assumption|]. now apply IH.
  - constructor; [apply H; now left|]. apply IH. intros x Hx. apply H. now right.
Qed.

(** A value equals itself exactly if it has no NaN and nothing uncomparable. *)
Lemma same_self x : same x x <-> ~ unhashable x /\ ~ has_nan x.
Proof.
  induction x as [bs|w b|bs| |t v IH|l IH|bs|i] using val_induction.
  - split; [intros _; split; intros C; inversion C|]. intros _. cbn. f_equal. now apply eqBytes_eq.
  - cbn [goEq]. rewrite Bool.eqb_reflx, Z.eqb_refl, orb_true_r, andb_true_r. split.
    + intros [= H]. split; intros C; inversion C; subst. rewrite (proj2 (isNaN_bits w b) H1) in H. discriminate.
    + intros [_ H]. destruct (isNaN w b) eqn:E; [|reflexivity]. exfalso. apply H. constructor. now apply isNaN_bits.
  - split; [intros _; split; intros C; inversion C|]. intros _. cbn. f_equal. now apply eqBytes_eq.
  - split; [intros _; split; intros C; inversion C|reflexivity].
  - cbn [goEq]. rewrite (proj2 (sameType_eq _ _) eq_refl). cbn [negb]. destruct (comparable t) eqn:E; cbn [negb].
    + rewrite IH. split; intros [H1 H2]; split; intros C.
      * inversion C; subst; [congruence|contradiction].
      * inversion C; subst. contradiction.
      * apply H1. now constructor.
      * apply H2. now constructor.
    + split; [discriminate|]. intros [H _]. exfalso. apply H. now constructor.
  - rewrite goEq_seq, goEqs_Forall2. split.
    + intros H. rewrite Forall_forall in IH. rewrite diag in H. split; intros C; inversion C as [| | |? x Hi Hx]|| inversion C as [| |? x Hi Hx]; subst; destruct (proj1 (IH x Hi) (H x Hi)); contradiction.
    + intros [H1 H2]. rewrite Forall_forall in IH. apply diag. intros x Hi. apply IH; [exact Hi|]. split; intros C; [apply H1|apply H2]; econstructor; eassumption.
  - split; [intros _; split; intros C; inversion C|reflexivity].
  - split; [discriminate|]. intros [H _]. exfalso. apply H. constructor.
Qed.

(** The hash of a NaN tells the random numbers apart. *)
Lemma mulw_c1_inj a b : 0 <= a < 2 ^ 64 -> 0 <= b < 2 ^ 64 -> mulw c1 a = mulw c1 b -> a = b.
Proof.
  intros Ha Hb H. unfold mulw in H.
  assert (D : (2 ^ 64 | c1 * (a - b))).
  { apply Z.mod_divide; [lia|]. rewrite Z.mul_sub_distr_l, Zminus_mod, H, Z.sub_diag. reflexivity. }
  assert (G : rel_prime (2 ^ 64) c1).
  { apply Zgcd_1_rel_prime. vm_compute. reflexivity. }
  apply Gauss in D; [|exact G]. destruct D as [k Hk]. assert (k = 0) by nia. nia.
Qed.
Lemma lxor_bound n a b : 0 < n -> 0 <= a < 2 ^ n -> 0 <= b < 2 ^ n -> 0 <= Z.lxor a b < 2 ^ n.
Proof.
  intros Hn Ha Hb. split; [apply Z.lxor_nonneg; split; lia|].
  destruct (Z.eq_dec (Z.lxor a b) 0) as [->|N]; [apply Z.pow_pos_nonneg; lia|].
  apply Z.log2_lt_pow2; [pose proof (proj2 (Z.lxor_nonneg a b) ltac:(split; lia)); lia|].
  eapply Z.le_lt_trans; [apply Z.log2_lxor; lia|].
  apply Z.max_lub_lt; [destruct (Z.eq_dec a 0) as [->|]|destruct (Z.eq_dec b 0) as [->|]]; try (cbn; lia); apply Z.log2_lt_pow2; lia.
Qed.
Lemma nan_hash_inj memhash w b h rnd rnd' n n' r m m' :
  isNaN w b = true -> 0 <= h < 2 ^ 64 -> 0 <= rnd n < 2 ^ 32 -> 0 <= rnd' n' < 2 ^ 32 -> isZero w b = false ->
  typehash memhash rnd (VFloat w b) h n = Ok (r, m) -> typehash memhash rnd' (VFloat w b) h n' = Ok (r, m') -> rnd n = rnd' n'.
Proof.
  intros HN Hh H1 H2 HZ E1 E2. cbn [typehash] in E1, E2. unfold floatHash in E1, E2. rewrite HN, HZ in E1, E2.
  assert (E : mulw c1 (Z.lxor (Z.lxor c0 h) (rnd n)) = mulw c1 (Z.lxor (Z.lxor c0 h) (rnd' n'))) by congruence.
  assert (HX : 0 <= Z.lxor c0 h < 2 ^ 64) by (apply lxor_bound; unfold c0; lia).
  apply mulw_c1_inj in E; try (apply lxor_bound; lia).
  clear - E. revert E. generalize (Z.lxor c0 h). intros x E. apply (f_equal (Z.lxor x)) in E.
  rewrite <- !(Z.lxor_assoc x x), Z.lxor_nilpotent, !Z.lxor_0_l in E. exact E.
Qed.
Lemma nan_not_zero w b : isNaN w b = true -> isZero w b = false.
Proof.
  unfold isNaN, isZero. rewrite andb_true_iff, Z.eqb_eq. intros [H1 _].
  apply orb_false_iff. split; apply Z.eqb_neq; intros ->; destruct w; vm_compute in H1; discriminate.
Qed.
