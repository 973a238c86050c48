(** Proofs for C136. *)
From Coq Require Import SpecFloat Lia.
From Verif Require Import Base XSort_Spec XFn_Compare_Model XFn_Compare_Spec.
Local Open Scope list_scope.
Local Open Scope Z_scope.

(** ** Strings *)
Lemma cmp_sym a : forall b, compareBytes b a = CompOpp (compareBytes a b).
Proof.
  induction a as [|x a IH]; intros [|y b]; try reflexivity.
  cbn. rewrite (Z.compare_antisym x y), IH. destruct (x ?= y); reflexivity.
Qed.

Lemma cmp_eq a : forall b, compareBytes a b = Eq <-> a = b.
Proof.
  induction a as [|x a IH]; intros [|y b]; cbn; try (split; congruence).
  destruct (x ?= y) eqn:E.
  - apply Z.compare_eq in E as ->. rewrite IH. split; congruence.
  - split; [congruence|]. intros [= -> _]. rewrite Z.compare_refl in E. congruence.
  - split; [congruence|]. intros [= -> _]. rewrite Z.compare_refl in E. congruence.
Qed.

Lemma before_cons x a b : before (x :: a) (x :: b) <-> before a b.
Proof.
  split.
  - intros [(c & r & E)|(p & u & v & r & r' & E1 & E2 & L)].
    + left. exists c, r. cbn in E. congruence.
    + destruct p as [|z p]; cbn in E1, E2.
      * exfalso. injection E1 as -> ->. injection E2 as -> ->. lia.
      * right. exists p, u, v, r, r'. injection E1 as -> ->. injection E2 as ->. auto.
  - intros [(c & r & ->)|(p & u & v & r & r' & -> & -> & L)].
    + left. exists c, r. reflexivity.
    + right. exists (x :: p), u, v, r, r'. auto.
Qed.

Lemma cmp_lt a : forall b, compareBytes a b = Lt <-> before a b.
Proof.
  induction a as [|x a IH]; intros [|y b].
  - cbn. split; [congruence|]. intros [(c & r & E)|(p & u & v & r & r' & E & _)];
      [discriminate|destruct p; discriminate].
  - cbn. split; [|reflexivity]. left. exists y, b. reflexivity.
  - cbn. split; [congruence|]. intros [(c & r & E)|(p & u & v & r & r' & _ & E & _)];
      [discriminate|destruct p; discriminate].
  - cbn [compareBytes]. destruct (x ?= y) eqn:E.
    + apply Z.compare_eq in E as ->. rewrite IH. symmetry. apply before_cons.
    + split; [|reflexivity]. intros _. right. exists [], x, y, a, b. rewrite Z.compare_lt_iff in E. auto.
    + rewrite Z.compare_gt_iff in E. split; [congruence|].
      intros [(c & r & E1)|(p & u & v & r & r' & E1 & E2 & L)].
      * cbn in E1. injection E1 as -> _. lia.
      * destruct p as [|z p]; cbn in E1, E2; injection E1 as -> ->; injection E2 as -> ->; lia.
Qed.

Lemma cmp_gt a b : compareBytes a b = Gt <-> before b a.
Proof. rewrite <- cmp_lt, (cmp_sym a b). destruct (compareBytes a b); cbn; split; congruence. Qed.

(** ** Floats *)
Lemma digits_bounds m : 2 ^ (Zpos (digits2_pos m) - 1) <= Zpos m < 2 ^ Zpos (digits2_pos m).
Proof.
  induction m as [m IH|m IH|]; cbn [digits2_pos]; [| |cbn; lia].
  all: rewrite Pos2Z.inj_succ; replace (Z.succ (Zpos (digits2_pos m)) - 1) with (Zpos (digits2_pos m)) by lia;
    rewrite Z.pow_succ_r by lia;
    assert (E : 2 ^ Zpos (digits2_pos m) = 2 * 2 ^ (Zpos (digits2_pos m) - 1))
      by (rewrite <- Z.pow_succ_r by lia; f_equal; lia);
    (rewrite (Pos2Z.inj_xI m) || rewrite (Pos2Z.inj_xO m)); lia.
Qed.

Section Float.
  Context (prec emax : Z).
  Local Notation emin := (3 - emax - prec).
  Local Notation mag m e := (Zpos m * 2 ^ (e - emin)).

  Lemma bounded_inv m e : bounded prec emax m e = true ->
    emin <= e /\ Zpos m < 2 ^ prec /\ (emin < e -> 2 ^ (prec - 1) <= Zpos m).
  Proof.
    unfold bounded, canonical_mantissa, fexp, SpecFloat.emin. intros H.
    apply andb_prop in H as [H _]. apply Zeq_bool_eq in H.
    pose proof (digits_bounds m) as [B1 B2].
    split; [lia|]. split.
    - eapply Z.lt_le_trans; [exact B2|]. apply Z.pow_le_mono_r; lia.
    - intros L. replace (prec - 1) with (Zpos (digits2_pos m) - 1) by lia. exact B1.
  Qed.

  Lemma mag_lt m1 e1 m2 e2 : bounded prec emax m1 e1 = true -> bounded prec emax m2 e2 = true ->
    e1 < e2 -> mag m1 e1 < mag m2 e2.
  Proof.
    intros H1 H2 L. apply bounded_inv in H1 as (A1 & B1 & _). apply bounded_inv in H2 as (A2 & B2 & C2).
    specialize (C2 ltac:(lia)).
    assert (P : 0 < prec). { destruct (Z_lt_le_dec 0 prec) as [|N]; [assumption|exfalso].
      assert (2 ^ prec <= 2 ^ 0) by (apply Z.pow_le_mono_r; lia). change (2 ^ 0) with 1 in *. lia. }
    assert (E : 2 ^ prec = 2 * 2 ^ (prec - 1)) by (rewrite <- Z.pow_succ_r by lia; f_equal; lia).
    assert (Q : 2 * 2 ^ (e1 - emin) <= 2 ^ (e2 - emin))
      by (rewrite <- Z.pow_succ_r by lia; apply Z.pow_le_mono_r; lia).
    assert (0 < 2 ^ (e1 - emin)) by (apply Z.pow_pos_nonneg; lia).
    assert (0 < 2 ^ (prec - 1)) by (apply Z.pow_pos_nonneg; lia).
    nia.
  Qed.

  Lemma mag_cmp m1 e1 m2 e2 : bounded prec emax m1 e1 = true -> bounded prec emax m2 e2 = true ->
    (mag m1 e1 ?= mag m2 e2) =
    match e1 ?= e2 with Eq => Pos.compare_cont Eq m1 m2 | c => c end.
  Proof.
    intros H1 H2. destruct (e1 ?= e2) eqn:E.
    - apply Z.compare_eq in E as ->. change (Pos.compare_cont Eq m1 m2) with (Zpos m1 ?= Zpos m2).
      apply bounded_inv in H1 as (A & _). assert (0 < 2 ^ (e2 - emin)) by (apply Z.pow_pos_nonneg; lia).
      destruct (Zpos m1 ?= Zpos m2) eqn:E.
      + apply Z.compare_eq in E. rewrite E. apply Z.compare_refl.
      + apply Z.compare_lt_iff in E. apply Z.compare_lt_iff. now apply Z.mul_lt_mono_pos_r.
      + apply Z.compare_gt_iff in E. apply Z.compare_gt_iff. now apply Z.mul_lt_mono_pos_r.
    - apply Z.compare_lt_iff in E. apply Z.compare_lt_iff. now apply mag_lt.
    - apply Z.compare_gt_iff in E. apply Z.compare_gt_iff. now apply mag_lt.
  Qed.

  Lemma mag_pos m e : bounded prec emax m e = true -> 0 < mag m e.
  Proof.
    intros H. apply bounded_inv in H as (A & _).
    assert (0 < 2 ^ (e - emin)) by (apply Z.pow_pos_nonneg; lia). nia.
  Qed.

  (** SFcompare compares the numbers. *)
  Definition ncmp (a b : number) : comparison :=
    match a, b with
    | Times j, Times k => j ?= k
    | MinusInf, MinusInf | PlusInf, PlusInf => Eq
    | MinusInf, _ | Times _, PlusInf => Lt
    | PlusInf, _ | Times _, MinusInf => Gt
    end.

  Lemma sfcompare x y : valid_binary prec emax x = true -> valid_binary prec emax y = true ->
    SFcompare x y = match numberOf prec emax x, numberOf prec emax y with
                    | Some a, Some b => Some (ncmp a b) | _, _ => None end.
  Proof.
    intros Hx Hy.
    destruct x as [sx|sx| |sx mx ex], y as [sy|sy| |sy my ey]; cbn [valid_binary] in Hx, Hy;
      try (destruct sx); try (destruct sy); try reflexivity; cbn [numberOf SFcompare ncmp].
    all: try (apply mag_pos in Hx as Px); try (apply mag_pos in Hy as Py).
    all: try solve [f_equal; symmetry;
      first [apply Z.compare_lt_iff; lia | apply Z.compare_gt_iff; lia]].
    all: f_equal.
    - rewrite Z.compare_opp, (mag_cmp _ _ _ _ Hy Hx), (Z.compare_antisym ex ey).
      change (Pos.compare_cont Eq my mx) with (Pos.compare my mx).
      change (Pos.compare_cont Eq mx my) with (Pos.compare mx my).
      rewrite (Pos.compare_antisym mx my). destruct (ex ?= ey), (Pos.compare mx my); reflexivity.
    - rewrite (mag_cmp _ _ _ _ Hx Hy). destruct (ex ?= ey); reflexivity.
  Qed.

  Lemma ncmp_lt a b : ncmp a b = Lt <-> smaller a b.
  Proof. destruct a, b; cbn; try rewrite Z.compare_lt_iff; intuition congruence. Qed.
  Lemma ncmp_gt a b : ncmp a b = Gt <-> smaller b a.
  Proof. destruct a, b; cbn; try rewrite Z.compare_gt_iff; intuition congruence. Qed.
  Lemma ncmp_eq a b : ncmp a b = Eq <-> a = b.
  Proof. destruct a, b; cbn; try rewrite Z.compare_eq_iff; intuition congruence. Qed.

  Lemma sf_lt x y : valid_binary prec emax x = true -> valid_binary prec emax y = true ->
    SFltb x y = true <-> floatLess prec emax x y.
  Proof.
    intros Hx Hy. unfold SFltb, floatLess. rewrite (sfcompare x y Hx Hy).
    destruct (numberOf _ _ x) as [a|]; [|split; [discriminate|intros (? & ? & [=] & _)]].
    destruct (numberOf _ _ y) as [b|]; [|split; [discriminate|intros (? & ? & _ & [=] & _)]].
    split.
    - intros H. exists a, b. repeat split. apply ncmp_lt. destruct (ncmp a b); congruence.
    - intros (? & ? & [= <-] & [= <-] & H). apply ncmp_lt in H. rewrite H. reflexivity.
  Qed.

  Lemma sf_eq x y : valid_binary prec emax x = true -> valid_binary prec emax y = true ->
    SFeqb x y = true <-> floatSame prec emax x y.
  Proof.
    intros Hx Hy. unfold SFeqb, floatSame. rewrite (sfcompare x y Hx Hy).
    destruct (numberOf _ _ x) as [a|]; [|split; [discriminate|intros (? & [=] & _)]].
    destruct (numberOf _ _ y) as [b|]; [|split; [discriminate|intros (? & _ & [=])]].
    split.
    - intros H. exists a. split; [reflexivity|]. f_equal. symmetry. apply ncmp_eq. destruct (ncmp a b); congruence.
    - intros (? & [= <-] & [= <-]). rewrite (proj2 (ncmp_eq b b) eq_refl). reflexivity.
  Qed.

  Lemma sf_le x y : SFleb x y = SFltb x y || SFeqb x y.
  Proof. unfold SFleb, SFltb, SFeqb. destruct (SFcompare x y) as [[]|]; reflexivity. Qed.
End Float.

Lemma sfcompare_sym x y :
  SFcompare y x = match SFcompare x y with Some c => Some (CompOpp c) | None => None end.
Proof.
  destruct x as [sx|sx| |sx mx ex], y as [sy|sy| |sy my ey];
    try (destruct sx); try (destruct sy); try reflexivity; cbn.
  all: rewrite (Z.compare_antisym ex ey);
    change (Pos.compare_cont Eq my mx) with (Pos.compare my mx);
    change (Pos.compare_cont Eq mx my) with (Pos.compare mx my);
    rewrite (Pos.compare_antisym mx my); destruct (ex ?= ey), (Pos.compare mx my); reflexivity.
Qed.

Lemma sfcompare_none x y : SFcompare x y = None <-> x = S754_nan \/ y = S754_nan.
Proof.
  destruct x as [sx|sx| |sx mx ex], y as [sy|sy| |sy my ey];
    try (destruct sx); try (destruct sy); cbn; split; try tauto; try congruence; intros [|]; congruence.
Qed.

Lemma cmp_trans a : forall b c, compareBytes a b = Lt -> compareBytes b c = Lt -> compareBytes a c = Lt.
Proof.
  induction a as [|x a IH]; intros [|y b] [|z c]; cbn; try congruence.
  destruct (x ?= y) eqn:E1, (y ?= z) eqn:E2; try congruence;
    rewrite ?Z.compare_eq_iff, ?Z.compare_lt_iff in *; intros H1 H2.
  - subst. rewrite Z.compare_refl. eauto.
  - subst. rewrite (proj2 (Z.compare_lt_iff _ _) E2). reflexivity.
  - subst. rewrite (proj2 (Z.compare_lt_iff _ _) E1). reflexivity.
  - rewrite (proj2 (Z.compare_lt_iff x z)) by lia. reflexivity.
Qed.

Lemma greater_order : XSort_Spec.strict_weak_order (Greater stringCmp).
Proof.
  unfold Greater; cbn. split.
  - intros x. rewrite (proj2 (cmp_eq x x) eq_refl). reflexivity.
  - intros x y z H1 H2.
    assert (T : compareBytes z x = Lt).
    { apply (cmp_trans z y x).
      - rewrite (cmp_sym y z). destruct (compareBytes y z); cbn; congruence.
      - rewrite (cmp_sym x y). destruct (compareBytes x y); cbn; congruence. }
    rewrite (cmp_sym z x), T. reflexivity.
  - intros x y z H1 H2 H3 H4.
    assert (E : forall u v, (match compareBytes u v with Gt => true | _ => false end) = false ->
                            (match compareBytes v u with Gt => true | _ => false end) = false -> u = v).
    { intros u v A B. rewrite (cmp_sym u v) in B. apply cmp_eq. destruct (compareBytes u v); cbn in *; congruence. }
    rewrite (E x y H1 H2), (E y z H3 H4), (proj2 (cmp_eq z z) eq_refl). auto.
Qed.
