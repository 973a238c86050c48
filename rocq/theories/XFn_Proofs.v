(** Proofs about predicates, prefixes, LessFloat, Min/Max. *)
From Coq Require Import SpecFloat.
From Verif Require Import Base Arr XSort_Spec XFn_Model.

Lemma scan_pure {T S} (hit : bool) (fs : list (T -> bool)) (v : T) (s : S) :
  scan hit (map (fun f v s => (f v, s)) fs) v s =
  (if existsb (fun f => f v) fs then hit else negb hit, s).
Proof.
  induction fs as [|f fs IH]; cbn; [reflexivity|]. destruct (f v); cbn; auto.
Qed.

(** Evaluation order: predicate number i logs i. *)
Fixpoint logged {T} (i : nat) (fs : list (T -> bool)) : list (Predicate T (list nat)) :=
  match fs with
  | [] => []
  | f :: fs' => (fun v log => (f v, log ++ [i])) :: logged (S i) fs'
  end.

Lemma scan_logged {T} hit (fs : list (T -> bool)) v : forall i log,
  exists k, scan hit (logged i fs) v log =
    (if existsb (fun f => f v) fs then hit else negb hit, log ++ seq i k) /\
    (k <= List.length fs)%nat /\
    (forall j f, (S j < k)%nat -> nth_error fs j = Some f -> f v = false) /\
    (k < List.length fs -> exists f, nth_error fs (pred k) = Some f /\ f v = true /\ (0 < k))%nat.
Proof.
  induction fs as [|f fs IH]; intros i log; cbn [logged scan existsb].
  - exists 0%nat. cbn. rewrite app_nil_r. repeat split; try lia.
  - destruct (f v) eqn:Hf.
    + exists 1%nat. cbn. repeat split; try lia. intros _. exists f. auto with arith.
    + destruct (IH (S i) (log ++ [i])) as (k & He & Hk & Hlt & Hlast).
      exists (S k). rewrite He. cbn [seq orb]. rewrite <- app_assoc. repeat split.
      * cbn. lia.
      * intros [|j] g Hj Hg; [cbn in Hg; congruence|]. cbn in Hg. apply (Hlt j); auto; lia.
      * cbn [List.length]. intros Hl. destruct Hlast as (g & Hg & Hgv & Hk0); [lia|].
        exists g. destruct k; [lia|]. cbn in *. auto with arith.
Qed.

Lemma scanEq_spec {T} (eqb : T -> T -> bool) hit rhs v :
  scanEq eqb hit rhs v = if existsb (eqb v) rhs then hit else negb hit.
Proof. induction rhs as [|r rhs IH]; cbn; [reflexivity|]. destruct (eqb v r); cbn; auto. Qed.

(** ** Prefixes *)
Section Fixes.
  Context {B : Type} (eqb : B -> B -> bool) (Heqb : forall x y, eqb x y = true <-> x = y).

  Lemma eqs_spec a : forall b, eqs eqb a b = true <-> a = b.
  Proof.
    induction a as [|x a IH]; intros [|y b]; cbn; try (split; congruence).
    rewrite andb_true_iff, Heqb, IH. split; [intros [-> ->]; auto|]. intros H; inversion H; auto.
  Qed.

  Lemma prefix_spec p v : exists b, HasPrefix eqb p v = Ok b /\ (b = true <-> exists r, v = p ++ r).
  Proof.
    unfold HasPrefix. rewrite Z.geb_leb. pose proof (zlen_nonneg p).
    destruct (Z.leb_spec (zlen p) (zlen v)).
    - unfold slice. destruct (Z.leb_spec 0 0), (Z.leb_spec 0 (zlen p)), (Z.leb_spec (zlen p) (zlen v));
        cbn [andb obind]; try lia.
      eexists. split; [reflexivity|]. rewrite eqs_spec. cbn [skipn Z.to_nat]. rewrite Z.sub_0_r.
      unfold zlen. rewrite Nat2Z.id. split.
      + intros He. exists (skipn (List.length p) v). rewrite <- He at 1. now rewrite firstn_skipn.
      + intros [r ->]. rewrite firstn_app, Nat.sub_diag, firstn_all. cbn. now rewrite app_nil_r.
    - exists false. split; auto. split; [discriminate|]. intros [r ->]. rewrite zlen_app in *.
      pose proof (zlen_nonneg r). lia.
  Qed.

  Lemma suffix_spec p v : exists b, HasSuffix eqb p v = Ok b /\ (b = true <-> exists r, v = r ++ p).
  Proof.
    unfold HasSuffix. rewrite Z.geb_leb. pose proof (zlen_nonneg p).
    destruct (Z.leb_spec (zlen p) (zlen v)).
    - unfold slice.
      destruct (Z.leb_spec 0 (zlen v - zlen p)), (Z.leb_spec (zlen v - zlen p) (zlen v)),
        (Z.leb_spec (zlen v) (zlen v)); cbn [andb obind]; try lia.
      eexists. split; [reflexivity|]. rewrite eqs_spec.
      replace (zlen v - (zlen v - zlen p)) with (zlen p) by lia.
      replace (Z.to_nat (zlen v - zlen p)) with (List.length v - List.length p)%nat by (unfold zlen; lia).
      unfold zlen in *. rewrite Nat2Z.id.
      rewrite firstn_all2 by (rewrite skipn_length; lia). split.
      + intros He. exists (firstn (List.length v - List.length p) v). rewrite <- He at 2.
        now rewrite firstn_skipn.
      + intros [r ->]. rewrite app_length.
        replace (List.length r + List.length p - List.length p)%nat with (List.length r) by lia.
        rewrite skipn_app, Nat.sub_diag, skipn_all. reflexivity.
    - exists false. split; auto. split; [discriminate|]. intros [r ->]. rewrite zlen_app in *.
      pose proof (zlen_nonneg r). lia.
  Qed.
End Fixes.

(** ** LessFloat *)
Definition isNaN (x : spec_float) : bool := match x with S754_nan => true | _ => false end.

Lemma Pos_cc p q : Pos.compare_cont Eq p q = Pos.compare p q.
Proof. reflexivity. Qed.

Lemma sfeqb_self x : negb (SFeqb x x) = isNaN x.
Proof.
  unfold SFeqb, SFcompare. destruct x as [| | |[] m e]; try reflexivity; try (destruct s; reflexivity).
  - rewrite Z.compare_refl, Pos_cc, Pos.compare_refl. reflexivity.
  - rewrite Z.compare_refl, Pos_cc, Pos.compare_refl. reflexivity.
Qed.

(** Position on the number line, ordered lexicographically. *)
Definition rank (x : spec_float) : Z * Z * Z :=
  match x with
  | S754_nan => (-3, 0, 0)
  | S754_infinity true => (-2, 0, 0)
  | S754_finite true m e => (-1, -e, Zneg m)
  | S754_zero _ => (0, 0, 0)
  | S754_finite false m e => (1, e, Zpos m)
  | S754_infinity false => (2, 0, 0)
  end.

Definition rlt (a b : Z * Z * Z) : Prop :=
  let '(a1, a2, a3) := a in let '(b1, b2, b3) := b in
  a1 < b1 \/ (a1 = b1 /\ (a2 < b2 \/ (a2 = b2 /\ a3 < b3))).

Lemma lessfloat_rank x y : LessFloat x y = true <-> rlt (rank x) (rank y).
Proof.
  unfold LessFloat. rewrite !sfeqb_self. cbv zeta.
  destruct (isNaN x || isNaN y) eqn:Hn.
  - destruct x as [s|s| |s m e], y as [s'|s'| |s' m' e']; cbn in Hn; try discriminate;
      cbn [isNaN andb negb rank rlt];
      repeat match goal with b : bool |- _ => destruct b end; cbn; split; try discriminate; try lia.
  - unfold SFltb, SFcompare.
    destruct x as [s|s| |s m e], y as [s'|s'| |s' m' e']; cbn in Hn; try discriminate;
      repeat match goal with b : bool |- _ => destruct b end; cbn [rank rlt];
      try (split; [discriminate|lia]); try (split; [lia|reflexivity]).
    + rewrite Pos_cc. destruct (Z.compare_spec e e'); cbn.
      * destruct (Pos.compare_spec m m'); cbn; split; try discriminate; try lia; auto.
      * split; [discriminate|lia].
      * split; [lia|auto].
    + rewrite Pos_cc. destruct (Z.compare_spec e e'); cbn.
      * destruct (Pos.compare_spec m m'); cbn; split; try discriminate; try lia; auto.
      * split; [lia|auto].
      * split; [discriminate|lia].
Qed.

Lemma lessfloat_swo : strict_weak_order LessFloat.
Proof.
  split.
  - intros x. destruct (LessFloat x x) eqn:H; auto. apply lessfloat_rank in H.
    destruct (rank x) as [[a b] c]. cbn in H. lia.
  - intros x y z. rewrite !lessfloat_rank. destruct (rank x) as [[a b] c], (rank y) as [[a' b'] c'],
      (rank z) as [[a'' b''] c'']. cbn. lia.
  - intros x y z H1 H2 H3 H4.
    assert (N : forall u v, LessFloat u v = false <-> ~ rlt (rank u) (rank v)).
    { intros u v. rewrite <- lessfloat_rank. destruct (LessFloat u v); split; auto; try discriminate.
      intros H. exfalso. auto. }
    rewrite N in *. rewrite N. destruct (rank x) as [[a b] c], (rank y) as [[a' b'] c'],
      (rank z) as [[a'' b''] c'']. cbn in *. lia.
Qed.

Lemma lessfloat_nan_least x : isNaN x = false -> LessFloat S754_nan x = true.
Proof.
  intros H. apply lessfloat_rank. destruct x as [s|s| |s m e]; try discriminate;
    repeat match goal with b : bool |- _ => destruct b end; cbn; lia.
Qed.

Lemma lessfloat_nonnan x y : isNaN x = false -> isNaN y = false -> LessFloat x y = SFltb x y.
Proof.
  intros Hx Hy. unfold LessFloat. rewrite !sfeqb_self, Hx, Hy. reflexivity.
Qed.
