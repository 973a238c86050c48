(** C136: the comparison functions of xfn. *)
From Coq Require Import SpecFloat Permutation Lia.
From Verif Require Import Base XSort_Model XSort_Spec XSort_Props
  XFn_Compare_Model XFn_Compare_Spec XFn_Compare_Proofs.
Local Open Scope list_scope.
Local Open Scope Z_scope.

(** Integers: as the numbers. *)
Theorem C136_integers : forall a b : Z,
  (Equal intCmp a b = true <-> a = b) /\ (NotEqual intCmp a b = true <-> a <> b) /\
  (Less intCmp a b = true <-> a < b) /\ (LessEq intCmp a b = true <-> a <= b) /\
  (Greater intCmp a b = true <-> a > b) /\ (GreaterEq intCmp a b = true <-> a >= b).
Proof.
  intros a b. cbn [Equal NotEqual Less LessEq Greater GreaterEq intCmp eqOp neOp ltOp leOp gtOp geOp].
  unfold Equal, NotEqual, Less, LessEq, Greater, GreaterEq; cbn.
  rewrite Bool.negb_true_iff. pose proof (Z.eqb_eq a b). pose proof (Z.eqb_neq a b).
  pose proof (Z.ltb_lt a b). pose proof (Z.leb_le a b).
  pose proof (Z.gtb_lt a b). pose proof (Z.geb_le a b). repeat split; intros; try lia; try tauto.
Qed.

(** Strings: the dictionary order. *)
Theorem C136_strings : forall a b : list Z,
  (Equal stringCmp a b = true <-> a = b) /\ (NotEqual stringCmp a b = true <-> a <> b) /\
  (Less stringCmp a b = true <-> before a b) /\ (LessEq stringCmp a b = true <-> before a b \/ a = b) /\
  (Greater stringCmp a b = true <-> before b a) /\ (GreaterEq stringCmp a b = true <-> before b a \/ a = b).
Proof.
  intros a b. rewrite <- (cmp_lt a b), <- (cmp_gt a b), <- (cmp_eq a b).
  unfold Equal, NotEqual, Less, LessEq, Greater, GreaterEq; cbn.
  destruct (compareBytes a b); intuition congruence.
Qed.

(** Floats of every format, NaN, infinities, zeros and subnormals included: as
    the numbers they stand for; with NaN everything is false but NotEqual. *)
Theorem C136_floats : forall prec emax x y,
  valid_binary prec emax x = true -> valid_binary prec emax y = true ->
  let less := floatLess prec emax in let same := floatSame prec emax in
  (Equal floatCmp x y = true <-> same x y) /\ (NotEqual floatCmp x y = true <-> ~ same x y) /\
  (Less floatCmp x y = true <-> less x y) /\ (LessEq floatCmp x y = true <-> less x y \/ same x y) /\
  (Greater floatCmp x y = true <-> less y x) /\ (GreaterEq floatCmp x y = true <-> less y x \/ same x y).
Proof.
  intros prec emax x y Hx Hy less same. subst less same.
  rewrite <- (sf_lt prec emax x y Hx Hy), <- (sf_lt prec emax y x Hy Hx).
  assert (S : floatSame prec emax x y <-> floatSame prec emax y x)
    by (split; intros (a & A & B); exists a; auto).
  pose proof (sf_eq prec emax x y Hx Hy) as E. pose proof (sf_eq prec emax y x Hy Hx) as E'.
  unfold Equal, NotEqual, Less, LessEq, Greater, GreaterEq; cbn.
  rewrite !sf_le, !Bool.orb_true_iff, Bool.negb_true_iff.
  destruct (SFeqb x y); intuition congruence.
Qed.

(** The predicates say the same of their argument and the value they were made from. *)
Theorem C136_predicates : forall (T : Type) (O : comparisons T) (rhs v : T),
  IsLess O rhs v = Less O v rhs /\ IsLessEq O rhs v = LessEq O v rhs /\
  IsGreater O rhs v = Greater O v rhs /\ IsGreaterEq O rhs v = GreaterEq O v rhs.
Proof. intros. repeat split. Qed.

(** The functions are each other's complements and mirror images, except that for
    floats the complements need both numbers to be no NaN. *)
Theorem C136_complements :
  (forall a b : Z, GreaterEq intCmp a b = negb (Less intCmp a b) /\ LessEq intCmp a b = negb (Greater intCmp a b)) /\
  (forall a b : list Z, GreaterEq stringCmp a b = negb (Less stringCmp a b) /\
     LessEq stringCmp a b = negb (Greater stringCmp a b)) /\
  (forall x y, GreaterEq floatCmp x y = negb (Less floatCmp x y) <-> x <> S754_nan /\ y <> S754_nan) /\
  (forall x y, LessEq floatCmp x y = negb (Greater floatCmp x y) <-> x <> S754_nan /\ y <> S754_nan).
Proof.
  unfold Less, LessEq, Greater, GreaterEq; cbn. split; [|split; [|split]].
  - intros a b. rewrite Z.geb_leb, Z.gtb_ltb, Z.leb_antisym, (Z.leb_antisym b a). auto.
  - intros a b. destruct (compareBytes a b); auto.
  - intros x y. unfold SFleb, SFltb.
    assert (H : SFcompare y x = match SFcompare x y with Some c => Some (CompOpp c) | None => None end) by apply sfcompare_sym.
    rewrite H. pose proof (sfcompare_none x y) as N. destruct (SFcompare x y) as [[]|]; cbn; intuition congruence.
  - intros x y. unfold SFleb, SFltb.
    assert (H : SFcompare y x = match SFcompare x y with Some c => Some (CompOpp c) | None => None end) by apply sfcompare_sym.
    rewrite H. pose proof (sfcompare_none x y) as N. destruct (SFcompare x y) as [[]|]; cbn; intuition congruence.
Qed.

(** Greater is an order to sort by: the result descends. *)
Theorem C136_sort_descending :
  (forall data : list Z, exists data' s',
     Sort data (fun a b (s : unit) => (Greater intCmp a b, s)) tt = Ok (data', s') /\ Permutation data data' /\
     forall i j a b, (i < j)%nat -> nth_error data' i = Some a -> nth_error data' j = Some b -> a >= b) /\
  (forall data : list (list Z), exists data' s',
     Sort data (fun a b (s : unit) => (Greater stringCmp a b, s)) tt = Ok (data', s') /\ Permutation data data' /\
     forall i j a b, (i < j)%nat -> nth_error data' i = Some a -> nth_error data' j = Some b -> before b a \/ a = b).
Proof.
  split; intros data.
  - destruct (C02_sort_sorts Z unit (Greater intCmp) (fun a b s => (Greater intCmp a b, s))) with (data := data) (s := tt)
      as (d & s & E & P & Q); [|intros ? ? ?; reflexivity|].
    + unfold Greater; cbn. split; intros *; rewrite ?Z.gtb_ltb; [apply Z.ltb_irrefl|rewrite !Z.ltb_lt; lia|].
      rewrite !Z.ltb_ge. lia.
    + exists d, s. split; [exact E|]. split; [exact P|]. intros i j a b L A B.
      specialize (Q i j a b L A B). unfold Greater in Q; cbn in Q. rewrite Z.gtb_ltb, Z.ltb_ge in Q. lia.
  - destruct (C02_sort_sorts (list Z) unit (Greater stringCmp) (fun a b s => (Greater stringCmp a b, s)))
      with (data := data) (s := tt) as (d & s & E & P & Q); [|intros ? ? ?; reflexivity|].
    + apply greater_order.
    + exists d, s. split; [exact E|]. split; [exact P|]. intros i j a b L A B.
      specialize (Q i j a b L A B). unfold Greater in Q; cbn in Q. rewrite <- cmp_lt, <- cmp_eq, (cmp_sym a b).
      rewrite (cmp_sym a b) in Q. destruct (compareBytes a b); cbn in *; auto; discriminate.
Qed.

(** LessEq and GreaterEq are no comparators: they say that a value is less than itself. *)
Theorem C136_not_comparators :
  (forall a : Z, LessEq intCmp a a = true /\ GreaterEq intCmp a a = true) /\
  (forall a : list Z, LessEq stringCmp a a = true /\ GreaterEq stringCmp a a = true) /\
  ~ strict_weak_order (LessEq intCmp) /\ ~ strict_weak_order (GreaterEq intCmp).
Proof.
  unfold LessEq, GreaterEq; cbn. split; [|split; [|split]].
  - intros a. rewrite Z.geb_leb, Z.leb_refl. auto.
  - intros a. rewrite (proj2 (cmp_eq a a) eq_refl). auto.
  - intros [H _ _]. specialize (H 0). discriminate.
  - intros [H _ _]. specialize (H 0). discriminate.
Qed.

(** "ab" < "abc" < "b"; the smallest subnormal float64 is above both zeros, which
    are equal, and below the first normal number. *)
Example C136_nonvacuous :
  Less stringCmp [97; 98] [97; 98; 99] = true /\ Less stringCmp [97; 98; 99] [98] = true /\
  (let tiny := S754_finite false 1 (-1074) in
   let normal := S754_finite false 4503599627370496 (-1074) in
   valid_binary 53 1024 tiny = true /\ valid_binary 53 1024 normal = true /\
   Equal floatCmp (S754_zero true) (S754_zero false) = true /\
   Less floatCmp (S754_zero true) tiny = true /\ Less floatCmp tiny normal = true /\
   NotEqual floatCmp S754_nan S754_nan = true /\ LessEq floatCmp S754_nan S754_nan = false).
Proof. repeat split. Qed.

Print Assumptions C136_integers.
Print Assumptions C136_strings.
Print Assumptions C136_floats.
Print Assumptions C136_predicates.
Print Assumptions C136_complements.
Print Assumptions C136_sort_descending.
Print Assumptions C136_not_comparators.
