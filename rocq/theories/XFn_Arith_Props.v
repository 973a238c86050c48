(** Properties of xfn/arithmetic.go (C82). *)
From Coq Require Import SpecFloat Permutation.
From Verif Require Import Base Exn Stream_Model Stream_Spec Stream_Sources Stream_Den Stream_Props
  XFn_Arith_Model XFn_Arith_Spec XFn_Arith_Proofs.

(** C82.  Integers: sums, differences and products wrap, the operand given
    first is the right one, and the two-operand forms agree. *)
Theorem C82_wrap (t : inttype) (x y : Z) : 0 < bits t -> inType t x -> inType t y ->
  wraps_to t (x + y) (Plus (intOps t) y x) /\ wraps_to t (x + y) (PlusOp (intOps t) x y) /\
  wraps_to t (x - y) (Minus (intOps t) y x) /\
  wraps_to t (x * y) (Mult (intOps t) y x) /\ wraps_to t (x * y) (MultOp (intOps t) x y).
Proof. intros Ht _ _. split; [|split; [|split; [|split]]]; now apply wraps_wrap. Qed.

(** A number wraps to one number only, and to itself if it is of the type. *)
Theorem C82_wrap_unique (t : inttype) (x r r' : Z) : 0 < bits t ->
  wraps_to t x r -> wraps_to t x r' -> r = r'.
Proof. exact (wraps_unique t x r r'). Qed.

(** Minus undoes Plus, also when they overflow. *)
Theorem C82_inverse (t : inttype) (x y : Z) : 0 < bits t -> inType t x -> inType t y ->
  Minus (intOps t) y (Plus (intOps t) y x) = x /\ Plus (intOps t) y (Minus (intOps t) y x) = x.
Proof.
  intros Ht Hx Hy. unfold Minus, Plus. cbn [add sub intOps]. rewrite <- Z.add_opp_r, !wrap_add by exact Ht.
  replace (x + y + - y) with x by lia. replace (x - y + y) with x by lia. now rewrite wrap_id.
Qed.

(** Division by zero panics; any other division truncates towards zero, with
    the remainder of the sign of the dividend.  The one quotient that is not of
    the type, minimum / -1, wraps to the minimum, with remainder 0. *)
Theorem C82_division (t : inttype) (x y : Z) : 0 < bits t -> inType t x -> inType t y ->
  (y = 0 -> exists msg, Div (intOps t) y x = Panic msg /\ DivOp (intOps t) x y = Panic msg /\
    Mod (intOps t) y x = Panic msg /\ ModOp (intOps t) x y = Panic msg) /\
  (y <> 0 -> exists q r,
    Div (intOps t) y x = Ok q /\ DivOp (intOps t) x y = Ok q /\
    Mod (intOps t) y x = Ok r /\ ModOp (intOps t) x y = Ok r /\
    inType t q /\ inType t r /\ Z.abs r < Z.abs y /\ 0 <= r * x /\
    wraps_to t (q * y + r) x /\
    (q * y + r = x \/ (signed t = true /\ x = tmin t /\ y = -1 /\ q = x /\ r = 0))).
Proof.
  intros Ht Hx Hy. split.
  - intros ->. now eexists.
  - intros H0. destruct (div_mod_int t x y Ht Hx Hy H0) as (q & r & H1 & H2 & H3 & H4 & H5 & H6 & H7 & H8).
    exists q, r. auto 20.
Qed.

(** Adding up or multiplying a stream of integers gives the exact sum or
    product, wrapped: the order of the elements does not matter. *)
Theorem C82_sum {W S} (t : inttype) (src : source S W Z) n s z l : 0 < bits t ->
  yields (fun w => w) src n s z l -> forall w, exists total st,
  (forall fuel, (n + List.length l < fuel)%nat ->
    Reduce src fuel 0 (fun a x => xret (PlusOp (intOps t) a x)) (s, (z, w)) = (Ok total, st)) /\
  wraps_to t (sum l) total.
Proof.
  intros Ht HY w.
  destruct (C41_reduce (fun w => w) src n s z l (fun a x => @xret W Z (PlusOp (intOps t) a x)) (PlusOp (intOps t)) (fun _ o => o) HY) with (w := w) (a := 0) as (s' & z' & w' & H & _).
  { intros a x w0. exists w0. split; reflexivity. }
  eexists _, _. split; [exact H|].
  pose proof (sum_wraps t l Ht 0) as HS. rewrite wrap_id in HS; [exact HS|exact Ht|].
  unfold inType, tmin, tmax. pose proof (Z.pow_pos_nonneg 2 (bits t) ltac:(lia) ltac:(lia)).
  pose proof (Z.pow_pos_nonneg 2 (bits t - 1) ltac:(lia) ltac:(lia)). destruct (signed t); lia.
Qed.
Theorem C82_product {W S} (t : inttype) (src : source S W Z) n s z l : 0 < bits t -> inType t 1 ->
  yields (fun w => w) src n s z l -> forall w, exists total st,
  (forall fuel, (n + List.length l < fuel)%nat ->
    Reduce src fuel 1 (fun a x => xret (MultOp (intOps t) a x)) (s, (z, w)) = (Ok total, st)) /\
  wraps_to t (product l) total.
Proof.
  intros Ht H1 HY w.
  destruct (C41_reduce (fun w => w) src n s z l (fun a x => @xret W Z (MultOp (intOps t) a x)) (MultOp (intOps t)) (fun _ o => o) HY) with (w := w) (a := 1) as (s' & z' & w' & H & _).
  { intros a x w0. exists w0. split; reflexivity. }
  eexists _, _. split; [exact H|].
  pose proof (product_wraps t l Ht 1) as HS. rewrite wrap_id in HS by assumption. now rewrite Z.mul_1_l in HS.
Qed.

(** Adding up a stream of strings concatenates them in order. *)
Theorem C82_concat {W S B} (src : source S W (list B)) n s z l :
  yields (fun w => w) src n s z l -> forall w, exists st,
  forall fuel, (n + List.length l < fuel)%nat ->
    Reduce src fuel [] (fun a x => xret (PlusOp stringOps a x)) (s, (z, w)) = (Ok (List.concat l), st).
Proof.
  intros HY w.
  destruct (C41_reduce (fun w => w) src n s z l (fun a x => @xret W (list B) (PlusOp stringOps a x)) (PlusOp stringOps) (fun _ o => o) HY) with (w := w) (a := @nil B) as (s' & z' & w' & H & _).
  { intros a x w0. exists w0. split; reflexivity. }
  eexists. intros fuel Hf. rewrite (H fuel Hf). now rewrite string_sum.
Qed.

(** Floats: + and * commute for all operands (NaN and infinities too), ... *)
Theorem C82_float_commutes (prec emax : Z) (x y : spec_float) :
  PlusOp (floatOps prec emax) x y = PlusOp (floatOps prec emax) y x /\
  MultOp (floatOps prec emax) x y = MultOp (floatOps prec emax) y x /\
  Plus (floatOps prec emax) x y = PlusOp (floatOps prec emax) x y.
Proof. unfold PlusOp, MultOp, Plus. cbn [add mul floatOps]. now rewrite SFadd_comm, SFmul_comm. Qed.

(** ... but a sum of float64 depends on the order: 2^53 + 1 + 1. *)
Theorem C82_float_sum_order : exists a b c,
  valid_binary 53 1024 a = true /\ valid_binary 53 1024 b = true /\ valid_binary 53 1024 c = true /\
  fold_left (PlusOp (floatOps 53 1024)) [a; b; c] (S754_zero false) <>
  fold_left (PlusOp (floatOps 53 1024)) [b; c; a] (S754_zero false).
Proof.
  exists (S754_finite false 4503599627370496 1), (S754_finite false 4503599627370496 (-52)), (S754_finite false 4503599627370496 (-52)).
  repeat split; try (vm_compute; reflexivity). vm_compute. discriminate.
Qed.

(** The functions on floats are the operations of IEEE 754 as SpecFloat of the
    standard library of Coq defines them, lhs before rhs. *)
Theorem C82_float_ops (prec emax : Z) (x y : spec_float) :
  Plus (floatOps prec emax) y x = SFadd prec emax x y /\ PlusOp (floatOps prec emax) x y = SFadd prec emax x y /\
  Minus (floatOps prec emax) y x = SFsub prec emax x y /\
  Mult (floatOps prec emax) y x = SFmul prec emax x y /\ MultOp (floatOps prec emax) x y = SFmul prec emax x y /\
  Div (floatOps prec emax) y x = Ok (SFdiv prec emax x y) /\ DivOp (floatOps prec emax) x y = Ok (SFdiv prec emax x y).
Proof. repeat split. Qed.

(** Minus adds the negative; dividing never panics: by zero it gives an infinity
    (0 / 0 is NaN), by an infinity zero (Inf / Inf is NaN); a NaN gives NaN. *)
Theorem C82_float_special (prec emax : Z) :
  (forall x y, Minus (floatOps prec emax) y x = Plus (floatOps prec emax) (SFopp y) x) /\
  (forall x y, exists q, Div (floatOps prec emax) y x = Ok q) /\
  (forall sx m e sy, Div (floatOps prec emax) (S754_zero sy) (S754_finite sx m e) = Ok (S754_infinity (xorb sx sy))) /\
  (forall sx m e sy, Div (floatOps prec emax) (S754_finite sy m e) (S754_zero sx) = Ok (S754_zero (xorb sx sy))) /\
  (forall sx m e sy, Div (floatOps prec emax) (S754_infinity sy) (S754_finite sx m e) = Ok (S754_zero (xorb sx sy))) /\
  (forall sx sy, Div (floatOps prec emax) (S754_zero sy) (S754_zero sx) = Ok S754_nan /\
                 Div (floatOps prec emax) (S754_infinity sy) (S754_infinity sx) = Ok S754_nan) /\
  (forall x, Div (floatOps prec emax) S754_nan x = Ok S754_nan /\ Div (floatOps prec emax) x S754_nan = Ok S754_nan /\
             Plus (floatOps prec emax) S754_nan x = S754_nan /\ Mult (floatOps prec emax) S754_nan x = S754_nan).
Proof.
  split; [|repeat split; try (intros; eexists; reflexivity); try reflexivity; now destruct x].
  intros x y. unfold Minus, Plus. cbn [add sub floatOps]. unfold SFsub, SFadd.
  destruct x as [sx|sx| |sx mx ex], y as [sy|sy| |sy my ey]; cbn [SFopp]; try reflexivity; try (destruct sx, sy; reflexivity).
Qed.
(** 1 / 2 is not 2 / 1. *)
Example C82_float_case :
  let f64 := floatOps 53 1024 in let one := S754_finite false 4503599627370496 (-52) in let two := S754_finite false 4503599627370496 (-51) in
  Div f64 two one = Ok (S754_finite false 4503599627370496 (-53)) /\ Div f64 one two = Ok two /\
  Minus f64 two one = S754_finite true 4503599627370496 (-52).
Proof. vm_compute. auto. Qed.

Print Assumptions C82_wrap.
Print Assumptions C82_wrap_unique.
Print Assumptions C82_inverse.
Print Assumptions C82_division.
Print Assumptions C82_sum.
Print Assumptions C82_product.
Print Assumptions C82_concat.
Print Assumptions C82_float_commutes.
Print Assumptions C82_float_sum_order.

(** ** Non-vacuity *)
Definition int8 : inttype := {| bits := 8; signed := true |}.
Example int8_wraps : inType int8 100 /\ inType int8 (-128) /\ ~ inType int8 128 /\
  Plus (intOps int8) 100 100 = -56 /\ wraps_to int8 200 (-56) /\ ~ wraps_to int8 200 200 /\
  Div (intOps int8) (-1) (-128) = Ok (-128) /\ Mod (intOps int8) 7 (-128) = Ok (-2).
Proof.
  assert (H : forall x, inType int8 x <-> -128 <= x <= 127) by (intros x; unfold inType, tmin, tmax, int8; cbn; lia).
  split; [apply H; lia|]. split; [apply H; lia|]. split; [rewrite H; lia|]. split; [reflexivity|].
  split; [split; [apply H; lia|now exists (-1)]|]. split; [|split; reflexivity].
  intros [C _]. apply (proj1 (H _)) in C. lia.
Qed.
(** [ex_yields] is a stream of 8 and 10; three numbers that overflow int8 on
    the way, in any order: *)
Example int8_sum : fold_left (PlusOp (intOps int8)) [100; 100; -73] 0 = 127 /\
  fold_left (PlusOp (intOps int8)) [-73; 100; 100] 0 = 127 /\
  (exists s z st, forall fuel, (8 + 2 < fuel)%nat ->
    Reduce (sliceSource [1; 2; 3; 4; 5; 6; 7]) fuel 0 (fun a x => xret (PlusOp (intOps int8) a x)) (s, (z, tt)) = (Ok 18, st)).
Proof.
  repeat split; try reflexivity. destruct ex_yields as (s & z & Y).
  destruct (C82_sum int8 _ _ _ _ _ ltac:(reflexivity) Y tt) as (total & st & H & HS). exists s, z, st.
  rewrite (C82_wrap_unique int8 18 18 total); [exact H|reflexivity| |exact HS]. split; [cbv; split; discriminate|now exists 0].
Qed.
Print Assumptions C82_float_ops.
Print Assumptions C82_float_special.
