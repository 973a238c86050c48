(** What Bind says when it rejects (C96). *)
From Coq Require Import DecimalString DecimalZ DecimalPos.
From Verif Require Import Base Arr XFn_Bind_Model XFn_Bind_Spec XFn_Bind_Proofs XFn_Bind_Msg.
Local Open Scope string_scope.
Local Open Scope list_scope.
Local Open Scope Z_scope.

Lemma decimal_inj n m : decimal n = decimal m -> n = m.
Proof.
  intros H. unfold decimal in H. apply to_int_inj.
  assert (K : forall z, Z.to_int z <> Decimal.Pos Decimal.Nil /\ Z.to_int z <> Decimal.Neg Decimal.Nil).
  { intros [|p|p]; cbn; split; try discriminate; intros [= E]; now apply Unsigned.to_uint_nonnil in E. }
  apply (f_equal NilZero.int_of_string) in H.
  rewrite !NilZero.isi in H by apply K. congruence.
Qed.

Lemma str_len (x y : string) : String.length (x ++ y)%string = (String.length x + String.length y)%nat.
Proof. induction x; cbn; congruence. Qed.

Lemma str_app_inj (x : string) : forall y s t, String.length s = String.length t ->
  (x ++ s)%string = (y ++ t)%string -> x = y.
Proof.
  induction x as [|c x IH]; intros [|c' y] s t HL E; cbn in E.
  - reflexivity.
  - subst s. cbn in HL. rewrite str_len in HL. lia.
  - subst t. cbn in HL. rewrite str_len in HL. lia.
  - injection E as -> E. f_equal. eapply IH; eauto.
Qed.

Definition irregular (n : Z) : Prop := 11 <= n mod 100 <= 13.

Lemma ith_suffix n : exists s, ith n = (decimal n ++ s)%string /\ String.length s = 2%nat.
Proof. unfold ith. destruct (_ =? _); [eauto|]. destruct (_ =? _); [eauto|]. destruct (_ =? _); eauto. Qed.

Lemma ith_ordinal n : 0 <= n -> (ith n = ordinal n <-> ~ irregular n).
Proof.
  intros Hn. unfold ith, ordinal, irregular. rewrite Z.rem_mod_nonneg by lia.
  assert (HM : n mod 10 = (n mod 100) mod 10).
  { rewrite (Z.div_mod n 100) at 1 by lia.
    replace (100 * (n / 100) + n mod 100) with (n mod 100 + (10 * (n / 100)) * 10) by lia.
    apply Z.mod_add. lia. }
  pose proof (Z.mod_pos_bound n 100 ltac:(lia)) as HB. set (r := n mod 100) in *.
  assert (KI : forall x s t, (x ++ s)%string = (x ++ t)%string -> s = t)
    by (induction x as [|c x IH]; cbn; intros s t Q; [assumption|injection Q as Q; auto]).
  destruct (Z.leb_spec 11 r), (Z.leb_spec r 13); cbn [andb].
  1: { split; [|lia]. intros EQ. exfalso.
       assert (r = 11 \/ r = 12 \/ r = 13) as [E|[E|E]] by lia;
         rewrite HM, E in EQ; cbn in EQ; apply KI in EQ; discriminate EQ. }
  all: split; [intros _; lia|intros _]; destruct (n mod 10 =? 1); [reflexivity|];
       destruct (n mod 10 =? 2); [reflexivity|]; destruct (n mod 10 =? 3); reflexivity.
Qed.

(** Refuted: the 11th, 12th and 13th are written 11st, 12nd and 13rd. *)
Theorem C96_ordinals_refuted :
  (exists n, 0 < n /\ ith n <> ordinal n) /\
  ith 11 = "11st" /\ ith 12 = "12nd" /\ ith 13 = "13rd" /\ ith 111 = "111st" /\
  (* Bind with a value of the wrong type for the last of 11 parameters *)
  (exists m, Bind Z.eqb (fun v t => vty v =? t) (fun v _ => v) decimal (fun _ => "f")
       (SrcFunc {| ins := repeat 0 11; outs := []; variadic := false |})
       (DestFunc {| ins := []; outs := []; variadic := false |})
       (repeat (AVal {| vty := 0; vpay := tt |}) 10 ++ [AVal {| vty := 1; vpay := tt |}]) = Panic m /\
     m = "type mismatch: src [f] 11st input is [0] but provided [1] at 11st bind argument").
Proof.
  split; [exists 11; split; [lia|discriminate]|].
  repeat (split; [reflexivity|]). eexists. split; reflexivity.
Qed.

(** Every other position is written as in English, and two positions are never
    written alike. *)
Theorem C96_ordinals_partial :
  (forall n, 0 <= n -> ith n = ordinal n <-> ~ 11 <= n mod 100 <= 13) /\
  (forall n m, ith n = ith m -> n = m).
Proof.
  split; [exact ith_ordinal|]. intros n m H.
  destruct (ith_suffix n) as (s & E1 & L1). destruct (ith_suffix m) as (t & E2 & L2).
  apply decimal_inj. rewrite E1, E2 in H. eapply str_app_inj; [|exact H]. congruence.
Qed.

(** The panic of Bind reports the first problem, with the positions, types and
    numbers that it is about; positions are written by [ith]. *)
Theorem C96_message :
  forall (ty pay : Type) (ty_eqb : ty -> ty -> bool) canConv conv
    (show : ty -> string) (showFn : sig ty -> string),
  (forall a b, ty_eqb a b = true <-> a = b) ->
  forall (src : srcArg ty) (dest : destArg ty) (args : list (barg ty pay)) m,
  Bind ty_eqb canConv conv show showFn src dest args = Panic m <->
  first_problem canConv show showFn ith src dest args m.
Proof. intros. now apply Bind_message. Qed.

Lemma problem_nth {ty pay} (canConv : value ty pay -> ty -> bool) show showFn f g s d args m :
  (forall n, 1 <= n <= zlen (ins s) \/ 1 <= n <= zlen (ins d) \/ 1 <= n <= zlen (outs s) -> f n = g n) ->
  first_problem canConv show showFn f (SrcFunc s) (DestFunc d) args m ->
  first_problem canConv show showFn g (SrcFunc s) (DestFunc d) args m.
Proof.
  intros He H. inversion H; subst; try (constructor; assumption).
  - rewrite !He.
    + eapply FP_out; eassumption.
    + right; right. match goal with E : outs s = _ |- _ => rewrite E end.
      rewrite zlen_app. unfold zlen. cbn [List.length]. lia.
  - match goal with HF : Forall2 _ _ _ |- _ => pose proof (Forall2_zlen _ _ _ HF) as HL end.
    eapply FP_arg; try eassumption.
    match goal with HU : unfit _ _ _ _ _ _ ?n _ _ _ |- _ => assert (EN : f n = g n) end.
    { apply He. left. match goal with E : ins s = _ |- _ => rewrite E end.
      rewrite zlen_app. unfold zlen in *. cbn [List.length]. lia. }
    match goal with HU : unfit _ _ _ _ _ _ _ _ _ _ |- _ => inversion HU; subst; rewrite ?EN; constructor; assumption end.
  - eapply FP_few; eassumption.
  - match goal with HF : Forall2 _ _ _ |- _ => pose proof (Forall2_zlen _ _ _ HF) as HL end.
    rewrite (He (zlen args + zlen same + 1)), (He (highest args + zlen same + 1)).
    + eapply FP_rest; eassumption.
    + right; left. match goal with E : ins d = _ |- _ => rewrite E end.
      rewrite !zlen_app. unfold zlen in *. cbn [List.length]. lia.
    + left. match goal with E : ins s = _ |- _ => rewrite E end.
      rewrite !zlen_app. unfold zlen in *. cbn [List.length]. lia.
Qed.

(** In good English for functions of at most ten parameters and results. *)
Theorem C96_message_partial :
  forall (ty pay : Type) (ty_eqb : ty -> ty -> bool) canConv conv
    (show : ty -> string) (showFn : sig ty -> string),
  (forall a b, ty_eqb a b = true <-> a = b) ->
  forall (s d : sig ty) (args : list (barg ty pay)) m,
  zlen (ins s) <= 10 -> zlen (ins d) <= 10 -> zlen (outs s) <= 10 ->
  Bind ty_eqb canConv conv show showFn (SrcFunc s) (DestFunc d) args = Panic m <->
  first_problem canConv show showFn ordinal (SrcFunc s) (DestFunc d) args m.
Proof.
  intros ty pay ty_eqb canConv conv show showFn He s d args m H1 H2 H3.
  rewrite (C96_message ty pay ty_eqb canConv conv show showFn He).
  assert (K : forall n, 1 <= n <= zlen (ins s) \/ 1 <= n <= zlen (ins d) \/ 1 <= n <= zlen (outs s) ->
                ith n = ordinal n).
  { intros n Hn. assert (1 <= n <= 10) by lia. apply ith_ordinal; [lia|]. unfold irregular.
    rewrite Z.mod_small by lia. lia. }
  split; apply problem_nth; auto. intros n Hn. symmetry. auto.
Qed.

(** P(i) is the placeholder of number i, for every i >= 1 and no other. *)
Theorem C96_placeholder :
  (forall i, (1 <= i -> P i = Ok i) /\ (i < 1 -> exists m, P i = Panic m)) /\
  P 1 = Ok P1 /\ P 2 = Ok P2 /\ P 3 = Ok P3 /\ P 4 = Ok P4.
Proof.
  split; [|repeat split]. intros i. unfold P.
  destruct (Z.ltb_spec i 1); split; intros; try lia; eauto.
Qed.

(** Non-vacuity: the messages of the project's own tests. *)
Example C96_nonvacuous :
  let show t := if t =? 0 then "int" else "string" in
  let showFn (f : sig Z) := ("func(" ++ String.concat ", " (map show (ins f)) ++ ")")%string in
  let B s d args := Bind Z.eqb (fun v t => vty v =? t) (fun v _ => v) show showFn
    (SrcFunc {| ins := s; outs := []; variadic := false |})
    (DestFunc {| ins := d; outs := []; variadic := false |}) args in
  let str := AVal {| vty := 1; vpay := tt |} in
  B [1] [1] [APh 2]
    = Panic "invalid placeholder: dest [func(string)] has 1 inputs but provided Placeholder(2) at 1st bind argument" /\
  B [1; 1; 1; 1] [0; 0; 1] [str; str; str; APh 0]
    = Panic "invalid placeholder: dest [func(int, int, string)] has 3 inputs but provided Placeholder(0) at 4th bind argument" /\
  B [0; 1; 0; 1] [0] [APh 1]
    = Panic "not enough inputs: dest [func(int)] needs 3 more inputs [string, int, string]" /\
  B [0; 1; 0] [0; 1; 1] []
    = Panic "type mismatch: src [func(int, string, int)] 3rd input is [int] but provided [string] via 3rd dest input [func(int, string, string)]".
Proof. repeat split. Qed.

Print Assumptions C96_ordinals_refuted.
Print Assumptions C96_ordinals_partial.
Print Assumptions C96_message.
Print Assumptions C96_message_partial.
Print Assumptions C96_placeholder.
