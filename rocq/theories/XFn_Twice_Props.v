(** C125: binding in two steps is binding at once. *)
From Verif Require Import Base Exn XFn_Bind_Model XFn_Bind_Spec XFn_Bind_Proofs XFn_Twice_Spec.
Local Open Scope Z_scope.

Section Proofs.
  Context {ty pay : Type}.
  Notation args_t := (list (barg ty pay)).

  Lemma zget_nat : forall {A} (l : list A) i, zget l (Z.of_nat i) = nth_error l i.
  Proof.
    intros A l i. unfold zget. destruct (Z.ltb_spec (Z.of_nat i) 0); [lia|]. now rewrite Nat2Z.id.
  Qed.

  Lemma says_nat : forall (args : args_t) i,
    says args (Z.of_nat i) = match nth_error args i with
                             | Some a => a
                             | None => APh (highest args + (Z.of_nat i - zlen args) + 1) end.
  Proof. intros. unfold says. now rewrite zget_nat. Qed.

  (** What an argument gives to a parameter of type [t] in a call. *)
  Definition gives (conv : value ty pay -> ty -> value ty pay) (call : list (value ty pay)) t (a : barg ty pay) :=
    match a with
    | AVal v => Some (conv v t)
    | APh k => zget call (k - 1)
    | ANil => None
    end.

  Lemma routed_says : forall conv (args : args_t) call i t,
    routed conv args call i t = gives conv call t (says args (Z.of_nat i)).
  Proof.
    intros. unfold routed. rewrite says_nat.
    destruct (nth_error args i) as [[k|v|]|]; cbn [gives]; try reflexivity.
    f_equal. lia.
  Qed.

  Lemma nth_merged : forall n (a1 a2 : args_t) i,
    nth_error (merged n a1 a2) i = if (i <? n)%nat then Some (at_once a1 a2 i) else None.
  Proof.
    intros n a1 a2 i. unfold merged. rewrite nth_error_map.
    destruct (Nat.ltb_spec i n) as [L|L].
    - rewrite (nth_error_nth' _ 0%nat) by (rewrite seq_length; lia). rewrite seq_nth by lia. reflexivity.
    - assert (nth_error (seq 0 n) i = None) as -> by (apply nth_error_None; rewrite seq_length; lia).
      reflexivity.
  Qed.

  Lemma merged_length : forall n (a1 a2 : args_t), List.length (merged n a1 a2) = n.
  Proof. intros. unfold merged. now rewrite map_length, seq_length. Qed.

  Lemma zget_bound : forall {A} (l : list A) j x, zget l j = Some x -> 0 <= j < zlen l.
  Proof.
    intros A l j x H. unfold zget in H. destruct (Z.ltb_spec j 0); [discriminate|].
    assert (nth_error l (Z.to_nat j) <> None) as Hn by congruence.
    apply nth_error_Some in Hn. unfold zlen. lia.
  Qed.

  Lemma says_fits : forall canConv (s d : sig ty) (args : args_t),
    bindable canConv s d args ->
    forall i t, nth_error (ins s) i = Some t -> fits canConv d (says args (Z.of_nat i)) t.
  Proof.
    intros canConv s d args HB i t Ht. rewrite says_nat.
    destruct (nth_error args i) as [[k|v|]|] eqn:E; cbn [fits].
    - exact (ok_type _ _ _ _ HB _ _ _ E Ht).
    - exact (ok_value _ _ _ _ HB _ _ _ E Ht).
    - apply (ok_nil _ _ _ _ HB). eapply nth_error_In; eauto.
    - apply nth_error_None in E. pose proof (ok_rest _ _ _ _ HB _ _ E Ht) as H.
      rewrite <- H. f_equal. lia.
  Qed.

  Lemma at_once_fits : forall canConv (s m d : sig ty) (a1 a2 : args_t),
    bindable canConv s m a1 -> bindable canConv m d a2 ->
    forall i t, nth_error (ins s) i = Some t -> fits canConv d (at_once a1 a2 i) t.
  Proof.
    intros canConv s m d a1 a2 H1 H2 i t Ht. unfold at_once.
    pose proof (says_fits _ _ _ _ H1 _ _ Ht) as F.
    destruct (says a1 (Z.of_nat i)) as [k|v|]; cbn [fits] in F; [|exact F|exact F].
    pose proof (zget_bound _ _ _ F) as B.
    assert (exists j, k - 1 = Z.of_nat j) as [j Ej] by (exists (Z.to_nat (k - 1)); lia).
    rewrite Ej, zget_nat in F. rewrite Ej. exact (says_fits _ _ _ _ H2 _ _ F).
  Qed.

  Lemma merged_bindable : forall canConv (s m d : sig ty) (a1 a2 : args_t),
    bindable canConv s m a1 -> bindable canConv m d a2 ->
    bindable canConv s d (merged (List.length (ins s)) a1 a2).
  Proof.
    intros canConv s m d a1 a2 H1 H2.
    assert (F : forall i a, nth_error (merged (List.length (ins s)) a1 a2) i = Some a ->
              exists t, nth_error (ins s) i = Some t /\ fits canConv d a t).
    { intros i a E. rewrite nth_merged in E. destruct (Nat.ltb_spec i (List.length (ins s))) as [L|L]; [|discriminate].
      injection E as <-. destruct (nth_error (ins s) i) as [t|] eqn:Et.
      - exists t. split; [reflexivity|]. exact (at_once_fits _ _ _ _ _ _ H1 H2 _ _ Et).
      - apply nth_error_None in Et. lia. }
    split.
    - rewrite (ok_outs _ _ _ _ H1). exact (ok_outs _ _ _ _ H2).
    - unfold zlen. rewrite merged_length. lia.
    - intros i v t E Et. destruct (F _ _ E) as (t' & Et' & Hf). cbn [fits] in Hf. congruence.
    - intros HI. apply In_nth_error in HI. destruct HI as [i E].
      destruct (F _ _ E) as (t' & Et' & Hf). exact Hf.
    - intros k HI. apply In_nth_error in HI. destruct HI as [i E].
      destruct (F _ _ E) as (t' & Et' & Hf). cbn [fits] in Hf. apply zget_bound in Hf. lia.
    - intros i k t E Et. destruct (F _ _ E) as (t' & Et' & Hf). cbn [fits] in Hf. congruence.
    - intros i t L Et. rewrite merged_length in L.
      assert (nth_error (ins s) i = None) by (apply nth_error_None; lia). congruence.
  Qed.
End Proofs.

Theorem C125_two_steps :
  forall (ty pay : Type) (ty_eqb : ty -> ty -> bool) canConv conv assignable elem mkslice
    (show : ty -> string) (showFn : sig ty -> string),
  (forall a b, ty_eqb a b = true <-> a = b) ->
  (forall (v : value ty pay) t, canConv v t = true -> vty (conv v t) = t) ->
  let bind s d args := Bind ty_eqb canConv conv show showFn (SrcFunc s) (DestFunc d) args in
  let receives b call := fst (callBound ty_eqb assignable elem mkslice call b) in
  forall (s m d : sig ty) (first second : list (barg ty pay)) b1 b2,
  variadic s = false -> variadic m = false ->
  (* m is bound to s, and d to m *)
  bind s m first = Ok b1 -> bind m d second = Ok b2 ->
  exists b,
    bind s d (merged (List.length (ins s)) first second) = Ok b /\
    forall call, map vty call = ins d ->
    exists mid passed,
      receives b2 call = Ok mid /\ receives b1 mid = Ok passed /\
      receives b call = Ok passed /\ map vty passed = ins s.
Proof.
  intros ty pay ty_eqb canConv conv assignable elem mkslice show showFn He Hc bind receives
         s m d a1 a2 b1 b2 Vs Vm B1 B2. subst bind receives. cbv beta in *.
  destruct (Bind_inv ty_eqb He canConv conv show showFn _ _ _ _ B1) as (s' & m' & [= <-] & [= <-] & H1).
  destruct (Bind_inv ty_eqb He canConv conv show showFn _ _ _ _ B2) as (m' & d' & [= <-] & [= <-] & H2).
  rewrite (Bind_ok ty_eqb He canConv conv show showFn _ _ _ H1) in B1. injection B1 as <-.
  rewrite (Bind_ok ty_eqb He canConv conv show showFn _ _ _ H2) in B2. injection B2 as <-.
  pose proof (merged_bindable canConv s m d a1 a2 H1 H2) as H3.
  exists (boundOf conv s (merged (List.length (ins s)) a1 a2)).
  split; [exact (Bind_ok ty_eqb He canConv conv show showFn _ _ _ H3)|].
  intros call Hcall.
  destruct (callBound_ok ty_eqb He canConv conv show showFn assignable elem mkslice Hc m d a2 call H2 Hcall Vm)
    as (mid & E2 & T2 & R2).
  destruct (callBound_ok ty_eqb He canConv conv show showFn assignable elem mkslice Hc s m a1 mid H1 T2 Vs)
    as (passed & E1 & T1 & R1).
  destruct (callBound_ok ty_eqb He canConv conv show showFn assignable elem mkslice Hc s d _ call H3 Hcall Vs)
    as (passed' & E3 & T3 & R3).
  assert (passed' = passed) as ->; [|exists mid, passed; rewrite E1, E2, E3; auto].
  assert (L : forall i, nth_error passed' i = nth_error passed i).
  { intros i. destruct (nth_error (ins s) i) as [t|] eqn:Et.
    - rewrite (R1 _ _ Et), (R3 _ _ Et), !routed_says, says_nat, nth_merged.
      destruct (Nat.ltb_spec i (List.length (ins s))) as [Li|Li];
        [|apply nth_error_None in Li; congruence].
      unfold at_once. pose proof (says_fits _ _ _ _ H1 _ _ Et) as F.
      destruct (says a1 (Z.of_nat i)) as [k|v|]; cbn [fits] in F; [|reflexivity|reflexivity].
      pose proof (zget_bound _ _ _ F) as Bk. cbn [gives].
      assert (exists j, k - 1 = Z.of_nat j) as [j Ej] by (exists (Z.to_nat (k - 1)); lia).
      rewrite Ej, zget_nat in F. rewrite Ej, zget_nat. now rewrite (R2 _ _ F), routed_says.
    - apply nth_error_None in Et.
      assert (nth_error passed' i = None) as ->.
      { apply nth_error_None. rewrite <- (map_length vty), T3. assumption. }
      symmetry. apply nth_error_None. rewrite <- (map_length vty), T1. assumption. }
  clear - L. revert passed L. induction passed' as [|x p IH]; intros [|y q] L.
  - reflexivity.
  - specialize (L 0%nat). discriminate.
  - specialize (L 0%nat). discriminate.
  - f_equal; [specialize (L 0%nat); now injection L|]. apply IH. intros i. exact (L (S i)).
Qed.

(** Non-vacuity: func(a, b, c, e) bound as (P2, 100), then as (300, 200, P1). *)
Example C125_nonvacuous :
  let V t p := {| vty := t; vpay := p |} in
  let s := {| ins := [0; 1; 3; 2]; outs := [5]; variadic := false |} in
  let m := {| ins := [8; 0; 3; 2]; outs := [5]; variadic := false |} in
  let d := {| ins := [3; 2]; outs := [5]; variadic := false |} in
  let first := [APh 2; AVal (V 9 100)] in
  let second := [AVal (V 9 300); AVal (V 9 200); APh 1] in
  let bind s d args := Bind Z.eqb (fun _ _ => true) (fun v t => V t (vpay v)) decimal (fun _ => "func"%string)
                         (SrcFunc s) (DestFunc d) args in
  let receives b call := fst (callBound Z.eqb Z.eqb (fun t => t) (fun t _ => V t 0) call b) in
  merged 4 first second = [AVal (V 9 200); AVal (V 9 100); APh 1; APh 2] /\
  exists b1 b2 b, bind s m first = Ok b1 /\ bind m d second = Ok b2 /\
    bind s d (merged 4 first second) = Ok b /\
    receives b [V 3 10; V 2 11] = Ok [V 0 200; V 1 100; V 3 10; V 2 11].
Proof. split; [reflexivity|]. do 3 eexists. repeat split; reflexivity. Qed.

Print Assumptions C125_two_steps.
