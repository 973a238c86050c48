(** C33, the overflow lists of Custom.  No Custom made by NewCustom ever has one
    (C33_custom_exact), because Set puts the map of overflow lists into its own
    copy of the receiver.  These theorems are about the rest of the code: a
    Custom with an overflow map, as Set would leave it with a pointer receiver. *)
From Verif Require Import Base GoMap XMap_Model XMap_Spec XMap_Overflow_Spec XMap_Overflow_Proofs.

(** Keeping the overflow map would not be enough: deleting the key that holds a
    hash hides the other keys with that hash, and a Set of the deleted key
    uncovers them. *)
Theorem C33_overflow_refuted :
  let m0 := {| main := []; ovf := Some [] |} in
  let ops := [CSet 1 10; CSet 2 20; CGet 2; CDelete 1; CGet 2; CSet 1 11; CGet 2] in
  let rs := [CBool true; CBool true; CVal 20 true; CBool true; CVal 0 false; CBool true; CVal 20 true] in
  compatible (fun _ : Z => 0) Z.eqb /\
  fst (cRun (fun _ => 0) Z.eqb 0 ops m0) = rs /\ ~ hist (cAnswer Z.eqb) [] ops rs.
Proof.
  cbv zeta. split; [intros x y _; reflexivity|]. split; [reflexivity|].
  intros H. do 5 match goal with H : hist _ _ (_ :: _) _ |- _ => inversion H; clear H; subst end.
  match goal with H : cAnswer _ _ (CGet _) (CVal 0 false) |- _ => cbn in H; discriminate end.
Qed.
Print Assumptions C33_overflow_refuted.

(** That is the only way it would fail: in every history in which the holder of a
    hash is deleted only when no other present key has that hash, every call
    answers as a map, whatever collides. *)
Theorem C33_overflow_partial {K V} (hash : K -> Z) equal (zero : V) ops :
  compatible hash equal ->
  (forall x, equal x x = true) -> (forall x y, equal x y = true -> equal y x = true) ->
  (forall x y z, equal x y = true -> equal y z = true -> equal x z = true) ->
  sparing hash equal (rev ops) ->
  hist (cAnswer equal) [] ops (fst (cRun hash equal zero ops {| main := []; ovf := Some [] |})).
Proof.
  intros HC H1 H2 H3 HS. apply good_run; auto.
  - apply good_new.
  - now rewrite app_nil_r.
Qed.
Print Assumptions C33_overflow_partial.

(** Keys 1, 11, 21 and 31 share a hash and are present together; 11 goes first,
    and the holder 1 only when it is alone. *)
Example C33_overflow_case :
  compatible (fun k => k mod 10) Z.eqb /\
  sparing (fun k => k mod 10) Z.eqb
    (rev [CSet 1 10; CSet 11 20; CSet 21 30; CSet 31 40; CDelete 11; CGet 31; CSet 21 31;
          CDelete 31; CDelete 21; CDelete 1; CGet 1]) /\
  fst (cRun (fun k => k mod 10) Z.eqb 0
         [CSet 1 10; CSet 11 20; CSet 21 30; CSet 31 40; CDelete 11; CGet 31; CSet 21 31;
          CDelete 31; CDelete 21; CDelete 1; CGet 1] {| main := []; ovf := Some [] |}) =
  [CBool true; CBool true; CBool true; CBool true; CBool true; CVal 40 true; CBool false;
   CBool true; CBool true; CBool true; CVal 0 false].
Proof.
  split; [|split; [|reflexivity]].
  - intros x y H. apply Z.eqb_eq in H. now subst.
  - cbn [rev app sparing]. repeat split; intros Hh; try (vm_compute in Hh; discriminate).
    intros x v H E. cbn [latest] in H.
    repeat match goal with
    | H : (if ?a =? ?b then _ else _) = _ |- _ => destruct (Z.eqb_spec a b) in H; subst
    end; try discriminate; auto.
Qed.
