(** C117: Map and Set variables are references to maps, and nil ones are empty. *)
From Coq Require Import Permutation.
From Verif Require Import Base Exn GoMap XMap_Spec MapRef_Model MapRef_Spec MapRef_Proofs.
Local Open Scope list_scope.

(** Whatever statements a program executes and in whatever order its range
    statements meet the entries, every answer is the one the specification
    gives: a statement through one variable is seen through all variables that
    refer to the same map and through no others, a nil variable reads as empty,
    and only unhashable keys and adding to a nil map panic, without effect. *)
Theorem C117_references {K V} (eqb : K -> K -> bool) hashable (star : V) ops rs : decides eqb ->
  program eqb hashable star start ops rs -> hist (answer eqb hashable star) [] ops rs.
Proof. intros D H. exact (program_ok eqb D hashable star _ _ _ H [] [] (rep_start eqb hashable star)). Qed.
Print Assumptions C117_references.

(** A set given to two variables, a nil one, and the unhashable key 9. *)
Example C117_references_case :
  program Z.eqb (fun k => negb (k =? 9)%Z) tt start
    [Has 0 1%Z; Del 0 1%Z; Add 0 1%Z; New 0; Copy 1 0; Add 0 5%Z; TryAdd 1 5%Z; TryAdd 1 6%Z; Has 0 6%Z; Kys 0; Add 0 9%Z; Has 2 9%Z; New 0; Len 0; Len 1; Clr 1; Kys 1; TryAdd 2 3%Z]
    [Ok (RBool false); Ok RUnit; Panic "assignment to entry in nil map"; Ok RUnit; Ok RUnit; Ok RUnit; Ok (RBool false); Ok (RBool true);
     Ok (RBool true); Ok (RKeys [6%Z; 5%Z]); Panic "hash of unhashable type"; Panic "hash of unhashable type"; Ok RUnit; Ok (RInt 0); Ok (RInt 2);
     Ok RUnit; Ok (RKeys []); Panic "assignment to entry in nil map"].
Proof.
  do 9 (eapply (p_next _ _ _ _ _ []); [discriminate|reflexivity|]).
  eapply (p_next _ _ _ _ _ [(6%Z, tt); (5%Z, tt)]); [intros x [= <-]; cbn; constructor|reflexivity|].
  do 5 (eapply (p_next _ _ _ _ _ []); [discriminate|reflexivity|]).
  eapply (p_next _ _ _ _ _ [(6%Z, tt); (5%Z, tt)]); [intros x [= <-]; cbn; constructor|reflexivity|].
  eapply (p_next _ _ _ _ _ []); [intros x [= <-]; reflexivity|reflexivity|].
  eapply (p_next _ _ _ _ _ []); [discriminate|reflexivity|]. constructor.
Qed.
