(** What the calls of xmap.Sharded that look at the whole map tell, shard by shard. *)
From Coq Require Import Permutation.
From Verif Require Import Base GoMap Sharded_Model.

(** [sts] are moments of the stretch [cs], in order of time (with repetitions). *)
Inductive inOrder {A} : list A -> list A -> Prop :=
| io_nil cs : inOrder [] cs
| io_later c cs sts : inOrder sts cs -> inOrder sts (c :: cs)
| io_now c cs sts : inOrder sts (c :: cs) -> inOrder (c :: sts) (c :: cs).

Section MomentsSpec.
  Context {K V : Type} (eqb : K -> K -> bool).

  (** [r] tells of shards that hold [parts], each in any order. *)
  Definition tellsParts (parts : list (list (K * V))) (o : op K V) (r : res K V) : Prop :=
    exists ls, Forall2 (@Permutation (K * V)) ls parts /\
    let l := List.concat ls in
    match o with
    | OLen => r = RInt (zlen l)
    | OEmpty => r = RBool (match l with [] => true | _ => false end)
    | OKeys => r = RKeys (map fst l)
    | OValues => r = RVals (map snd l)
    | OEntries => r = REntries l
    | OToMap => r = RMap (fold_left (fun m e => gset eqb m (fst e) (snd e)) l [])
    | OIterateShardsReadOnly => r = RMaps ls
    | OIterate fn =>
        exists seen rest returned, l = seen ++ rest /\ r = RSeen seen returned /\
        (* all were visited, or fn panicked at the last one visited *)
        (if returned : bool then rest = [] /\ forall k v, In (k, v) seen -> fn k v = true
         else exists before k v, seen = before ++ [(k, v)] /\ fn k v = false /\
              forall k v, In (k, v) before -> fn k v = true)
    | _ => True
    end.

  (** What shard 0 held at the first of the moments, shard 1 at the second ... *)
  Fixpoint partsFrom (s : nat) (sts : list (config K V)) : list (list (K * V)) :=
    match sts with
    | [] => []
    | c :: sts => items (shm c) s :: partsFrom (S s) sts
    end.
End MomentsSpec.
