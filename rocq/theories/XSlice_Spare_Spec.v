(** What lies between the length and the capacity of a Slice variable. *)
From Verif Require Import Base Exn GoSlice XSlice_Model XSlice_Hist_Spec.
Local Open Scope list_scope.
Local Open Scope Z_scope.

Section Spare.
  Context {T : Type} (zero : T).

  (** The cells of a slice from its length to its capacity. *)
  Definition beyond (h : heap T) (s : slice) : list T :=
    elems h (mkSlice (arr s) (off s + len s) (cap s - len s) (cap s - len s)).

  Definition adds (e : edit T) : Prop :=
    match e with EAppend _ | EAppendMany _ | EInsertAt _ _ => True | _ => False end.

  (** A call on a slice with elements [live] and cells [spare] beyond them
      leaves the third list beyond the elements. *)
  Inductive leaves : edit T -> list T -> list T -> list T -> Prop :=
  | lv_panic e live spare : ledit e live = None -> leaves e live spare spare
  | lv_set i v live spare : leaves (ESet i v) live spare spare
  | lv_fits e live live' spare : ledit e live = Some live' -> adds e -> zlen live' - zlen live <= zlen spare ->
      leaves e live spare (skipn (Z.to_nat (zlen live' - zlen live)) spare)
  | lv_moves e live live' spare n : ledit e live = Some live' -> adds e -> zlen spare < zlen live' - zlen live ->
      leaves e live spare (repeat zero n)
  | lv_delete i front x spare : 0 <= i <= zlen front -> leaves (EDelete i) (front ++ [x]) spare (x :: spare)
  | lv_deletelast front x spare : leaves EDeleteLast (front ++ [x]) spare (x :: spare)
  | lv_unordered front x back spare : leaves (EUnorderedDelete (zlen front)) (front ++ x :: back) spare (x :: spare).

  Inductive leavesAll : list (edit T) -> list T -> list T -> list T -> Prop :=
  | la_nil live spare : leavesAll [] live spare spare
  | la_cons e es live spare spare1 spare2 : leaves e live spare spare1 ->
      leavesAll es (after e live) spare1 spare2 -> leavesAll (e :: es) live spare spare2.
End Spare.
