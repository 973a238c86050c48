(** What ToSlice puts where when the destination may lie in the ring's own memory. *)
From Verif Require Import Base GoSlice.
Local Open Scope list_scope.
Local Open Scope Z_scope.

Section Dest.
  Context {T : Type}.

  (** A ring holds [l]; the first [n1] elements are at the end of its buffer and
      the others at the start of it.  ToSlice copies the first [n1] to the
      destination [s] if they fit, and after that reads the others.  So where the
      cell that an element is read from is one of the first [n1] cells of [s], the
      result shows the element that was copied to that cell. *)
  Definition shown (buf s : slice) (n1 : Z) (l : list T) (i : Z) : option T :=
    let place := off buf + (i - n1) in
    if (n1 <=? i) && (n1 <=? cap s) && (arr s =? arr buf)%nat && (off s <=? place) && (place <? off s + n1)
    then zget l (place - off s)
    else zget l i.

  (** How many cells of the destination are written: what does not fit is
      written to new memory. *)
  Definition written (s : slice) (n1 n : Z) : Z :=
    if cap s <? n1 then 0 else if cap s <? n then n1 else n.
End Dest.
