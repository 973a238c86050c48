(** The slice iterators of ds/xslice/iterator.go and the reverse iterators and
    distances of ds/iter, with Go's int: 64 bits, wrapping around.
    XSlice_Model and Iter_Model are the same code over unbounded integers. *)
From Verif Require Import Base Exn GoSlice Iter_Model XSlice_Model.
From Verif Require Stream_Model.
Local Open Scope exn_scope.
Local Open Scope string_scope.
Local Open Scope list_scope.
Local Open Scope Z_scope.

(** The result of an int operation. *)
Notation w := Stream_Model.wrapInt.

Section IntIter.
  Context {St It T : Type} (o : ops St It T).

  (** reverse.go:67-106 ConstReverseRandomIterator, 108-149
      ReverseRandomIterator: Add negates the offset (92-94, 131-133), Pos the
      position (96-98, 135-137). *)
  Definition ConstReverseRandomW : ops St (rev_it It) T := {|
    Next := Next (ConstReverseRandom o);
    Prev := Prev (ConstReverseRandom o);
    Add := fun c offset => i <- Add o (Base c) (w (- offset)) ;; xret (Rev i);
    Pos := fun c => p <- Pos o (Base c) ;; xret (w (- p));
    Get := Get (ConstReverseRandom o);
    Equal := Equal (ConstReverseRandom o);
    Set_ := fun _ _ => noMethod |}.
  Definition ReverseRandomW : ops St (rev_it It) T := {|
    Next := Next (ReverseRandom o);
    Prev := Prev (ReverseRandom o);
    Add := fun c offset => i <- Add o (Base c) (w (- offset)) ;; xret (Rev i);
    Pos := fun c => p <- Pos o (Base c) ;; xret (w (- p));
    Get := Get (ReverseRandom o);
    Set_ := Set_ (ReverseRandom o);
    Equal := Equal (ReverseRandom o) |}.

  (** funcs.go:3-6 Distance. *)
  Definition DistanceW (a b : It) : X St Z :=
    _ <- Equal o a b ;;
    pb <- Pos o b ;;
    pa <- Pos o a ;;
    xret (w (pb - pa)).

  (** range.go:20-22 RangeDistance. *)
  Definition RangeDistanceW (r : range It) : X St Z :=
    e <- Pos o (snd r) ;;
    b <- Pos o (fst r) ;;
    xret (w (e - b)).
End IntIter.

(** iterator.go:24-78. *)
Definition sliceOpsW {T : Type} : ops (heap T) iterator T := {|
  Get := fun it => index (sl it) (pos it);
  Set_ := fun it v => assign (sl it) (pos it) v;
  Next := fun it => if pos it >=? len (sl it) then xpanic "increment out of bound"
                    else xret (mkIt (w (pos it + 1)) (sl it));
  Prev := fun it => if pos it <=? 0 then xpanic "decrement out of bound"
                    else xret (mkIt (w (pos it - 1)) (sl it));
  Add := fun it offset =>
    let k := w (pos it + offset) in
    if (k <? 0) || (len (sl it) <? k) then xpanic "offset out of bound"
    else xret (mkIt k (sl it));
  Pos := fun it => xret (pos it);
  Equal := fun it other =>
    if negb (ReferenceEqual (sl it) (sl other)) then xpanic "compare iterator of different slices"
    else xret (pos other =? pos it) |}.
