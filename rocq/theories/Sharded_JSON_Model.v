(** Model of ds/xmap/sharded.go:237-239 MarshalJSON: json.Marshal(m.ToMap()). *)
From Verif Require Import Base GoMap Sharded_Model Sharded_Reent_Model.

Section JSON.
  Context {K V : Type}.

  (** What MarshalJSON returns when ToMap returned [r].  [marshal] is json.Marshal
      for a map of this type: bytes, an error or a panic, in [R]. *)
  Definition marshalled {R} (marshal : gomap K V -> R) (r : res K V) : option R :=
    match r with
    | RMap m => Some (marshal m)
    | _ => None
    end.

  (** The same as code that uses the map.  [encode m k] is json.Marshal(m) with
      the methods (MarshalJSON, MarshalText) of keys and values that it calls,
      which may use the map too; [k] is what follows. *)
  Definition marshalJSON {R} (encode : gomap K V -> (R -> code K V) -> code K V) (k : option R -> code K V) : code K V :=
    Do OToMap (fun r => match r with
      | RMap m => encode m (fun b => k (Some b))
      | _ => k None
      end).
End JSON.
