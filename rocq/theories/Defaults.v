(** * Defaults: AlignedVec with const parameters omitted (model).

    storage/aligned_vec.rs:15-18 and 62-67: the defaults of the four const parameters. *)
From Verif Require Import Base Types Storage.
Local Open Scope N_scope.

Section Defaults.
Context {P : Params}.   (* only the machine's fields are used *)

(** aligned_vec.rs:15-18.  DEFAULT_MAX_CAPACITY is [aligned_max_capacity] of the first. *)
Definition PTR_SIZE : N := pW.
Definition DEFAULT_STORAGE_ALIGNMENT : N := 16.
Definition DEFAULT_VALUE_ALIGNMENT : N := PTR_SIZE.

(** aligned_vec.rs:62-67: [AlignedVec<args>], the later parameters omitted.  [None]: too many
    arguments (does not compile). *)
Definition instantiate (args : list N) : M unit (option Params) :=
  DEFAULT_MAX_CAPACITY <- aligned_max_capacity DEFAULT_STORAGE_ALIGNMENT ;;
  let make sa mva va maxc :=
    Some {| pW := pW; pBE := pBE; dbg := dbg; orc := orc; SA := sa; MVA := mva; VA := va; MAXC := maxc |} in
  ret match args with
  | [] => make DEFAULT_STORAGE_ALIGNMENT DEFAULT_STORAGE_ALIGNMENT DEFAULT_VALUE_ALIGNMENT DEFAULT_MAX_CAPACITY
  | [sa] => make sa sa DEFAULT_VALUE_ALIGNMENT DEFAULT_MAX_CAPACITY
  | [sa; mva] => make sa mva DEFAULT_VALUE_ALIGNMENT DEFAULT_MAX_CAPACITY
  | [sa; mva; va] => make sa mva va DEFAULT_MAX_CAPACITY
  | [sa; mva; va; maxc] => make sa mva va maxc
  | _ => None
  end.

(** The type compiles when used: its parameters pass ASSERT_ALIGNMENTS_VALID
    (storage/mod.rs:140-183). *)
Definition compiles (args : list N) : bool :=
  match instantiate args tt with
  | Ok (Some Q) _ => match @assert_alignments_valid Q unit tt with Ok _ _ => true | _ => false end
  | _ => false
  end.

End Defaults.
