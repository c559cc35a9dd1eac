(** Where the code generated by the macros looks for the crates. *)
From Coq Require Import List String.
Import ListNotations.
Open Scope string_scope.

(** the result of [proc_macro_crate::crate_name]: an error, the calling crate,
    or the name under which the calling crate depends on it *)
Inductive found := NotFound | Itself | Name (name : string).

(** crates/ragu_macros/src/path_resolution.rs:43-59 [ragu_core_path]; a path
    [::a::b] is the list of its segments; the error is [None] *)
Definition ragu_core_path (crate_name : string -> found) : option (list string) :=
  match crate_name "ragu_core", crate_name "ragu" with
  | Itself, _ => Some ["ragu_core"]
  | _, Itself => Some ["ragu"]
  | Name name, _ => Some [name]
  | NotFound, Name name => Some [name]
  | NotFound, NotFound => None
  end.

(** path_resolution.rs:61-80 [ragu_primitives_path] *)
Definition ragu_primitives_path (crate_name : string -> found) : option (list string) :=
  match crate_name "ragu_primitives", crate_name "ragu" with
  | Itself, _ => Some ["ragu_primitives"]
  | _, Itself => Some ["ragu"; "primitives"]
  | Name name, _ => Some [name]
  | NotFound, Name name => Some [name; "primitives"]
  | NotFound, NotFound => None
  end.

(** lib.rs:73-80 and 89-96 (derive of Write and Consistent) resolve both or
    report an error *)
Definition resolve_both (crate_name : string -> found) : option (list string * list string) :=
  match ragu_core_path crate_name with
  | None => None
  | Some c => match ragu_primitives_path crate_name with None => None | Some p => Some (c, p) end
  end.
