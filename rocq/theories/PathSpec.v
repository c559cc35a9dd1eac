(** Crates, their dependencies, and what a path denotes. *)
From Coq Require Import List String.
From Verif Require Import PathModel.
Import ListNotations.
Open Scope string_scope.

(** a calling crate: its package name and its dependencies as pairs of the name
    in the code and the package *)
Record caller := mk_caller { package : string; deps : list (string * string) }.

(** names are unique (Cargo rejects anything else), a crate does not depend on
    itself, and no dependency takes the name of the crate *)
Definition well_formed (c : caller) : Prop :=
  NoDup (map fst (deps c)) /\ ~ In (package c) (map fst (deps c)) /\ ~ In (package c) (map snd (deps c)).

(** [proc_macro_crate::crate_name] as documented by that crate *)
Definition crate_name_of (c : caller) (f : string -> found) : Prop :=
  forall p,
    match f p with
    | Itself => p = package c
    | Name n => p <> package c /\ In (n, p) (deps c)
    | NotFound => p <> package c /\ forall n, ~ In (n, p) (deps c)
    end.

(** the modules of a package that matter: [ragu] has ragu_core's items at its
    root and ragu_primitives' in a module, as path_resolution.rs:3-5,63,70 has it
    (at this commit src/lib.rs of [ragu] exports nothing yet) *)
Inductive holds : string -> list string -> string -> Prop :=
| h_core : holds "ragu_core" [] "ragu_core"
| h_primitives : holds "ragu_primitives" [] "ragu_primitives"
| h_ragu_core : holds "ragu" [] "ragu_core"
| h_ragu_primitives : holds "ragu" ["primitives"] "ragu_primitives".

(** [denotes c path lib]: in crate c (which names itself by [extern crate self],
    ragu_primitives/src/lib.rs:18) the path leads to the items of lib *)
Definition denotes (c : caller) (path : list string) (lib : string) : Prop :=
  exists n rest p, path = n :: rest /\
    ((n = package c /\ p = package c) \/ In (n, p) (deps c)) /\ holds p rest lib.

(** the library can be reached at all *)
Definition reachable (c : caller) (lib : string) : Prop :=
  exists p, (p = lib \/ p = "ragu") /\ (p = package c \/ exists n, In (n, p) (deps c)).
