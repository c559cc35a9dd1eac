(** Headers and registration, independent of the implementation. *)
From Coq Require Import List Arith NArith.
From Verif Require Import FieldDef AppModel PcdModel.
Import ListNotations.
Local Open Scope nat_scope.

(** data, zeros up to the header size less one, the suffix *)
Definition padded {F : Field} (hs : nat) (sfx : F) (data : list F) : list F :=
  data ++ repeat f0 (hs - 1 - length data) ++ [sfx].
(** suffixes that the constructors produce *)
Definition suffix_ok (s : suffix) : Prop :=
  match s with SufInternal i => (i < 2)%N | SufApplication i => (i < 2 ^ 64)%N end.

(** the headers of a step in the order they are registered *)
Definition step_headers {F : Field} (s : step F) : list header := [st_output s; st_left s; st_right s].
(** one type per suffix *)
Definition consistent (hs : list header) : Prop :=
  forall h h', In h hs -> In h' hs -> h_suffix h = h_suffix h' -> h_type h = h_type h'.
(** everything that has a place in the native registry *)
Inductive place := PCircuit (id : icid) | PStep (i : istep) | PApp (i : nat).
Definition place_index (n : nat) (p : place) : option nat :=
  match p with
  | PCircuit id => circuit_index id
  | PStep i => step_circuit_index (StInternal i) n
  | PApp i => step_circuit_index (StApplication i) n
  end.
Definition place_ok (n : nat) (p : place) : Prop := match p with PApp i => i < n | _ => True end.
