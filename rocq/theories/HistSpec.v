(** What a proof-carrying computation is, and what an accepted proof should show: that
    its header comes out of a tree of the application's steps.  Independent of the proof
    system: only steps, suffixes and padded headers occur in [derived]. *)
From Coq Require Import List Arith NArith.
From Verif Require Import FieldDef ModDef FFTModel SparseModel RegModel GadgetModel GadgetSpec CompileModel CompileSpec PcdModel RecSpec AppModel AppSpec VerifyModel VerifySpec VerifySpec2 AccSpec.
Import ListNotations.
Open Scope f_scope.
Local Open Scope nat_scope.

(** a step of an application: the suffixes of its three header types, and the relation
    between the data of its left, right and output headers *)
Record tstep (F : Field) := mk_tstep { ts_left : F; ts_right : F; ts_out : F; ts_rel : list F -> list F -> list F -> Prop }.
Arguments mk_tstep {F}. Arguments ts_left {F}. Arguments ts_right {F}. Arguments ts_out {F}. Arguments ts_rel {F}.

Section Derived.
  Variables (F : Field) (hs : nat) (steps : list (tstep F)).
  (** the headers that can be computed: the trivial one, and what a step relates to two
      computed headers *)
  Inductive derived : list F -> Prop :=
  | dv_trivial : derived (padded hs 1%F [])
  | dv_step i st dl dr d : nth_error steps i = Some st -> ts_rel st dl dr d -> length dl < hs -> length dr < hs -> length d < hs ->
      derived (padded hs (ts_left st) dl) -> derived (padded hs (ts_right st) dr) -> derived (padded hs (ts_out st) d).
  (** The code of the steps means [steps]: a satisfied run of the circuit of step i puts
      out three padded headers with the step's suffixes and related data; the input
      suffixes are not zero, which marks the internal circuits, and one, the trivial
      suffix, is only used with empty data.  The two internal steps copy a header next to
      the trivial one, and put out trivial headers. *)
  Record code_means (code : place -> circuit F) : Prop := mk_cm {
    cm_app : forall i st res, nth_error steps i = Some st -> holds (code (PApp i) F f1) res ->
      exists dl dr d, map (ew F F) res = padded hs (ts_left st) dl ++ padded hs (ts_right st) dr ++ padded hs (ts_out st) d /\
        length dl < hs /\ length dr < hs /\ length d < hs /\ ts_rel st dl dr d;
    cm_suffix : forall i st dl dr d, nth_error steps i = Some st -> ts_rel st dl dr d ->
      ts_left st <> 0%F /\ ts_right st <> 0%F /\ (ts_left st = 1%F -> dl = []) /\ (ts_right st = 1%F -> dr = []);
    cm_rerandomize : forall res, holds (code (PStep IRerandomize) F f1) res -> exists h, length h = hs /\ map (ew F F) res = h ++ padded hs 1%F [] ++ h;
    cm_trivial : forall res, holds (code (PStep ITrivial) F f1) res -> map (ew F F) res = padded hs 1%F [] ++ padded hs 1%F [] ++ padded hs 1%F [] }.
End Derived.
Arguments derived {F}. Arguments code_means {F}.

Section Backed.
  Variables (F Fs : Field) (H : FMod F) (T : TwoAdic F) (lg log2 hs M N : nat) (cb : F) (nbits : nat) (gen zeta : F) (rv : regview F).
  (** a child as a step may be given it *)
  Definition child_ok (p : proof F Fs H) (u : uvals F) : Prop :=
    wf_proof (2 ^ lg) p /\ N.to_nat (pf_circuit_id p) < 2 ^ ta_S T /\ length (pf_left_header p) = hs /\ length (pf_right_header p) = hs /\ published p u.
  (** The ancestors of a proof with the header [out] can be had: a trivial header needs
      none, a proof between two trivial headers has none, and otherwise there are two
      children with its left and right header over which the step can be forked (C61),
      whose own ancestors can be had. *)
  Inductive backed : proof F Fs H -> list F -> Prop :=
  | bk_trivial p out : last out 0%F = 1%F -> backed p out
  | bk_seed p out : last (pf_left_header p) 0%F = 1%F -> last (pf_right_header p) 0%F = 1%F -> backed p out
  | bk_step p out p1 u1 p2 u2 : child_ok p1 u1 -> child_ok p2 u2 ->
      forked lg log2 M N cb nbits gen zeta (fun i => omega_j T (N.of_nat i)) rv (shown T p1 u1 (pf_left_header p)) (shown T p2 u2 (pf_right_header p)) (polys_of p1) (polys_of p2) ->
      backed p1 (pf_left_header p) -> backed p2 (pf_right_header p) -> backed p out.
End Backed.
Arguments child_ok {F Fs H}. Arguments backed {F Fs H}.

(** ** steps through their witness functions *)
(** a step: the suffixes of its header types, and its witness function, which returns
    the wires its three header gadgets write *)
Record sbody (F : Field) := mk_sbody { sb_left : suffix; sb_right : suffix; sb_out : suffix; sb_run : G F F (list F * list F * list F) }.
Arguments mk_sbody {F}. Arguments sb_left {F}. Arguments sb_right {F}. Arguments sb_out {F}. Arguments sb_run {F}.
Section Bodies.
  Variables (F : Field) (of_u : N -> F).
  Definition suffix_value (s : suffix) : F := match suffix_get true s with Some v => of_u v | None => 0%F end.
  (** the step it stands for: related is what a satisfied run of the function writes *)
  Definition step_of (b : sbody F) : tstep F :=
    mk_tstep (suffix_value (sb_left b)) (suffix_value (sb_right b)) (suffix_value (sb_out b)) (fun dl dr d => holds (sb_run b) (dl, dr, d)).
  (** header types: of an application, or the trivial one, which writes nothing *)
  Definition header_types (b : sbody F) : Prop :=
    forall dl dr d, holds (sb_run b) (dl, dr, d) -> forall s dt, (s, dt) = (sb_left b, dl) \/ (s, dt) = (sb_right b, dr) ->
      (exists i, s = SufApplication i /\ suffix_get true s <> None) \/ (s = trivial_suffix /\ dt = []).
End Bodies.
Arguments suffix_value {F}. Arguments step_of {F}. Arguments header_types {F}.
